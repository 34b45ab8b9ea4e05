From Coq Require Import Lia.
From Verif Require Import Text TextProofs NmlProofs TabProofs TabProofs2 GridModel GridSpec GridProofs GridProofs2 XsfProofs CoulProofs WsvModel WsvSpec.
From Verif Require Import GridProofs.
From Coq Require Import List.
Import ListNotations.
Local Open Scope nat_scope.

Lemma integers ws zs : Forall2 integer ws zs -> map_all to_int ws = Ok zs.
Proof. induction 1 as [|w z ws zs H _ IH]; [reflexivity|]. cbn [map_all]. unfold integer in H. rewrite H. cbn [bind]. rewrite IH. reflexivity. Qed.
Lemma map_all_error ws e : map_all to_int ws = Raise e -> e = ValueError.
Proof.
  induction ws as [|w ws IH]; [discriminate|]. cbn [map_all]. destruct (to_int w) as [z|e'] eqn:E; cbn [bind]; [destruct (map_all to_int ws); cbn [bind]; [discriminate|intros J; injection J as <-; apply IH; reflexivity]|intros J; injection J as <-; exact (to_int_error _ _ E)].
Qed.
Lemma map_all_length ws zs : map_all to_int ws = Ok zs -> length zs = length ws.
Proof.
  revert zs. induction ws as [|w ws IH]; intros zs; [intros J; injection J as <-; reflexivity|]. cbn [map_all]. destruct (to_int w); [cbn [bind]|discriminate]. destruct (map_all to_int ws); [cbn [bind]|discriminate]. intros J. injection J as <-. cbn [length]. rewrite (IH _ eq_refl). reflexivity.
Qed.
Lemma count_read w c z : spaced [w] c -> integer w z -> to_int (nl c) = Ok z.
Proof.
  intros H J. inversion H as [|g w' ws t G W _ T]; subst. inversion T as [g' G'|]; subst. unfold integer in J. unfold to_int in *.
  replace (strip (nl (g ++ w ++ t))) with w; [|symmetry; unfold nl; rewrite <- !app_assoc; apply strip_word; [apply gap_spaces, G|exact W|apply Forall_app; split; [apply gap_spaces, G'|repeat constructor]]].
  replace (strip w) with w in J; [exact J|]. symmetry. rewrite <- (app_nil_r w) at 1. apply (strip_word [] w []); [constructor|exact W|constructor].
Qed.
Lemma vectors_read vs : forall wss ls rest, Forall2 spaced wss ls -> Forall2 (Forall2 integer) wss vs -> ws_vectors (length vs) (map nl ls ++ rest) = Ok (vs, rest).
Proof.
  induction vs as [|v vs IH]; intros wss ls rest H J; inversion J as [|ws ? wss' ? J1 J2]; subst; inversion H as [|? l ? ls' H1 H2]; subst; [reflexivity|].
  cbn [length map app ws_vectors next bind]. rewrite (spaced_nl _ _ H1), (integers _ _ J1). cbn [bind]. rewrite (IH _ _ _ H2 J2). reflexivity.
Qed.
(** Fewer lines than needed *)
Lemma vectors_few vs : forall wss ls, Forall2 spaced wss ls -> Forall2 (Forall2 integer) wss vs -> forall ls1 ls2, ls = ls1 ++ ls2 -> ls2 <> [] -> ws_vectors (length vs) (map nl ls1) = Raise StopIteration.
Proof.
  induction vs as [|v vs IH]; intros wss ls H J ls1 ls2 E N; inversion J as [|ws ? wss' ? J1 J2]; subst; inversion H as [|? l ? ls' H1 H2]; subst.
  - destruct ls1; destruct ls2; try discriminate. congruence.
  - destruct ls1 as [|l1 ls1]; [reflexivity|]. cbn [app] in *. match goal with X : _ = l1 :: _ |- _ => injection X as -> -> | X : l1 :: _ = _ |- _ => injection X as -> -> end.
    cbn [length map ws_vectors next bind]. rewrite (spaced_nl _ _ H1), (integers _ _ J1). cbn [bind]. rewrite (IH _ _ H2 J2 ls1 ls2 eq_refl N). reflexivity.
Qed.

Fixpoint fill (bs : list block) (d : dict) : dict :=
  match bs with [] => d | (i, j, k, m, n, vs) :: bs => fill bs (put (i, j, k, m - 1, n - 1)%Z vs d) end.
Lemma loop_read bs : forall lss rest d fuel, Forall2 block_lines bs lss -> length (concat lss ++ rest) <= fuel ->
  exists fuel', length rest <= fuel' /\ ws_loop fuel (map nl (concat lss ++ rest)) d = ws_loop fuel' (map nl rest) (fill bs d).
Proof.
  induction bs as [|[[[[[i j] k] m] n] vs] bs IH]; intros lss rest d fuel H F; inversion H as [|? ls ? lss' H1 H2]; subst; [exists fuel; split; [exact F|reflexivity]|].
  destruct H1 as (l & ws & c & w & lvs & wss & -> & S1 & I1 & S2 & I2 & S3 & I3). cbn [concat app length] in F. destruct fuel as [|fuel]; [lia|].
  rewrite <- app_assoc, app_length in F. destruct (IH lss' rest (put (i, j, k, m - 1, n - 1)%Z vs d) fuel H2 ltac:(lia)) as (fuel' & L & E). exists fuel'. split; [exact L|].
  cbn [concat app map ws_loop]. rewrite (spaced_nl _ _ S1), (integers _ _ I1). cbn [bind five next]. rewrite (count_read _ _ _ S2 I2). cbn [bind]. rewrite Nat2Z.id, <- app_assoc, map_app, (vectors_read _ _ _ _ S3 I3). cbn [bind fill]. exact E.
Qed.
Lemma spaced_all wss ls : Forall2 spaced wss ls -> Forall single ls.
Proof. induction 1; constructor; [eapply spaced_single; eassumption|assumption]. Qed.
Lemma blocks_single bs lss : Forall2 block_lines bs lss -> Forall single (concat lss).
Proof.
  induction 1 as [|[[[[[i j] k] m] n] vs] ls bs lss H _ IH]; [constructor|]. cbn [concat]. apply Forall_app. split; [|exact IH].
  destruct H as (l & ws & c & w & lvs & wss & -> & S1 & _ & S2 & _ & S3 & _). constructor; [exact (spaced_single _ _ S1)|]. constructor; [exact (spaced_single _ _ S2)|]. exact (spaced_all _ _ S3).
Qed.
Lemma read_blocks bs rest f : wsvec_file bs rest f -> exists fuel, length rest <= fuel /\
  read_wsvecdat (Some f) = do d <- ws_loop fuel (map nl rest) (fill bs (fun _ => None)) ;; Ok (Some d, false).
Proof.
  intros (top & lss & -> & T & H & J). destruct (loop_read bs lss rest (fun _ => None) (length (map nl (concat lss ++ rest))) H ltac:(rewrite map_length; lia)) as (fuel & L & E). exists fuel. split; [exact L|].
  unfold read_wsvecdat. rewrite lines_nl.
  - cbn [map next bind]. rewrite E. reflexivity.
  - intros l [<-|I1]; [exact T|]. apply in_app_or in I1 as [I1|I1]; [exact (proj1 (Forall_forall _ _) (blocks_single _ _ H) _ I1)|exact (proj1 (Forall_forall _ _) J _ I1)].
Qed.

Lemma key_eqb_ok x y : key_eqb x y = true <-> x = y.
Proof.
  destruct x as [[[[i j] k] a] b], y as [[[[i' j'] k'] a'] b']. unfold key_eqb. rewrite !Bool.andb_true_iff, !Z.eqb_eq. split; [intros [[[[-> ->] ->] ->] ->]; reflexivity|intros J; injection J as <- <- <- <- <-; repeat split].
Qed.
Lemma fill_not bs : forall d i j k a b, ~ In (i, j, k, a + 1, b + 1)%Z (map fst bs) -> fill bs d (i, j, k, a, b) = d (i, j, k, a, b).
Proof.
  induction bs as [|[[[[[i' j'] k'] m] n] vs] bs IH]; intros d i j k a b N; [reflexivity|]. cbn [fill]. cbn [map fst] in N. rewrite IH by (intros X; apply N; right; exact X). unfold put. destruct (key_eqb _ _) eqn:E; [|reflexivity].
  apply key_eqb_ok in E. injection E as -> -> -> <- <-. destruct N. left. f_equal; [f_equal|]; lia.
Qed.
Lemma fill_app bs bs' : forall d, fill (bs ++ bs') d = fill bs' (fill bs d).
Proof. induction bs as [|[[[[[i' j'] k'] m] n] vs] bs IH]; intros d; [reflexivity|]. cbn [app fill]. apply IH. Qed.
Lemma fill_latest bs d i j k a b vs : latest (i, j, k, a + 1, b + 1)%Z vs bs -> fill bs d (i, j, k, a, b) = Some vs.
Proof.
  intros (u & v & -> & N). rewrite fill_app. cbn [fill]. rewrite fill_not by exact N. unfold put. rewrite (proj2 (key_eqb_ok _ _)); [reflexivity|]. f_equal; [f_equal|]; lia.
Qed.
Lemma key_dec (x y : Z * Z * Z * Z * Z) : {x = y} + {x <> y}.
Proof. destruct (key_eqb x y) eqn:E; [left; apply key_eqb_ok, E|right; intros ->; rewrite (proj2 (key_eqb_ok y y) eq_refl) in E; discriminate]. Qed.
Lemma latest_or x bs : In x (map fst bs) -> exists vs, latest x vs bs.
Proof.
  induction bs as [|[y v] bs IH]; [intros []|]. intros H. destruct (in_dec key_dec x (map fst bs)) as [J|J].
  - destruct (IH J) as (vs & u & w & -> & N). exists vs, ((y, v) :: u), w. split; [reflexivity|exact N].
  - destruct H as [H|H]; [|contradiction]. cbn [fst] in H. subst y. exists v, [], bs. split; [reflexivity|exact J].
Qed.
