From Coq Require Import QArith Lqa.
From Verif Require Import Common MPIModel StackModel StackSpec LinModel LinSpec LinProofs PltModel PltSpec PltProofs.
Local Open Scope Q_scope.

(** ** Extrema *)
Lemma qmin_cases x y : (qmin x y = x /\ x <= y) \/ (qmin x y = y /\ y < x).
Proof. unfold qmin. destruct (Qlt_le_dec y x); auto. Qed.
Lemma qmax_cases x y : (qmax x y = x /\ y <= x) \/ (qmax x y = y /\ x < y).
Proof. unfold qmax. destruct (Qlt_le_dec x y); auto. Qed.
Lemma fold_min : forall l x, In (fold_left qmin l x) (x :: l) /\ forall y, In y (x :: l) -> fold_left qmin l x <= y.
Proof.
  induction l as [|z l IH]; intros x; cbn [fold_left].
  - split; [left; reflexivity|]. intros y [<-|[]]. apply Qle_refl.
  - destruct (IH (qmin x z)) as [A B]. pose proof (B _ (or_introl eq_refl)) as B0. split.
    + destruct A as [A|A]; [|right; right; exact A]. rewrite <- A. destruct (qmin_cases x z) as [[-> _]|[-> _]]; [left|right; left]; reflexivity.
    + intros y [<-|[<-|H]]; [| |apply B; right; exact H]; destruct (qmin_cases x z) as [[E L]|[E L]]; rewrite E in *; lra.
Qed.
Lemma fold_max : forall l x, In (fold_left qmax l x) (x :: l) /\ forall y, In y (x :: l) -> y <= fold_left qmax l x.
Proof.
  induction l as [|z l IH]; intros x; cbn [fold_left].
  - split; [left; reflexivity|]. intros y [<-|[]]. apply Qle_refl.
  - destruct (IH (qmax x z)) as [A B]. pose proof (B _ (or_introl eq_refl)) as B0. split.
    + destruct A as [A|A]; [|right; right; exact A]. rewrite <- A. destruct (qmax_cases x z) as [[-> _]|[-> _]]; [left|right; left]; reflexivity.
    + intros y [<-|[<-|H]]; [| |apply B; right; exact H]; destruct (qmax_cases x z) as [[E L]|[E L]]; rewrite E in *; lra.
Qed.

(** The ends found differ from any ends according to the specification only in their
    representation. *)
Lemma lower_found g l (v : Q -> Prop) m : (forall x, v x <-> In x l) -> lower_end g v m -> exists m', given g (nanmin l) = Ok m' /\ m' == m.
Proof.
  intros V. destruct g as [x|]; cbn [lower_end given]; [intros ->; exists x; split; reflexivity|].
  intros ((x & Hx & E) & L). destruct l as [|y l]; [apply V in Hx; destruct Hx|]. cbn [nanmin]. eexists. split; [reflexivity|].
  destruct (fold_min l y) as [A B]. apply Qle_antisym; [rewrite <- E; apply B, V, Hx|apply L, V, A].
Qed.
Lemma upper_found g l (v : Q -> Prop) m : (forall x, v x <-> In x l) -> upper_end g v m -> exists m', given g (nanmax l) = Ok m' /\ m' == m.
Proof.
  intros V. destruct g as [x|]; cbn [upper_end given]; [intros ->; exists x; split; reflexivity|].
  intros ((x & Hx & E) & L). destruct l as [|y l]; [apply V in Hx; destruct Hx|]. cbn [nanmax]. eexists. split; [reflexivity|].
  destruct (fold_max l y) as [A B]. apply Qle_antisym; [apply L, V, A|rewrite <- E; apply B, V, Hx].
Qed.

(** ** colorbar *)
Lemma pixels_in im x : In x (pixels im) <-> exists i j, (i < ih im)%nat /\ (j < iw im)%nat /\ x = pixel im i j.
Proof.
  unfold pixels. rewrite in_flat_map. split.
  - intros (i & Hi & H). apply in_seq in Hi. apply in_map_iff in H as (j & <- & Hj). apply in_seq in Hj. exists i, j. repeat split; lia.
  - intros (i & j & Hi & Hj & ->). exists i. split; [apply in_seq; lia|]. apply in_map, in_seq. lia.
Qed.
Lemma set_row_ok im y x1 x2 v : (0 <= y < Z.of_nat (ih im))%Z -> (0 <= x1)%Z -> (0 <= x2)%Z ->
  exists im', set_row im y x1 x2 v = Ok im' /\ ih im' = ih im /\ iw im' = iw im /\
    forall i j, (j < iw im)%nat ->
      (Z.of_nat i = y -> (x1 <= Z.of_nat j <= x2)%Z -> pixel im' i j = v) /\
      (Z.of_nat i <> y \/ ~ (x1 <= Z.of_nat j <= x2)%Z -> pixel im' i j = pixel im i j).
Proof.
  intros Hy H1 H2. unfold set_row. destruct (Z.ltb_spec y (Z.of_nat (ih im))) as [_|]; [|lia]. destruct (Z.leb_spec (- Z.of_nat (ih im)) y) as [_|]; [|lia].
  cbn [andb]. destruct (Z.ltb_spec y 0) as [|_]; [lia|]. eexists. split; [reflexivity|]. cbn [ih iw pixel]. do 2 (split; [reflexivity|]).
  intros i j Hj. unfold slice_index. destruct (Z.ltb_spec x1 0) as [|_]; [lia|]. destruct (Z.ltb_spec (x2 + 1) 0) as [|_]; [lia|].
  split.
  - intros E Hx. destruct (Nat.eqb_spec i (Z.to_nat y)); [|lia]. destruct (Nat.leb_spec (Nat.min (Z.to_nat x1) (iw im)) j); [|lia].
    destruct (Nat.ltb_spec j (Nat.min (Z.to_nat (x2 + 1)) (iw im))); [|lia]. reflexivity.
  - intros E. destruct (Nat.eqb_spec i (Z.to_nat y)); [|reflexivity]. destruct (Nat.leb_spec (Nat.min (Z.to_nat x1) (iw im)) j); [|reflexivity].
    destruct (Nat.ltb_spec j (Nat.min (Z.to_nat (x2 + 1)) (iw im))); [|reflexivity]. exfalso. lia.
Qed.
Lemma set_rows_ok f g x1 x2 : (0 <= x1)%Z -> (0 <= x2)%Z -> forall ys im, (forall y, In y ys -> f y = Ok (g y) /\ (0 <= y < Z.of_nat (ih im))%Z) ->
  exists im', set_rows im f x1 x2 ys = Ok im' /\ ih im' = ih im /\ iw im' = iw im /\
    forall i j, (j < iw im)%nat ->
      (In (Z.of_nat i) ys -> (x1 <= Z.of_nat j <= x2)%Z -> pixel im' i j = g (Z.of_nat i)) /\
      (~ In (Z.of_nat i) ys \/ ~ (x1 <= Z.of_nat j <= x2)%Z -> pixel im' i j = pixel im i j).
Proof.
  intros H1 H2. induction ys as [|y ys IH]; intros im H; cbn [set_rows].
  - exists im. split; [reflexivity|]. do 2 (split; [reflexivity|]). intros i j _. split; [intros []|reflexivity].
  - destruct (H y (or_introl eq_refl)) as [E Hy]. rewrite E. cbn [bind].
    destruct (set_row_ok im y x1 x2 (g y) Hy H1 H2) as (im1 & E1 & Eh & Ew & P1). rewrite E1. cbn [bind].
    destruct (IH im1) as (im2 & E2 & Eh2 & Ew2 & P2). { intros z Hz. rewrite Eh. apply H. right. exact Hz. }
    exists im2. split; [exact E2|]. rewrite Eh2, Ew2. do 2 (split; [assumption|]). intros i j Hj.
    destruct (P1 i j Hj) as [A B]. destruct (P2 i j ltac:(rewrite Ew; exact Hj)) as [A' B']. split.
    + intros Hi Hx. destruct (in_dec Z.eq_dec (Z.of_nat i) ys) as [Hin|Hn]; [apply A'; assumption|].
      rewrite B' by (left; exact Hn). destruct Hi as [Hi|Hi]; [|contradiction]. rewrite A; [rewrite Hi; reflexivity|symmetry; exact Hi|exact Hx].
    + intros [Hi|Hx].
      * rewrite B' by (left; intros K; apply Hi; right; exact K). apply B. left. intros K. apply Hi. left. symmetry. exact K.
      * rewrite B' by (right; exact Hx). apply B. right. exact Hx.
Qed.
Lemma set_rows_fail f g x1 x2 e : (0 <= x1)%Z -> (0 <= x2)%Z -> forall ys im y zs, (forall y, In y ys -> f y = Ok (g y) /\ (0 <= y < Z.of_nat (ih im))%Z) ->
  (forall im', ih im' = ih im -> (do v <- f y ;; set_row im' y x1 x2 v) = Raise e) ->
  set_rows im f x1 x2 (ys ++ y :: zs) = Raise e.
Proof.
  intros H1 H2. induction ys as [|y ys IH]; intros im z zs H F; cbn [set_rows app].
  - specialize (F im eq_refl). destruct (f z) as [v|]; cbn [bind] in *; [|congruence]. rewrite F. reflexivity.
  - destruct (H y (or_introl eq_refl)) as [E Hy]. rewrite E. cbn [bind].
    destruct (set_row_ok im y x1 x2 (g y) Hy H1 H2) as (im1 & E1 & Eh & _). rewrite E1. cbn [bind]. apply IH.
    + intros w Hw. rewrite Eh. apply H. right. exact Hw.
    + intros im' E'. apply F. congruence.
Qed.

Definition in_image (im : image) (x : Q) : Prop := exists i j, (i < ih im)%nat /\ (j < iw im)%nat /\ x = pixel im i j.

Lemma rows_in low high y : (low <= high)%Z -> In y (map (fun i => (low + Z.of_nat i)%Z) (seq 0 (Z.to_nat (high + 1 - low)))) <-> (low <= y <= high)%Z.
Proof.
  intros H. rewrite in_map_iff. split.
  - intros (i & <- & Hi). apply in_seq in Hi. lia.
  - intros Hy. exists (Z.to_nat (y - low)). split; [lia|]. apply in_seq. lia.
Qed.

Lemma colorbar_ok im left bottom width height minimum maximum lo hi x1 x2 y1 y2 :
  nearest (inject_Z (Z.of_nat (iw im)) * left) x1 -> nearest (inject_Z (Z.of_nat (iw im)) * (left + width)) x2 ->
  nearest (inject_Z (Z.of_nat (ih im)) * (1 - bottom)) y1 -> nearest (inject_Z (Z.of_nat (ih im)) * (1 - bottom - height)) y2 ->
  (0 <= x1)%Z -> (0 <= x2)%Z -> (0 <= y2 < y1)%Z -> (y1 < Z.of_nat (ih im))%Z ->
  lower_end minimum (in_image im) lo -> upper_end maximum (in_image im) hi ->
  exists im', colorbar im left bottom width height minimum maximum = Ok im' /\ ih im' = ih im /\ iw im' = iw im /\
    forall y x, (y < ih im)%nat -> (x < iw im)%nat ->
      ((y2 <= Z.of_nat y <= y1)%Z -> (x1 <= Z.of_nat x <= x2)%Z ->
        pixel im' y x == lo + (hi - lo) * (inject_Z (y1 - Z.of_nat y) / inject_Z (y1 - y2))) /\
      (~ (y2 <= Z.of_nat y <= y1)%Z \/ ~ (x1 <= Z.of_nat x <= x2)%Z -> pixel im' y x = pixel im y x).
Proof.
  intros N1 N2 N3 N4 P1 P2 P3 P4 Hlo Hhi. unfold colorbar. fold (inj (iw im)) in N1, N2. fold (inj (ih im)) in N3, N4.
  rewrite (round_q_nearest _ _ N1), (round_q_nearest _ _ N2), (round_q_nearest _ _ N3), (round_q_nearest _ _ N4).
  destruct (lower_found minimum (pixels im) (in_image im) lo) as (lo' & Elo & Ql); [intros x; symmetry; apply pixels_in|exact Hlo|].
  destruct (upper_found maximum (pixels im) (in_image im) hi) as (hi' & Ehi & Qh); [intros x; symmetry; apply pixels_in|exact Hhi|].
  rewrite Elo. cbn [bind]. rewrite Ehi. cbn [bind]. rewrite (Z.min_r y1 y2), (Z.max_l y1 y2) by lia.
  match goal with |- context [set_rows im ?f x1 x2 ?l] => destruct (set_rows_ok f (fun y => (lo' * inject_Z (y2 - y) - hi' * inject_Z (y1 - y)) / inject_Z (y2 - y1)) x1 x2 P1 P2 l im) as (im' & E & Eh & Ew & P) end.
  { intros y Hy. apply rows_in in Hy; [|lia]. destruct (Z.eqb_spec y2 y1); [lia|]. split; [reflexivity|lia]. }
  exists im'. split; [exact E|]. do 2 (split; [assumption|]). intros y x _ Hx. destruct (P y x Hx) as [A B]. split.
  - intros Hy Hx'. rewrite A by (assumption || (apply rows_in; lia)).
    assert (D : ~ inject_Z (y1 - y2) == 0) by (unfold Qeq; cbn; lia).
    assert (D' : ~ inject_Z (y2 - y1) == 0) by (unfold Qeq; cbn; lia).
    rewrite Ql, Qh. revert D D'. unfold Z.sub. rewrite !inject_Z_plus, !inject_Z_opp. intros D D'. field. split; assumption.
  - intros Ho. apply B. rewrite rows_in by lia. exact Ho.
Qed.

Lemma colorbar_bottom im left width height minimum maximum lo hi x1 x2 y2 :
  nearest (inject_Z (Z.of_nat (iw im)) * left) x1 -> nearest (inject_Z (Z.of_nat (iw im)) * (left + width)) x2 ->
  nearest (inject_Z (Z.of_nat (ih im)) * (1 - height)) y2 ->
  (0 <= x1)%Z -> (0 <= x2)%Z -> (0 <= y2 < Z.of_nat (ih im))%Z ->
  lower_end minimum (in_image im) lo -> upper_end maximum (in_image im) hi ->
  colorbar im left 0 width height minimum maximum = Raise IndexError.
Proof.
  intros N1 N2 N4 P1 P2 P3 Hlo Hhi. unfold colorbar. fold (inj (iw im)) in N1, N2. fold (inj (ih im)) in N4.
  set (y1 := Z.of_nat (ih im)) in *.
  assert (N3 : nearest (inj (ih im) * (1 - 0)) y1) by (apply nearest_int; unfold inj, y1; ring).
  assert (N4' : nearest (inj (ih im) * (1 - 0 - height)) y2).
  { unfold nearest in *. assert (X : inj (ih im) * (1 - 0 - height) == inj (ih im) * (1 - height)) by ring. rewrite X. exact N4. }
  rewrite (round_q_nearest _ _ N1), (round_q_nearest _ _ N2), (round_q_nearest _ _ N3), (round_q_nearest _ _ N4').
  destruct (lower_found minimum (pixels im) (in_image im) lo) as (lo' & Elo & Ql); [intros x; symmetry; apply pixels_in|exact Hlo|].
  destruct (upper_found maximum (pixels im) (in_image im) hi) as (hi' & Ehi & Qh); [intros x; symmetry; apply pixels_in|exact Hhi|].
  rewrite Elo. cbn [bind]. rewrite Ehi. cbn [bind]. rewrite (Z.min_r y1 y2), (Z.max_l y1 y2) by lia.
  replace (Z.to_nat (y1 + 1 - y2)) with (Z.to_nat (y1 - y2) + 1)%nat by lia. rewrite seq_app, map_app. cbn [seq map app].
  eapply set_rows_fail with (g := fun y => (lo' * inject_Z (y2 - y) - hi' * inject_Z (y1 - y)) / inject_Z (y2 - y1)); [assumption|assumption| |].
  - intros y Hy. apply in_map_iff in Hy as (i & <- & Hi). apply in_seq in Hi. destruct (Z.eqb_spec y2 y1); [lia|]. split; [reflexivity|]. fold y1. lia.
  - intros im' Eh. destruct (Z.eqb_spec y2 y1); [lia|]. cbn [bind]. unfold set_row. rewrite Eh. fold y1.
    destruct (Z.ltb_spec (y2 + Z.of_nat (0 + Z.to_nat (y1 - y2))) y1); [lia|]. reflexivity.
Qed.
