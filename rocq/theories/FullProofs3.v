From Verif Require Import Common LatModel LatProofs SymModel SymSpec SymProofs SymProofs3 BandModel BandSpec BandProofs BandProps FullModel FullSpec FullProofs FullProofs2.
From Coq Require Import Permutation Sorted Lia.
Local Open Scope Z_scope.

Lemma filter_StronglySorted {A} (R : A -> A -> Prop) f l : StronglySorted R l -> StronglySorted R (filter f l).
Proof.
  induction 1 as [|x l S IH F]; [constructor|]. cbn [filter]. destruct (f x); [|exact IH]. constructor; [exact IH|].
  rewrite Forall_forall in *. intros y Hy. apply filter_In in Hy. apply F, Hy.
Qed.

Lemma StronglySorted_nth {A} (R : A -> A -> Prop) d : forall l i j, StronglySorted R l -> (i < j < length l)%nat -> R (nth i l d) (nth j l d).
Proof.
  induction l as [|x l IH]; intros i j S H; [cbn in H; lia|]. inversion S as [|? ? S' F]; subst. destruct j as [|j]; [lia|].
  cbn [length] in H. destruct i as [|i]; cbn [nth]; [|apply IH; [exact S'|lia]]. rewrite Forall_forall in F. apply F, nth_In. lia.
Qed.

Lemma seq_StronglySorted n : forall s, StronglySorted lt (seq s n).
Proof. induction n as [|n IH]; intros s; [constructor|]. cbn [seq]. constructor; [apply IH|]. apply Forall_forall. intros x Hx. apply in_seq in Hx. lia. Qed.

(** ** Positions in a permutation *)

Fixpoint pos (x : nat) (l : list nat) : nat := match l with [] => 0 | y :: l => if (x =? y)%nat then 0%nat else S (pos x l) end.

Lemma pos_spec x l : In x l -> (pos x l < length l)%nat /\ nth (pos x l) l 0%nat = x.
Proof.
  induction l as [|y l IH]; intros H; [destruct H|]. cbn [pos length]. destruct (Nat.eqb_spec x y) as [->|N]; [cbn; split; [lia|reflexivity]|].
  destruct H as [->|H]; [contradiction|]. destruct (IH H) as [I1 I2]. cbn [nth]. split; [lia|exact I2].
Qed.

Lemma pos_nth l i : NoDup l -> (i < length l)%nat -> pos (nth i l 0%nat) l = i.
Proof.
  intros ND Hi. destruct (pos_spec (nth i l 0%nat) l (nth_In _ _ Hi)) as [P1 P2].
  apply (proj1 (NoDup_nth l 0%nat) ND); assumption.
Qed.

Definition relabel (bands : nat) (bn bm : list nat) : list nat := map (fun x => nth (pos x bn) bm 0%nat) (seq 0 bands).

Section Relabel.
  Variables (bands : nat) (bn bm : list nat).
  Hypotheses (Pn : Permutation bn (seq 0 bands)) (Pm : Permutation bm (seq 0 bands)).

  Lemma perm_len : length bn = bands. Proof. rewrite (Permutation_length Pn). apply seq_length. Qed.
  Lemma perm_ND : NoDup bn. Proof. apply (Permutation_NoDup (Permutation_sym Pn)), seq_NoDup. Qed.
  Lemma perm_in x : (x < bands)%nat <-> In x bn.
  Proof. split; intros H; [apply (Permutation_in _ (Permutation_sym Pn)), in_seq; lia|]. apply (Permutation_in _ Pn), in_seq in H. lia. Qed.

  Lemma relabel_nth x : (x < bands)%nat -> nth x (relabel bands bn bm) 0%nat = nth (pos x bn) bm 0%nat.
  Proof.
    intros H. unfold relabel. rewrite (nth_indep _ 0%nat (nth (pos 0 bn) bm 0%nat)) by (rewrite map_length, seq_length; exact H).
    rewrite (map_nth (fun x => nth (pos x bn) bm 0%nat)), seq_nth by exact H. reflexivity.
  Qed.

  Lemma relabel_nth' i : (i < bands)%nat -> nth (nth i bn 0%nat) (relabel bands bn bm) 0%nat = nth i bm 0%nat.
  Proof.
    intros H. assert (I : In (nth i bn 0%nat) bn) by (apply nth_In; rewrite perm_len; exact H).
    rewrite relabel_nth by (apply perm_in, I). rewrite pos_nth; [reflexivity|apply perm_ND|rewrite perm_len; exact H].
  Qed.

  Lemma map_pos : map (fun x => pos x bn) bn = seq 0 bands.
  Proof.
    apply (nth_ext _ _ (pos 0 bn) 0%nat); [rewrite map_length, seq_length; apply perm_len|]. intros i Hi. rewrite map_length in Hi.
    rewrite (map_nth (fun x => pos x bn)), seq_nth by (rewrite <- perm_len; exact Hi). apply pos_nth; [apply perm_ND|exact Hi].
  Qed.

  Lemma relabel_perm : Permutation (relabel bands bn bm) (seq 0 bands).
  Proof.
    unfold relabel. rewrite <- (map_map (fun x => pos x bn) (fun i => nth i bm 0%nat)). apply nth_perm_compose; [|exact Pm].
    rewrite <- map_pos at 2. apply Permutation_map, Permutation_sym, Pn.
  Qed.
End Relabel.

Lemma relabel_self bands b : Permutation b (seq 0 bands) -> relabel bands b b = seq 0 bands.
Proof.
  intros P. unfold relabel. rewrite <- (map_id (seq 0 bands)) at 2. apply map_ext_in. intros x Hx. apply pos_spec.
  apply (Permutation_in _ (Permutation_sym P) Hx).
Qed.

Lemma take_seq bands l : length l = bands -> take l (seq 0 bands) = l.
Proof.
  intros <-. unfold take. apply (nth_ext _ _ (nth 0 l 0%nat) 0%nat); [rewrite map_length; apply seq_length|]. intros i Hi. rewrite map_length, seq_length in Hi.
  rewrite (map_nth (fun i => nth i l 0%nat)), seq_nth by exact Hi. reflexivity.
Qed.

(** ** Paths *)

Section Full.
  Variables (nk angle : Z) (irr : list pt).
  Hypothesis Ha : allowed_angle angle.
  Hypothesis Hn : 0 < nk.
  Hypothesis Hirr : irreducibles nk angle = Ok irr.

  Let k := sorted_points nk irr.
  Let len := length k.

  Lemma irr_in q : In q irr <-> wedge angle nk q.
  Proof. destruct (irreducibles_wedge nk angle Ha Hn) as (irr' & E & H). rewrite Hirr in E. injection E as <-. apply H. Qed.

  Lemma k_in q : In q k <-> wedge angle nk q.
  Proof. unfold k. rewrite sorted_points_in, irr_in. split; [tauto|]. intros H. split; [|exact H]. apply wedge_iff in H; tauto. Qed.

  Lemma k_sorted : StronglySorted before k.
  Proof. apply filter_StronglySorted, mesh2_sorted. Qed.

  Lemma k_NoDup : NoDup k.
  Proof. apply sorted_NoDup, k_sorted. Qed.

  Lemma point_wedge n : (n < len)%nat -> wedge angle nk (point k n).
  Proof. intros H. apply k_in. apply nth_In, H. Qed.

  Lemma wedge_point q : wedge angle nk q -> exists n, (n < len)%nat /\ point k n = q.
  Proof. intros H. apply k_in in H. apply (In_nth _ _ (0, 0)) in H. exact H. Qed.

  Lemma point_inj n m : (n < len)%nat -> (m < len)%nat -> point k n = point k m -> n = m.
  Proof. intros H1 H2. apply (proj1 (NoDup_nth k (0, 0)) k_NoDup); assumption. Qed.

  Lemma point_before n m : (n < len)%nat -> (m < len)%nat -> (before (point k n) (point k m) <-> (n < m)%nat).
  Proof.
    intros H1 H2. assert (S : forall n m, (n < len)%nat -> (m < len)%nat -> (n < m)%nat -> before (point k n) (point k m))
      by (intros; unfold point; apply StronglySorted_nth; [apply k_sorted|fold len; lia]).
    split; [|apply S; assumption]. intros B. destruct (Nat.lt_trichotomy n m) as [|[->|L]]; [assumption|exfalso; exact (before_irrefl _ B)|].
    exfalso. exact (before_irrefl _ (before_trans _ _ _ B (S m n H2 H1 L))).
  Qed.

  Lemma wedge_origin : wedge angle nk (0, 0).
  Proof. destruct Ha as [->|[->| ->]]; cbn; lia. Qed.

  Lemma origin_first q : wedge angle nk q -> ~ before q (0, 0).
  Proof. destruct q as [a b]. unfold before. cbn [fst snd]. destruct Ha as [->|[->| ->]]; cbn; lia. Qed.

  Lemma len_pos : (0 < len)%nat.
  Proof. destruct (wedge_point _ wedge_origin) as (n & H & _). lia. Qed.

  Lemma point_0 : point k 0 = (0, 0).
  Proof.
    destruct (wedge_point _ wedge_origin) as (n & H & E). destruct n as [|n]; [exact E|]. exfalso.
    apply (origin_first (point k 0)); [apply point_wedge, len_pos|]. rewrite <- E. apply point_before; [apply len_pos|exact H|lia].
  Qed.

  Definition main : list nat := filter (on_main_path k) (seq 0 len).

  Lemma in_main n : In n main <-> (n < len)%nat /\ main_path angle nk (point k n).
  Proof.
    unfold main, on_main_path, main_path. rewrite filter_In, in_seq, Z.eqb_eq. split; [|intros (H & H1 & H2); split; [lia|exact H2]].
    intros [H1 H2]. split; [lia|]. split; [apply point_wedge; lia|exact H2].
  Qed.

  Lemma in_side n m : In m (side angle k n) <-> (m < len)%nat /\ side_path angle nk (point k n) (point k m).
  Proof.
    unfold side, on_side_path, side_path. fold len. rewrite filter_In, in_seq. split.
    - intros [H1 H2]. split; [lia|]. split; [apply point_wedge; lia|]. exists (fst (point k m) - fst (point k n)).
      destruct (point k n) as [a b], (point k m) as [c d]. cbn [fst snd] in *. destruct Ha as [->|[->| ->]]; cbn in *; f_equal; lia.
    - intros (H1 & H2 & t & H3). split; [lia|]. rewrite H3. cbn [fst snd]. destruct Ha as [->|[->| ->]]; cbn; lia.
  Qed.

  Lemma side_unique n n' q : main_path angle nk n -> main_path angle nk n' -> side_path angle nk n q -> side_path angle nk n' q -> n = n'.
  Proof.
    intros [_ H1] [_ H2] (_ & t & E1) (_ & t' & E2). destruct n as [a b], n' as [a' b'], q as [c d]. cbn [fst snd] in *. subst a a'.
    injection E1. injection E2. intros. destruct Ha as [->|[->| ->]]; cbn in *; f_equal; lia.
  Qed.

  Lemma side_exists q : wedge angle nk q -> exists n, main_path angle nk n /\ side_path angle nk n q.
  Proof.
    destruct q as [c d]. intros W. exists (0, d - if angle =? 120 then c else 0). split.
    - split; [|reflexivity]. destruct Ha as [->|[->| ->]]; cbn in *; lia.
    - split; [exact W|]. exists c. cbn [fst snd]. f_equal; lia.
  Qed.

  Lemma main_self n : main_path angle nk n -> side_path angle nk n n.
  Proof. intros [W _]. split; [exact W|]. exists 0. destruct n as [a b]. cbn [fst snd]. f_equal; destruct (angle =? 120); lia. Qed.

  Lemma main_first n q : main_path angle nk n -> side_path angle nk n q -> ~ before q n.
  Proof.
    intros [_ H1] (W & t & E). destruct n as [a b], q as [c d]. cbn [fst snd] in *. injection E as -> ->. unfold before. cbn [fst snd].
    destruct Ha as [->|[->| ->]]; cbn in *; lia.
  Qed.

  (** Paths as increasing lists of indices *)
  Section OnePath.
    Variables (f : nat -> bool) (path : pt -> Prop).
    Let L := filter f (seq 0 len).
    Hypothesis HL : forall n, In n L <-> (n < len)%nat /\ path (point k n).
    Hypothesis HP : forall p, path p -> wedge angle nk p.

    Lemma L_in j : (j < length L)%nat -> (nth j L 0%nat < len)%nat /\ path (point k (nth j L 0%nat)).
    Proof. intros H. apply HL, nth_In, H. Qed.

    Lemma L_lt i j : (i < j < length L)%nat -> (nth i L 0 < nth j L 0)%nat.
    Proof. intros H. apply StronglySorted_nth; [|exact H]. apply filter_StronglySorted, seq_StronglySorted. Qed.

    Lemma L_find p : path p -> exists j, (j < length L)%nat /\ point k (nth j L 0%nat) = p.
    Proof.
      intros H. destruct (wedge_point p (HP p H)) as (n & Hn' & E). assert (I : In n L) by (apply HL; split; [exact Hn'|rewrite E; exact H]).
      apply (In_nth _ _ 0%nat) in I. destruct I as (j & Hj & Ej). exists j. split; [exact Hj|]. rewrite Ej. exact E.
    Qed.

    Lemma L_before i j : (i < length L)%nat -> (j < length L)%nat -> (before (point k (nth i L 0%nat)) (point k (nth j L 0%nat)) <-> (i < j)%nat).
    Proof.
      intros H1 H2. rewrite point_before by (apply L_in; assumption). split; [|intros; apply L_lt; lia].
      intros H. destruct (Nat.lt_trichotomy i j) as [|[->|G]]; [assumption|lia|]. pose proof (L_lt j i ltac:(lia)). lia.
    Qed.

    Lemma L_reference bands ev eps a c : (c < length L)%nat ->
      reference bands (fun j => ev (point k (nth j L 0%nat))) eps c a ->
      last_resolved path (resolved_at bands ev eps) (point k (nth a L 0%nat)) (point k (nth c L 0%nat)).
    Proof.
      intros Hc (R1 & R2 & R3). assert (Hacl : (a < length L)%nat) by lia. split; [apply L_in, Hacl|]. split; [apply L_in, Hc|]. split; [apply L_before; assumption|]. split.
      - destruct R2 as [->|R2]; [right|left; exact R2]. intros p' Hp' B. destruct (L_find p' Hp') as (j & Hj & <-).
        apply L_before in B; [lia|exact Hj|exact Hacl].
      - intros p' Hp' B1 B2 Rs. destruct (L_find p' Hp') as (j & Hj & <-). apply L_before in B1; [|assumption..]. apply L_before in B2; [|assumption..].
        apply (R3 j ltac:(lia)). exact Rs.
    Qed.
  End OnePath.

  Section Order.
    Variables (bands : nat) (ev : pt -> nat -> Q) (evec : pt -> nat -> nat -> cplx) (vectors by_mean : bool) (dv : option Q) (eps : Q).

    Let st0 := Arrays (fun _ => None) (fun n => ev (point k n)) (fun n => evec (point k n)).

    Definition main_order := band_order (length main) bands (fun i => ev (point k (nth i main 0%nat))) (fun i => evec (point k (nth i main 0%nat))) by_mean dv eps.

    Lemma main_pos : (0 < length main)%nat.
    Proof. assert (I : In 0%nat main) by (apply in_main; rewrite point_0; split; [apply len_pos|split; [apply wedge_origin|reflexivity]]). destruct main; [destruct I|cbn; lia]. Qed.

    Lemma order_paths_spec : exists st mo, order_paths angle k bands vectors by_mean dv eps st0 = Ok st /\ main_order = Ok mo /\ length mo = length main /\
      forall m, (m < len)%nat -> exists jn i so, (jn < length main)%nat /\ let n := nth jn main 0%nat in (i < length (side angle k n))%nat /\
        nth i (side angle k n) 0%nat = m /\ side_order angle k bands dv eps st0 n = Ok so /\
        row_is vectors st0 st m (take (nth i so []) (nth jn mo [])).
    Proof.
      destruct (band_order_ok (length main) bands (fun i => ev (point k (nth i main 0%nat))) (fun i => evec (point k (nth i main 0%nat))) by_mean dv eps main_pos) as (mo & E & Lm & _).
      assert (Ef : map fst (combine main mo) = main).
      { clear -Lm. revert mo Lm. induction main as [|x l IH]; intros [|y mo] L; try discriminate L; [reflexivity|]. cbn [combine map fst]. f_equal. apply IH. cbn in L. lia. }
      destruct (main_fold angle k bands vectors dv eps (combine main mo) st0) as (st & EF & _ & R).
      { rewrite Ef. apply NoDup_filter, seq_NoDup. }
      { rewrite Ef. intros n I E0. apply in_main in I. assert (I' : In n (side angle k n)) by (apply in_side; split; [tauto|apply main_self; tauto]).
        rewrite E0 in I'. destruct I'. }
      { rewrite Ef. intros n n' m I I' J J'. apply in_main in I as [I1 I2]. apply in_main in I' as [I1' I2']. apply in_side in J as [J1 J2]. apply in_side in J' as [_ J2'].
        apply point_inj; [exact I1|exact I1'|]. exact (side_unique _ _ _ I2 I2' J2 J2'). }
      exists st, mo. split; [|split; [exact E|split; [exact Lm|]]].
      - unfold order_paths. replace ((angle =? 60) || (angle =? 90) || (angle =? 120)) with true by (destruct Ha as [->|[->| ->]]; reflexivity).
        fold len. fold main. cbn [ar_v ar_V st0]. rewrite E. cbn [bind]. exact EF.
      - intros m Hm. destruct (side_exists _ (point_wedge m Hm)) as (p & Mp & Sp).
        destruct (wedge_point p (proj1 Mp)) as (n & Hn' & En). assert (I : In n main) by (apply in_main; rewrite En; auto).
        apply (In_nth _ _ 0%nat) in I as (jn & Hjn & Ejn). assert (J : In m (side angle k n)) by (apply in_side; rewrite En; auto).
        apply (In_nth _ _ 0%nat) in J as (i & Hi & Ei).
        assert (I : In (n, nth jn mo []) (combine main mo)).
        { rewrite <- Ejn, <- combine_nth by (symmetry; exact Lm). apply nth_In. rewrite combine_length, Lm. lia. }
        destruct (R _ _ I) as (so & Es & Rs). exists jn, i, so. split; [exact Hjn|]. rewrite Ejn. cbv zeta. split; [exact Hi|]. split; [exact Ei|]. split; [exact Es|].
        rewrite <- Ei. apply Rs, Hi.
    Qed.

    Lemma order_paths_perm : exists st, order_paths angle k bands vectors by_mean dv eps st0 = Ok st /\
      forall m, (m < len)%nat -> exists om, Permutation om (seq 0 bands) /\ row_is vectors st0 st m om.
    Proof.
      destruct order_paths_spec as (st & mo & E & Em & Lm & R). exists st. split; [exact E|]. intros m Hm.
      destruct (R m Hm) as (jn & i & so & Hjn & Hi & Ei & Es & Rm). eexists. split; [|exact Rm].
      destruct (band_order_ok (length main) bands (fun i => ev (point k (nth i main 0%nat))) (fun i => evec (point k (nth i main 0%nat))) by_mean dv eps main_pos) as (mo' & E' & _ & _ & P).
      unfold main_order in Em. rewrite Em in E'. injection E' as <-.
      unfold side_order in Es. destruct (band_order_ok (length (side angle k (nth jn main 0%nat))) bands (fun i => ar_v st0 (nth i (side angle k (nth jn main 0%nat)) 0%nat))
        (fun i => ar_V st0 (nth i (side angle k (nth jn main 0%nat)) 0%nat)) false dv eps ltac:(lia)) as (so' & E'' & _ & _ & P').
      rewrite Es in E''. injection E'' as <-. apply nth_perm_compose; [apply P, Hjn|apply P', Hi].
    Qed.

    (** *** Following true labels *)
    Variable b : pt -> list nat.
    Hypothesis Pb : forall q, wedge angle nk q -> Permutation (b q) (seq 0 bands).
    Hypothesis B0 : b (0, 0) = seq 0 bands.
    Hypothesis Cm : forall p q i, last_resolved (main_path angle nk) (resolved_at bands ev eps) p q -> (i < bands)%nat -> continues bands ev evec dv b p q i.
    Hypothesis Cs : forall n p q i, main_path angle nk n -> last_resolved (side_path angle nk n) (resolved_at bands ev eps) p q -> (i < bands)%nat -> continues bands ev evec dv b p q i.

    Lemma nth_main_0 : nth 0 main 0%nat = 0%nat.
    Proof.
      unfold main. pose proof len_pos as H. destruct len as [|l]; [lia|]. cbn [seq filter].
      unfold on_main_path at 1. rewrite point_0. reflexivity.
    Qed.

    Lemma point_wedge' n : In n main \/ n = 0%nat -> wedge angle nk (point k n).
    Proof. intros [I| ->]; [apply in_main in I; apply I|rewrite point_0; apply wedge_origin]. Qed.

    Lemma nth_or {A} (l : list A) d j : In (nth j l d) l \/ nth j l d = d.
    Proof. destruct (Nat.lt_ge_cases j (length l)); [left; apply nth_In; assumption|right; apply nth_overflow; assumption]. Qed.

    Lemma main_follows : exists perm, Permutation perm (seq 0 bands) /\ (by_mean = false -> perm = seq 0 bands) /\
      main_order = Ok (map (fun j => take (b (point k (nth j main 0%nat))) perm) (seq 0 (length main))).
    Proof.
      pose proof main_pos as Hp.
      assert (E : band_order (length main) bands (fun i => ev (point k (nth i main 0%nat))) (fun i => evec (point k (nth i main 0%nat))) false dv eps
        = Ok (map (fun j => b (point k (nth j main 0%nat))) (seq 0 (length main)))).
      { apply C50_disentangles; [exact Hp|rewrite nth_main_0, point_0; exact B0| |].
        - intros n. apply Pb, point_wedge', nth_or.
        - intros c a i Hc R Hi. apply (L_reference _ (main_path angle nk)) in R; [|exact in_main|intros p Hp'; apply Hp'|exact Hc].
          apply (Cm _ _ i R Hi). }
      unfold main_order. destruct by_mean.
      - eexists. split; [|split; [discriminate|]]; [|rewrite (band_order_true _ _ _ _ _ _ _ E), map_map; reflexivity]. apply Permutation_sym, sort_by_perm.
      - exists (seq 0 bands). split; [reflexivity|]. split; [reflexivity|]. rewrite E. f_equal. apply map_ext. intros j. symmetry. apply take_seq.
        apply perm_len, Pb, point_wedge', nth_or.
    Qed.

    Lemma side_follows n : In n main -> side_order angle k bands dv eps st0 n =
      Ok (map (fun j => relabel bands (b (point k n)) (b (point k (nth j (side angle k n) 0%nat)))) (seq 0 (length (side angle k n)))).
    Proof.
      intros I. apply in_main in I as [I1 I2]. unfold side_order. cbn [st0 ar_v ar_V].
      assert (Pn : Permutation (b (point k n)) (seq 0 bands)) by apply Pb, I2.
      assert (Hs : forall m, In m (side angle k n) \/ m = 0%nat -> wedge angle nk (point k m)).
      { intros m [J| ->]; [apply in_side in J; apply J|rewrite point_0; apply wedge_origin]. }
      assert (J : In n (side angle k n)) by (apply in_side; split; [exact I1|apply main_self, I2]).
      assert (Hp : (0 < length (side angle k n))%nat) by (destruct (side angle k n); [destruct J|cbn; lia]).
      assert (N0 : nth 0 (side angle k n) 0%nat = n).
      { apply (In_nth _ _ 0%nat) in J as (j & Hj & Ej). destruct j as [|j]; [exact Ej|].
        exfalso. assert (B : before (point k (nth 0 (side angle k n) 0%nat)) (point k (nth (S j) (side angle k n) 0%nat)))
          by (apply (L_before _ (side_path angle nk (point k n)) (in_side n)); [exact Hp|exact Hj|lia]).
        rewrite Ej in B. apply main_first in B; [exact B|exact I2|]. apply in_side, nth_In, Hp. }
      apply C50_disentangles; [exact Hp|rewrite N0; apply relabel_self, Pn| |].
      - intros j. apply relabel_perm; [exact Pn|]. apply Pb, Hs, nth_or.
      - intros c a i Hc R Hi. apply (L_reference _ (side_path angle nk (point k n))) in R; [|exact (in_side n)|intros p Hp'; apply Hp'|exact Hc].
        pose proof (proj1 (perm_in bands (b (point k n)) Pn i) Hi) as Ii. apply pos_spec in Ii as [L1 L2]. rewrite (perm_len bands _ Pn) in L1.
        rewrite !relabel_nth by exact Hi. exact (Cs _ _ _ _ I2 R L1).
    Qed.

    Lemma order_paths_follows : exists st perm, order_paths angle k bands vectors by_mean dv eps st0 = Ok st /\
      Permutation perm (seq 0 bands) /\ (by_mean = false -> perm = seq 0 bands) /\
      forall m, (m < len)%nat -> row_is vectors st0 st m (take (b (point k m)) perm).
    Proof.
      destruct order_paths_spec as (st & mo & E & Em & Lm & R). destruct main_follows as (perm & Pp & Hp & EM). exists st, perm.
      split; [exact E|]. split; [exact Pp|]. split; [exact Hp|]. intros m Hm. destruct (R m Hm) as (jn & i & so & Hjn & Hi & Ei & Es & Rm).
      assert (I : In (nth jn main 0%nat) main) by (apply nth_In, Hjn).
      rewrite side_follows in Es by exact I. injection Es as <-. rewrite EM in Em. injection Em as <-.
      assert (G : forall {A} (f : nat -> list A) n j, (j < n)%nat -> nth j (map f (seq 0 n)) [] = f j).
      { intros A f n j Hj. rewrite (nth_indep _ [] (f 0%nat)) by (rewrite map_length, seq_length; exact Hj). rewrite (map_nth f), seq_nth by exact Hj. reflexivity. }
      rewrite !G in Rm by assumption. rewrite Ei in Rm. revert Rm. apply in_main in I as [_ I2]. assert (Pn := Pb _ (proj1 I2)).
      generalize dependent (point k (nth jn main 0%nat)). intros n I2 Pn. unfold take. rewrite map_map.
      rewrite (map_ext_in _ (fun x => nth x (b (point k m)) 0%nat) perm); [exact (fun H => H)|].
      intros x Hx. apply relabel_nth'; [exact Pn|]. apply (Permutation_in _ Pp), in_seq in Hx. lia.
    Qed.
  End Order.
End Full.

(** ** The mesh *)

Section Mesh.
  Variables (nk angle : Z) (bands : nat) (ev : pt -> nat -> Q) (evec : pt -> nat -> nat -> cplx) (vectors order by_mean : bool) (dv : option Q) (eps : Q).
  Hypothesis Ha : allowed_angle angle.
  Hypothesis Hn : 0 < nk.

  Lemma wedge_unique K r r' : in_mesh nk K -> wedge angle nk r -> wedge angle nk r' -> equivalent angle nk r K -> equivalent angle nk r' K -> r = r'.
  Proof.
    intros HK W W' E E'. destruct (irreducibles_wedge nk angle Ha Hn) as (irr & EI & HI).
    destruct (irreducibles_unique angle nk Ha Hn irr K EI HK) as (x & _ & U). rewrite <- (U r), <- (U r'); [reflexivity|split; [apply HI|]; assumption..].
  Qed.

  Lemma dispersion_full_gen (om : pt -> list nat) :
    (order = true -> forall irr, irreducibles nk angle = Ok irr -> let k := sorted_points nk irr in let st0 := Arrays (fun _ => None) (fun n => ev (point k n)) (fun n => evec (point k n)) in
       exists st, order_paths angle k bands vectors by_mean dv eps st0 = Ok st /\ forall m, (m < length k)%nat -> row_is vectors st0 st m (om (point k m))) ->
    exists f, dispersion_full nk angle bands ev evec vectors order by_mean dv eps = Ok f /\
      forall K, in_mesh nk K -> exists r, wedge angle nk r /\ equivalent angle nk r K /\
        v_mesh f K = Some (if order then (fun i => ev r (nth i (om r) 0%nat)) else ev r) /\
        (vectors = true -> V_mesh f K = Some (if order then (fun a i => evec r a (nth i (om r) 0%nat)) else evec r)) /\
        (order = true -> o_mesh f K = Some (om r)).
  Proof.
    intros HO. destruct (irreducibles_wedge nk angle Ha Hn) as (irr & EI & HI). unfold dispersion_full. rewrite EI. cbn [bind].
    set (k := sorted_points nk irr). set (st0 := Arrays _ _ _).
    assert (S : exists st, (if order then order_paths angle k bands vectors by_mean dv eps st0 else Ok st0) = Ok st /\
      (order = true -> forall m, (m < length k)%nat -> row_is vectors st0 st m (om (point k m))) /\ (order = false -> st = st0)).
    { destruct order; [|exists st0; repeat split; discriminate]. destruct (HO eq_refl irr EI) as (st & E & R). exists st. split; [exact E|]. split; [intros _; exact R|discriminate]. }
    destruct S as (st & -> & S1 & S2). cbn [bind].
    destruct (fill_fold nk angle vectors order st Ha Hn (combine (seq 0 (length k)) k) (Full (fun _ => None) (fun _ => None) (fun _ => None))) as (f & EF & HF).
    exists f. split; [exact EF|]. intros K HK.
    assert (C : forall n r, In (n, r) (combine (seq 0 (length k)) k) -> (n < length k)%nat /\ point k n = r).
    { intros n r I. apply (In_nth _ _ (0%nat, (0, 0))) in I as (j & Hj & Ej). rewrite combine_length, seq_length, Nat.min_id in Hj.
      rewrite combine_nth, seq_nth in Ej by (rewrite ?seq_length; auto). injection Ej as <- <-. split; [exact Hj|reflexivity]. }
    destruct (HF K) as [(n & r & I & _ & E & H1 & H2 & H3)|(H & _)].
    - destruct (C n r I) as [Hl <-]. exists (point k n).
      assert (W : wedge angle nk (point k n)) by (apply (point_wedge nk angle irr Ha Hn EI); exact Hl).
      split; [exact W|]. split; [exact E|]. rewrite H1. destruct order.
      + destruct (S1 eq_refl n Hl) as (R1 & R2 & R3). rewrite R2. split; [reflexivity|]. split.
        * intros Hv. rewrite (H2 Hv), R3, Hv. reflexivity.
        * intros Ho. rewrite (H3 Ho), R1. reflexivity.
      + rewrite (S2 eq_refl) in *. split; [reflexivity|]. split; [intros Hv; rewrite (H2 Hv); reflexivity|discriminate].
    - exfalso. destruct (irreducibles_unique angle nk Ha Hn irr K EI HK) as (r & [Ir Er] & _).
      apply HI in Ir. destruct (wedge_point nk angle irr Ha Hn EI r Ir) as (n & Hl & En).
      apply (H n r); [|exact HK|exact Er]. fold k in Hl, En.
      replace (n, r) with (nth n (combine (seq 0 (length k)) k) (0%nat, (0, 0))); [apply nth_In; rewrite combine_length, seq_length, Nat.min_id; exact Hl|].
      rewrite combine_nth, seq_nth by (rewrite ?seq_length; auto). rewrite <- En. reflexivity.
  Qed.
End Mesh.
