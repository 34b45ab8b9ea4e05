From Verif Require Import Common LatModel LatProofs SymModel SymSpec SymProofs SymProofs3 BandModel BandSpec BandProofs BandProps FullModel FullSpec FullProofs.
From Coq Require Import Permutation Sorted Lia.
Local Open Scope Z_scope.

(** ** Only the given points matter for the order *)

Lemma greedy_ext key key' is : (forall i j, key i j = key' i j) -> forall l, greedy key is l = greedy key' is l.
Proof.
  intros H. assert (M : forall i l, max_key (key i) l = max_key (key' i) l).
  { intros i [|j l]; [reflexivity|]. cbn [max_key]. f_equal. revert j. induction l as [|x l IH]; intros j; [reflexivity|].
    cbn [fold_left]. rewrite !H. apply IH. }
  induction is as [|i is IH]; intros l; [reflexivity|]. cbn [greedy]. rewrite M. destruct (max_key (key' i) l); [|reflexivity].
  cbn [bind]. rewrite IH. reflexivity.
Qed.

Lemma band_order_ext points bands v V v' V' bm dv eps : (forall n, (n < points)%nat -> v n = v' n) -> (forall n, (n < points)%nat -> V n = V' n) ->
  band_order points bands v V bm dv eps = band_order points bands v' V' bm dv eps.
Proof.
  intros Hv HV. unfold band_order. destruct points as [|p]; [reflexivity|]. rewrite Nat.sub_succ, Nat.sub_0_r.
  assert (E : forall q, (q <= p)%nat -> fold_left (band_step bands v V dv eps) (seq 1 q) (Ok ([seq 0 bands], 0%nat)) =
    fold_left (band_step bands v' V' dv eps) (seq 1 q) (Ok ([seq 0 bands], 0%nat))).
  { induction q as [|q IH]; intros Hq; [reflexivity|]. rewrite seq_S, !fold_left_app, <- (IH ltac:(lia)).
    destruct (loop_spec bands v V dv eps q) as (o & n0 & EL & I). unfold loop in EL. rewrite EL.
    assert (L0 : (n0 < S q)%nat) by (destruct I as (_ & R & _); apply R).
    cbn [fold_left band_step bind]. rewrite (greedy_ext _ (band_key bands v' V' dv n0 (nth n0 o []) (1 + q))).
    - unfold nondegenerate. rewrite (Hv (1 + q)%nat) by lia. reflexivity.
    - intros i j. unfold band_key, overlap2. rewrite (Hv n0), (Hv (1 + q)%nat), (HV n0), (HV (1 + q)%nat) by lia. reflexivity. }
  rewrite (E p (Nat.le_refl _)). destruct (fold_left _ _ _) as [[o n0]|]; [|reflexivity]. cbn [bind]. destruct bm; [|reflexivity].
  assert (K : forall l, (forall n, In n l -> (n < S p)%nat) -> forall i, Qsum (map (fun n => Qsum (map (fun om => v n (nth i om 0%nat)) o)) l) =
    Qsum (map (fun n => Qsum (map (fun om => v' n (nth i om 0%nat)) o)) l)).
  { intros l Hl i. f_equal. apply map_ext_in. intros n Hn. rewrite (Hv n (Hl n Hn)). reflexivity. }
  assert (S : sort_by (mean_key (S p) v o) (seq 0 bands) = sort_by (mean_key (S p) v' o) (seq 0 bands)).
  { generalize (seq 0 bands). intros l. unfold sort_by. induction l as [|x l IH]; [reflexivity|]. cbn [fold_right]. rewrite IH.
    generalize (fold_right (insert_by (mean_key (S p) v' o)) [] l). intros l'. induction l' as [|y l' IH']; [reflexivity|].
    cbn [insert_by]. unfold mean_key at 1 2 4 5. rewrite !K, IH' by (intros n Hn; apply in_seq in Hn; lia). reflexivity. }
  rewrite S. reflexivity.
Qed.

Lemma band_order_ok points bands v V bm dv eps : (0 < points)%nat -> exists o,
  band_order points bands v V bm dv eps = Ok o /\ length o = points /\ (bm = false -> nth 0 o [] = seq 0 bands) /\
  forall n, (n < points)%nat -> Permutation (nth n o []) (seq 0 bands).
Proof.
  intros H. destruct (C50_rows points bands v V dv eps H) as (o & E & L & Z0 & P). destruct bm.
  - destruct (C50_rows_by_mean points bands v V dv eps o H E) as (perm & o' & E' & L' & _ & P'). exists o'. split; [exact E'|].
    split; [exact L'|]. split; [discriminate|]. intros n Hn. apply P', Hn.
  - exists o. auto.
Qed.

(** ** The loop along a side path *)

Section Paths.
  Variables (angle : Z) (k : list pt) (bands : nat) (vectors : bool) (dv : option Q) (eps : Q).

  Definition row_is (st st' : arrays) (m : nat) (om : list nat) : Prop :=
    ar_o st' m = Some om /\ ar_v st' m = (fun i => ar_v st m (nth i om 0%nat)) /\
    ar_V st' m = if vectors then (fun r i => ar_V st m r (nth i om 0%nat)) else ar_V st m.
  Definition same_row (st st' : arrays) (m : nat) : Prop := ar_o st' m = ar_o st m /\ ar_v st' m = ar_v st m /\ ar_V st' m = ar_V st m.

  Lemma set_row_same {A} (f : nat -> A) m x : set_row f m x m = x.
  Proof. unfold set_row. rewrite Nat.eqb_refl. reflexivity. Qed.
  Lemma set_row_other {A} (f : nat -> A) m x n : n <> m -> set_row f m x n = f n.
  Proof. intros H. unfold set_row. destruct (Nat.eqb_spec n m); [contradiction|reflexivity]. Qed.

  Lemma side_step_same N st m M : row_is st (side_step vectors N st (m, M)) m (take M N).
  Proof. unfold side_step, row_is. cbn [ar_o ar_v ar_V]. destruct vectors; rewrite !set_row_same; auto. Qed.
  Lemma side_step_other N st m M n : n <> m -> same_row st (side_step vectors N st (m, M)) n.
  Proof. intros H. unfold side_step, same_row. cbn [ar_o ar_v ar_V]. destruct vectors; rewrite !set_row_other by exact H; auto. Qed.

  Lemma same_row_trans a b c m : same_row a b m -> same_row b c m -> same_row a c m.
  Proof. intros (A1 & A2 & A3) (B1 & B2 & B3). unfold same_row. rewrite B1, B2, B3. auto. Qed.
  Lemma row_is_after a b c m om : same_row a b m -> row_is b c m om -> row_is a c m om.
  Proof. intros (A1 & A2 & A3) (B1 & B2 & B3). unfold row_is. rewrite B1, B2, B3, A2, A3. auto. Qed.
  Lemma row_is_before a b c m om : row_is a b m om -> same_row b c m -> row_is a c m om.
  Proof. intros (A1 & A2 & A3) (B1 & B2 & B3). unfold row_is. rewrite B1, B2, B3. auto. Qed.

  Lemma side_fold N : forall side so st, NoDup side -> length so = length side ->
    let st' := fold_left (side_step vectors N) (combine side so) st in
    (forall m, ~ In m side -> same_row st st' m) /\
    forall i, (i < length side)%nat -> row_is st st' (nth i side 0%nat) (take (nth i so []) N).
  Proof.
    induction side as [|m side IH]; intros [|M so] st ND L; try discriminate L; cbn [combine fold_left].
    - split; [intros; split; auto|cbn; intros; lia].
    - apply NoDup_cons_iff in ND as [Nm ND]. cbn [length] in L. destruct (IH so (side_step vectors N st (m, M)) ND ltac:(lia)) as [I1 I2]. split.
      + intros n Hn. apply (same_row_trans _ (side_step vectors N st (m, M))); [apply side_step_other; intros ->; apply Hn; left; reflexivity|].
        apply I1. intros H; apply Hn; right; exact H.
      + intros [|i] Hi; cbn [nth].
        * apply (row_is_before _ (side_step vectors N st (m, M))); [apply side_step_same|apply I1, Nm].
        * cbn [length] in Hi. apply (row_is_after _ (side_step vectors N st (m, M))); [apply side_step_other|apply I2; lia].
          intros E. apply Nm. rewrite <- E. apply nth_In. lia.
  Qed.

  Definition side (n : nat) : list nat := filter (on_side_path angle k n) (seq 0 (length k)).

  Lemma side_NoDup n : NoDup (side n).
  Proof. apply NoDup_filter, seq_NoDup. Qed.

  Definition side_order (st : arrays) (n : nat) : res (list (list nat)) :=
    band_order (length (side n)) bands (fun i => ar_v st (nth i (side n) 0%nat)) (fun i => ar_V st (nth i (side n) 0%nat)) false dv eps.

  Lemma main_fold : forall (l : list (nat * list nat)) st,
    NoDup (map fst l) -> (forall n, In n (map fst l) -> side n <> []) ->
    (forall n n' m, In n (map fst l) -> In n' (map fst l) -> In m (side n) -> In m (side n') -> n = n') ->
    exists st', fold_left (main_step angle k bands vectors dv eps) l (Ok st) = Ok st' /\
      (forall m, (forall n, In n (map fst l) -> ~ In m (side n)) -> same_row st st' m) /\
      forall n N, In (n, N) l -> exists so, side_order st n = Ok so /\
        forall i, (i < length (side n))%nat -> row_is st st' (nth i (side n) 0%nat) (take (nth i so []) N).
  Proof.
    induction l as [|[n N] l IH]; intros st ND NE DJ.
    - exists st. split; [reflexivity|]. split; [intros; split; auto|intros ? ? []].
    - cbn [map fst] in *. apply NoDup_cons_iff in ND as [Nn ND].
      assert (Ln : (0 < length (side n))%nat) by (specialize (NE n (or_introl eq_refl)); destruct (side n); [contradiction|cbn; lia]).
      destruct (band_order_ok (length (side n)) bands (fun i => ar_v st (nth i (side n) 0%nat)) (fun i => ar_V st (nth i (side n) 0%nat)) false dv eps Ln) as (so & E & L & _ & _).
      destruct (side_fold N (side n) so st (side_NoDup n) L) as [S1 S2]. set (st1 := fold_left (side_step vectors N) (combine (side n) so) st) in *.
      destruct (IH st1 ND) as (st' & EF & I1 & I2).
      { intros n' H. apply NE. right. exact H. }
      { intros a b m Ha Hb. apply DJ; right; assumption. }
      exists st'. split; [|split].
      + cbn [fold_left main_step bind]. fold (side n). rewrite E. cbn [bind]. exact EF.
      + intros m Hm. eapply same_row_trans; [apply S1, Hm; left; reflexivity|]. apply I1. intros n' Hn'. apply Hm. right. exact Hn'.
      + intros n' N' [EQ|H].
        * injection EQ as <- <-. exists so. split; [exact E|]. intros i Hi. eapply row_is_before; [apply S2, Hi|]. apply I1.
          intros n' Hn' Hi'. apply Nn. rewrite (DJ n n' (nth i (side n) 0%nat)); [exact Hn'|left; reflexivity|right; exact Hn'| |exact Hi'].
          apply nth_In, Hi.
        * assert (Hn' : In n' (map fst l)) by (change n' with (fst (n', N')); apply in_map, H).
          assert (OUT : forall i, (i < length (side n'))%nat -> same_row st st1 (nth i (side n') 0%nat)).
          { intros i Hi. apply S1. intros Hs. apply Nn. rewrite (DJ n n' (nth i (side n') 0%nat)); [exact Hn'|left; reflexivity|right; exact Hn'|exact Hs|].
            apply nth_In, Hi. }
          destruct (I2 n' N' H) as (so' & E' & R'). exists so'. split.
          -- rewrite <- E'. apply band_order_ext; intros i Hi; symmetry; apply (OUT i Hi).
          -- intros i Hi. eapply row_is_after; [apply OUT, Hi|apply R', Hi].
  Qed.
End Paths.

(** ** Filling the mesh *)

Section Fill.
  Variables (nk angle : Z) (vectors order : bool) (st : arrays).
  Hypothesis Ha : allowed_angle angle.
  Hypothesis Hn : 0 < nk.

  Lemma fill_fold : forall l mesh, exists mesh',
    fold_left (fill_step nk angle vectors order st) l (Ok mesh) = Ok mesh' /\
    forall K, (exists n r, In (n, r) l /\ in_mesh nk K /\ equivalent angle nk r K /\ v_mesh mesh' K = Some (ar_v st n) /\
         (vectors = true -> V_mesh mesh' K = Some (ar_V st n)) /\ (order = true -> o_mesh mesh' K = ar_o st n)) \/
      ((forall n r, In (n, r) l -> in_mesh nk K -> ~ equivalent angle nk r K) /\
        v_mesh mesh' K = v_mesh mesh K /\ V_mesh mesh' K = V_mesh mesh K /\ o_mesh mesh' K = o_mesh mesh K).
  Proof.
    induction l as [|[n r] l IH]; intros mesh.
    - exists mesh. split; [reflexivity|]. intros K. right. split; [intros ? ? []|auto].
    - destruct (images_spec angle nk r Ha Hn) as (im & EI & _ & HI). cbn [fold_left fill_step bind fst snd]. rewrite EI. cbn [bind].
      match goal with |- context [fold_left _ l (Ok ?m1)] => set (mesh1 := m1) end.
      assert (M1 : forall K, (In K im /\ v_mesh mesh1 K = Some (ar_v st n) /\
         (vectors = true -> V_mesh mesh1 K = Some (ar_V st n)) /\ (order = true -> o_mesh mesh1 K = ar_o st n)) \/
         (~ In K im /\ v_mesh mesh1 K = v_mesh mesh K /\ V_mesh mesh1 K = V_mesh mesh K /\ o_mesh mesh1 K = o_mesh mesh K)).
      { intros K. unfold mesh1. clear HI EI IH mesh1. revert mesh. induction im as [|K' im IHm]; intros mesh; [right; cbn; tauto|].
        cbn [fold_left]. match goal with |- context [fold_left ?f im ?m] => set (m2 := m) end. destruct (IHm m2) as [(I & R)|(I & R1 & R2 & R3)].
        - left. split; [right; exact I|exact R].
        - destruct (pt_eq_dec K K') as [->|NE].
          + left. split; [left; reflexivity|]. rewrite R1, R2, R3. unfold m2. cbn [v_mesh V_mesh o_mesh]. unfold update.
            destruct vectors, order; destruct (pt_eq_dec K' K'); try contradiction; auto; repeat split; discriminate.
          + right. split; [intros [->|]; contradiction|]. rewrite R1, R2, R3. unfold m2. cbn [v_mesh V_mesh o_mesh]. unfold update.
            destruct vectors, order; destruct (pt_eq_dec K K'); try contradiction; auto. }
      destruct (IH mesh1) as (mesh' & E & H). exists mesh'. split; [exact E|]. intros K. destruct (H K) as [(n' & r' & H1 & H2)|(H1 & H2 & H3 & H4)].
      + left. exists n', r'. split; [right; exact H1|exact H2].
      + destruct (M1 K) as [(I & R)|(I & R1 & R2 & R3)].
        * left. exists n, r. split; [left; reflexivity|]. apply HI in I. rewrite H2, H3, H4. tauto.
        * right. rewrite H2, H3, H4. split; [|auto]. intros n' r' [EQ|H']; [|exact (H1 n' r' H')].
          injection EQ as <- <-. intros HK HE. apply I, HI. auto.
  Qed.
End Fill.
