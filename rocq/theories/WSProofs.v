(** Proofs about WSModel.v. *)
From Coq Require Import Permutation Lqa.
From Verif Require Import Common CommonProofs LatModel LatProofs MPIModel MPIProofs MPIMoreProofs
  VorModel VorProofs Num NumProofs WSModel WSSpec.
Local Open Scope Z_scope.

(** ** The dictionary *)

Lemma wset_keys d R i j x R' : In R' (map fst (wset d R i j x)) <-> In R' (map fst d) \/ R' = R.
Proof.
  induction d as [|[R0 c] d IH]; cbn [wset map fst].
  - cbn. intuition congruence.
  - destruct (veqb R0 R) eqn:E; cbn [map fst In].
    + apply veqb_eq in E. subst R0. intuition congruence.
    + rewrite IH. intuition congruence.
Qed.

Lemma wset_nodup d R i j x : NoDup (map fst d) -> NoDup (map fst (wset d R i j x)).
Proof.
  induction d as [|[R0 c] d IH]; intros H; cbn [wset map fst].
  - repeat constructor. intros [].
  - cbn [map fst] in H. inversion H as [|? ? H1 H2]; subst. destruct (veqb R0 R) eqn:E; cbn [map fst]; [exact H|].
    constructor; [|apply IH; exact H2]. rewrite wset_keys. intros [H3|H3]; [exact (H1 H3)|].
    subst. rewrite veqb_refl in E. discriminate.
Qed.

Lemma wset_in d R i j x R' c' : NoDup (map fst d) -> In (R', c') (wset d R i j x) ->
  (R' <> R /\ In (R', c') d) \/
  (R' = R /\ exists c, (In (R, c) d \/ (~ In R (map fst d) /\ c = wzero)) /\ c' = wupd c i j x).
Proof.
  induction d as [|[R0 c] d IH]; intros Hn; cbn [wset].
  - intros [H|[]]. injection H as <- <-. right. split; [reflexivity|]. exists wzero. split; [right; split; [intros []|reflexivity]|reflexivity].
  - cbn [map fst] in Hn. inversion Hn as [|? ? H1 H2]; subst. destruct (veqb R0 R) eqn:E.
    + apply veqb_eq in E. subst R0. intros [H|H].
      * injection H as <- <-. right. split; [reflexivity|]. exists c. split; [left; left; reflexivity|reflexivity].
      * left. split; [|right; exact H]. intros ->. apply H1. apply in_map_iff. exists (R, c'). split; [reflexivity|exact H].
    + intros [H|H].
      * injection H as <- <-. left. split; [|left; reflexivity]. intros ->. rewrite veqb_refl in E. discriminate.
      * destruct (IH H2 H) as [[H3 H4]|[H3 (c0 & H4 & H5)]].
        -- left. split; [exact H3|right; exact H4].
        -- right. split; [exact H3|]. exists c0. split; [|exact H5]. destruct H4 as [H4|[H4 H6]]; [left; right; exact H4|].
           right. split; [|exact H6]. cbn [map fst]. intros [H7|H7]; [subst; rewrite veqb_refl in E; discriminate|exact (H4 H7)].
Qed.

(** The dictionary holds the values [val] where [P] holds and zeros elsewhere. *)
Definition holds (val : vec -> nat -> nat -> nat * Q) (P : vec -> nat -> nat -> Prop) (d : list (vec * wentry)) : Prop :=
  NoDup (map fst d) /\
  (forall R, In R (map fst d) <-> exists i j, P R i j) /\
  forall R c, In (R, c) d -> forall i j, (P R i j -> c i j = val R i j) /\ (~ P R i j -> c i j = (0%nat, 0%Q)).

Lemma holds_set val P d R i j x : holds val P d -> x = val R i j ->
  holds val (fun R' i' j' => P R' i' j' \/ (R' = R /\ i' = i /\ j' = j)) (wset d R i j x).
Proof.
  intros (Hn & Hk & Hv) ->. split; [apply wset_nodup; exact Hn|]. split.
  - intros R'. rewrite wset_keys, Hk. split.
    + intros [(i' & j' & H)| ->]; [exists i', j'; left; exact H|exists i, j; right; auto].
    + intros (i' & j' & [H|(-> & _ & _)]); [left; exists i', j'; exact H|right; reflexivity].
  - intros R' c' Hin i' j'. destruct (wset_in _ _ _ _ _ _ _ Hn Hin) as [[Hne H]|[-> (c & Hc & ->)]].
    + destruct (Hv _ _ H i' j') as [H1 H2]. split.
      * intros [H3|(H3 & _ & _)]; [exact (H1 H3)|contradiction].
      * intros H3. apply H2. tauto.
    + unfold wupd. destruct (Nat.eqb_spec i' i) as [Ei|Ei], (Nat.eqb_spec j' j) as [Ej|Ej]; cbn [andb].
      1: subst; split; [reflexivity|tauto].
      all: (split; [intros [H3|(_ & H3 & H4)]; [|contradiction]|intros H3];
        destruct Hc as [Hc|[Hc ->]];
        [apply (Hv _ _ Hc); exact H3|exfalso; apply Hc; apply Hk; eauto | apply (Hv _ _ Hc); tauto|reflexivity]).
Qed.

Lemma holds_ext val P Q d : (forall R i j, P R i j <-> Q R i j) -> holds val P d -> holds val Q d.
Proof.
  intros E (H1 & H2 & H3). split; [exact H1|]. split.
  - intros R. rewrite H2. split; intros (i & j & H); exists i, j; apply E; exact H.
  - intros R c Hin i j. rewrite <- E. apply H3. exact Hin.
Qed.

Lemma holds_fold val i j x l : forall P d, (forall R, In R l -> x = val R i j) -> holds val P d ->
  holds val (fun R' i' j' => P R' i' j' \/ (In R' l /\ i' = i /\ j' = j))
    (fold_left (fun d R => wset d R i j x) l d).
Proof.
  induction l as [|R l IH]; intros P d Hx H; cbn [fold_left].
  - eapply holds_ext; [|exact H]. intros. cbn. tauto.
  - eapply holds_ext; [|apply IH; [|apply holds_set; [exact H|]]].
    + intros R' i' j'. cbn [In]. cbn beta. intuition congruence.
    + intros R' HR'. apply Hx. right. exact HR'.
    + apply Hx. left. reflexivity.
Qed.

Lemma NoDup_map_filter {A B} (f : A -> B) g l : NoDup (map f l) -> NoDup (map f (filter g l)).
Proof.
  induction l as [|y d IH]; cbn [filter map]; [constructor|]. intros H. inversion H as [|? ? N1 N2]; subst.
  destruct (g y); [|apply IH; exact N2]. cbn [map]. constructor; [|apply IH; exact N2]. intros H'. apply N1.
  apply in_map_iff in H'. destruct H' as (z & Ez & Hz). apply filter_In in Hz. apply in_map_iff. exists z. tauto.
Qed.

Section Mesh.
  Context (nr : vec) (sgn : Z).
  Hypothesis Hnr : 0 < vx nr /\ 0 < vy nr /\ 0 < vz nr.
  Hypothesis Hsgn : sgn = 1 \/ sgn = -1.

  Lemma in_ws_mesh m : In m (ws_mesh nr) <-> on_mesh nr m.
  Proof.
    unfold ws_mesh, on_mesh. rewrite in_flat_map. split.
    - intros (m1 & H1 & H). apply in_flat_map in H. destruct H as (m2 & H2 & H). apply in_map_iff in H.
      destruct H as (m3 & <- & H3). apply in_zrange in H1, H2, H3. cbn. lia.
    - intros (H1 & H2 & H3). exists (vx m). split; [apply in_zrange; lia|]. apply in_flat_map. exists (vy m). split; [apply in_zrange; lia|].
      apply in_map_iff. exists (vz m). split; [destruct m; reflexivity|apply in_zrange; lia].
  Qed.

  Lemma nodup_ws_mesh : NoDup (ws_mesh nr).
  Proof.
    unfold ws_mesh. apply (NoDup_flat_map _ vx); [| |apply NoDup_zrange].
    - intros m1 b H. apply in_flat_map in H. destruct H as (m2 & _ & H). apply in_map_iff in H. destruct H as (m3 & <- & _). reflexivity.
    - intros m1. apply (NoDup_flat_map _ vy); [| |apply NoDup_zrange].
      + intros m2 b H. apply in_map_iff in H. destruct H as (m3 & <- & _). reflexivity.
      + intros m2. apply NoDup_map_inj; [|apply NoDup_zrange]. intros x y H. injection H. auto.
  Qed.

  Lemma mesh_index_on R : on_mesh nr (mesh_index nr sgn R).
  Proof. unfold on_mesh, mesh_index. cbn. repeat split; apply Z.mod_pos_bound; lia. Qed.

  Lemma mesh_index_same R : same_cell nr (vscale sgn R) (mesh_index nr sgn R).
  Proof.
    unfold same_cell, mesh_index. cbn [vx vy vz vscale].
    assert (D : forall x n, 0 < n -> (n | x - x mod n)).
    { intros x n Hn. exists (x / n). pose proof (Z.div_mod x n ltac:(lia)). lia. }
    repeat split; apply D; lia.
  Qed.

  Lemma mesh_unique m m' : on_mesh nr m -> on_mesh nr m' -> same_cell nr m m' -> m = m'.
  Proof.
    intros (A1 & A2 & A3) (B1 & B2 & B3) ((M1 & E1) & (M2 & E2) & (M3 & E3)).
    assert (M1 = 0) by nia. assert (M2 = 0) by nia. assert (M3 = 0) by nia. apply vec_ext; nia.
  Qed.

  Lemma same_cell_sym R R' : same_cell nr R R' -> same_cell nr R' R.
  Proof.
    intros ((a & A) & (b & B) & (c & C)). split; [exists (- a); lia|]. split; [exists (- b); lia|exists (- c); lia].
  Qed.

  Lemma same_cell_trans R R' R'' : same_cell nr R R' -> same_cell nr R' R'' -> same_cell nr R R''.
  Proof.
    intros ((a & A) & (b & B) & (c & C)) ((a' & A') & (b' & B') & (c' & C')).
    split; [exists (a + a'); lia|]. split; [exists (b + b'); lia|exists (c + c'); lia].
  Qed.

  Lemma same_cell_scale R R' : same_cell nr R R' <-> same_cell nr (vscale sgn R) (vscale sgn R').
  Proof.
    assert (E : forall n a b, (n | sgn * a - sgn * b) <-> (n | a - b)).
    { intros n a b. destruct Hsgn as [-> | ->]; split; intros [c H]; solve [exists c; lia | exists (- c); lia]. }
    unfold same_cell. cbn [vx vy vz vscale]. rewrite !E. tauto.
  Qed.

  Lemma mesh_index_eq R R' : mesh_index nr sgn R = mesh_index nr sgn R' <-> same_cell nr R R'.
  Proof.
    rewrite same_cell_scale. split.
    - intros E. eapply same_cell_trans; [apply mesh_index_same|]. rewrite E. apply same_cell_sym. apply mesh_index_same.
    - intros H. apply mesh_unique; try apply mesh_index_on.
      eapply same_cell_trans; [apply same_cell_sym; apply mesh_index_same|]. eapply same_cell_trans; [exact H|apply mesh_index_same].
  Qed.

End Mesh.

Section Wigner.
  Context (nr : vec) (sgn nsc : Z) (nb1 nb2 : nat) (len : vec -> nat -> nat -> Q) (eps : Q).
  Hypothesis Hnr : 0 < vx nr /\ 0 < vy nr /\ 0 < vz nr.
  Hypothesis Hsgn : sgn = 1 \/ sgn = -1.
  Hypothesis Hnsc : 0 < nsc.
  Hypothesis Heps : (0 < eps)%Q.

  Lemma in_copies m R : on_mesh nr m -> (In R (copies nr sgn nsc m) <-> searched nr sgn nsc R /\ same_cell nr (vscale sgn R) m).
  Proof.
    intros (B1 & B2 & B3). unfold copies. rewrite in_flat_map. split.
    - intros (M1 & H1 & H). apply in_flat_map in H. destruct H as (M2 & H2 & H). apply in_map_iff in H.
      destruct H as (M3 & <- & H3). apply in_zrange in H1, H2, H3. unfold searched, same_cell. cbn [vx vy vz vscale].
      assert (E : forall a, sgn * (sgn * a) = a) by (intros a; destruct Hsgn as [-> | ->]; lia). rewrite !E.
      split; [nia|]. split; [exists M1; lia|]. split; [exists M2; lia|exists M3; lia].
    - intros ((S1 & S2 & S3) & (M1 & E1) & (M2 & E2) & (M3 & E3)). cbn [vx vy vz vscale] in *.
      exists M1. split; [apply in_zrange; nia|]. apply in_flat_map. exists M2. split; [apply in_zrange; nia|].
      apply in_map_iff. exists M3. split; [|apply in_zrange; nia].
      apply vec_ext; cbn [vx vy vz vscale]; destruct Hsgn as [-> | ->]; lia.
  Qed.

  Lemma nodup_copies m : NoDup (copies nr sgn nsc m).
  Proof.
    assert (D : forall M n c, n <> 0 -> (sgn * (sgn * (M * n + c)) - c) / n = M).
    { intros M n c Hn. replace (sgn * (sgn * (M * n + c)) - c) with (M * n) by (destruct Hsgn as [-> | ->]; lia). apply Z.div_mul. exact Hn. }
    unfold copies. apply (NoDup_flat_map _ (fun R => (sgn * vx R - vx m) / vx nr)); [| |apply NoDup_zrange].
    - intros M1 b H. apply in_flat_map in H. destruct H as (M2 & _ & H). apply in_map_iff in H. destruct H as (M3 & <- & _).
      cbn [vx vscale]. apply D. lia.
    - intros M1. apply (NoDup_flat_map _ (fun R => (sgn * vy R - vy m) / vy nr)); [| |apply NoDup_zrange].
      + intros M2 b H. apply in_map_iff in H. destruct H as (M3 & <- & _). cbn [vy vscale]. apply D. lia.
      + intros M2. apply NoDup_map_inj; [|apply NoDup_zrange]. intros x y H.
        apply (f_equal (fun R => (sgn * vz R - vz m) / vz nr)) in H. cbn [vz vscale] in H. rewrite !D in H by lia. exact H.
  Qed.

  Lemma copies_index m R : on_mesh nr m -> (In R (copies nr sgn nsc m) <-> searched nr sgn nsc R /\ mesh_index nr sgn R = m).
  Proof.
    intros Hm. rewrite in_copies by exact Hm. split; intros [H1 H2]; (split; [exact H1|]).
    - apply (mesh_unique nr Hnr); [apply (mesh_index_on nr sgn Hnr)|exact Hm|]. eapply same_cell_trans; [apply same_cell_sym; apply (mesh_index_same nr sgn Hnr)|exact H2].
    - subst m. apply (mesh_index_same nr sgn Hnr).
  Qed.

  Lemma copies_nonempty m : exists x l, copies nr sgn nsc m = x :: l.
  Proof.
    assert (E : exists y l, zrange (- nsc) nsc = y :: l).
    { unfold zrange. replace (Z.to_nat (nsc - - nsc)) with (S (Z.to_nat (nsc - - nsc - 1))) by lia. cbn. eauto. }
    destruct E as (y & l & E). unfold copies. rewrite E. cbn. eauto.
  Qed.

  (** The minimum and the selection. *)
  Lemma ws_length_ok m i j : exists x, ws_length nr sgn nsc len m i j = Ok x /\
    (exists R, In R (copies nr sgn nsc m) /\ x = len R i j) /\
    forall R, In R (copies nr sgn nsc m) -> (x <= len R i j)%Q.
  Proof.
    unfold ws_length. destruct (copies_nonempty m) as (y & l & E). rewrite E. cbn [map]. eexists. split; [reflexivity|].
    destruct (qmin_spec (map (fun R => len R i j) l) (len y i j)) as [H1 H2]. 
    change (len y i j :: map (fun R => len R i j) l) with (map (fun R => len R i j) (y :: l)) in H1, H2. split.
    - apply in_map_iff in H1. destruct H1 as (R & H & HR). exists R. split; [exact HR|symmetry; exact H].
    - intros R HR. apply H2. apply (in_map (fun R => len R i j)). exact HR.
  Qed.

  Lemma in_selected m i j x R : on_mesh nr m -> ws_length nr sgn nsc len m i j = Ok x ->
    (In R (ws_selected nr sgn nsc len eps m i j x) <-> mesh_index nr sgn R = m /\ shortest nr sgn nsc len eps i j R).
  Proof.
    intros Hm Ex. destruct (ws_length_ok m i j) as (x' & Ex' & (R0 & HR0 & E0) & Hmin). rewrite Ex in Ex'. injection Ex' as <-.
    unfold ws_selected. rewrite filter_In, negb_true_iff. 
    assert (EB : Qle_bool eps (Qabs (len R i j - x)) = false <-> (Qabs (len R i j - x) < eps)%Q).
    { rewrite <- not_true_iff_false, Qle_bool_iff. split; [apply Qnot_le_lt|apply Qlt_not_le]. }
    rewrite EB. split.
    - intros [HR Hlt]. pose proof (Hmin R HR) as HM. apply copies_index in HR; [|exact Hm]. destruct HR as [HS HI]. split; [exact HI|].
      split; [exact HS|]. intros R' HS' HC. assert (HR' : In R' (copies nr sgn nsc m)).
      { apply copies_index; [exact Hm|]. split; [exact HS'|]. rewrite <- HI. apply (mesh_index_eq nr sgn Hnr Hsgn). exact HC. }
      pose proof (Hmin R' HR'). rewrite Qabs_pos in Hlt by lra. lra.
    - intros [HI [HS H]]. assert (HR : In R (copies nr sgn nsc m)) by (apply copies_index; auto). split; [exact HR|].
      pose proof (Hmin R HR). rewrite Qabs_pos by lra. apply copies_index in HR0; [|exact Hm]. destruct HR0 as [HS0 HI0].
      assert (HC : same_cell nr R0 R) by (apply (mesh_index_eq nr sgn Hnr Hsgn); congruence). specialize (H R0 HS0 HC). rewrite <- E0 in H. lra.
  Qed.

  Lemma nodup_selected m i j x : NoDup (ws_selected nr sgn nsc len eps m i j x).
  Proof. apply NoDup_filter. apply nodup_copies. Qed.

  Lemma selected_nonempty m i j x : ws_length nr sgn nsc len m i j = Ok x -> ws_selected nr sgn nsc len eps m i j x <> [].
  Proof.
    intros Ex. destruct (ws_length_ok m i j) as (x' & Ex' & (R0 & HR0 & E0) & _). rewrite Ex in Ex'. injection Ex' as <-.
    intros E. assert (H : In R0 (ws_selected nr sgn nsc len eps m i j x)).
    { apply filter_In. split; [exact HR0|]. rewrite <- E0. assert (Z0 : (x - x == 0)%Q) by ring. 
      apply negb_true_iff. apply not_true_iff_false. rewrite Qle_bool_iff, Z0. cbn. apply Qlt_not_le. exact Heps. }
    rewrite E in H. destruct H.
  Qed.

  (** The value to be stored for a lattice vector. *)
  Definition wval (R : vec) (i j : nat) : nat * Q :=
    match ws_length nr sgn nsc len (mesh_index nr sgn R) i j with
    | Ok x => (length (ws_selected nr sgn nsc len eps (mesh_index nr sgn R) i j x), x)
    | Raise _ => (0%nat, 0%Q)
    end.

  Lemma pair_step_holds m P d i j : on_mesh nr m -> holds wval P d ->
    exists d', pair_step nr sgn nsc len eps m (Ok d) (i, j) = Ok d' /\
    holds wval (fun R' i' j' => P R' i' j' \/ ((mesh_index nr sgn R' = m /\ shortest nr sgn nsc len eps i' j' R') /\ i' = i /\ j' = j)) d'.
  Proof.
    intros Hm H. unfold pair_step. cbn [bind]. destruct (ws_length_ok m i j) as (x & Ex & _). rewrite Ex. cbn [bind].
    eexists. split; [reflexivity|]. eapply holds_ext; [|apply holds_fold; [|exact H]].
    - intros R' i' j'. cbn beta. rewrite (in_selected m i j x R' Hm Ex). split.
      + intros [H0|(H1 & -> & ->)]; tauto.
      + intros [H0|(H1 & -> & ->)]; tauto.
    - intros R HR. apply (in_selected m i j x R Hm Ex) in HR. destruct HR as [HI _]. unfold wval. rewrite HI, Ex. reflexivity.
  Qed.

  Lemma pairs_hold m l : forall P d, on_mesh nr m -> holds wval P d ->
    exists d', fold_left (pair_step nr sgn nsc len eps m) l (Ok d) = Ok d' /\
    holds wval (fun R' i' j' => P R' i' j' \/ ((mesh_index nr sgn R' = m /\ shortest nr sgn nsc len eps i' j' R') /\ In (i', j') l)) d'.
  Proof.
    induction l as [|[i j] l IH]; intros P d Hm H; cbn [fold_left].
    - exists d. split; [reflexivity|]. eapply holds_ext; [|exact H]. intros. cbn. tauto.
    - destruct (pair_step_holds m P d i j Hm H) as (d1 & E1 & H1). rewrite E1.
      destruct (IH _ _ Hm H1) as (d2 & E2 & H2). exists d2. split; [exact E2|]. eapply holds_ext; [|exact H2].
      intros R' i' j'. cbn beta. cbn [In]. split.
      + intros [[H0|(H0 & -> & ->)]|H0]; tauto.
      + intros [H0|(H0 & [E|E])]; [tauto| |tauto]. injection E as -> ->. tauto.
  Qed.

  Definition good (R : vec) (i j : nat) : Prop := (i < nb1)%nat /\ (j < nb2)%nat /\ shortest nr sgn nsc len eps i j R.

  Lemma mesh_hold ms : forall P d, (forall m, In m ms -> on_mesh nr m) -> holds wval P d ->
    exists d', fold_left (fun data m => fold_left (pair_step nr sgn nsc len eps m) (list_prod (seq 0 nb1) (seq 0 nb2)) data) ms (Ok d) = Ok d' /\
    holds wval (fun R' i' j' => P R' i' j' \/ (In (mesh_index nr sgn R') ms /\ good R' i' j')) d'.
  Proof.
    induction ms as [|m ms IH]; intros P d Hm H; cbn [fold_left].
    - exists d. split; [reflexivity|]. eapply holds_ext; [|exact H]. intros. cbn. tauto.
    - destruct (pairs_hold m (list_prod (seq 0 nb1) (seq 0 nb2)) P d (Hm m (or_introl eq_refl)) H) as (d1 & E1 & H1). rewrite E1.
      destruct (IH _ _ (fun m' h => Hm m' (or_intror h)) H1) as (d2 & E2 & H2). exists d2. split; [exact E2|].
      eapply holds_ext; [|exact H2]. intros R' i' j'. cbn beta. rewrite in_prod_iff, !in_seq. unfold good. cbn [In].
      assert (Ei : (0 <= i' < 0 + nb1)%nat <-> (i' < nb1)%nat) by lia. assert (Ej : (0 <= j' < 0 + nb2)%nat <-> (j' < nb2)%nat) by lia.
      rewrite Ei, Ej. assert (Es : m = mesh_index nr sgn R' <-> mesh_index nr sgn R' = m) by (split; congruence). rewrite Es. tauto.
  Qed.

  Lemma rank_holds nproc r : exists d, wigner_rank nr sgn nsc nb1 nb2 len eps nproc r = Ok d /\
    holds wval (fun R i j => In (mesh_index nr sgn R) (round_robin 1 nproc r (ws_mesh nr)) /\ good R i j) d.
  Proof.
    unfold wigner_rank. destruct (mesh_hold (round_robin 1 nproc r (ws_mesh nr)) (fun _ _ _ => False) []) as (d & E & H).
    - intros m Hm. apply in_ws_mesh. unfold round_robin in Hm. apply in_map_iff in Hm. destruct Hm as ([n m'] & <- & Hm).
      apply filter_In in Hm. destruct Hm as [Hm _]. apply in_combine_r in Hm. exact Hm.
    - split; [constructor|]. split; [|intros R c []]. intros R. cbn. split; [intros []|]. intros (i & j & []).
    - exists d. split; [exact E|]. eapply holds_ext; [|exact H]. intros. cbn beta. tauto.
  Qed.

  Lemma holds_app P Q d d' : holds wval P d -> holds wval Q d' ->
    (forall R i j i' j', P R i j -> Q R i' j' -> False) -> holds wval (fun R i j => P R i j \/ Q R i j) (d ++ d').
  Proof.
    intros (A1 & A2 & A3) (B1 & B2 & B3) Hd. split; [|split].
    - rewrite map_app. apply NoDup_app'; [exact A1|exact B1|]. intros R HA HB. apply A2 in HA. apply B2 in HB.
      destruct HA as (i & j & HA), HB as (i' & j' & HB). exact (Hd _ _ _ _ _ HA HB).
    - intros R. rewrite map_app, in_app_iff, A2, B2. split.
      + intros [(i & j & H)|(i & j & H)]; eauto.
      + intros (i & j & [H|H]); eauto.
    - intros R c Hin i j. apply in_app_iff in Hin. destruct Hin as [Hin|Hin].
      + assert (HR : In R (map fst d)) by (apply in_map_iff; exists (R, c); auto). apply A2 in HR. destruct HR as (i0 & j0 & HR).
        destruct (A3 _ _ Hin i j) as [H1 H2]. split; [|intros H; apply H2; tauto]. intros [H|H]; [auto|exfalso; eauto].
      + assert (HR : In R (map fst d')) by (apply in_map_iff; exists (R, c); auto). apply B2 in HR. destruct HR as (i0 & j0 & HR).
        destruct (B3 _ _ Hin i j) as [H1 H2]. split; [|intros H; apply H2; tauto]. intros [H|H]; [exfalso; eauto|auto].
  Qed.

  Lemma ranks_hold nproc rs : forall P d, NoDup (concat (map (fun r => round_robin 1 nproc r (ws_mesh nr)) rs)) -> holds wval P d ->
    (forall R i j r, In r rs -> P R i j -> ~ In (mesh_index nr sgn R) (round_robin 1 nproc r (ws_mesh nr))) ->
    exists d', fold_left (fun all rank => do all <- all ;; do data <- wigner_rank nr sgn nsc nb1 nb2 len eps nproc rank ;; Ok (all ++ data)) rs (Ok d) = Ok d' /\
    holds wval (fun R i j => P R i j \/ (In (mesh_index nr sgn R) (concat (map (fun r => round_robin 1 nproc r (ws_mesh nr)) rs)) /\ good R i j)) d'.
  Proof.
    induction rs as [|r rs IH]; intros P d Hn H HP; cbn [fold_left map concat].
    - exists d. split; [reflexivity|]. eapply holds_ext; [|exact H]. intros. cbn. tauto.
    - cbn [map concat] in Hn. destruct (rank_holds nproc r) as (dr & Er & Hr). cbn [bind]. rewrite Er. cbn [bind].
      assert (Happ : holds wval (fun R i j => P R i j \/ (In (mesh_index nr sgn R) (round_robin 1 nproc r (ws_mesh nr)) /\ good R i j)) (d ++ dr)).
      { apply holds_app; [exact H|exact Hr|]. intros R i j i' j' H1 [H2 _]. exact (HP R i j r (or_introl eq_refl) H1 H2). }
      assert (Hn' : NoDup (concat (map (fun r => round_robin 1 nproc r (ws_mesh nr)) rs))).
      { clear - Hn. induction (round_robin 1 nproc r (ws_mesh nr)) as [|x l IHl]; [exact Hn|]. apply IHl. inversion Hn; assumption. }
      destruct (IH _ _ Hn' Happ) as (d2 & E2 & H2).
      { intros R i j r' Hr' [H1|[H1 _]] Hin; [exact (HP R i j r' (or_intror Hr') H1 Hin)|].
        assert (Hin' : In (mesh_index nr sgn R) (concat (map (fun r => round_robin 1 nproc r (ws_mesh nr)) rs))).
        { apply in_concat. exists (round_robin 1 nproc r' (ws_mesh nr)). split; [apply in_map_iff; eauto|exact Hin]. }
        clear - Hn H1 Hin'. induction (round_robin 1 nproc r (ws_mesh nr)) as [|x l IHl]; [destruct H1|].
        cbn in Hn. inversion Hn as [|? ? N1 N2]; subst. destruct H1 as [H1|H1]; [|exact (IHl N2 H1)]. apply N1. rewrite H1. apply in_app_iff. right. exact Hin'. }
      exists d2. split; [exact E2|]. eapply holds_ext; [|exact H2]. intros R i j. cbn beta. rewrite in_app_iff. tauto.
  Qed.

  Lemma wigner_holds nproc : (0 < nproc)%nat -> exists d, wigner nr sgn nsc nb1 nb2 len eps nproc = Ok d /\ holds wval good d.
  Proof.
    intros Hp. pose proof (round_robin_perm 1 nproc (ws_mesh nr) Hp) as Hperm. unfold wigner.
    destruct (ranks_hold nproc (seq 0 nproc) (fun _ _ _ => False) []) as (d & E & H).
    - eapply Permutation_NoDup; [apply Permutation_sym; exact Hperm|apply nodup_ws_mesh].
    - split; [constructor|]. split; [|intros R c []]. intros R. cbn. split; [intros []|]. intros (i & j & []).
    - intros R i j r _ [].
    - exists d. split; [exact E|]. eapply holds_ext; [|exact H]. intros R i j. cbn beta. split; [tauto|].
      intros HG. right. split; [|exact HG]. apply (Permutation_in _ (Permutation_sym Hperm)). apply in_ws_mesh. apply (mesh_index_on nr sgn Hnr).
  Qed.

  Lemma wval_spec R i j : shortest nr sgn nsc len eps i j R ->
    degeneracy nr sgn nsc len eps i j R (fst (wval R i j)) /\ least_length nr sgn nsc len i j R (snd (wval R i j)) /\ (0 < fst (wval R i j))%nat.
  Proof.
    intros Hs. pose proof (mesh_index_on nr sgn Hnr R) as Hm. destruct (ws_length_ok (mesh_index nr sgn R) i j) as (x & Ex & (R0 & HR0 & E0) & Hmin).
    unfold wval. rewrite Ex. cbn [fst snd]. split; [|split].
    - exists (ws_selected nr sgn nsc len eps (mesh_index nr sgn R) i j x). split; [apply nodup_selected|]. split; [|reflexivity].
      intros R'. rewrite (in_selected _ i j x R' Hm Ex), (mesh_index_eq nr sgn Hnr Hsgn). tauto.
    - split.
      + exists R0. apply copies_index in HR0; [|exact Hm]. destruct HR0 as [HS HI]. split; [exact HS|]. split; [|exact E0]. apply (mesh_index_eq nr sgn Hnr Hsgn). exact HI.
      + intros R' HS HC. apply Hmin. apply copies_index; [exact Hm|]. split; [exact HS|apply (mesh_index_eq nr sgn Hnr Hsgn); exact HC].
    - pose proof (selected_nonempty (mesh_index nr sgn R) i j x Ex). destruct (ws_selected _ _ _ _ _ _ _ _ _); [congruence|cbn; lia].
  Qed.

  Lemma wigner_spec nproc : (0 < nproc)%nat -> exists d, wigner nr sgn nsc nb1 nb2 len eps nproc = Ok d /\
    NoDup (map fst d) /\
    (forall R, In R (map fst d) <-> exists i j, (i < nb1)%nat /\ (j < nb2)%nat /\ shortest nr sgn nsc len eps i j R) /\
    forall R c i j, In (R, c) d -> (i < nb1)%nat -> (j < nb2)%nat ->
      (shortest nr sgn nsc len eps i j R ->
        degeneracy nr sgn nsc len eps i j R (fst (c i j)) /\ least_length nr sgn nsc len i j R (snd (c i j))) /\
      (~ shortest nr sgn nsc len eps i j R -> c i j = (0%nat, 0%Q)).
  Proof.
    intros Hp. destruct (wigner_holds nproc Hp) as (d & E & H1 & H2 & H3). exists d. split; [exact E|]. split; [exact H1|]. split; [exact H2|].
    intros R c i j Hin Hi Hj. destruct (H3 _ _ Hin i j) as [V1 V2]. split; intros Hs.
    - rewrite V1 by (split; [exact Hi|split; [exact Hj|exact Hs]]). destruct (wval_spec R i j Hs) as (A & B & _). auto.
    - apply V2. intros (_ & _ & Hs'). contradiction.
  Qed.

  (** The class of a mesh point in the result: as many entries as their degeneracy. *)
  Lemma wigner_class nproc d m i j : (0 < nproc)%nat -> wigner nr sgn nsc nb1 nb2 len eps nproc = Ok d ->
    on_mesh nr m -> (i < nb1)%nat -> (j < nb2)%nat ->
    exists n, (0 < n)%nat /\
      let l := filter (fun x => veqb (mesh_index nr sgn (fst x)) m && negb (fst (snd x i j) =? 0)%nat) d in
      length l = n /\ forall x, In x l -> fst (snd x i j) = n.
  Proof.
    intros Hp E Hm Hi Hj. destruct (wigner_holds nproc Hp) as (d' & E' & H1 & H2 & H3). rewrite E in E'. injection E' as <-.
    destruct (ws_length_ok m i j) as (x & Ex & _). set (sel := ws_selected nr sgn nsc len eps m i j x).
    exists (length sel). split; [pose proof (selected_nonempty m i j x Ex) as Hne; fold sel in Hne; destruct sel; [congruence|cbn; lia]|].
    cbn zeta. set (l := filter (fun x0 => veqb (mesh_index nr sgn (fst x0)) m && negb (fst (snd x0 i j) =? 0)%nat) d).
    assert (Hval : forall R c, In (R, c) d -> mesh_index nr sgn R = m -> 
      (In R sel -> fst (c i j) = length sel) /\ (~ In R sel -> fst (c i j) = 0%nat)).
    { intros R c Hin HI. unfold sel. rewrite (in_selected m i j x R Hm Ex). destruct (H3 _ _ Hin i j) as [V1 V2]. split.
      - intros [_ Hs]. rewrite V1 by (split; [exact Hi|split; [exact Hj|exact Hs]]). unfold wval. rewrite HI, Ex. reflexivity.
      - intros Hns. rewrite V2; [reflexivity|]. intros (_ & _ & Hs). tauto. }
    assert (Hpos : (0 < length sel)%nat) by (pose proof (selected_nonempty m i j x Ex) as Hne; fold sel in Hne; destruct sel; [congruence|cbn; lia]).
    assert (Hl : forall y, In y l <-> In y d /\ In (fst y) sel).
    { intros [R c]. unfold l. rewrite filter_In, andb_true_iff, veqb_eq, negb_true_iff, Nat.eqb_neq. cbn [fst snd]. split.
      - intros (Hin & HI & Hne). split; [exact Hin|]. destruct (in_dec vec_eq_dec R sel) as [Hs|Hs]; [exact Hs|].
        exfalso. apply Hne. apply (Hval R c Hin HI). exact Hs.
      - intros (Hin & Hs). assert (HI : mesh_index nr sgn R = m) by (apply (in_selected m i j x R Hm Ex) in Hs; tauto).
        split; [exact Hin|]. split; [exact HI|]. rewrite (proj1 (Hval R c Hin HI) Hs). lia. }
    split.
    - rewrite <- (map_length fst l). apply Nat.le_antisymm; apply NoDup_incl_length.
      + apply NoDup_map_filter. exact H1.
      + intros R HR. apply in_map_iff in HR. destruct HR as (y & <- & Hy). apply Hl in Hy. tauto.
      + apply nodup_selected.
      + intros R HR. assert (HK : In R (map fst d)).
        { apply H2. exists i, j. split; [exact Hi|]. split; [exact Hj|]. apply (in_selected m i j x R Hm Ex) in HR. tauto. }
        apply in_map_iff in HK. destruct HK as (y & <- & Hy). apply in_map. apply Hl. auto.
    - intros [R c] Hy. apply Hl in Hy. destruct Hy as [Hin Hs]. cbn [fst snd] in *.
      assert (HI : mesh_index nr sgn R = m) by (apply (in_selected m i j x R Hm Ex) in Hs; tauto). apply (Hval R c Hin HI). exact Hs.
  Qed.
End Wigner.

Lemma qsum_const {A} (f : A -> nat) n l : (forall x, In x l -> f x = n) -> (0 < n)%nat ->
  (qsum (map (fun x => 1 / inject_Z (Z.of_nat (f x)))%Q l) == inject_Z (Z.of_nat (length l)) / inject_Z (Z.of_nat n))%Q.
Proof.
  intros H Hn. assert (Hq : ~ (inject_Z (Z.of_nat n) == 0)%Q) by (unfold Qeq; cbn; lia).
  induction l as [|x l IH]; cbn [map qsum length].
  - unfold Qdiv. change (inject_Z (Z.of_nat 0)) with 0%Q. ring.
  - rewrite IH by (intros y Hy; apply H; right; exact Hy). rewrite (H x (or_introl eq_refl)), Nat2Z.inj_succ. unfold Z.succ. rewrite inject_Z_plus.
    change (inject_Z 1) with 1%Q. field. exact Hq.
Qed.

Lemma wigner_weights nr sgn nsc nb1 nb2 len eps nproc d m i j :
  0 < vx nr /\ 0 < vy nr /\ 0 < vz nr -> sgn = 1 \/ sgn = -1 -> 0 < nsc -> (0 < eps)%Q ->
  (0 < nproc)%nat -> wigner nr sgn nsc nb1 nb2 len eps nproc = Ok d ->
  on_mesh nr m -> (i < nb1)%nat -> (j < nb2)%nat ->
  (qsum (map (fun x => 1 / inject_Z (Z.of_nat (fst (snd x i j))))%Q
    (filter (fun x => veqb (mesh_index nr sgn (fst x)) m && negb (fst (snd x i j) =? 0)%nat) d)) == 1)%Q.
Proof.
  intros H1 H2 H3 H4 H5 H6 H7 H8 H9.
  destruct (wigner_class nr sgn nsc nb1 nb2 len eps H1 H2 H3 H4 nproc d m i j H5 H6 H7 H8 H9) as (n & Hn & Hl & Hv). cbn zeta in *.
  rewrite (qsum_const _ n) by assumption. rewrite Hl. field. unfold Qeq; cbn; lia.
Qed.

(** ** Short-range model *)

Section Short.
  Context {F : num}.
  Add Ring Fws : (@n_ring F).

  Lemma nsum_filter_split {A B} (f : A -> F) (g : A -> B) (eqb : B -> B -> bool) (l : list A) (ms : list B) :
    (forall x y, eqb x y = true <-> x = y) -> NoDup ms -> (forall x, In x l -> In (g x) ms) ->
    nsum f l = nsum (fun m => nsum f (filter (fun x => eqb (g x) m) l)) ms.
  Proof.
    intros He Hn Hin. induction l as [|x l IH]; cbn [filter].
    - cbn. symmetry. apply nsum_zero. intros. reflexivity.
    - cbn [nsum]. rewrite IH by (intros y Hy; apply Hin; right; exact Hy).
      assert (E : nsum (fun m => if eqb (g x) m then f x else n0) ms = f x).
      { rewrite (nsum_single _ ms (g x) Hn (Hin x (or_introl eq_refl))).
        - rewrite (proj2 (He (g x) (g x)) eq_refl). reflexivity.
        - intros m _ Hne. destruct (eqb (g x) m) eqn:E; [|reflexivity]. apply He in E. congruence. }
      rewrite <- E at 1. rewrite <- nsum_add. apply nsum_ext. intros m _. destruct (eqb (g x) m); cbn [nsum]; ring.
  Qed.

  Lemma combine_map {A B C} (f : A -> B) (g : A -> C) l : combine (map f l) (map g l) = map (fun x => (f x, g x)) l.
  Proof. induction l as [|x l IH]; cbn; [reflexivity|]. rewrite IH. reflexivity. Qed.

  Context (nr : vec) (sgn nsc : Z) (nb ncart : nat) (len : vec -> nat -> nat -> Q) (eps : Q).
  Hypothesis Hnr : 0 < vx nr /\ 0 < vy nr /\ 0 < vz nr.
  Hypothesis Hsgn : sgn = 1 \/ sgn = -1.
  Hypothesis Hnsc : 0 < nsc.
  Hypothesis Heps : (0 < eps)%Q.
  Context (divn : F -> nat -> F) (data : nat -> nat -> vec -> nat -> nat -> F) (nproc : nat).
  Hypothesis Hp : (0 < nproc)%nat.

  Lemma short_range_unfold dv : exists d, wigner nr sgn nsc nb nb len eps nproc = Ok d /\
    short_range_model divn dv nr sgn nsc nb ncart len eps data nproc = Ok (map (fun x =>
      (fst x, short_const divn dv nr sgn ncart data (fst x) (fun i j => fst (snd x i j)))) d).
  Proof.
    destruct (wigner_holds nr sgn nsc nb nb len eps Hnr Hsgn Hnsc nproc Hp) as (d & E & _). exists d. split; [exact E|].
    unfold short_range_model. rewrite E. cbn [bind]. rewrite scatter_compute_gather_serial by lia. cbn [bind]. rewrite combine_map. reflexivity.
  Qed.

  Lemma short_range_exact (e : vec -> F) a b : (0 < ncart)%nat -> (a < nb * ncart)%nat -> (b < nb * ncart)%nat ->
    (forall x n, (0 < n)%nat -> nsum (fun _ => divn x n) (seq 0 n) = x) ->
    (forall R R', same_cell nr R R' -> e R = e R') ->
    exists l, short_range_model divn true nr sgn nsc nb ncart len eps data nproc = Ok l /\
    nsum (fun x => nmul (e (fst x)) (snd x a b)) l =
    nsum (fun m => nmul (e (vscale sgn m)) (data (a / ncart)%nat (b / ncart)%nat m (a mod ncart)%nat (b mod ncart)%nat)) (ws_mesh nr).
  Proof.
    intros Hc Ha Hb Hdiv He. destruct (short_range_unfold true) as (d & E & E'). eexists. split; [exact E'|].
    rewrite nsum_map. cbn [fst snd].
    assert (Hi : (a / ncart < nb)%nat) by (apply Nat.div_lt_upper_bound; lia).
    assert (Hj : (b / ncart < nb)%nat) by (apply Nat.div_lt_upper_bound; lia).
    rewrite (nsum_filter_split _ (fun x => mesh_index nr sgn (fst x)) veqb d (ws_mesh nr)); [|apply veqb_eq|apply nodup_ws_mesh|].
    2: { intros x _. apply in_ws_mesh. apply (mesh_index_on nr sgn Hnr). }
    apply nsum_ext. intros m Hm. apply in_ws_mesh in Hm.
    destruct (wigner_class nr sgn nsc nb nb len eps Hnr Hsgn Hnsc Heps nproc d m _ _ Hp E Hm Hi Hj) as (n & Hn & Hl & Hv). cbn zeta in *.
    set (l := filter (fun x => veqb (mesh_index nr sgn (fst x)) m && negb (fst (snd x (a / ncart)%nat (b / ncart)%nat) =? 0)%nat) d) in Hl, Hv.
    set (D := data (a / ncart)%nat (b / ncart)%nat m (a mod ncart)%nat (b mod ncart)%nat).
    assert (E1 : forall l0, nsum (fun x => nmul (e (fst x)) (short_const divn true nr sgn ncart data (fst x) (fun i j => fst (snd x i j)) a b))
        (filter (fun x => veqb (mesh_index nr sgn (fst x)) m) l0) =
      nsum (fun x => nmul (e (vscale sgn m)) (divn D (fst (snd x (a / ncart)%nat (b / ncart)%nat))))
        (filter (fun x : vec * wentry => veqb (mesh_index nr sgn (fst x)) m && negb (fst (snd x (a / ncart) (b / ncart)) =? 0))%nat l0)).
    { induction l0 as [|x l0 IH]; [reflexivity|]. cbn [filter]. destruct (veqb (mesh_index nr sgn (fst x)) m) eqn:Ex; cbn [andb]; [|exact IH].
      apply veqb_eq in Ex. cbn [nsum].
      destruct (Nat.eqb_spec (fst (snd x (a / ncart)%nat (b / ncart)%nat)) 0) as [E0|E0]; cbn [negb nsum].
      - rewrite IH. unfold short_const. rewrite E0. cbn. ring.
      - rewrite IH. unfold short_const. rewrite (proj2 (Nat.eqb_neq _ _) E0), Ex. fold D. f_equal. f_equal. apply He.
        apply (same_cell_scale nr sgn Hnr Hsgn). rewrite <- Ex. 
        replace (vscale sgn (vscale sgn (mesh_index nr sgn (fst x)))) with (mesh_index nr sgn (fst x)); [apply (mesh_index_same nr sgn Hnr)|].
        apply vec_ext; cbn [vx vy vz vscale]; destruct Hsgn as [-> | ->]; lia. }
    rewrite E1. fold l. rewrite nsum_mul_l. f_equal.
    rewrite (nsum_ext _ (fun _ => divn D n)) by (intros x Hx; rewrite (Hv x Hx); reflexivity).
    transitivity (nsum (fun _ : nat => divn D n) (seq 0 n)); [|apply Hdiv; exact Hn].
    clear - Hl. generalize (divn D n). intros c. subst n. generalize 0%nat.
    induction l as [|x l' IH]; intros s; cbn [length seq nsum]; [reflexivity|]. rewrite (IH (S s)). reflexivity.
  Qed.

  (** Without division: every lattice vector carries the mesh data. *)
  Lemma short_range_plain : exists d l, wigner nr sgn nsc nb nb len eps nproc = Ok d /\
    short_range_model divn false nr sgn nsc nb ncart len eps data nproc = Ok l /\ map fst l = map fst d /\
    forall R c a b, In (R, c) l ->
      c a b = data (a / ncart)%nat (b / ncart)%nat (mesh_index nr sgn R) (a mod ncart)%nat (b mod ncart)%nat.
  Proof.
    destruct (short_range_unfold false) as (d & E & E'). eexists. eexists. split; [exact E|]. split; [exact E'|]. split.
    - rewrite map_map. reflexivity.
    - intros R c a b Hin. apply in_map_iff in Hin. destruct Hin as (x & Ex & _). injection Ex as <- <-. reflexivity.
  Qed.
End Short.
