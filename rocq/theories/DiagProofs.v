(** Proofs about diagrams: meshes, quotients of differences, matrices. *)
From Coq Require Import Reals Lra Lia List ZArith Arith.
From Coquelicot Require Import Complex.
From Verif Require Import Common Cx CxProofs MPIModel MPIProofs MdModel DiagModel DiagSpec.
Local Open Scope R_scope.

(** ** Sums over the mesh *)
Lemma csum_shift1 n (f : nat -> C) : csum n (fun i => f ((1 + i) mod n)%nat) = csum n f.
Proof.
  destruct n as [|n]; [reflexivity|]. cbn [csum].
  replace ((1 + n) mod S n)%nat with 0%nat by (cbn [plus]; rewrite Nat.mod_same by lia; reflexivity).
  rewrite (csum_ext n _ (fun i => f (S i))) by (intros i Hi; rewrite Nat.mod_small by lia; reflexivity).
  change (csum n (fun i => f (S i)) + f 0%nat = csum (S n) f)%C.
  assert (E : forall n, (csum n (fun i => f (S i)) + f 0%nat = csum (S n) f)%C).
  { clear. induction n as [|n IH]; [cbn [csum]; reflexivity|]. change (csum (S (S n)) f) with (csum (S n) f + f (S n))%C. rewrite <- IH. cbn [csum]. ring. }
  apply E.
Qed.

Lemma csum_shift n q (f : nat -> C) : csum n (fun i => f ((q + i) mod n)%nat) = csum n f.
Proof.
  destruct n as [|n]; [reflexivity|]. revert f. induction q as [|q IH]; intros f.
  - apply csum_ext. intros i Hi. cbn [plus]. rewrite Nat.mod_small by lia. reflexivity.
  - rewrite <- (IH f). rewrite <- (csum_shift1 (S n) (fun i => f ((q + i) mod S n)%nat)). apply csum_ext. intros i _. f_equal.
    rewrite Nat.add_mod_idemp_r by lia. f_equal. lia.
Qed.

Lemma rsum_shift n q (f : nat -> R) : rsum n (fun i => f ((q + i) mod n)%nat) = rsum n f.
Proof. apply RtoC_inj'. rewrite !RtoC_rsum. exact (csum_shift n q (fun i => RtoC (f i))). Qed.

Lemma ksum_ext nk F G : (forall k, on_mesh nk k -> F k = G k) -> ksum nk F = ksum nk G.
Proof.
  destruct nk as [[n1 n2] n3]. intros H. cbn [ksum]. apply csum_ext. intros i Hi. apply csum_ext. intros j Hj. apply csum_ext. intros l Hl. apply H. cbn. auto.
Qed.

Lemma ksum_shift nk q F : ksum nk (fun k => F (kadd nk q k)) = ksum nk F.
Proof.
  destruct nk as [[n1 n2] n3], q as [[q1 q2] q3]. cbn [ksum kadd].
  etransitivity; [apply (csum_shift n1 q1 (fun i => csum n2 (fun j => csum n3 (fun l => F (i, (q2 + j) mod n2, (q3 + l) mod n3)%nat))))|]. apply csum_ext. intros i _.
  etransitivity; [apply (csum_shift n2 q2 (fun j => csum n3 (fun l => F (i, j, (q3 + l) mod n3)%nat)))|]. apply csum_ext. intros j _.
  apply (csum_shift n3 q3 (fun l => F (i, j, l))).
Qed.

Lemma ksum_plus nk F G : (ksum nk (fun k => F k + G k) = ksum nk F + ksum nk G)%C.
Proof.
  destruct nk as [[n1 n2] n3]. cbn [ksum]. rewrite <- csum_plus. apply csum_ext. intros i _. rewrite <- csum_plus. apply csum_ext. intros j _. apply csum_plus.
Qed.

Lemma ksum_scal nk c F : (ksum nk (fun k => c * F k) = c * ksum nk F)%C.
Proof.
  destruct nk as [[n1 n2] n3]. cbn [ksum]. rewrite <- csum_scal. apply csum_ext. intros i _. rewrite <- csum_scal. apply csum_ext. intros j _. apply csum_scal.
Qed.

Lemma ksum_scal_r nk c F : (ksum nk (fun k => F k * c) = ksum nk F * c)%C.
Proof. rewrite (Cmult_comm (ksum nk F)), <- ksum_scal. apply ksum_ext. intros k _. apply Cmult_comm. Qed.

Lemma ksum_zero nk : ksum nk (fun _ => RtoC 0) = RtoC 0.
Proof.
  destruct nk as [[n1 n2] n3]. cbn [ksum]. rewrite (csum_ext n1 _ (fun _ => RtoC 0)), csum_zero; [reflexivity|]. intros i _. rewrite (csum_ext n2 _ (fun _ => RtoC 0)), csum_zero; [reflexivity|]. intros j _. apply csum_zero.
Qed.

Lemma ksum_csum nk n F : ksum nk (fun k => csum n (fun i => F k i)) = csum n (fun i => ksum nk (fun k => F k i)).
Proof.
  induction n as [|n IH]; cbn [csum]; [apply ksum_zero|]. rewrite <- IH, <- ksum_plus. reflexivity.
Qed.

Lemma ksum_conj nk F : conj (ksum nk F) = ksum nk (fun k => conj (F k)).
Proof.
  destruct nk as [[n1 n2] n3]. cbn [ksum]. rewrite csum_conj. apply csum_ext. intros i _. rewrite csum_conj. apply csum_ext. intros j _. apply csum_conj.
Qed.

Lemma ksum_nonpos nk F : (forall k, on_mesh nk k -> fst (F k) <= 0) -> fst (ksum nk F) <= 0.
Proof.
  assert (E : forall n (f : nat -> C), (forall i, (i < n)%nat -> fst (f i) <= 0) -> fst (csum n f) <= 0).
  { intros n f H. rewrite fst_csum. eapply Rle_trans; [apply rsum_le, H|]. rewrite rsum_zero. apply Rle_refl. }
  destruct nk as [[n1 n2] n3]. intros H. cbn [ksum]. apply E. intros i Hi. apply E. intros j Hj. apply E. intros l Hl. apply H. cbn. auto.
Qed.

Lemma csum_nonpos n (f : nat -> C) : (forall i, (i < n)%nat -> fst (f i) <= 0) -> fst (csum n f) <= 0.
Proof. intros H. rewrite fst_csum. eapply Rle_trans; [apply rsum_le, H|]. rewrite rsum_zero. apply Rle_refl. Qed.

Lemma ksum_opp nk F : ksum nk (fun k => - F k)%C = (- ksum nk F)%C.
Proof. transitivity (ksum nk (fun k => RtoC (-1) * F k)%C); [apply ksum_ext; intros; cring|]. rewrite ksum_scal. cring. Qed.

Lemma ksum_nonneg nk F : (forall k, on_mesh nk k -> 0 <= fst (F k)) -> 0 <= fst (ksum nk F).
Proof. intros H. pose proof (ksum_nonpos nk (fun k => - F k)%C) as N. rewrite ksum_opp in N. cbn in N. assert (fst (ksum nk F) >= 0); [|lra]. enough (- fst (ksum nk F) <= 0) by lra. apply N. intros k Hk. specialize (H k Hk). lra. Qed.

Lemma ksum_le nk F G : (forall k, on_mesh nk k -> fst (F k) <= fst (G k)) -> fst (ksum nk F) <= fst (ksum nk G).
Proof.
  intros H. pose proof (ksum_nonpos nk (fun k => F k + - G k)%C) as N. rewrite ksum_plus, ksum_opp in N. cbn in N.
  enough (fst (ksum nk F) + - fst (ksum nk G) <= 0) by lra. apply N. intros k Hk. specialize (H k Hk). lra.
Qed.

Lemma csum_le n F G : (forall k, (k < n)%nat -> fst (F k) <= fst (G k)) -> fst (csum n F) <= fst (csum n G).
Proof. intros H. rewrite !fst_csum. apply rsum_le, H. Qed.

Lemma at_kq_eq {A} nk q (F : pt -> A) k : at_kq nk q F k = F (kadd nk q k).
Proof. destruct nk as [[n1 n2] n3], q as [[q1 q2] q3], k as [[i j] l]. reflexivity. Qed.

Lemma kadd_on nk q k : nonempty nk -> on_mesh nk (kadd nk q k).
Proof. destruct nk as [[n1 n2] n3], q as [[q1 q2] q3], k as [[i j] l]. cbn. intros (H1 & H2 & H3). repeat split; apply Nat.mod_upper_bound; lia. Qed.

Lemma nonempty_prod nk : nonempty nk -> 0 < INR (prod nk).
Proof. destruct nk as [[n1 n2] n3]. cbn. intros (H1 & H2 & H3). apply lt_0_INR. nia. Qed.

(** ** Indices of q points *)
Lemma np_round_near x : Rabs (IZR (np_round x) - x) <= 1 / 2.
Proof.
  unfold np_round. destruct (base_Int_part x) as [H1 H2]. set (z := Int_part x) in *.
  destruct (Rlt_dec (x - IZR z) (1 / 2)); [apply Rabs_le; lra|].
  destruct (Rlt_dec (1 / 2) (x - IZR z)); [rewrite plus_IZR; apply Rabs_le; lra|].
  destruct (Z.even z); [|rewrite plus_IZR]; apply Rabs_le; lra.
Qed.

Lemma IZR_lt_1 m n : Rabs (IZR m - IZR n) < 1 -> m = n.
Proof. intros H. rewrite <- minus_IZR in H. apply Rabs_def2 in H. destruct H as [H1 H2]. apply (lt_IZR _ 1) in H1. apply (lt_IZR (-1)) in H2. lia. Qed.

Lemma np_round_unique x z : Rabs (IZR z - x) < 1 / 2 -> np_round x = z.
Proof.
  intros H. pose proof (np_round_near x) as N. apply IZR_lt_1.
  replace (IZR (np_round x) - IZR z) with ((IZR (np_round x) - x) + - (IZR z - x)) by ring. eapply Rle_lt_trans; [apply Rabs_triang|]. rewrite Rabs_Ropp. lra.
Qed.

Lemma np_round_half x z : x = IZR z + 1 / 2 -> np_round x = if Z.even z then z else (z + 1)%Z.
Proof.
  intros H. unfold np_round. assert (E : Int_part x = z).
  { destruct (base_Int_part x) as [H1 H2]. apply IZR_lt_1. apply Rabs_def1; lra. }
  rewrite E. destruct Rlt_dec; [lra|]. destruct Rlt_dec; [lra|]. reflexivity.
Qed.

Lemma np_round_opp x : np_round (- x) = (- np_round x)%Z.
Proof.
  pose proof (np_round_near x) as N. destruct (Req_dec (Rabs (IZR (np_round x) - x)) (1 / 2)) as [E|NE].
  - destruct (base_Int_part x) as [H1 H2]. set (z := Int_part x) in *.
    assert (Hx : x = IZR z + 1 / 2).
    { unfold np_round in E. fold z in E. destruct (Rlt_dec (x - IZR z) (1 / 2)).
      - revert E. unfold Rabs. destruct Rcase_abs; lra.
      - destruct (Rlt_dec (1 / 2) (x - IZR z)); [|lra]. rewrite plus_IZR in E. revert E. unfold Rabs. destruct Rcase_abs; lra. }
    rewrite (np_round_half x z Hx), (np_round_half (- x) (- z - 1)) by (rewrite minus_IZR, opp_IZR; lra).
    replace (- z - 1)%Z with (- (z + 1))%Z by lia. rewrite Z.even_opp, Z.even_add. destruct (Z.even z); cbn; lia.
  - apply np_round_unique. rewrite opp_IZR. replace (- IZR (np_round x) - - x) with (- (IZR (np_round x) - x)) by ring. rewrite Rabs_Ropp. lra.
Qed.

Lemma q_index_lt n q : (0 < n)%nat -> (q_index n q < n)%nat.
Proof. intros H. unfold q_index. pose proof (Z.mod_pos_bound (np_round (q * (INR n / (2 * PI)))) (Z.of_nat n) ltac:(lia)). lia. Qed.

Lemma q_index_opp n q : (0 < n)%nat -> ((q_index n q + q_index n (- q)) mod n = 0)%nat.
Proof.
  intros H. unfold q_index. replace (- q * (INR n / (2 * PI))) with (- (q * (INR n / (2 * PI)))) by ring. rewrite np_round_opp.
  set (z := np_round _). apply Nat2Z.inj. rewrite Nat2Z.inj_mod, Nat2Z.inj_add.
  pose proof (Z.mod_pos_bound z (Z.of_nat n) ltac:(lia)). pose proof (Z.mod_pos_bound (- z) (Z.of_nat n) ltac:(lia)).
  rewrite !Z2Nat.id by lia. rewrite <- Z.add_mod by lia. replace (z + - z)%Z with 0%Z by lia. apply Z.mod_0_l. lia.
Qed.

Lemma q_index_mesh n m : (0 < n)%nat -> q_index n (2 * PI * INR m / INR n) = (m mod n)%nat.
Proof.
  intros H. unfold q_index. pose proof PI_RGT_0. pose proof (lt_0_INR n H).
  replace (2 * PI * INR m / INR n * (INR n / (2 * PI))) with (INR m) by (field; lra).
  rewrite (np_round_unique _ (Z.of_nat m)) by (rewrite <- INR_IZR_INZ, Rminus_diag_eq, Rabs_R0 by reflexivity; lra).
  rewrite <- Nat2Z.inj_mod. apply Nat2Z.id.
Qed.


(** The index of -q is the negative index. *)
Lemma kadd_neg nk q k : on_mesh nk k -> kadd nk (q_indices nk (qneg q)) (kadd nk (q_indices nk q) k) = k.
Proof.
  destruct nk as [[n1 n2] n3], q as [[x y] z], k as [[i j] l]. cbn [on_mesh qneg q_indices kadd]. intros (H1 & H2 & H3).
  assert (E : forall n q i, (i < n)%nat -> ((q_index n (- q) + (q_index n q + i) mod n) mod n = i)%nat).
  { clear. intros n q i H. rewrite Nat.add_mod_idemp_r by lia. replace (q_index n (- q) + (q_index n q + i))%nat with ((q_index n q + q_index n (- q)) + i)%nat by lia.
    rewrite <- Nat.add_mod_idemp_l, q_index_opp by lia. cbn [plus]. apply Nat.mod_small, H. }
  rewrite !E by assumption. reflexivity.
Qed.

Lemma q_indices_point nk m : nonempty nk -> on_mesh nk m -> q_indices nk (q_point nk m) = m.
Proof.
  destruct nk as [[n1 n2] n3], m as [[i j] l]. cbn [nonempty on_mesh q_point q_indices]. intros (N1 & N2 & N3) (H1 & H2 & H3).
  rewrite !q_index_mesh, !Nat.mod_small by assumption. reflexivity.
Qed.

Lemma qneg_qneg q : qneg (qneg q) = q.
Proof. destruct q as [[x y] z]. cbn. rewrite !Ropp_involutive. reflexivity. Qed.

(** ** Distribution of q points *)
Lemma Gatherv_self {A} (parts : list (list A)) : Gatherv (map (@length A) parts) parts = Ok (concat parts).
Proof. induction parts as [|p parts IH]; [reflexivity|]. cbn [map Gatherv concat]. rewrite Nat.eqb_refl, IH. reflexivity. Qed.

Lemma local_ranges_concat sizes : forall c, Forall (fun x => (0 <= x)%Z) sizes -> (0 <= c)%Z ->
  concat (local_ranges (cumsum_from c sizes)) = seq (Z.to_nat c) (Z.to_nat (sumZ sizes)).
Proof.
  induction sizes as [|s sizes IH]; intros c Hs Hc; [reflexivity|]. inversion Hs as [|? ? H1 H2]; subst.
  assert (E : local_ranges (cumsum_from c (s :: sizes)) = seq (Z.to_nat c) (Z.to_nat s) :: local_ranges (cumsum_from (c + s) sizes)).
  { destruct sizes; cbn [cumsum_from local_ranges]; replace (c + s - c)%Z with s by lia; reflexivity. }
  rewrite E. cbn [concat sumZ]. rewrite IH by (assumption || lia).
  assert (P : (0 <= sumZ sizes)%Z) by (clear -H2; induction H2; cbn [sumZ]; lia).
  replace (Z.to_nat (s + sumZ sizes)) with (Z.to_nat s + Z.to_nat (sumZ sizes))%nat by lia. rewrite seq_app. do 2 f_equal. lia.
Qed.

Lemma distributed_ok {A} nproc nQ (f : nat -> A) : (0 < nproc)%Z -> distributed nproc nQ f = Ok (map f (seq 0 nQ)).
Proof.
  intros H. destruct (distribute_spec (Z.of_nat nQ) nproc ltac:(lia) H) as (sizes & bounds & E & _ & Sum & Pos & _). unfold distributed. rewrite E. cbn [bind].
  assert (Eb : bounds = cumsum_from 0 sizes). { unfold distribute in E. destruct (distribute_sizes (Z.of_nat nQ) nproc); cbn in E; congruence. }
  rewrite Gatherv_self, <- concat_map, Eb, local_ranges_concat, Sum, Nat2Z.id; [reflexivity| |lia].
  apply Forall_forall. intros x Hx. apply In_nth_error in Hx. destruct Hx as [i Hi]. specialize (Pos i i x x Hi Hi ltac:(lia)). lia.
Qed.
