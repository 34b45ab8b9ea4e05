(** Sparse variant, initialization, densities, smooth smearings, aliasing. *)
From Coq Require Import Reals Lra Lia List Arith Permutation.
From Coquelicot Require Import Coquelicot.
From Verif Require Import Cx CxProofs HermSpec HermProofs HermPath MdModel MdSpec MdProofs.
From Verif Require OccModel OccProofs OccProofs2 OccFermi.
Local Open Scope R_scope.

(** ** Smooth smearing functions *)
Lemma lipschitz_of (h h' : R -> R) c : 0 <= c -> (forall x, is_derive h x (h' x)) -> (forall x, Rabs (h' x) <= c) -> forall x y, Rabs (h x - h y) <= c * Rabs (x - y).
Proof.
  intros Hc D B x y. destruct (Rtotal_order x y) as [L|[->|G]].
  - destruct (MVT_cor2 h h' x y L) as (z & E & _); [intros; apply OccProofs.dlim, D|]. rewrite Rabs_minus_sym, E, Rabs_mult, (Rabs_minus_sym x y). apply Rmult_le_compat_r; [apply Rabs_pos|apply B].
  - rewrite !Rminus_diag_eq, Rabs_R0 by reflexivity. lra.
  - destruct (MVT_cor2 h h' y x G) as (z & E & _); [intros; apply OccProofs.dlim, D|]. rewrite E, Rabs_mult. apply Rmult_le_compat_r; [apply Rabs_pos|apply B].
Qed.

Definition fermi_dirac_smearing := mk_smearing OccModel.fermi_dirac OccModel.fermi_dirac_delta OccModel.fermi_dirac_entropy.
Definition gauss_smearing := mk_smearing OccModel.gauss OccModel.gauss_delta OccModel.gauss_entropy.

Lemma Rmin_lipschitz x y a : Rabs (Rmin x a - Rmin y a) <= Rabs (x - y).
Proof. unfold Rmin. destruct (Rle_dec x a), (Rle_dec y a); unfold Rabs; repeat destruct Rcase_abs; lra. Qed.

Lemma FDp_bound x : Rabs (OccProofs.FDp x) <= 1.
Proof.
  unfold OccProofs.FDp. pose proof (OccProofs.cosh_pos x) as C. assert (S : Rabs (sinh x) <= cosh x).
  { pose proof (exp_pos x). pose proof (exp_pos (- x)). unfold sinh, cosh. apply Rabs_le. lra. }
  unfold Rdiv. rewrite Rabs_mult, Rabs_Ropp, Rabs_inv. assert (Q : 0 < 2 * (cosh x + 1) ^ 2) by (apply Rmult_lt_0_compat; [lra|apply pow_lt; lra]).
  rewrite (Rabs_right (2 * (cosh x + 1) ^ 2)) by lra. apply Rmult_le_reg_r with (2 * (cosh x + 1) ^ 2); [exact Q|]. rewrite Rmult_assoc, Rinv_l by lra. nra.
Qed.

Lemma FDd_le1 x : Rabs (- OccProofs.FDd x) <= 1.
Proof. rewrite Rabs_Ropp, OccProofs.FDd_f. pose proof (OccProofs.FDf_bound x). apply Rabs_le. nra. Qed.

Theorem fermi_dirac_smooth : smooth 709 fermi_dirac_smearing.
Proof.
  constructor; cbn [occ delta entropy fermi_dirac_smearing].
  - intros x y. apply OccProofs2.fd_occupation.
  - exists 1. split; [lra|]. intros x y. rewrite !OccProofs.fd_Rmin. eapply Rle_trans.
    + apply (lipschitz_of OccProofs.FDf (fun x => - OccProofs.FDd x) 1); [lra|apply OccProofs.FDf_derive|apply FDd_le1].
    + rewrite !Rmult_1_l. apply Rmin_lipschitz.
  - intros x Hx. apply OccProofs.dlim, OccProofs.fd_derive, Hx.
  - intros x Hx. apply OccProofs.dlim, OccProofs.fds_derive, Hx.
  - intros x Hx. rewrite OccProofs.fdd_in by (unfold OccModel.xmax; lra). apply OccProofs.FDd_bound.
  - exists 1. split; [lra|]. intros x y Hx Hy. rewrite !OccProofs.fdd_in by (unfold OccModel.xmax; lra).
    apply (lipschitz_of OccProofs.FDd OccProofs.FDp 1); [lra|apply OccProofs.FDd_derive|apply FDp_bound].
Qed.

Lemma sqrt_PI_1 : 1 < sqrt PI.
Proof. rewrite <- sqrt_1. apply sqrt_lt_1; pose proof PI2_3_2; lra. Qed.

Lemma exp_sqr_bound x : 0 < exp (- x * x) <= 1 /\ Rabs (2 * x * exp (- x * x)) <= 1.
Proof.
  rewrite OccProofs.exp_neg_sqr. pose proof (exp_pos (- (x * x))) as P. pose proof (exp_ineq1_le (x * x)) as I.
  assert (E : exp (- (x * x)) * exp (x * x) = 1) by (rewrite <- exp_plus, <- exp_0; f_equal; ring).
  pose proof (Rle_0_sqr x) as Q. unfold Rsqr in Q. assert (B : exp (- (x * x)) * (1 + x * x) <= 1) by (rewrite <- E; apply Rmult_le_compat_l; lra).
  split; [split; [exact P|nra]|]. rewrite Rabs_mult, (Rabs_right (exp (- (x * x)))) by lra.
  assert (Rabs (2 * x) <= 1 + x * x). { apply Rabs_le. pose proof (Rle_0_sqr (x - 1)). pose proof (Rle_0_sqr (x + 1)). unfold Rsqr in *. split; lra. }
  nra.
Qed.

Theorem gauss_smooth X : smooth X gauss_smearing.
Proof.
  pose proof sqrt_PI_1 as P1.
  assert (div : forall z, Rabs z <= 1 -> Rabs (z / sqrt PI) <= 1).
  { intros z Hz. unfold Rdiv. rewrite Rabs_mult, Rabs_inv, (Rabs_right (sqrt PI)) by lra. apply Rmult_le_reg_r with (sqrt PI); [lra|]. rewrite Rmult_assoc, Rinv_l by lra. lra. }
  constructor; cbn [occ delta entropy gauss_smearing].
  - intros x y. apply OccProofs2.gauss_occupation.
  - exists 1. split; [lra|]. apply (lipschitz_of OccModel.gauss (fun x => - OccModel.gauss_delta x) 1); [lra|apply OccProofs.gauss_derive|].
    intros x. rewrite Rabs_Ropp. unfold OccModel.gauss_delta. apply div. pose proof (exp_sqr_bound x). rewrite Rabs_right; lra.
  - intros x _. apply OccProofs.dlim, OccProofs.gauss_derive.
  - intros x _. apply OccProofs.dlim, OccProofs.gauss_entropy_derive.
  - intros x _. unfold OccModel.gauss_delta. apply Rdiv_lt_0_compat; [apply exp_pos|lra].
  - exists 1. split; [lra|]. intros x y _ _. revert x y. apply (lipschitz_of OccModel.gauss_delta OccModel.gauss_delta_prime 1); [lra|apply OccProofs.gauss_delta_derive|].
    intros x. unfold OccModel.gauss_delta_prime. apply div. destruct (exp_sqr_bound x) as [_ B].
    replace (- 2 * x * exp (- x * x)) with (- (2 * x * exp (- x * x))) by ring. rewrite Rabs_Ropp. exact B.
Qed.

(** ** Net forces *)
Lemma rsum_triples N g : rsum (3 * N) g = rsum N (fun a => rsum 3 (fun c => g (3 * a + c)%nat)).
Proof.
  induction N as [|N IH]; [reflexivity|]. replace (3 * S N)%nat with (S (S (S (3 * N)))) by lia. cbn [rsum] in *. rewrite IH.
  replace (3 * N + 0)%nat with (3 * N)%nat by lia. replace (3 * N + 1)%nat with (S (3 * N)) by lia. replace (3 * N + 2)%nat with (S (S (3 * N))) by lia. ring.
Qed.

Lemma dot_center N j v : (forall c, (c < 3)%nat -> rsum N (fun a => j (3 * a + c)%nat) = 0) -> dot (3 * N) j (center_mass N v) = dot (3 * N) j v.
Proof.
  intros H. unfold dot, center_mass. rewrite (rsum_ext (3 * N) _ (fun x => j x * v x - j x * average N v (x mod 3))) by (intros; ring). rewrite rsum_minus.
  rewrite (rsum_triples N (fun x => j x * average N v (x mod 3))), rsum_swap, (rsum_ext 3 _ (fun _ => 0)); [rewrite rsum_zero; ring|].
  intros c Hc. rewrite (rsum_ext N _ (fun a => j (3 * a + c)%nat * average N v c)).
  - rewrite rsum_scal_r, (H c Hc). ring.
  - intros a _. f_equal. f_equal. rewrite Nat.add_comm, Nat.mul_comm, Nat.mod_add by lia. apply Nat.mod_small, Hc.
Qed.

Lemma dot_unit N j x : (x < N)%nat -> dot N j (unit_vector x) = j x.
Proof.
  intros H. unfold dot, unit_vector. rewrite <- (rsum_delta N x j H). apply rsum_ext. intros y _. rewrite Nat.eqb_sym. destruct (Nat.eqb y x); ring.
Qed.

Lemma first_order_sum dr st N (w : nat -> nat) : (forall k a b, (k < nk dr)%nat -> (a < norb dr)%nat -> (b < norb dr)%nat -> csum N (fun i => d0 dr (w i) k a b) = RtoC 0) ->
  csum N (fun i => first_order dr st (d0 dr) (w i)) = RtoC 0.
Proof.
  intros H. unfold first_order. cbv zeta. rewrite csum_scal, csum_swap, (csum_ext (nk dr) _ (fun _ => RtoC 0)); [rewrite csum_zero; ring|]. intros k Hk.
  rewrite csum_swap, (csum_ext (norb dr) _ (fun _ => RtoC 0)); [apply csum_zero|]. intros a Ha. rewrite csum_swap, (csum_ext (norb dr) _ (fun _ => RtoC 0)); [apply csum_zero|]. intros b Hb.
  rewrite csum_scal, (H k b a Hk Hb Ha). ring.
Qed.

Lemma net_force dr st c : acoustic dr -> (c < 3)%nat -> rsum (nat_ dr) (fun a => jacobian dr st (3 * a + c)%nat) = 0.
Proof.
  intros A Hc. unfold jacobian. rewrite !rsum_plus, (ac_F0 dr A c Hc).
  rewrite <- (fst_csum (nat_ dr) (fun a => first_order dr st (d0 dr) (3 * a + c)%nat)), (first_order_sum dr st (nat_ dr) (fun a => (3 * a + c)%nat)) by (intros; apply (ac_d0 dr A); assumption).
  rewrite rsum_swap, (rsum_ext (size dr) _ (fun _ => 0)); [rewrite rsum_zero; cbn; ring|]. intros y Hy. rewrite rsum_scal_r, (ac_C0 dr A c y Hc Hy). ring.
Qed.

(** ** Sparse matrices *)
Section Sparse.
  Variables (dr : sparse_driver) (st : sparse_state) (m0 : option R).
  Let N := s_norb dr.

  Lemma embed_hamiltonian u k a b : hamiltonian (embed dr) u k a b = RtoC (sparse_hamiltonian dr u a b).
  Proof.
    unfold hamiltonian, sparse_hamiltonian, embed, size. cbn [H0 d0 nat_]. rewrite RtoC_plus', RtoC_rsum. f_equal. apply csum_ext. intros x _. rewrite RtoC_mult'. ring.
  Qed.

  Lemma RtoC_csum2 g : csum N (fun a => csum N (fun b => RtoC (g a b))) = RtoC (rsum N (fun a => rsum N (fun b => g a b))).
  Proof. rewrite RtoC_rsum. apply csum_ext. intros a _. symmetry. apply RtoC_rsum. Qed.

  Lemma embed_jacobian x : (forall x a b, (x < s_size dr)%nat -> (a < N)%nat -> (b < N)%nat -> s_d0 dr x a b = s_d0 dr x b a) -> (x < s_size dr)%nat ->
    jacobian (embed dr) (embed_state st m0) x = sparse_jacobian dr st x.
  Proof.
    intros Sym Hx. unfold jacobian, sparse_jacobian, size, s_size, embed, embed_state. cbn [nat_ C0 F0 u d0]. f_equal. f_equal.
    unfold first_order. cbn [nk norb MdModel.f kT e U]. cbv zeta. fold N. rewrite fst_RtoC_mult. replace (2 / INR 1) with 2 by (cbn; field). f_equal.
    cbn [csum]. unfold multiply_sum. fold N.
    rewrite (csum_ext N _ (fun a => csum N (fun b => RtoC (s_d0 dr x a b * rsum N (fun m => s_U st a m * occ (s_f dr) (s_e st m / s_kT dr) * s_U st b m))))).
    - rewrite (RtoC_csum2 (fun a b => s_d0 dr x a b * rsum N (fun m => s_U st a m * occ (s_f dr) (s_e st m / s_kT dr) * s_U st b m))). cbn. ring.
    - intros a Ha. apply csum_ext. intros b Hb. rewrite (Sym x b a Hx Hb Ha), RtoC_mult', RtoC_rsum, Cmult_comm. f_equal. apply csum_ext. intros m _.
      rewrite !RtoC_mult', conj_R. reflexivity.
  Qed.

  Definition sg x m n := rsum N (fun a => s_U st a m * rsum N (fun b => s_d0 dr x a b * s_U st b n)).

  Lemma embed_coupling x k m n : coupling (embed dr) (embed_state st m0) x k m n = RtoC (sg x m n).
  Proof.
    unfold coupling, sg, embed, embed_state. cbn [norb U d0]. fold N. rewrite RtoC_rsum.
    transitivity (csum N (fun b => csum N (fun a => RtoC (s_U st a m * s_d0 dr x a b * s_U st b n)))).
    - apply csum_ext. intros b _. rewrite <- csum_scal_r. apply csum_ext. intros a _. rewrite conj_R, !RtoC_mult'. reflexivity.
    - rewrite csum_swap. apply csum_ext. intros a _. rewrite <- RtoC_rsum. f_equal. rewrite <- rsum_scal. apply rsum_ext. intros b _. ring.
  Qed.

  Lemma multiply_sum_U x (w : nat -> nat -> R) :
    multiply_sum N (s_d0 dr x) (fun a b => rsum N (fun n => rsum N (fun m => s_U st a m * w m n) * s_U st b n)) = rsum N (fun m => rsum N (fun n => sg x m n * w m n)).
  Proof.
    unfold multiply_sum, sg.
    transitivity (rsum N (fun a => rsum N (fun b => rsum N (fun n => rsum N (fun m => s_U st a m * s_d0 dr x a b * s_U st b n * w m n))))).
    { apply rsum_ext. intros a _. apply rsum_ext. intros b _. rewrite <- rsum_scal. apply rsum_ext. intros n _. rewrite <- rsum_scal_r, <- rsum_scal. apply rsum_ext. intros m _. ring. }
    transitivity (rsum N (fun n => rsum N (fun m => rsum N (fun a => rsum N (fun b => s_U st a m * s_d0 dr x a b * s_U st b n * w m n))))).
    { rewrite (rsum_ext N _ (fun a => rsum N (fun n => rsum N (fun m => rsum N (fun b => s_U st a m * s_d0 dr x a b * s_U st b n * w m n))))).
      - rewrite rsum_swap. apply rsum_ext. intros n _. apply rsum_swap.
      - intros a _. rewrite rsum_swap. apply rsum_ext. intros n _. apply rsum_swap. }
    rewrite rsum_swap. apply rsum_ext. intros m _. apply rsum_ext. intros n _. rewrite <- rsum_scal_r. apply rsum_ext. intros a _. rewrite <- rsum_scal, <- rsum_scal_r. apply rsum_ext. intros b _. ring.
  Qed.

  Lemma multiply_sum_diag x (w : nat -> R) :
    multiply_sum N (s_d0 dr x) (fun a b => rsum N (fun m => s_U st a m * w m * s_U st b m)) = rsum N (fun m => w m * sg x m m).
  Proof.
    unfold multiply_sum, sg.
    transitivity (rsum N (fun a => rsum N (fun b => rsum N (fun m => w m * (s_U st a m * (s_d0 dr x a b * s_U st b m)))))).
    { apply rsum_ext. intros a _. apply rsum_ext. intros b _. rewrite <- rsum_scal. apply rsum_ext. intros m _. ring. }
    rewrite (rsum_ext N _ (fun a => rsum N (fun m => rsum N (fun b => w m * (s_U st a m * (s_d0 dr x a b * s_U st b m)))))) by (intros; apply rsum_swap).
    rewrite rsum_swap. apply rsum_ext. intros m _. rewrite <- rsum_scal. apply rsum_ext. intros a _. rewrite <- !rsum_scal. reflexivity.
  Qed.

  Lemma sg_sym x m n : (forall a b, (a < N)%nat -> (b < N)%nat -> s_d0 dr x a b = s_d0 dr x b a) -> sg x m n = sg x n m.
  Proof.
    intros Sym. unfold sg. transitivity (rsum N (fun a => rsum N (fun b => s_U st a m * (s_d0 dr x a b * s_U st b n)))); [apply rsum_ext; intros; symmetry; apply rsum_scal|].
    rewrite rsum_swap. apply rsum_ext. intros b Hb. rewrite <- rsum_scal. apply rsum_ext. intros a Ha. rewrite (Sym a b Ha Hb). ring.
  Qed.

  Lemma embed_hessian eps x y :
    0 < s_kT dr -> 0 < rsum N (fun m => delta (s_f dr) (s_e st m / s_kT dr)) -> 0 <= eps ->
    (x < s_size dr)%nat -> (y < s_size dr)%nat ->
    hessian (embed dr) (embed_state st m0) eps x y = sparse_hessian dr st eps x y.
  Proof.
    intros HkT Hdos He Hx Hy.
    assert (Main : forall x y, (x < s_size dr)%nat -> (y < s_size dr)%nat -> hessian (embed dr) (embed_state st m0) eps x y = 
       2 * rsum N (fun m => rsum N (fun n => sg x m n * sg y m n * dfde (embed dr) (embed_state st m0) eps 0 m n)) +
       2 * (rsum N (fun m => delta (s_f dr) (s_e st m / s_kT dr) / s_kT dr * sg x m m) * rsum N (fun m => delta (s_f dr) (s_e st m / s_kT dr) / s_kT dr * sg y m m)
         / rsum N (fun m => delta (s_f dr) (s_e st m / s_kT dr) / s_kT dr)) + s_C0 dr x y).
    { clear x y Hx Hy. intros x y Hx Hy. unfold hessian, force_constants. cbn [fst Cplus C0 embed]. cbn [RtoC fst]. f_equal. f_equal.
      - unfold phonon_self_energy. rewrite fst_RtoC_mult. change (nk (embed dr)) with 1%nat. change (norb (embed dr)) with N. replace (2 / INR 1) with 2 by (cbn; field). f_equal. cbn [csum].
        rewrite (csum_ext N _ (fun m => csum N (fun n => RtoC (sg x m n * sg y m n * dfde (embed dr) (embed_state st m0) eps 0 m n)))).
        + rewrite (RtoC_csum2 (fun m n => sg x m n * sg y m n * dfde (embed dr) (embed_state st m0) eps 0 m n)). cbn. ring.
        + intros m _. apply csum_ext. intros n _. rewrite !embed_coupling, conj_R, !RtoC_mult'. reflexivity.
      - unfold fermi_shift. cbv zeta. change (nk (embed dr)) with 1%nat. change (norb (embed dr)) with N. cbn [csum rsum MdModel.f kT embed e embed_state].
        set (D := rsum N (fun m => delta (s_f dr) (s_e st m / s_kT dr) / s_kT dr)).
        assert (DP : 0 < D). { unfold D. replace (rsum N (fun m => delta (s_f dr) (s_e st m / s_kT dr) / s_kT dr)) with (rsum N (fun m => delta (s_f dr) (s_e st m / s_kT dr)) * / s_kT dr) by (symmetry; apply (rsum_scal_r N (/ s_kT dr) (fun m => delta (s_f dr) (s_e st m / s_kT dr)))). apply Rmult_lt_0_compat; [exact Hdos|apply Rinv_0_lt_compat, HkT]. }
        assert (Av : forall z, csum N (fun n => RtoC (delta (s_f dr) (s_e st n / s_kT dr) / s_kT dr) * coupling (embed dr) (embed_state st m0) z 0 n n)%C = RtoC (rsum N (fun m => delta (s_f dr) (s_e st m / s_kT dr) / s_kT dr * sg z m m))).
        { intros z. rewrite RtoC_rsum. apply csum_ext. intros m _. rewrite embed_coupling, RtoC_mult'. reflexivity. }
        rewrite !Av. rewrite fst_RtoC_mult. rewrite Rplus_0_l.
        set (A1 := rsum N (fun m => delta (s_f dr) (s_e st m / s_kT dr) / s_kT dr * sg x m m)). set (A2 := rsum N (fun m => delta (s_f dr) (s_e st m / s_kT dr) / s_kT dr * sg y m m)).
        replace (fst ((RtoC 0 + RtoC A1) / RtoC D * ((RtoC 0 + RtoC A2) / RtoC D)))%C with (A1 / D * (A2 / D)).
        + cbn. field. lra.
        + unfold Cdiv. rewrite <- !RtoC_plus', <- RtoC_inv by lra. rewrite <- !RtoC_mult'. cbn. rewrite !Rplus_0_l. reflexivity. }
    assert (Pair : forall x y, (x < s_size dr)%nat -> (y < s_size dr)%nat ->
      (let N := s_norb dr in
  let f m := 2 * occ (s_f dr) (s_e st m / s_kT dr) in
  let d m := 2 * delta (s_f dr) (s_e st m / s_kT dr) / - s_kT dr in
  let dfde m n := let de := s_e st m - s_e st n in if Rlt_dec eps (Rabs de) then (f m - f n) / de else d n in
  let dos := - rsum N d in
  let d_orb a b := rsum N (fun m => s_U st a m * d m * s_U st b m) in
  let avg x := multiply_sum N (s_d0 dr x) d_orb / sqrt dos in
    let gx m n := rsum N (fun a => s_U st a m * rsum N (fun b => s_d0 dr x a b * s_U st b n)) in
    let gx' a b := rsum N (fun n => rsum N (fun m => s_U st a m * (gx m n * dfde m n)) * s_U st b n) in
    multiply_sum N (s_d0 dr y) gx' + avg x * avg y) + s_C0 dr x y = hessian (embed dr) (embed_state st m0) eps x y).
    { clear x y Hx Hy. intros x y Hx Hy. rewrite (Main x y Hx Hy). cbv beta zeta. fold N. f_equal.
      rewrite (multiply_sum_U y (fun m n => rsum N (fun a => s_U st a m * rsum N (fun b => s_d0 dr x a b * s_U st b n)) *
         (if Rlt_dec eps (Rabs (s_e st m - s_e st n)) then (2 * occ (s_f dr) (s_e st m / s_kT dr) - 2 * occ (s_f dr) (s_e st n / s_kT dr)) / (s_e st m - s_e st n) else 2 * delta (s_f dr) (s_e st n / s_kT dr) / - s_kT dr))).
      f_equal.
      - rewrite <- rsum_scal. apply rsum_ext. intros m _. rewrite <- rsum_scal. apply rsum_ext. intros n _. fold (sg x m n).
        unfold dfde. cbv zeta. cbn [e embed_state MdModel.f kT embed]. rewrite (Rabs_minus_sym (s_e st n)). destruct (Rlt_dec eps (Rabs (s_e st m - s_e st n))) as [G|G].
        + assert (s_e st m - s_e st n <> 0). { intros E. rewrite E, Rabs_R0 in G. lra. } field. split; lra.
        + field. lra.
      - rewrite !(multiply_sum_diag _ (fun m => 2 * delta (s_f dr) (s_e st m / s_kT dr) / - s_kT dr)).
        set (D := rsum N (fun m => delta (s_f dr) (s_e st m / s_kT dr) / s_kT dr)).
        assert (DP : 0 < D). { unfold D. replace (rsum N (fun m => delta (s_f dr) (s_e st m / s_kT dr) / s_kT dr)) with (rsum N (fun m => delta (s_f dr) (s_e st m / s_kT dr)) * / s_kT dr) by (symmetry; apply (rsum_scal_r N (/ s_kT dr) (fun m => delta (s_f dr) (s_e st m / s_kT dr)))). apply Rmult_lt_0_compat; [exact Hdos|apply Rinv_0_lt_compat, HkT]. }
        assert (Ed : rsum N (fun m => 2 * delta (s_f dr) (s_e st m / s_kT dr) / - s_kT dr) = -2 * D).
        { unfold D. rewrite <- rsum_scal. apply rsum_ext. intros m _. field. lra. }
        assert (Ea : forall z, rsum N (fun m => 2 * delta (s_f dr) (s_e st m / s_kT dr) / - s_kT dr * sg z m m) = -2 * rsum N (fun m => delta (s_f dr) (s_e st m / s_kT dr) / s_kT dr * sg z m m)).
        { intros z. rewrite <- rsum_scal. apply rsum_ext. intros m _. field. lra. }
        rewrite Ed, !Ea. assert (SQ : sqrt (- (-2 * D)) * sqrt (- (-2 * D)) = 2 * D) by (rewrite sqrt_sqrt by lra; ring).
        assert (SP : 0 < sqrt (- (-2 * D))) by (apply sqrt_lt_R0; lra).
        set (A1 := rsum N (fun m => delta (s_f dr) (s_e st m / s_kT dr) / s_kT dr * sg x m m)). set (A2 := rsum N (fun m => delta (s_f dr) (s_e st m / s_kT dr) / s_kT dr * sg y m m)).
        replace (-2 * A1 / sqrt (- (-2 * D)) * (-2 * A2 / sqrt (- (-2 * D)))) with (4 * A1 * A2 / (sqrt (- (-2 * D)) * sqrt (- (-2 * D)))) by (field; lra).
        rewrite SQ. field. lra. }
    unfold sparse_hessian. cbv beta zeta in Pair |- *. destruct (Nat.leb x y) eqn:L; [symmetry; apply (Pair x y Hx Hy)|].
    pose proof (Pair y x Hy Hx) as Pyx. rewrite (Main y x Hy Hx) in Pyx. rewrite (Main x y Hx Hy). symmetry.
    match goal with |- ?p + _ = _ => assert (Ep : p = 2 * rsum N (fun m => rsum N (fun n => sg y m n * sg x m n * dfde (embed dr) (embed_state st m0) eps 0 m n)) +
       2 * (rsum N (fun m => delta (s_f dr) (s_e st m / s_kT dr) / s_kT dr * sg y m m) * rsum N (fun m => delta (s_f dr) (s_e st m / s_kT dr) / s_kT dr * sg x m m)
         / rsum N (fun m => delta (s_f dr) (s_e st m / s_kT dr) / s_kT dr))) by (apply (Rplus_eq_reg_r (s_C0 dr y x)); exact Pyx); rewrite Ep end.
    f_equal. f_equal.
    - f_equal. apply rsum_ext. intros m _. apply rsum_ext. intros n _. ring.
    - f_equal. unfold Rdiv. ring.
  Qed.
End Sparse.
