(** Properties of diagrams (elphmod/diagrams.py). *)
From Coq Require Import Reals Lra Lia List ZArith Arith.
From Coquelicot Require Import Coquelicot.
From Verif Require Import Common Cx CxProofs MPIModel MdModel OccModel OccSpec OccProofs OccProps DiagModel DiagSpec DiagProofs DiagProofs2 DiagProofs3 DiagProofs4.
Import ListNotations.
Local Open Scope R_scope.

(** Smearing functions that meet the hypotheses below *)
Definition lorentz_smearing : MdModel.smearing := mk_smearing lorentz lorentz_delta (fun _ => 0).
Definition gauss_smearing : MdModel.smearing := mk_smearing gauss gauss_delta gauss_entropy.

Lemma fd_ok : decreasing fd_smearing /\ fraction fd_smearing /\ nonneg (delta fd_smearing).
Proof.
  split; [|split].
  - intros x y H. cbn. rewrite !fd_Rmin. apply FDf_nonincreasing. apply Rle_min_compat_r. exact H.
  - intros x. cbn. rewrite fd_Rmin. pose proof (FDf_bound (Rmin x xmax)). lra.
  - intros x. cbn. unfold fermi_dirac_delta. pose proof (cosh_pos (Rmin (Rabs x) xmax)). left. apply Rdiv_lt_0_compat; lra.
Qed.

Lemma gauss_ok : decreasing gauss_smearing /\ fraction gauss_smearing /\ nonneg (delta gauss_smearing).
Proof.
  destruct C43_gauss as ([R M] & _). split; [exact (fun x y => M x y)|split; [exact R|]]. intros x. cbn. unfold gauss_delta. left. apply Rdiv_lt_0_compat; [apply exp_pos|].
  apply sqrt_lt_R0, PI_RGT_0.
Qed.

Lemma lorentz_ok : decreasing lorentz_smearing /\ fraction lorentz_smearing /\ nonneg (delta lorentz_smearing) /\
  (forall x, derivable_pt_lim (occ lorentz_smearing) x (- delta lorentz_smearing x)).
Proof.
  destruct C43_lorentz as ([R M] & _). split; [exact (fun x y => M x y)|split; [exact R|split]].
  - intros x. cbn. unfold lorentz_delta. left. apply Rdiv_lt_0_compat; [lra|]. pose proof PI_RGT_0. nra.
  - intros x. exact (proj1 (C42_lorentz x)).
Qed.

(** ** C72: bare susceptibilities *)

(** The polarization is a Hermitian matrix without positive eigenvalues, with and
    without bands excluded (cRPA), where it is weaker. *)
Theorem C72_polarization nk nbnd e kT eps s norb U sub q : nonempty nk -> 0 < kT -> 0 <= eps -> decreasing s -> nonneg (delta s) ->
  nonpositive norb (polarization nk nbnd e kT eps s U sub q) /\
  forall v, fst (form norb (polarization nk nbnd e kT eps s U None q) v) <= fst (form norb (polarization nk nbnd e kT eps s U sub q) v).
Proof.
  intros. split; [apply polarization_nonpositive; assumption|]. intros v. apply polarization_crpa; assumption.
Qed.
Print Assumptions C72_polarization.

(** Opposite momenta *)
Theorem C72_polarization_opposite nk nbnd e kT eps s U q a b : nonempty nk -> 0 <= eps -> separated nk nbnd e eps ->
  polarization nk nbnd e kT eps s U None (qneg q) a b = conj (polarization nk nbnd e kT eps s U None q a b).
Proof. intros; apply polarization_neg; assumption. Qed.
Print Assumptions C72_polarization_opposite.

(** The response to a constant potential is the density of states at the Fermi level. *)
Theorem C72_polarization_compressibility nk nbnd e kT eps s norb U : nonempty nk -> 0 < kT -> 0 <= eps ->
  (forall k, on_mesh nk k -> orthonormal norb nbnd (U k)) ->
  csum norb (fun a => csum norb (fun b => polarization nk nbnd e kT eps s U None (0, 0, 0) a b)) = RtoC (- fermi_dos nk nbnd e kT s).
Proof. intros; apply polarization_sum; assumption. Qed.
Print Assumptions C72_polarization_compressibility.

(** All bands excluded *)
Theorem C72_polarization_excluded nk nbnd e kT eps s U q a b :
  polarization nk nbnd e kT eps s U (Some (fun _ _ => true)) q a b = RtoC 0.
Proof.
  unfold polarization. rewrite polarization_total. rewrite (total_ext nk nbnd _ (fun _ _ _ => RtoC 0)); [rewrite total_zero; cring|]. intros k m n _ _ _. unfold wpol. cbn [excluded]. rewrite at_kq_eq. cbn [andb]. cring.
Qed.
Print Assumptions C72_polarization_excluded.

(** A single flat band at the Fermi level *)
Example C72_polarization_example : polarization (2, 2, 1)%nat 1 (fun _ _ => 0) 1 0 fd_smearing (fun _ _ _ => RtoC 1) None (0, 0, 0) 0 0 = RtoC (- (1 / 2)).
Proof.
  assert (Hn : nonempty (2, 2, 1)%nat) by (cbn; lia).
  pose proof (C72_polarization_compressibility (2, 2, 1)%nat 1 (fun _ _ => 0) 1 0 fd_smearing 1 (fun _ _ _ => RtoC 1) Hn ltac:(lra) ltac:(lra)) as E.
  cbn [csum] in E. transitivity (RtoC (- fermi_dos (2, 2, 1)%nat 1 (fun _ _ => 0) 1 fd_smearing)); [rewrite <- E|].
  - cring.
  - intros k Hk m n Hm Hn'. replace m with 0%nat by lia. replace n with 0%nat by lia. cring.
  - f_equal. unfold fermi_dos. cbn. unfold fermi_dirac_delta. replace (0 / 1) with 0 by field. rewrite Rabs_R0, Rmin_left by (unfold xmax; lra). unfold cosh. rewrite Ropp_0, exp_0. field.
Qed.

Example C72_separated_example : separated (2, 1, 1)%nat 2 (fun k n => let '(i, _, _) := k in INR i + INR n) (1 / 2).
Proof.
  intros [[i j] l] [[i' j'] l'] m n (Hi & _) (Hi' & _) Hm Hn H. rewrite <- !plus_INR in *. destruct (Nat.eq_dec (i + m) (i' + n)) as [E|E]; [rewrite E; reflexivity|]. exfalso.
  assert (1 <= Rabs (INR (i + m) - INR (i' + n))); [|lra]. rewrite !INR_IZR_INZ, <- minus_IZR, <- abs_IZR. apply IZR_le. lia.
Qed.

(** The quotient of differences that enters them is not positive, the same for both
    orders of energies, and close to minus the derivative for close energies. *)
Theorem C72_quotient nk e kT eps s q k m n : 0 < kT -> 0 <= eps ->
  let x := quotient_kq nk e kT eps s q k m n in
  let e1 := e (kadd nk q k) m in
  let e2 := e k n in
  (decreasing s -> nonneg (delta s) -> x <= 0) /\
  (eps < Rabs (e1 - e2) -> x * (e1 - e2) = occ s (e1 / kT) - occ s (e2 / kT)) /\
  (Rabs (e1 - e2) <= eps -> x = - delta s (e2 / kT) / kT) /\
  (forall K, 0 <= K -> (forall x, derivable_pt_lim (occ s) x (- delta s x)) -> (forall x y, Rabs (delta s x - delta s y) <= K * Rabs (x - y)) ->
    Rabs (x - - (delta s (e2 / kT) / kT)) <= K * Rabs (e1 - e2) / (kT * kT)).
Proof.
  intros HkT Heps. cbv zeta. rewrite quotient_weight. split; [|split; [|split]].
  - apply weight_nonpos; assumption.
  - intros L. unfold weight. destruct Rlt_dec; [|contradiction]. field. intros E. rewrite E, Rabs_R0 in L. lra.
  - intros L. unfold weight. destruct Rlt_dec; [lra|]. field. lra.
  - intros K HK Der Lip. apply weight_limit; assumption.
Qed.
Print Assumptions C72_quotient.

Example C72_quotient_example : exists K, 0 <= K /\ (forall x, derivable_pt_lim (occ lorentz_smearing) x (- delta lorentz_smearing x)) /\
  (forall x y, Rabs (delta lorentz_smearing x - delta lorentz_smearing y) <= K * Rabs (x - y)).
Proof.
  exists 1. split; [lra|]. split; [apply lorentz_ok|]. intros x y. cbn. unfold lorentz_delta. pose proof PI_RGT_0 as P. pose proof PI2_3_2 as P3.
  assert (Px : 9 <= x * x + PI * PI) by nra. assert (Py : 9 <= y * y + PI * PI) by nra.
  replace (1 / (x * x + PI * PI) - 1 / (y * y + PI * PI)) with (- ((x + y) / ((x * x + PI * PI) * (y * y + PI * PI)) * (x - y))) by (field; split; nra).
  rewrite Rabs_Ropp, Rabs_mult. apply Rmult_le_compat_r; [apply Rabs_pos|]. set (a := x * x + PI * PI) in *. set (b := y * y + PI * PI) in *.
  unfold Rdiv. rewrite Rabs_mult, Rabs_inv, (Rabs_right (a * b)) by nra. apply Rmult_le_reg_r with (a * b); [nra|]. rewrite Rmult_assoc, Rinv_l, Rmult_1_r, Rmult_1_l by nra.
  assert (PP : 9 <= PI * PI) by nra.
  assert (S : forall z, Rabs z <= z * z + PI * PI).
  { intros z. pose proof (Rle_0_sqr (z - 1 / 2)) as S1. pose proof (Rle_0_sqr (z + 1 / 2)) as S2. unfold Rsqr in *. unfold Rabs. destruct Rcase_abs; lra. }
  pose proof (S x) as X. pose proof (S y) as Y. fold a in X. fold b in Y.
  eapply Rle_trans; [apply Rabs_triang|]. nra.
Qed.

(** The phonon self-energy (static) *)
Theorem C72_self_energy nk nbnd e kT eps s nmodes window q g symmetrize : nonempty nk -> 0 < kT -> 0 <= eps -> decreasing s -> nonneg (delta s) -> envelope_ok window ->
  let Pi := self_energy_g nk nbnd e kT eps s (RtoC 0) window q g in
  nonpositive nmodes (Pi None symmetrize false None) /\
  (forall mu nu, Pi None symmetrize true None mu nu = if Nat.eqb mu nu then Pi None symmetrize false None mu nu else RtoC 0) /\
  (forall nu, Pi None symmetrize false None nu nu = self_energy_g2 nk nbnd e kT eps s (RtoC 0) window q (Some (fun nu k m n => RtoC (abs2 (g nu k m n)))) nu) /\
  (forall G mu nu, Pi (Some G) true false None nu mu = conj (Pi (Some G) true false None mu nu)) /\
  (forall mu nu, Pi (Some g) true false None mu nu = Pi None symmetrize false None mu nu).
Proof.
  intros Hnk HkT Heps D N O Pi. subst Pi. split; [|split; [|split; [|split]]].
  - apply self_energy_nonpositive; assumption.
  - intros mu nu. unfold self_energy_g. destruct (Nat.eqb mu nu); cbn [andb negb]; [reflexivity|]. rewrite bubble_total by exact Heps.
    rewrite (total_ext nk nbnd _ (fun _ _ _ => RtoC 0)) by (intros; cring). rewrite total_zero. cring.
  - intros nu. unfold self_energy_g, self_energy_g2. cbn [andb]. rewrite !bubble_total by exact Heps. f_equal. apply total_ext. intros. cbn [vertices]. rewrite abs2_conj. reflexivity.
  - intros. apply self_energy_symmetrized; assumption.
  - intros. rewrite self_energy_symmetrized_same by assumption. reflexivity.
Qed.
Print Assumptions C72_self_energy.

Theorem C72_self_energy_opposite nk nbnd e kT eps s window q (g g' : nat -> pt -> nat -> nat -> C) symmetrize mu nu : nonempty nk -> 0 <= eps -> separated nk nbnd e eps ->
  (forall x k m n, on_mesh nk k -> (m < nbnd)%nat -> (n < nbnd)%nat -> g' x (kadd nk (q_indices nk q) k) n m = conj (g x k m n)) ->
  self_energy_g nk nbnd e kT eps s (RtoC 0) window (qneg q) g' None symmetrize false None mu nu =
  conj (self_energy_g nk nbnd e kT eps s (RtoC 0) window q g None symmetrize false None mu nu).
Proof. intros. apply self_energy_conj; assumption. Qed.
Print Assumptions C72_self_energy_opposite.

(** A repulsive contact interaction weakens the self-energy without changing its sign. *)
Theorem C72_self_energy_contact nk nbnd e kT eps s nmodes window q g u : nonempty nk -> 0 < kT -> 0 <= eps -> decreasing s -> nonneg (delta s) -> envelope_ok window ->
  (forall m n, 0 <= u m n) ->
  let Pi := self_energy_g nk nbnd e kT eps s (RtoC 0) window q g None true false in
  nonpositive nmodes (Pi (Some (fun m n => RtoC (u m n)))) /\
  forall v, fst (form nmodes (Pi None) v) <= fst (form nmodes (Pi (Some (fun m n => RtoC (u m n)))) v).
Proof.
  intros Hnk HkT Heps D N O Hu Pi. subst Pi. unfold self_energy_g. cbn [andb].
  pose proof (contact_bounds nk nbnd e kT eps s Hnk HkT Heps window nmodes (q_indices nk q) g u D N O Hu) as B.
  split; [split|].
  - intros a b _ _. rewrite conj_plus, (contact_hermitian nk nbnd e kT eps s Hnk HkT Heps window (q_indices nk q) g u D N O Hu). f_equal.
    rewrite !bubble_vertices, conj_mult, conj_R, total_conj by exact Heps. f_equal. apply total_ext. intros. rewrite !conj_mult, conj_conj, conj_R. ring.
  - intros v. apply B.
  - intros v. apply B.
Qed.
Print Assumptions C72_self_energy_contact.

Example C72_self_energy_example : envelope_ok (Some (1, false, gauss_smearing, 1 / 10)) /\ decreasing fd_smearing /\ nonneg (delta fd_smearing).
Proof. split; [split; [reflexivity|apply gauss_ok]|split; apply fd_ok]. Qed.

(** Any number of processes *)
Theorem C72_processes {A} nproc nQ (f : nat -> A) : (0 < nproc)%Z -> distributed nproc nQ f = Ok (map f (seq 0 nQ)).
Proof. intros; apply distributed_ok; assumption. Qed.
Print Assumptions C72_processes.

Example C72_processes_example : distributed 3 5 (fun i => i) = Ok [0; 1; 2; 3; 4]%nat.
Proof. vm_compute. reflexivity. Qed.

(** The susceptibility *)
Theorem C72_susceptibility nk e kT eta s q1 q2 : (0 < nk)%nat -> 0 < kT -> eta <> 0 ->
  (decreasing s -> nonneg (delta s) -> susceptibility nk e kT eta s q1 q2 <= 0) /\
  susceptibility nk e kT eta s (- q1) (- q2) = susceptibility nk e kT eta s q1 q2 /\
  susceptibility nk e kT eta s 0 0 = - fermi_dos (nk, nk, 1)%nat 1 (fun k _ => let '(i, j, _) := k in e i j) kT s.
Proof.
  intros Hnk HkT Heta. split; [|split].
  - apply susceptibility_nonpos; assumption.
  - apply susceptibility_neg; assumption.
  - rewrite susceptibility_zero by exact Hnk. f_equal. unfold fermi_dos. rewrite fst_ksum.
    assert (E : INR (prod (nk, nk, 1%nat)) = INR nk ^ 2) by (unfold prod; rewrite !mult_INR; cbn; ring). rewrite E. f_equal. unfold Rdiv. rewrite <- rsum_scal_r. apply rsum_ext. intros i _. rewrite <- rsum_scal_r. apply rsum_ext. intros j _.
    cbn. ring.
Qed.
Print Assumptions C72_susceptibility.

(** The degenerate limit is missed by [susceptibility] for nonzero momentum transfer: for
    a flat band the limit of every term is minus the derivative, but the sum is zero. *)
Theorem C72_susceptibility_refuted : exists nk e q, (0 < nk)%nat /\ forall eta, eta <> 0 ->
  (forall i j, (i < nk)%nat -> (j < nk)%nat -> e i j = 0) /\
  susceptibility nk e 1 eta fd_smearing 0 0 = - (1 / 2) /\ susceptibility nk e 1 eta fd_smearing q 0 = 0.
Proof.
  exists 2%nat, (fun _ _ => 0), (2 * PI * INR 1 / INR 2). split; [lia|]. intros eta Heta. split; [reflexivity|]. split; [|apply susceptibility_flat; lia].
  rewrite susceptibility_zero by lia. cbn. unfold fermi_dirac_delta. replace (0 / 1) with 0 by field. rewrite Rabs_R0, Rmin_left by (unfold xmax; lra). unfold cosh. rewrite Ropp_0, exp_0. field.
Qed.
Print Assumptions C72_susceptibility_refuted.

(** ** C73: grand potential *)

Theorem C73_grand_potential nk nbnd e kT : (forall k n, on_mesh nk k -> (n < nbnd)%nat -> Rabs (e k n / kT) <= 709) ->
  grand_potential nk nbnd e kT fd_smearing true = grand_potential nk nbnd e kT fd_smearing false.
Proof. intros; apply grand_potential_fd; assumption. Qed.
Print Assumptions C73_grand_potential.

(** For energies further below the Fermi level, the shortcut is wrong: 2 kT ln f(-x)
    cannot be lower than about -2 * 709 kT. *)
Theorem C73_grand_potential_refuted x : x <= - 720 ->
  let e := fun (_ : pt) (_ : nat) => x in
  - 2 * 710 <= grand_potential (1, 1, 1)%nat 1 e 1 fd_smearing true /\
  grand_potential (1, 1, 1)%nat 1 e 1 fd_smearing false <= 2 * (x + 1).
Proof.
  intros Hx e. unfold grand_potential, ksum_n. cbn [ksum csum prod occ entropy fd_smearing]. subst e. cbv beta.
  change (INR (1 * 1 * 1)) with 1. replace (x / 1) with x by field. cbn [fst RtoC Cplus].
  split.
  - rewrite fd_Rmin, Rmin_right by (unfold xmax; lra). unfold FDf, xmax. set (E := exp 709). pose proof (exp_pos 709) as P. fold E in P. pose proof (exp_ineq1 709 ltac:(lra)) as Q. fold E in Q.
    assert (L : ln (1 / (E + 1)) = - ln (E + 1)) by (unfold Rdiv; rewrite Rmult_1_l; apply ln_Rinv; lra). rewrite L.
    assert (U : ln (E + 1) <= 710).
    { rewrite <- (ln_exp 710). apply Rcomplements.ln_le; [lra|]. replace 710 with (709 + 1) by ring. rewrite exp_plus. fold E. pose proof (exp_ineq1 1 ltac:(lra)). nra. }
    lra.
  - assert (S : 0 <= fermi_dirac_entropy x).
    { unfold fermi_dirac_entropy, sgn. destruct (Rlt_dec x 0); [|lra]. rewrite Rabs_left, Rmin_right by (unfold xmax; lra). replace (-1 * xmax) with (- (709)) by (unfold xmax; ring).
      cbv zeta. rewrite fd_in by (unfold xmax; lra). pose proof (FDf_bound (- (709))) as B. assert (ln (FDf (- (709))) <= 0) by (rewrite <- ln_1; apply Rcomplements.ln_le; lra). nra. }
    rewrite fd_in by (unfold xmax; lra). pose proof (FDf_bound x) as B.
    assert (F : x * (FDf x - 1) <= 1).
    { pose proof (exp_ineq1 (- x) ltac:(lra)) as Q. pose proof (exp_pos x) as P. pose proof (OccProofs.exp_inv x) as I. assert (E : FDf x - 1 = - (exp x * FDf x)) by (unfold FDf; field; lra). rewrite E.
      assert (M : - x * exp x <= 1) by (rewrite <- I; apply Rmult_le_compat_r; lra).
      replace (x * - (exp x * FDf x)) with ((- x * exp x) * FDf x) by ring. assert (0 <= - x * exp x) by (apply Rmult_le_pos; lra). nra. }
    nra.
Qed.
Print Assumptions C73_grand_potential_refuted.

(** The derivatives with respect to energies are the occupations, so that with respect to
    the Fermi level it is minus the number of electrons, and for a perturbation it is the
    first-order diagram. *)
Theorem C73_derivative nk nbnd e kT s : 0 < kT ->
  (forall k n, on_mesh nk k -> (n < nbnd)%nat -> derivable_pt_lim (occ s) (e k n / kT) (- delta s (e k n / kT)) /\ entropy_at (entropy s) (delta s) (e k n / kT)) ->
  derivable_pt_lim (fun mu => grand_potential nk nbnd (fun k n => e k n - mu) kT s false) 0 (- electrons nk nbnd e kT s) /\
  forall g x, (forall k n, on_mesh nk k -> (n < nbnd)%nat -> snd (g x k n n) = 0) ->
  exists r, first_order_diagonal nk nbnd e kT s g x = RtoC r /\
    derivable_pt_lim (fun t => grand_potential nk nbnd (fun k n => e k n + t * fst (g x k n n)) kT s false) 0 r.
Proof.
  intros HkT H. split.
  - apply is_derive_Reals.
    apply (is_derive_ext (fun t => grand_potential nk nbnd (fun k n => e k n + t * -1) kT s false)).
    { intros t. unfold grand_potential. apply f_equal. apply f_equal2; apply ksum_n_ext; intros; replace (e k n + t * -1) with (e k n - t) by ring; reflexivity. }
    eapply is_derive_eq; [apply (grand_potential_derive nk nbnd kT s HkT e (fun _ _ => -1)), H|].
    rewrite (ksum_n_ext nk nbnd _ (fun k n => -1 * occ s (e k n / kT))) by (intros; ring). rewrite ksum_n_scal. unfold electrons, ksum_n. ring.
  - intros g x Hg. exists (2 / INR (prod nk) * ksum_n nk nbnd (fun k n => occ s (e k n / kT) * fst (g x k n n))). split; [apply fst_first_order, Hg|].
    apply is_derive_Reals, (grand_potential_derive nk nbnd kT s HkT e (fun k n => fst (g x k n n))), H.
Qed.
Print Assumptions C73_derivative.

Example C73_derivative_example x : derivable_pt_lim (occ gauss_smearing) x (- delta gauss_smearing x) /\ entropy_at (entropy gauss_smearing) (delta gauss_smearing) x.
Proof. split; [exact (proj1 (C42_gauss x))|exact (C44_gauss x)]. Qed.

(** The first-order diagram does not depend on the basis in which the coupling is given. *)
Theorem C73_first_order_basis nk nbnd e kT s norb U g x :
  first_order_orbital nk nbnd e kT s norb U g x = first_order_diagonal nk nbnd e kT s (fun x k => to_bands norb (U k) (U k) (g x k)) x.
Proof. intros; apply first_order_basis; assumption. Qed.
Print Assumptions C73_first_order_basis.

(** ** C84: renormalized couplings *)

(** Renormalizing in the orbital basis and transforming to bands is the same as transforming
    first, for density-density interactions. *)
Theorem C84_density_density nk nbnd e kT eps s norb U q ndim g W x k : (4 <= ndim <= 33)%nat -> exists g',
  (forall a b, renormalize_orbital_dd nk nbnd e kT eps s norb U q ndim g W x k a b = Ok (g' a b)) /\
  forall m n, renormalize_band_dd nk e kT eps s norb U q nbnd (fun x k => to_bands norb (U (kadd nk q k)) (U k) (g x k)) W x k m n =
    to_bands norb (U (kadd nk q k)) (U k) g' m n.
Proof. intros; apply renormalize_dd; assumption. Qed.
Print Assumptions C84_density_density.

(** In the band basis, density-density interactions are a special case of general ones. *)
Theorem C84_special_case nk e kT eps s norb U q nsub g W x k m n :
  renormalize_band nk e kT eps s norb U q nsub g (fun a b c d => if (Nat.eqb b a && Nat.eqb d c)%bool then W a c else RtoC 0) x k m n =
  renormalize_band_dd nk e kT eps s norb U q nsub g W x k m n.
Proof. intros; apply renormalize_band_of_dd; assumption. Qed.
Print Assumptions C84_special_case.

(** Without interaction, couplings are not renormalized. *)
Theorem C84_no_interaction nk e kT eps s norb U q nsub g x k m n :
  renormalize_band nk e kT eps s norb U q nsub g (fun _ _ _ _ => RtoC 0) x k m n = g x k m n.
Proof.
  unfold renormalize_band. rewrite (csum_ext norb _ (fun _ => RtoC 0)); [rewrite csum_zero; apply Cplus_0_r|]. intros a _. rewrite (csum_ext norb _ (fun _ => RtoC 0)); [apply csum_zero|]. intros b _.
  rewrite (csum_ext norb _ (fun _ => RtoC 0)); [apply csum_zero|]. intros c _. rewrite (csum_ext norb _ (fun _ => RtoC 0)); [apply csum_zero|]. intros d _. rewrite Cmult_0_r, Cmult_0_l. reflexivity.
Qed.
Print Assumptions C84_no_interaction.

(** General interactions in the orbital basis: no result, although there is one in the band basis. *)
Theorem C84_general_refuted nk nbnd e kT eps s norb U q ndim g W x k a b : (0 < ndim)%nat ->
  renormalize_orbital nk nbnd e kT eps s norb U q ndim g W x k a b = Raise IndexError.
Proof. intros; apply renormalize_general; assumption. Qed.
Print Assumptions C84_general_refuted.

Theorem C84_general_band nk nbnd e kT eps s norb U q g W x k m n :
  renormalize_band nk e kT eps s norb U q nbnd (fun x k => to_bands norb (U (kadd nk q k)) (U k) (g x k)) W x k m n =
  to_bands norb (U (kadd nk q k)) (U k) (fun a b => g x k a b + csum norb (fun c => csum norb (fun d => W a b c d * Pi_g nk nbnd e kT eps s norb U q g x c d)))%C m n.
Proof. intros; apply renormalize_band_general; assumption. Qed.
Print Assumptions C84_general_band.

(** One orbital on one k point at the Fermi level: g (1 + W Pi) with Pi = -1/2 *)
Example C84_example g W : renormalize_orbital_dd (1, 1, 1)%nat 1 (fun _ _ => 0) 1 0 fd_smearing 1 (fun _ _ _ => RtoC 1) (0, 0, 0)%nat 4 (fun _ _ _ _ => RtoC g) (fun _ _ => RtoC W) 0 (0, 0, 0)%nat 0 0 =
  Ok (RtoC (g * (1 - W / 2))).
Proof.
  unfold renormalize_orbital_dd. rewrite add_axes_dd by lia. cbn [bind Nat.eqb]. f_equal. unfold Pi_g. cbn [csum ksum]. rewrite quotient_weight. unfold weight. rewrite Rminus_diag_eq, Rabs_R0 by reflexivity.
  destruct Rlt_dec; [lra|]. cbn [delta fd_smearing]. unfold fermi_dirac_delta. replace (0 / 1) with 0 by field. rewrite Rabs_R0, Rmin_left by (unfold xmax; lra). unfold cosh. rewrite Ropp_0, exp_0.
  unfold pref. apply c_ext; cbn; field.
Qed.

(** ** C85: Fan-Migdal self-energy *)

(** Retarded self-energies have no positive imaginary part: spectral functions are
    not negative. The self-energy on both sides of the real axis is complex conjugate. *)
Theorem C85_causality nk nbnd e kT s nmodes w g2 omega k n : nonempty nk -> 0 < kT -> fraction s -> (forall q nu, 0 < w q nu) -> (forall q nu m n, 0 <= g2 q nu m n) ->
  0 < snd omega -> snd (fan_migdal nk nbnd e kT s nmodes w g2 omega k n) <= 0 /\
  fan_migdal nk nbnd e kT s nmodes w g2 (conj omega) k n = conj (fan_migdal nk nbnd e kT s nmodes w g2 omega k n).
Proof. intros. split; [apply fan_migdal_im; assumption|apply fan_migdal_conj; lra]. Qed.
Print Assumptions C85_causality.

Example C85_example : fan_migdal (1, 1, 1)%nat 1 (fun _ _ => 0) 1 fd_smearing 1 (fun _ _ => ln 2) (fun _ _ _ _ => 1) (0, 1) (0, 0, 0) 0 =
  (RtoC 3 * (0, 1) / ((0, 1) * (0, 1) - RtoC (ln 2 * ln 2)))%C.
Proof.
  unfold fan_migdal. cbn [ksum csum]. rewrite !at_kq_eq. unfold f_. cbn [occ fd_smearing]. replace (0 / 1) with 0 by field. rewrite fd_in by (unfold xmax; lra). unfold FDf. rewrite exp_0.
  unfold bose_einstein. pose proof ln_lt_2 as L2. assert (L1 : ln 2 <= 1) by (rewrite <- (ln_exp 1); apply Rcomplements.ln_le; [lra|]; pose proof (exp_ineq1 1 ltac:(lra)); lra).
  rewrite Rmin_left by (unfold xmax; lra). replace (ln 2 / 1) with (ln 2) by field. rewrite exp_ln by lra.
  set (l := ln 2) in *. apply c_ext; cbn; field; repeat split; nra.
Qed.

(** ** C86: Green-Kubo conductivity *)

(** Symmetric and without negative eigenvalues, for zero and all other frequencies *)
Theorem C86_direct nkn nq nw v A omega kT s nd : (0 < nq)%nat -> (2 <= nw)%nat -> 0 < kT -> nonneg (delta s) -> (forall i, (i + 1 < nw)%nat -> omega i <= omega (i + 1)%nat) ->
  (forall x y, gk_dc nkn nq nw v A omega kT s x y = gk_dc nkn nq nw v A omega kT s y x) /\
  forall u, 0 <= rsum nd (fun x => rsum nd (fun y => u x * gk_dc nkn nq nw v A omega kT s x y * u y)).
Proof. intros. split; [apply gk_dc_sym|]. intros u. apply gk_dc_nonneg; assumption. Qed.
Print Assumptions C86_direct.

Theorem C86_optical nkn nq nw v A omega kT s nd iw0 iw : (0 < nq)%nat -> (2 <= nw)%nat -> 0 < kT -> nonneg (delta s) -> decreasing s -> (forall i j, 0 <= A i j) ->
  (forall i, (i + 1 < nw)%nat -> omega i <= omega (i + 1)%nat) -> omega iw0 = 0 -> (iw0 < nw)%nat -> (iw < nw)%nat ->
  (forall x y, gk_sigma nkn nq nw v A omega kT s iw0 iw x y = gk_sigma nkn nq nw v A omega kT s iw0 iw y x) /\
  forall u, 0 <= rsum nd (fun x => rsum nd (fun y => u x * gk_sigma nkn nq nw v A omega kT s iw0 iw x y * u y)).
Proof. intros. split; [apply gk_sigma_sym|]. intros u. apply gk_sigma_nonneg; assumption. Qed.
Print Assumptions C86_optical.

(** Even in the frequency *)
Theorem C86_even nkn nq nw v A omega kT s iw0 d x y : (0 < d <= iw0)%nat -> (iw0 + d < nw)%nat -> omega (iw0 - d)%nat = - omega (iw0 + d)%nat -> omega (iw0 + d)%nat <> 0 ->
  gk_sigma nkn nq nw v A omega kT s iw0 (iw0 - d) x y = gk_sigma nkn nq nw v A omega kT s iw0 (iw0 + d) x y.
Proof. intros; apply gk_sigma_opp; assumption. Qed.
Print Assumptions C86_even.

(** Frequencies are accepted exactly if they are equidistant and include zero. *)
Theorem C86_frequencies nkn nq nw v A omega kT eps s iw x y : (2 <= nw)%nat ->
  ((exists r, green_kubo nkn nq nw v A omega kT eps s false iw x y = Ok r) <->
    (forall i, (i + 1 < nw)%nat -> Rabs (omega (i + 1)%nat - omega i - (omega 1%nat - omega 0%nat)) <= eps) /\ exists i, (i < nw)%nat /\ Rabs (omega i) <= eps).
Proof. intros; apply green_kubo_accepts; assumption. Qed.
Print Assumptions C86_frequencies.

Example C86_example : let omega := fun i => INR i - 2 in
  (forall i, (i + 1 < 5)%nat -> omega i <= omega (i + 1)%nat) /\ omega 2%nat = 0 /\ (forall i, (i + 1 < 5)%nat -> Rabs (omega (i + 1)%nat - omega i - (omega 1%nat - omega 0%nat)) <= 0) /\
  forall d, (d <= 2)%nat -> omega (2 - d)%nat = - omega (2 + d)%nat.
Proof.
  cbv zeta. split; [|split; [|split]].
  - intros i _. rewrite plus_INR. cbn. lra.
  - cbn. lra.
  - intros i _. rewrite plus_INR. match goal with |- Rabs ?x <= 0 => replace x with 0 by (cbn; ring) end. rewrite Rabs_R0. lra.
  - intros d Hd. destruct d as [|[|[|d]]]; [| | |lia]; cbn; ring.
Qed.

(** ** C87: averages over the Fermi surface *)

Theorem C87_average nk nbnd e kT s q g2 nu lo hi : 0 < kT -> nonneg (delta s) ->
  (forall k m n, on_mesh nk k -> (m < nbnd)%nat -> (n < nbnd)%nat -> lo <= fst (g2 nu k m n) <= hi) ->
  0 <= fst (fs_deno nk nbnd e kT s q) /\
  lo * fst (fs_deno nk nbnd e kT s q) <= fst (fs_enum nk nbnd e kT s q g2 nu) <= hi * fst (fs_deno nk nbnd e kT s q) /\
  (fst (fs_deno nk nbnd e kT s q) <> 0 -> lo <= fst (fs_enum nk nbnd e kT s q g2 nu) / fst (fs_deno nk nbnd e kT s q) <= hi).
Proof.
  intros HkT N H. pose proof (fs_deno_nonneg nk nbnd e kT s HkT N q) as P. pose proof (fs_bounds nk nbnd e kT s HkT N q g2 nu lo hi H) as B. split; [exact P|]. split; [exact B|]. intros NZ.
  assert (Pos : 0 < fst (fs_deno nk nbnd e kT s q)) by lra. split; apply Rmult_le_reg_r with (fst (fs_deno nk nbnd e kT s q)); try exact Pos; unfold Rdiv; rewrite Rmult_assoc, Rinv_l, Rmult_1_r by exact NZ; apply B.
Qed.
Print Assumptions C87_average.

(** The double density of states is even and its sum over all momenta is the square of the
    density of states. *)
Theorem C87_denominator nk nbnd e kT s : nonempty nk ->
  (forall q, fs_deno nk nbnd e kT s (qneg q) = fs_deno nk nbnd e kT s q) /\
  ksum nk (fun q => fs_deno nk nbnd e kT s (q_point nk q)) =
    (let d := ksum nk (fun k => csum nbnd (fun n => RtoC (delta s (e k n / kT) / kT))) in d * d)%C.
Proof. intros H. split; [intros q; apply fs_deno_neg|]. apply fs_sum_rule. exact H. Qed.
Print Assumptions C87_denominator.

Example C87_example : fs_deno (2, 1, 1)%nat 1 (fun _ _ => 0) 1 fd_smearing (q_point (2, 1, 1)%nat (1, 0, 0)%nat) = RtoC (1 / 8).
Proof.
  unfold fs_deno. cbn [ksum csum]. unfold fs_weight, fsd. rewrite !at_kq_eq. cbn [delta fd_smearing]. unfold fermi_dirac_delta. replace (0 / 1) with 0 by field. rewrite Rabs_R0, Rmin_left by (unfold xmax; lra). unfold cosh. rewrite Ropp_0, exp_0.
  apply c_ext; cbn; field.
Qed.

(** ** C88: third-order bubble *)

(** The weight of three states is the second difference quotient of the occupation,
    in all cases of degeneracy, and symmetric with respect to permutations. *)
Theorem C88_weight kT eps s dp ea eb ec : 0 < kT -> 0 <= eps ->
  (Rabs (ea - eb) <= eps -> ea = eb) -> (Rabs (eb - ec) <= eps -> eb = ec) -> (Rabs (ec - ea) <= eps -> ec = ea) ->
  let f x := occ s (x / kT) in
  let d x := delta s (x / kT) / kT in
  let p x := dp (x / kT) / kT ^ 2 in
  let chi a b c := chi3 eps a b c (f a) (f b) (f c) (d a) (d b) (d c) (p a) in
  chi ea eb ec * (ea - eb) = quotient f (fun x => - d x) ea ec - quotient f (fun x => - d x) eb ec /\
  chi ea eb ec = chi eb ea ec /\ chi ea eb ec = chi eb ec ea /\
  (ea <> ec -> derivable_pt_lim (occ s) (ea / kT) (- delta s (ea / kT)) -> derivable_pt_lim (fun x => (f x - f ec) / (x - ec)) ea (chi ea ea ec)) /\
  chi ea ea ea = - p ea / 2.
Proof.
  intros HkT Heps Hab Hbc Hca f d p chi. split; [|split; [|split; [|split]]].
  - apply (chi_quotients kT eps s dp Heps ea eb ec Hab Hbc Hca).
  - apply (chi_swap kT eps s dp Heps ea eb ec Hab Hbc Hca).
  - apply (chi_rot kT eps s dp Heps ea eb ec Hab Hbc Hca).
  - intros NE H. apply (chi_derivative kT eps s dp HkT Heps ea ec); [|exact NE|exact H]. intros L. symmetry. apply Hca. rewrite Rabs_minus_sym. exact L.
  - apply (chi_same kT eps s dp Heps).
Qed.
Print Assumptions C88_weight.

Example C88_example : let eps := 1 / 10 in
  (Rabs (1 - 2) <= eps -> 1 = 2) /\ (Rabs (2 - 1) <= eps -> 2 = 1) /\ (Rabs (1 - 1) <= eps -> 1 = 1).
Proof. cbv zeta. repeat split; intros H; try reflexivity; unfold Rabs in H; destruct Rcase_abs in H; lra. Qed.
