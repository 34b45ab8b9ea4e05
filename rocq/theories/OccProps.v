(** Properties C42-C46: smearing functions, entropies, Fermi levels, Matsubara sums. *)
From Coq Require Import Reals Lra Lia String.
From Verif Require Import Common CommonProofs OccModel OccSpec OccProofs OccFermi OccMats OccProofs2.
From Coq Require Import List.
Import ListNotations.
Local Open Scope R_scope.

(** ** C42: derivatives *)

(** Exact where arguments are not clipped. *)
Theorem C42_fermi_dirac x : Rabs x < 709 -> derivatives_at fermi_dirac fermi_dirac_delta fermi_dirac_delta_prime x.
Proof. intros H. split; apply dlim; [apply fd_derive, H|apply fdd_derive, H]. Qed.
Print Assumptions C42_fermi_dirac.

(** Beyond, the derivative exists and the deviation is less than 10^-307. *)
Theorem C42_fermi_dirac_clipped x : 709 < Rabs x ->
  exists l, derivable_pt_lim fermi_dirac x l /\ Rabs (l + fermi_dirac_delta x) <= exp (-709).
Proof. intros H. destruct (fd_derive_outside x H) as (l & D & B). exists l. split; [apply dlim, D|exact B]. Qed.
Print Assumptions C42_fermi_dirac_clipped.

Theorem C42_gauss x : derivatives_at gauss gauss_delta gauss_delta_prime x.
Proof. split; apply dlim; [apply gauss_derive|apply gauss_delta_derive]. Qed.
Print Assumptions C42_gauss.

Theorem C42_marzari_vanderbilt x :
  derivatives_at marzari_vanderbilt marzari_vanderbilt_delta marzari_vanderbilt_delta_prime x.
Proof. split; apply dlim; [apply mv_derive|apply mv_delta_derive]. Qed.
Print Assumptions C42_marzari_vanderbilt.

(** All orders that the implementation supports. *)
Theorem C42_methfessel_paxton order : (order <= 49)%nat ->
  exists f d d',
    (forall x, methfessel_paxton order x = Ok (f x)) /\
    (forall x, methfessel_paxton_delta order x = Ok (d x)) /\
    (forall x, methfessel_paxton_delta_prime order x = Ok (d' x)) /\
    forall x, derivatives_at f d d' x.
Proof.
  intros H. exists (MP0 order), (MP1 order), (MP2 order). repeat split.
  - intros x. apply MP0_ok. lia.
  - intros x. apply MP1_ok. lia.
  - intros x. apply MP2_ok. lia.
  - apply dlim, MP0_derive.
  - apply dlim, MP1_derive.
Qed.
Print Assumptions C42_methfessel_paxton.

Theorem C42_methfessel_paxton_limit order x : (50 < order)%nat -> methfessel_paxton order x = Raise StopIteration.
Proof. exact (mp_stop order x). Qed.
Print Assumptions C42_methfessel_paxton_limit.

Theorem C42_double_fermi_dirac d x : Rabs (x - d) < 709 -> Rabs (x + d) < 709 ->
  derivatives_at (double_fermi_dirac d) (double_fermi_dirac_delta d) (double_fermi_dirac_delta_prime d) x.
Proof. intros H1 H2. split; apply dlim; [apply dfd_derive|apply dfdd_derive]; assumption. Qed.
Print Assumptions C42_double_fermi_dirac.

(** This one jumps at zero. *)
Theorem C42_two_fermi_dirac d x : x <> 0 -> Rabs x + Rabs d < 709 ->
  derivatives_at (two_fermi_dirac d) (two_fermi_dirac_delta d) (two_fermi_dirac_delta_prime d) x.
Proof.
  intros N H. assert (B : Rabs (x + two_dx d x) < xmax).
  { unfold xmax, two_dx, two_dy. destruct (Rlt_dec x 0).
    - pose proof (Rabs_triang x d). replace (x + (2 * (1 * d) - d)) with (x + d) by ring. lra.
    - pose proof (Rabs_triang x (- d)) as T. rewrite Rabs_Ropp in T. replace (x + (2 * (0 * d) - d)) with (x + - d) by ring. lra. }
  split; apply dlim; [apply tfd_derive|apply tfdd_derive]; assumption.
Qed.
Print Assumptions C42_two_fermi_dirac.

Theorem C42_lorentz x : derivatives_at lorentz lorentz_delta lorentz_delta_prime x.
Proof. split; apply dlim; [apply lorentz_derive|apply lorentz_delta_derive]. Qed.
Print Assumptions C42_lorentz.

Theorem C42_heaviside x : (x <> 0 -> derivable_pt_lim heaviside x 0 /\ heaviside_delta x = Some 0 /\ heaviside_delta_prime x = Some 0) /\
  (x = 0 -> heaviside_delta x = None).
Proof.
  unfold heaviside_delta, heaviside_delta_prime. destruct (Req_EM_T x 0); split; intros H; try contradiction; try reflexivity.
  split; [apply dlim, heaviside_derive, H|split; reflexivity].
Qed.
Print Assumptions C42_heaviside.

(** Names of smearings: case does not matter, and exactly these are known. *)
Theorem C42_names s f : smearing s = Some f <-> exists name, up_to_case s name /\ In (name, f)
  [("gaussian", Gauss); ("gauss", Gauss); ("methfessel-paxton", MP); ("m-p", MP); ("mp", MP); ("marzari-vanderbilt", MV); ("cold", MV);
   ("m-v", MV); ("mv", MV); ("fermi-dirac", FD); ("f-d", FD); ("fd", FD); ("lorentzian", Lorentz); ("lorentz", Lorentz); ("heaviside", Heaviside)]%string.
Proof. rewrite smearing_table. split; intros (name & H1 & H2); exists name; auto. Qed.
Print Assumptions C42_names.

Example C42_names_example :
  map smearing ["Gaussian"; "M-P"; "cold"; "FD"; "Lorentz"; "heaviside"; "Fermi"]%string
    = [Some Gauss; Some MP; Some MV; Some FD; Some Lorentz; Some Heaviside; None].
Proof. reflexivity. Qed.

Example C42_example : Rabs 3 < 709 /\ fermi_dirac 0 = 1 / 2 /\ fermi_dirac_delta 0 = 1 / 4 /\
  methfessel_paxton 0 0 = Ok (1 / 2) /\ lorentz 0 = 1 / 2 /\ lorentz PI = 1 / 4.
Proof.
  pose proof PI_RGT_0. rewrite Rabs_right by lra. split; [lra|]. split; [|split; [|split; [|split]]].
  - rewrite fd_in by (unfold xmax; lra). unfold FDf. rewrite exp_0. field.
  - rewrite fdd_in by (rewrite Rabs_R0; unfold xmax; lra). unfold FDd. rewrite cosh_0. field.
  - rewrite MP0_ok by lia. f_equal. unfold MP0. cbn [mp_sum]. unfold gauss. rewrite GaussProofs.erf_0. field.
  - unfold lorentz. replace (0 / PI) with 0 by (field; lra). rewrite atan_0. field. lra.
  - unfold lorentz. replace (PI / PI) with 1 by (field; lra). rewrite atan_1. field. lra.
Qed.

(** ** C43: ranges and symmetries *)

Theorem C43_fermi_dirac :
  occupation fermi_dirac /\
  (forall x y, x < y <= 709 -> fermi_dirac y < fermi_dirac x) /\
  (forall x, Rabs x <= 709 -> fermi_dirac (- x) = 1 - fermi_dirac x) /\
  (forall x, 709 < Rabs x -> Rabs (fermi_dirac (- x) + fermi_dirac x - 1) <= exp (-709)) /\
  (forall x, fermi_dirac x <= exp (- Rmin x 709)) /\ (forall x, x <= 0 -> 1 - fermi_dirac x <= exp x).
Proof.
  repeat split; try apply fd_occupation.
  - apply fd_strict.
  - apply fd_symmetric.
  - apply fd_symmetric_outside.
  - intros x. apply fd_tails.
  - intros x. apply fd_tails.
Qed.
Print Assumptions C43_fermi_dirac.

Theorem C43_gauss : occupation gauss /\ symmetric gauss /\ step gauss.
Proof. split; [exact gauss_occupation|split; [exact gauss_opp|exact gauss_step]]. Qed.
Print Assumptions C43_gauss.

Theorem C43_lorentz : occupation lorentz /\ symmetric lorentz /\ step lorentz.
Proof. split; [exact lorentz_occupation|split; [exact lorentz_opp|exact lorentz_step]]. Qed.
Print Assumptions C43_lorentz.

Theorem C43_heaviside : occupation heaviside /\ symmetric heaviside /\ step heaviside.
Proof. split; [exact heaviside_occupation|split; [exact heaviside_symmetric|exact heaviside_step]]. Qed.
Print Assumptions C43_heaviside.

Theorem C43_double_fermi_dirac d : occupation (double_fermi_dirac d) /\
  forall x, Rabs (x - d) <= 709 -> Rabs (x + d) <= 709 -> double_fermi_dirac d (- x) = 1 - double_fermi_dirac d x.
Proof. split; [apply dfd_occupation|apply dfd_symmetric]. Qed.
Print Assumptions C43_double_fermi_dirac.

Theorem C43_two_fermi_dirac d x : 0 <= two_fermi_dirac d x <= 1.
Proof. exact (tfd_range d x). Qed.
Print Assumptions C43_two_fermi_dirac.

(** Methfessel-Paxton functions keep the symmetry (not the range). *)
Theorem C43_methfessel_paxton order : (order <= 50)%nat ->
  exists f, (forall x, methfessel_paxton order x = Ok (f x)) /\ symmetric f.
Proof. intros H. exists (MP0 order). split; [intros x; apply MP0_ok; lia|intros x; apply MP0_opp]. Qed.
Print Assumptions C43_methfessel_paxton.

(** Marzari-Vanderbilt ("cold") smearing avoids negative occupations. *)
Theorem C43_marzari_vanderbilt x : 0 < marzari_vanderbilt x.
Proof. exact (mv_positive x). Qed.
Print Assumptions C43_marzari_vanderbilt.

(** Bose function. *)
Theorem C43_bose_einstein x : x <> 0 ->
  (Rabs x <= 709 -> bose_einstein (- x) = - 1 - bose_einstein x) /\
  (2 * Rabs x <= 709 -> fermi_dirac x = bose_einstein x - 2 * bose_einstein (2 * x)).
Proof. intros H. split; [apply be_opp, H|apply be_fd, H]. Qed.
Print Assumptions C43_bose_einstein.

(** ** C44: entropies *)

Theorem C44_fermi_dirac :
  (forall x, Rabs x < 709 -> entropy_at fermi_dirac_entropy fermi_dirac_delta x) /\
  (forall x, Rabs x <= 709 -> let f := fermi_dirac x in fermi_dirac_entropy x = - (f * ln f + (1 - f) * ln (1 - f))) /\
  (forall x, 0 < fermi_dirac_entropy x).
Proof. split; [intros x H; apply dlim, fds_derive, H|split; [exact fds_formula|exact fds_pos]]. Qed.
Print Assumptions C44_fermi_dirac.

Theorem C44_gauss x : entropy_at gauss_entropy gauss_delta x.
Proof. apply dlim, gauss_entropy_derive. Qed.
Print Assumptions C44_gauss.

Theorem C44_marzari_vanderbilt x : entropy_at marzari_vanderbilt_entropy marzari_vanderbilt_delta x.
Proof. apply dlim, mv_entropy_derive. Qed.
Print Assumptions C44_marzari_vanderbilt.

(** First order; other orders are refused. *)
Theorem C44_methfessel_paxton :
  (exists S d, (forall x, methfessel_paxton_entropy 1 x = Ok (S x)) /\ (forall x, methfessel_paxton_delta 1 x = Ok (d x)) /\
    forall x, entropy_at S d x) /\
  forall order x, order <> 1%nat -> methfessel_paxton_entropy order x = Raise NotImplementedError.
Proof.
  split.
  - exists (fun x => 1 / 2 * mp_sum 1 1 1 x * gauss_delta x), (MP1 1). split; [exact mp_entropy_ok|].
    split; [intros x; apply MP1_ok; lia|]. intros x. apply dlim, mp_entropy_derive.
  - intros order x H. unfold methfessel_paxton_entropy. destruct (Nat.eqb_spec order 1); [contradiction|reflexivity].
Qed.
Print Assumptions C44_methfessel_paxton.

Theorem C44_double_fermi_dirac d x : Rabs (x - d) < 709 -> Rabs (x + d) < 709 ->
  entropy_at (double_fermi_dirac_entropy d) (double_fermi_dirac_delta d) x.
Proof. intros H1 H2. apply dlim, dfds_derive; assumption. Qed.
Print Assumptions C44_double_fermi_dirac.

(** The occupations jump at zero, the entropy does not. *)
Theorem C44_two_fermi_dirac d :
  (forall x, x <> 0 -> Rabs x + Rabs d < 709 -> entropy_at (two_fermi_dirac_entropy d) (two_fermi_dirac_delta d) x) /\
  (Rabs d < 709 -> continuity_pt (two_fermi_dirac_entropy d) 0).
Proof.
  split; [|apply tfds_continuous].
  intros x N H. assert (B : Rabs (x + two_dx d x) < xmax).
  { unfold xmax, two_dx, two_dy. destruct (Rlt_dec x 0).
    - pose proof (Rabs_triang x d). replace (x + (2 * (1 * d) - d)) with (x + d) by ring. lra.
    - pose proof (Rabs_triang x (- d)) as T. rewrite Rabs_Ropp in T. replace (x + (2 * (0 * d) - d)) with (x + - d) by ring. lra. }
  apply dlim, tfds_derive; assumption.
Qed.
Print Assumptions C44_two_fermi_dirac.

Theorem C44_heaviside x : x <> 0 -> entropy_at heaviside_entropy (fun _ => 0) x.
Proof. intros _. unfold entropy_at. rewrite Ropp_0, Rmult_0_r. apply derivable_pt_lim_const. Qed.
Print Assumptions C44_heaviside.

Example C44_example : Rabs 1 + Rabs 2 < 709 /\ fermi_dirac_entropy 0 = ln 2.
Proof.
  rewrite !Rabs_right by lra. split; [lra|]. rewrite fds_in by (rewrite Rabs_R0; unfold xmax; lra). unfold FDs, FDf. rewrite exp_0.
  replace (1 / (1 + 1)) with (/ 2) by field. rewrite ln_Rinv by lra. ring.
Qed.

(** ** C45: Fermi level *)

(** Whatever the energies, the smearing function and the initial guess. *)
Theorem C45_result fuel n e nb kT f delta0 mu0 tol eps mu : e <> [] ->
  find_Fermi_level fuel n e nb kT f delta0 mu0 tol eps = Ok (Some mu) -> Rabs (electrons f kT e nb mu - n) < tol.
Proof. exact (find_ok fuel n e nb kT f delta0 mu0 tol eps mu). Qed.
Print Assumptions C45_result.

Theorem C45_result_simple fuel n e nb kT f mu0 tol damp mu : e <> [] ->
  find_Fermi_level_simple fuel n e nb kT f mu0 tol damp = Ok (Some mu) -> Rabs (electrons f kT e nb mu - n) < tol.
Proof. exact (find_simple_ok fuel n e nb kT f mu0 tol damp mu). Qed.
Print Assumptions C45_result_simple.

(** A good guess is kept. *)
Theorem C45_fixed fuel n e nb kT f delta0 tol eps mu : (0 < nb)%nat -> e <> [] -> Rabs (electrons f kT e nb mu - n) < tol ->
  find_Fermi_level (S fuel) n e nb kT f delta0 (Some mu) tol eps = Ok (Some mu).
Proof. exact (find_fixed fuel n e nb kT f delta0 tol eps mu). Qed.
Print Assumptions C45_fixed.

(** The default guess lies between the lowest and the highest energy. *)
Theorem C45_guess n e nb : (0 < nb)%nat -> e <> [] -> 0 <= n <= 2 * INR nb ->
  exists lo hi, In lo e /\ In hi e /\ lo <= initial_mu (n * (1 / 2 * INR (length e) / INR nb)) e <= hi.
Proof. exact (initial_bracket n e nb). Qed.
Print Assumptions C45_guess.

(** The search ends for steps that flatten out on both sides, from every guess. *)
Theorem C45_terminates f d0 n e nb kT mu tol eps : flattening_step f d0 -> 0 < kT -> 0 < tol -> 0 <= eps -> e <> [] -> (0 < nb)%nat ->
  0 < n < 2 * INR nb -> 16 * INR nb * d0 * eps <= tol * kT ->
  exists fuel mu', find_Fermi_level fuel n e nb kT f d0 mu tol eps = Ok (Some mu').
Proof. exact (find_terminates f d0 n e nb kT mu tol eps). Qed.
Print Assumptions C45_terminates.

(** Such steps are Gaussian and Lorentzian smearing and the Fermi function (not clipped). *)
Theorem C45_terminates_steps :
  flattening_step gauss (gauss_delta 0) /\ flattening_step lorentz (lorentz_delta 0) /\
  flattening_step (fun x => 1 / (exp x + 1)) (1 / 4).
Proof. split; [exact gauss_flattening|split; [exact lorentz_flattening|exact FDf_flattening]]. Qed.
Print Assumptions C45_terminates_steps.

(** Two bands at two k points with the default parameters. *)
Example C45_example : exists fuel mu, find_Fermi_level fuel 1 [-1; 1; -1 / 2; 2] 2 (1 / 40) (fun x => 1 / (exp x + 1)) (1 / 4) None (1 / 100000) (1 / 10000000000) = Ok (Some mu).
Proof. apply C45_terminates; try apply C45_terminates_steps; try discriminate; try lia; cbn [INR]; lra. Qed.

(** ** C46: Matsubara sums *)

(** The frequencies are poles of the Fermi function: exp(i nu) + 1 = 0; the
    summands are inverses of i nu - x. *)
Theorem C46_poles n x : cos (nu n) = -1 /\ sin (nu n) = 0 /\ 0 < nu n /\ nu (S n) = nu n + 2 * PI /\
  inv_re x (nu n) * - x - inv_im x (nu n) * nu n = 1 /\ inv_re x (nu n) * nu n + inv_im x (nu n) * - x = 0.
Proof.
  destruct (nu_pole n) as [H1 H2]. pose proof (nu_pos n) as P. destruct (inv_complex x (nu n) P) as [H3 H4].
  repeat split; try assumption. unfold nu. rewrite S_INR. ring.
Qed.
Print Assumptions C46_poles.

Theorem C46_derivatives N x :
  derivatives_at (fermi_dirac_matsubara N) (fermi_dirac_matsubara_delta N) (fermi_dirac_matsubara_delta_prime N) x.
Proof. split; apply dlim; [apply fdm_derive|apply fdmd_derive]. Qed.
Print Assumptions C46_derivatives.

Theorem C46_symmetric N : symmetric (fermi_dirac_matsubara N).
Proof. exact (fdm_symmetric N). Qed.
Print Assumptions C46_symmetric.

(** The more frequencies, the closer to the Fermi function. *)
Theorem C46_converges x : exists C, forall N, (0 < N)%nat -> Rabs (fermi_dirac_matsubara N x - 1 / (exp x + 1)) <= C / INR N.
Proof. exact (matsubara_rate x). Qed.
Print Assumptions C46_converges.

Example C46_example : fermi_dirac_matsubara 1 PI = 1 / 2 - 1 / PI.
Proof.
  pose proof PI_RGT_0. unfold fermi_dirac_matsubara, sumR. cbn [seq map fold_right]. unfold inv_re, nu. cbn [INR].
  field. nra.
Qed.
