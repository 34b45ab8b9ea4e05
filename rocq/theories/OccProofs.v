(** Derivatives, symmetry and entropies of the smearing functions. *)
From Coq Require Import Reals Lra Psatz.
From Coquelicot Require Import Coquelicot.
From Verif Require Import Common OccModel GaussProofs.
Local Open Scope R_scope.

Lemma dlim f x l : is_derive f x l -> derivable_pt_lim f x l.
Proof. apply is_derive_Reals. Qed.

Lemma is_derive_eq (f : R -> R) (x l l' : R) : is_derive f x l -> l = l' -> is_derive f x l'.
Proof. intros H <-. exact H. Qed.

(** ** Fermi-Dirac without clipping *)

Definition FDf (x : R) : R := 1 / (exp x + 1).
Definition FDd (x : R) : R := 1 / (2 * cosh x + 2).
Definition FDp (x : R) : R := - sinh x / (2 * (cosh x + 1) ^ 2).
Definition FDs (x : R) : R := x * (FDf x - 1) - ln (FDf x).

Lemma cosh_pos x : 0 < cosh x.
Proof. unfold cosh. pose proof (exp_pos x). pose proof (exp_pos (- x)). lra. Qed.

Lemma cosh_opp x : cosh (- x) = cosh x.
Proof. unfold cosh. rewrite Ropp_involutive. lra. Qed.

Lemma sinh_opp x : sinh (- x) = - sinh x.
Proof. unfold sinh. rewrite Ropp_involutive. lra. Qed.

Lemma cosh_abs x : cosh (Rabs x) = cosh x.
Proof. unfold Rabs. destruct (Rcase_abs x); [apply cosh_opp|reflexivity]. Qed.

Lemma exp_inv x : exp (- x) * exp x = 1.
Proof. rewrite <- exp_plus. replace (- x + x) with 0 by ring. apply exp_0. Qed.

(** The Fermi function obeys f' = - f (1 - f). *)
Lemma FDd_f x : FDd x = FDf x * (1 - FDf x).
Proof.
  unfold FDd, FDf, cosh. pose proof (exp_pos x). pose proof (exp_pos (- x)). pose proof (exp_inv x).
  replace (exp (- x)) with (/ exp x) by (apply Rmult_eq_reg_r with (exp x); [rewrite Rinv_l; lra|lra]). field. split; nra.
Qed.

Lemma FDf_bound x : 0 < FDf x < 1.
Proof.
  unfold FDf. pose proof (exp_pos x). split; [apply Rdiv_lt_0_compat; lra|]. apply Rmult_lt_reg_r with (exp x + 1); [lra|].
  unfold Rdiv. rewrite Rmult_1_l, Rinv_l; lra.
Qed.

Lemma FDf_derive x : is_derive FDf x (- FDd x).
Proof.
  rewrite FDd_f. unfold FDf. pose proof (exp_pos x). auto_derive; [lra|]. field. lra.
Qed.

Lemma FDd_derive x : is_derive FDd x (FDp x).
Proof.
  unfold FDd, FDp, cosh, sinh. pose proof (exp_pos x). pose proof (exp_pos (- x)). auto_derive; [lra|]. field. lra.
Qed.

Lemma FDs_derive x : is_derive FDs x (x * - FDd x).
Proof.
  pose proof (FDf_bound x) as H. unfold FDs. apply is_derive_eq with ((1 * (FDf x - 1) + x * - FDd x) - (- FDd x * / FDf x)).
  - apply (is_derive_minus (fun x => x * (FDf x - 1)) (fun x => ln (FDf x)) x).
    + apply is_derive_eq with (plus (mult one (FDf x - 1)) (mult x (- FDd x))); [|reflexivity].
      apply (is_derive_mult (fun x : R => x) (fun x => FDf x - 1) x); [apply @is_derive_id| |intros; apply Rmult_comm].
      apply is_derive_eq with (minus (- FDd x) 0); [|unfold minus, plus, opp; cbn; ring].
      apply (is_derive_minus FDf (fun _ => 1) x); [apply FDf_derive|apply @is_derive_const].
    + apply is_derive_eq with (scal (- FDd x) (/ FDf x)); [|reflexivity].
      apply (is_derive_comp ln FDf x); [|apply FDf_derive]. apply is_derive_Reals, derivable_pt_lim_ln. lra.
  - rewrite FDd_f. field. lra.
Qed.

Lemma FDf_opp x : FDf (- x) = 1 - FDf x.
Proof.
  unfold FDf. pose proof (exp_pos x). pose proof (exp_pos (- x)). pose proof (exp_inv x).
  replace (exp (- x)) with (/ exp x) by (apply Rmult_eq_reg_r with (exp x); [rewrite Rinv_l; lra|lra]). field. split; nra.
Qed.

Lemma FDf_decreasing x y : x < y -> FDf y < FDf x.
Proof.
  intros H. unfold FDf, Rdiv. rewrite !Rmult_1_l. pose proof (exp_increasing x y H). pose proof (exp_pos x). apply Rinv_lt_contravar; nra.
Qed.

Lemma FDf_nonincreasing x y : x <= y -> FDf y <= FDf x.
Proof. intros [H|H]; [left; apply FDf_decreasing, H|rewrite H; lra]. Qed.

(** ** Clipping *)

Lemma fd_Rmin x : fermi_dirac x = FDf (Rmin x xmax).
Proof. reflexivity. Qed.

Lemma fd_in x : x <= xmax -> fermi_dirac x = FDf x.
Proof. intros H. rewrite fd_Rmin, Rmin_left by exact H. reflexivity. Qed.

Lemma fdd_in x : Rabs x <= xmax -> fermi_dirac_delta x = FDd x.
Proof. intros H. unfold fermi_dirac_delta, FDd. rewrite Rmin_left by exact H. rewrite cosh_abs. reflexivity. Qed.

Lemma sgn_abs x : sgn x * Rabs x = x.
Proof.
  unfold sgn, Rabs. destruct (Rlt_dec x 0), (Rcase_abs x), (Rlt_dec 0 x); lra.
Qed.

Lemma fdp_in x : Rabs x <= xmax -> fermi_dirac_delta_prime x = FDp x.
Proof. intros H. unfold fermi_dirac_delta_prime. rewrite Rmin_left by exact H. cbn zeta. rewrite sgn_abs. reflexivity. Qed.

Lemma abs_le x y : Rabs x <= y -> x <= y.
Proof. unfold Rabs. destruct (Rcase_abs x); lra. Qed.

Lemma fds_in x : Rabs x <= xmax -> fermi_dirac_entropy x = FDs x.
Proof.
  intros H. unfold fermi_dirac_entropy. rewrite Rmin_left by exact H. cbn zeta. rewrite sgn_abs.
  rewrite fd_in by (apply abs_le, H). reflexivity.
Qed.

Lemma near x (P : R -> Prop) (e : R) : 0 < e -> (forall y, x - e < y < x + e -> P y) -> locally x P.
Proof.
  intros H I. exists (mkposreal e H). intros y Hy. apply I. assert (Rabs (y - x) < e) as B by exact Hy. apply Rabs_def2 in B. lra.
Qed.

Lemma locally_abs x : Rabs x < xmax -> locally x (fun y => Rabs y <= xmax).
Proof.
  intros H. apply near with (xmax - Rabs x); [lra|]. intros y Hy. unfold Rabs in *. destruct (Rcase_abs x), (Rcase_abs y); lra.
Qed.

Lemma in_range (f g : R -> R) x l : (forall y, Rabs y <= xmax -> f y = g y) -> Rabs x < xmax ->
  is_derive g x l -> is_derive f x l.
Proof.
  intros E H D. apply is_derive_ext_loc with g; [|exact D]. generalize (locally_abs x H). apply filter_imp.
  intros y Hy. symmetry. apply E, Hy.
Qed.

Lemma fd_derive x : Rabs x < xmax -> is_derive fermi_dirac x (- fermi_dirac_delta x).
Proof.
  intros H. rewrite fdd_in by lra. apply (in_range _ FDf); [|exact H|apply FDf_derive].
  intros y Hy. apply fd_in, abs_le, Hy.
Qed.

Lemma fdd_derive x : Rabs x < xmax -> is_derive fermi_dirac_delta x (fermi_dirac_delta_prime x).
Proof. intros H. rewrite fdp_in by lra. apply (in_range _ FDd); [apply fdd_in|exact H|apply FDd_derive]. Qed.

Lemma fds_derive x : Rabs x < xmax -> is_derive fermi_dirac_entropy x (x * - fermi_dirac_delta x).
Proof. intros H. rewrite fdd_in by lra. apply (in_range _ FDs); [apply fds_in|exact H|apply FDs_derive]. Qed.

(** Outside of the range, what is missed is tiny. *)
Lemma FDd_bound y : 0 < FDd y <= exp (- y).
Proof.
  unfold FDd, cosh. pose proof (exp_pos y). pose proof (exp_pos (- y)). pose proof (exp_inv y).
  split; [apply Rdiv_lt_0_compat; lra|]. apply Rle_div_l; [lra|]. nra.
Qed.

Lemma FDd_opp y : FDd (- y) = FDd y.
Proof. unfold FDd. rewrite cosh_opp. reflexivity. Qed.

Lemma fd_derive_outside x : xmax < Rabs x -> exists l, is_derive fermi_dirac x l /\ Rabs (l + fermi_dirac_delta x) <= exp (- xmax).
Proof.
  intros H. assert (E : fermi_dirac_delta x = FDd xmax) by (unfold fermi_dirac_delta, FDd; rewrite Rmin_right by lra; reflexivity).
  pose proof (FDd_bound xmax) as B. rewrite E. unfold Rabs in H. destruct (Rcase_abs x) as [n|n].
  - exists (- FDd x). split.
    + apply is_derive_ext_loc with FDf; [|apply FDf_derive].
      apply near with (- x); [unfold xmax in *; lra|]. intros y Hy. symmetry. apply fd_in. unfold xmax in *. lra.
    + pose proof (FDd_bound (- x)) as B'. rewrite FDd_opp, Ropp_involutive in B'.
      assert (exp x < exp (- xmax)) by (apply exp_increasing; lra). apply Rabs_le. lra.
  - exists 0. split.
    + apply is_derive_ext_loc with (fun _ => FDf xmax); [|apply @is_derive_const].
      apply near with (x - xmax); [lra|]. intros y Hy. rewrite fd_Rmin, Rmin_right; [reflexivity|]. lra.
    + apply Rabs_le. lra.
Qed.

(** ** Gaussian smearing *)

Lemma exp_neg_sqr x : exp (- x * x) = exp (- (x * x)).
Proof. f_equal. ring. Qed.

Lemma gauss_derive x : is_derive gauss x (- gauss_delta x).
Proof.
  unfold gauss, gauss_delta. pose proof sqrt_PI_pos. pose proof (erf_derive x) as D.
  eapply is_derive_eq.
  - apply (is_derive_ext (fun t => scal (- (1 / 2)) (erf t) + 1 / 2)); [intros t; unfold scal; cbn; unfold mult; cbn; field|].
    apply @is_derive_plus; [apply is_derive_scal, D|apply @is_derive_const].
  - unfold plus, zero. cbn. rewrite exp_neg_sqr. field. lra.
Qed.

Lemma gauss_delta_derive x : is_derive gauss_delta x (gauss_delta_prime x).
Proof. unfold gauss_delta, gauss_delta_prime. pose proof sqrt_PI_pos. auto_derive; [lra|]. field. lra. Qed.

Lemma gauss_entropy_derive x : is_derive gauss_entropy x (x * - gauss_delta x).
Proof. unfold gauss_entropy, gauss_delta. pose proof sqrt_PI_pos. auto_derive; [lra|]. field. lra. Qed.

(** ** Marzari-Vanderbilt smearing *)

Lemma sqrt2_pos : 0 < sqrt 2.
Proof. apply sqrt_lt_R0. lra. Qed.

Lemma sqrt2_sqr : sqrt 2 * sqrt 2 = 2.
Proof. apply sqrt_sqrt. lra. Qed.

Lemma sqrt_2PI : sqrt (2 * PI) = sqrt 2 * sqrt PI.
Proof. apply sqrt_mult; [lra|]. pose proof PI_RGT_0. lra. Qed.

Lemma inv_sqrt2 : 1 / sqrt 2 = sqrt 2 / 2.
Proof. pose proof sqrt2_pos. pose proof sqrt2_sqr. apply Rmult_eq_reg_r with (2 * sqrt 2); [|lra]. field_simplify; [nra|lra]. Qed.

Lemma mv_derive x : is_derive marzari_vanderbilt x (- marzari_vanderbilt_delta x).
Proof.
  unfold marzari_vanderbilt, marzari_vanderbilt_delta. cbn zeta. pose proof sqrt_PI_pos. pose proof sqrt2_pos.
  set (c := 1 / sqrt 2). apply is_derive_eq with (- gauss_delta (x + c) + - 2 * (x + c) * exp (- (x + c) * (x + c)) / sqrt (2 * PI)).
  - apply @is_derive_plus.
    + apply is_derive_ext with (fun t => gauss (t + c)); [reflexivity|].
      apply is_derive_eq with (scal 1 (- gauss_delta (x + c))); [|unfold scal; cbn; unfold mult; cbn; ring].
      apply (is_derive_comp gauss (fun t => t + c) x); [apply gauss_derive|]. auto_derive; [exact I|ring].
    + rewrite sqrt_2PI. assert (sqrt 2 * sqrt PI <> 0) by nra. auto_derive; [try exact H1; try exact I|]. field. lra.
  - unfold gauss_delta. rewrite sqrt_2PI. pose proof sqrt2_sqr as S2. set (y := x + c). set (E := exp (- y * y)).
    set (s := sqrt 2) in *. set (p := sqrt PI) in *. assert (T : 2 / (s * p) = s / p) by (rewrite <- S2; field; lra).
    transitivity (- (E / p) - y * E * (2 / (s * p))); [field; lra|]. rewrite T. field. lra.
Qed.

Lemma mv_delta_derive x : is_derive marzari_vanderbilt_delta x (marzari_vanderbilt_delta_prime x).
Proof.
  unfold marzari_vanderbilt_delta, marzari_vanderbilt_delta_prime. cbn zeta. pose proof sqrt_PI_pos.
  set (c := 1 / sqrt 2). auto_derive; [lra|]. field. lra.
Qed.

Lemma mv_entropy_derive x : is_derive marzari_vanderbilt_entropy x (x * - marzari_vanderbilt_delta x).
Proof.
  unfold marzari_vanderbilt_entropy, marzari_vanderbilt_delta. cbn zeta. rewrite sqrt_2PI.
  pose proof sqrt_PI_pos. pose proof sqrt2_pos. pose proof sqrt2_sqr. assert (N : sqrt 2 * sqrt PI <> 0) by nra. rewrite !inv_sqrt2.
  set (s := sqrt 2) in *. set (p := sqrt PI) in *. auto_derive; [try exact N; try exact I|].
  set (E := exp (- (x + s / 2) * (x + s / 2))). apply Rmult_eq_reg_r with (s * p); [|exact N]. field_simplify; [|lra|lra].
  replace (s ^ 2) with 2 by (rewrite <- H1; ring). replace (s ^ 3) with (2 * s) by (rewrite <- H1; ring).
  replace (s ^ 4) with (2 * 2) by (rewrite <- H1; ring). field.
Qed.

(** ** Lorentzian smearing *)

Lemma lorentz_derive x : is_derive lorentz x (- lorentz_delta x).
Proof.
  unfold lorentz, lorentz_delta. pose proof PI_RGT_0.
  apply is_derive_eq with (0 - / (1 + (x / PI) ^ 2) / PI / PI).
  - apply (is_derive_minus (fun _ => 1 / 2) (fun x => atan (x / PI) / PI) x); [apply @is_derive_const|].
    apply is_derive_ext with (fun t => scal (/ PI) (atan (t / PI))); [intros t; unfold scal; cbn; unfold mult; cbn; unfold Rdiv; ring|].
    apply is_derive_eq with (/ PI * (/ PI * / (1 + (x / PI) ^ 2))); [|unfold Rdiv; ring].
    apply (is_derive_scal (fun t => atan (t / PI))).
    apply (is_derive_comp atan (fun t => t / PI) x).
    + apply is_derive_Reals, derivable_pt_lim_atan.
    + auto_derive; [lra|]. field. lra.
  - field. split; [nra|lra].
Qed.

Lemma lorentz_delta_derive x : is_derive lorentz_delta x (lorentz_delta_prime x).
Proof.
  unfold lorentz_delta, lorentz_delta_prime. pose proof PI_RGT_0. auto_derive; [nra|]. field. nra.
Qed.

(** ** Double and two Fermi functions *)

Lemma dfd_derive d x : Rabs (x - d) < xmax -> Rabs (x + d) < xmax ->
  is_derive (double_fermi_dirac d) x (- double_fermi_dirac_delta d x).
Proof.
  intros H1 H2. unfold double_fermi_dirac, double_fermi_dirac_delta.
  apply is_derive_ext with (fun t => scal (1 / 2) (fermi_dirac (t - d) + fermi_dirac (t + d))); [intros t; unfold scal; cbn; unfold mult; cbn; field|].
  apply is_derive_eq with (1 / 2 * (scal 1 (- fermi_dirac_delta (x - d)) + scal 1 (- fermi_dirac_delta (x + d)))); [|unfold scal; cbn; unfold mult; cbn; field].
  apply (is_derive_scal (fun t => fermi_dirac (t - d) + fermi_dirac (t + d))). apply @is_derive_plus.
  - apply (is_derive_comp fermi_dirac (fun t => t - d) x); [apply fd_derive, H1|auto_derive; [exact I|ring]].
  - apply (is_derive_comp fermi_dirac (fun t => t + d) x); [apply fd_derive, H2|auto_derive; [exact I|ring]].
Qed.

Lemma dfdd_derive d x : Rabs (x - d) < xmax -> Rabs (x + d) < xmax ->
  is_derive (double_fermi_dirac_delta d) x (double_fermi_dirac_delta_prime d x).
Proof.
  intros H1 H2. unfold double_fermi_dirac_delta, double_fermi_dirac_delta_prime.
  apply is_derive_ext with (fun t => scal (1 / 2) (fermi_dirac_delta (t - d) + fermi_dirac_delta (t + d))); [intros t; unfold scal; cbn; unfold mult; cbn; field|].
  apply is_derive_eq with (1 / 2 * (scal 1 (fermi_dirac_delta_prime (x - d)) + scal 1 (fermi_dirac_delta_prime (x + d)))); [|unfold scal; cbn; unfold mult; cbn; field].
  apply (is_derive_scal (fun t => fermi_dirac_delta (t - d) + fermi_dirac_delta (t + d))). apply @is_derive_plus.
  - apply (is_derive_comp fermi_dirac_delta (fun t => t - d) x); [apply fdd_derive, H1|auto_derive; [exact I|ring]].
  - apply (is_derive_comp fermi_dirac_delta (fun t => t + d) x); [apply fdd_derive, H2|auto_derive; [exact I|ring]].
Qed.

Lemma dfds_derive d x : Rabs (x - d) < xmax -> Rabs (x + d) < xmax ->
  is_derive (double_fermi_dirac_entropy d) x (x * - double_fermi_dirac_delta d x).
Proof.
  intros H1 H2. unfold double_fermi_dirac_entropy, double_fermi_dirac_delta.
  set (S := fermi_dirac_entropy) in *. set (f := fermi_dirac) in *.
  apply is_derive_ext with (fun t => scal (1 / 2) ((S (t - d) + S (t + d)) + (scal d (f (t - d)) - scal d (f (t + d))))); [intros t; unfold scal; cbn; unfold mult; cbn; field|].
  apply is_derive_eq with (1 / 2 * ((scal 1 ((x - d) * - fermi_dirac_delta (x - d)) + scal 1 ((x + d) * - fermi_dirac_delta (x + d))) +
    (d * scal 1 (- fermi_dirac_delta (x - d)) - d * scal 1 (- fermi_dirac_delta (x + d))))); [|unfold scal; cbn; unfold mult; cbn; field].
  apply (is_derive_scal (fun t => (S (t - d) + S (t + d)) + (scal d (f (t - d)) - scal d (f (t + d))))). apply @is_derive_plus.
  - apply @is_derive_plus.
    + apply (is_derive_comp S (fun t => t - d) x); [apply fds_derive, H1|auto_derive; [exact I|ring]].
    + apply (is_derive_comp S (fun t => t + d) x); [apply fds_derive, H2|auto_derive; [exact I|ring]].
  - apply @is_derive_minus.
    + apply (is_derive_scal (fun t => f (t - d))). apply (is_derive_comp f (fun t => t - d) x); [apply fd_derive, H1|auto_derive; [exact I|ring]].
    + apply (is_derive_scal (fun t => f (t + d))). apply (is_derive_comp f (fun t => t + d) x); [apply fd_derive, H2|auto_derive; [exact I|ring]].
Qed.

(** Away from zero, the shift is constant. *)
Lemma two_dx_loc d x : x <> 0 -> locally x (fun y => two_dy d y = two_dy d x).
Proof.
  intros H. apply near with (Rabs x); [apply Rabs_pos_lt, H|]. intros y Hy.
  unfold two_dy, Rabs in *. destruct (Rcase_abs x); destruct (Rlt_dec y 0), (Rlt_dec x 0); lra.
Qed.

Lemma two_derive (F G : R -> R) d x l : x <> 0 -> (forall y, G y = F (y + two_dx d y)) -> is_derive F (x + two_dx d x) l -> is_derive G x l.
Proof.
  intros H E D. apply is_derive_ext_loc with (fun y => F (y + two_dx d x)).
  - generalize (two_dx_loc d x H). apply filter_imp. intros y Ey. rewrite E. unfold two_dx. rewrite Ey. reflexivity.
  - apply is_derive_eq with (scal 1 l); [|unfold scal; cbn; unfold mult; cbn; ring].
    apply (is_derive_comp F (fun t => t + two_dx d x) x); [exact D|auto_derive; [exact I|ring]].
Qed.

Lemma tfd_derive d x : x <> 0 -> Rabs (x + two_dx d x) < xmax -> is_derive (two_fermi_dirac d) x (- two_fermi_dirac_delta d x).
Proof. intros H H1. apply (two_derive fermi_dirac _ d x); [exact H|reflexivity|apply fd_derive, H1]. Qed.

Lemma tfdd_derive d x : x <> 0 -> Rabs (x + two_dx d x) < xmax -> is_derive (two_fermi_dirac_delta d) x (two_fermi_dirac_delta_prime d x).
Proof. intros H H1. apply (two_derive fermi_dirac_delta _ d x); [exact H|reflexivity|apply fdd_derive, H1]. Qed.

Lemma tfds_derive d x : x <> 0 -> Rabs (x + two_dx d x) < xmax -> is_derive (two_fermi_dirac_entropy d) x (x * - two_fermi_dirac_delta d x).
Proof.
  intros H H1. set (dx := two_dx d x).
  apply is_derive_ext_loc with (fun y => (fermi_dirac_entropy (y + dx) - scal dx (fermi_dirac (y + dx))) + two_dy d x).
  - generalize (two_dx_loc d x H). apply filter_imp. intros y Ey. unfold two_fermi_dirac_entropy, two_dx. rewrite Ey. reflexivity.
  - apply is_derive_eq with ((scal 1 ((x + dx) * - fermi_dirac_delta (x + dx)) - dx * scal 1 (- fermi_dirac_delta (x + dx))) + 0).
    + apply @is_derive_plus; [|apply @is_derive_const]. apply @is_derive_minus.
      * apply (is_derive_comp fermi_dirac_entropy (fun t => t + dx) x); [apply fds_derive, H1|auto_derive; [exact I|ring]].
      * apply (is_derive_scal (fun t => fermi_dirac (t + dx))). apply (is_derive_comp fermi_dirac (fun t => t + dx) x); [apply fd_derive, H1|auto_derive; [exact I|ring]].
    + unfold scal, two_fermi_dirac_delta. cbn. unfold mult. cbn. fold dx. ring.
Qed.

(** ** Heaviside function *)

Lemma heaviside_derive x : x <> 0 -> is_derive heaviside x 0.
Proof.
  intros H. apply is_derive_ext_loc with (fun _ => heaviside x); [|apply @is_derive_const].
  apply near with (Rabs x); [apply Rabs_pos_lt, H|]. intros y Hy.
  unfold heaviside, sgn, Rabs in *. destruct (Rcase_abs x); destruct (Rlt_dec y 0), (Rlt_dec x 0), (Rlt_dec 0 x), (Rlt_dec 0 y); lra.
Qed.

(** ** Matsubara sums *)

Lemma sumR_S f n : sumR f (S n) = sumR f n + f n.
Proof.
  unfold sumR. rewrite seq_S, map_app, fold_right_app. cbn [map fold_right]. cbn [plus Nat.add].
  generalize (f n). intros c. induction (map f (seq 0 n)) as [|x l IH]; cbn [fold_right]; [ring|]. rewrite IH. ring.
Qed.

Lemma sumR_derive (F G : nat -> R -> R) n x : (forall k, is_derive (F k) x (G k x)) ->
  is_derive (fun x => sumR (fun k => F k x) n) x (sumR (fun k => G k x) n).
Proof.
  intros H. induction n as [|n IH].
  - unfold sumR. cbn. apply @is_derive_const.
  - apply is_derive_ext with (fun x => sumR (fun k => F k x) n + F n x); [intros t; symmetry; apply sumR_S|].
    rewrite (sumR_S (fun k => G k x)). apply @is_derive_plus; [exact IH|apply H].
Qed.

Lemma nu_pos n : 0 < nu n.
Proof. unfold nu. pose proof PI_RGT_0. pose proof (pos_INR n). nra. Qed.

Lemma fdm_derive nmats x : is_derive (fermi_dirac_matsubara nmats) x (- fermi_dirac_matsubara_delta nmats x).
Proof.
  unfold fermi_dirac_matsubara, fermi_dirac_matsubara_delta.
  apply is_derive_eq with (0 + 2 * sumR (fun n => re2 (inv_re x (nu n)) (inv_im x (nu n))) nmats); [|ring].
  apply @is_derive_plus; [apply @is_derive_const|]. apply (is_derive_scal (fun x => sumR (fun n => inv_re x (nu n)) nmats)).
  apply (sumR_derive (fun n x => inv_re x (nu n)) (fun n x => re2 (inv_re x (nu n)) (inv_im x (nu n)))).
  intros k. unfold re2, inv_re, inv_im. pose proof (nu_pos k). auto_derive; [nra|]. field. nra.
Qed.

Lemma fdmd_derive nmats x : is_derive (fermi_dirac_matsubara_delta nmats) x (fermi_dirac_matsubara_delta_prime nmats x).
Proof.
  unfold fermi_dirac_matsubara_delta, fermi_dirac_matsubara_delta_prime.
  apply is_derive_eq with (- 2 * sumR (fun n => 2 * re3 (inv_re x (nu n)) (inv_im x (nu n))) nmats).
  - apply (is_derive_scal (fun x => sumR (fun n => re2 (inv_re x (nu n)) (inv_im x (nu n))) nmats)).
    apply (sumR_derive (fun n x => re2 (inv_re x (nu n)) (inv_im x (nu n))) (fun n x => 2 * re3 (inv_re x (nu n)) (inv_im x (nu n)))).
    intros k. unfold re2, re3, inv_re, inv_im. pose proof (nu_pos k). auto_derive; [nra|]. field. nra.
  - induction nmats as [|n IH]; [unfold sumR; cbn; ring|]. rewrite !sumR_S. lra.
Qed.

(** ** Methfessel-Paxton smearing *)

(** Hermite polynomials by their recurrence. *)
Fixpoint Hpair (n : nat) (x : R) : R * R :=
  match n with
  | O => (1, 0)
  | S n => let (h, H) := Hpair n x in (2 * x * h - 2 * INR n * H, h)
  end.
Definition Hn (n : nat) (x : R) : R := fst (Hpair n x).
Definition Hpred (n : nat) (x : R) : R := match n with O => 0 | S n => Hn n x end.

Lemma Hpair_eq n x : Hpair n x = (Hn n x, Hpred n x).
Proof. destruct n as [|n]; [reflexivity|]. unfold Hn, Hpred, Hn. cbn [Hpair]. destruct (Hpair n x). reflexivity. Qed.

Lemma Hn_S n x : Hn (S n) x = 2 * x * Hn n x - 2 * INR n * Hpred n x.
Proof. unfold Hn at 1. cbn [Hpair]. rewrite Hpair_eq. reflexivity. Qed.

Lemma Hn_derive n : forall x, is_derive (Hn n) x (2 * INR n * Hpred n x).
Proof.
  assert (G : forall n, (forall x, is_derive (Hn n) x (2 * INR n * Hpred n x)) /\ (forall x, is_derive (Hn (S n)) x (2 * INR (S n) * Hn n x))).
  2:{ apply G. }
  clear n. induction n as [|n [IH1 IH2]].
  - split; intros x.
    + apply is_derive_ext with (fun _ => 1); [reflexivity|]. apply is_derive_eq with 0; [apply @is_derive_const|cbn; ring].
    + apply is_derive_ext with (fun x => 2 * x * 1 - 2 * 0 * 0); [intros t; rewrite Hn_S; reflexivity|]. auto_derive; [exact I|]. cbn. unfold Hn. cbn. ring.
  - split; [exact IH2|]. intros x.
    apply is_derive_ext with (fun x => mult (2 * x) (Hn (S n) x) - scal (2 * INR (S n)) (Hn n x)).
    { intros t. rewrite (Hn_S (S n)). reflexivity. }
    eapply is_derive_eq.
    + apply @is_derive_minus.
      * apply (is_derive_mult (fun x => 2 * x) (Hn (S n)) x 2); [|apply IH2|intros; apply Rmult_comm]. auto_derive; [exact I|ring].
      * apply (is_derive_scal (Hn n)). apply IH1.
    + unfold minus, plus, opp, mult. cbn -[INR Hn]. unfold mult. cbn -[INR Hn]. rewrite (Hn_S n x) , (S_INR (S n)) , S_INR. ring.
Qed.

(** H_n(x) exp(-x^2) has the derivative - H_{n+1}(x) exp(-x^2). *)
Lemma Hgauss_derive n x : is_derive (fun x => Hn n x * gauss_delta x) x (- (Hn (S n) x * gauss_delta x)).
Proof.
  eapply is_derive_eq.
  - apply (is_derive_mult (Hn n) gauss_delta x); [apply Hn_derive|apply gauss_delta_derive|intros; apply Rmult_comm].
  - unfold plus, mult. cbn -[Hn INR]. rewrite Hn_S. unfold gauss_delta_prime, gauss_delta. field. pose proof sqrt_PI_pos. lra.
Qed.

Lemma Hn_parity n x : Hn n (- x) = (if Nat.even n then 1 else -1) * Hn n x /\
  Hn (S n) (- x) = (if Nat.even n then -1 else 1) * Hn (S n) x.
Proof.
  induction n as [|n [IH1 IH2]].
  - split; [unfold Hn; cbn; ring|]. rewrite !Hn_S. unfold Hn. cbn. ring.
  - split; [rewrite IH2; rewrite Nat.even_succ, <- Nat.negb_even; destruct (Nat.even n); cbn; ring|].
    rewrite !(Hn_S (S n)). cbn [Hpred]. rewrite IH1, IH2, Nat.even_succ, <- Nat.negb_even. destruct (Nat.even n); cbn -[INR]; ring.
Qed.

Lemma hermite_from_nth N : forall k x, hermite_from N k x (Hn k x) (Hpred k x) = map (fun i => Hn i x) (seq k N).
Proof.
  induction N as [|N IH]; intros k x; cbn [hermite_from seq map]; [reflexivity|]. f_equal.
  rewrite <- IH. rewrite Hn_S. reflexivity.
Qed.

Lemma hermite_ok x N : hermite_polynomials x N = map (fun i => Hn i x) (seq 0 N).
Proof. unfold hermite_polynomials. rewrite <- hermite_from_nth. reflexivity. Qed.

(** Coefficients A_n of the docstring, without the factor 1 / sqrt(pi). *)
Definition An (n : nat) : R := (-1) ^ n / (INR (fact n) * 4 ^ n).

Lemma An_S n : An (S n) = An n / (-4 * INR (S n)).
Proof.
  unfold An. rewrite fact_simpl, mult_INR. cbn [pow]. pose proof (INR_fact_neq_0 n). assert (4 ^ n <> 0) by (apply pow_nonzero; lra).
  assert (INR (S n) <> 0) by (apply not_0_INR; lia). field. auto.
Qed.

(** The sum over m = n, ..., n + k - 1 of A_m H_{2 m - 1 + diff}. *)
Fixpoint mp_sum (k n diff : nat) (x : R) : R :=
  match k with O => 0 | S k => An n * Hn (2 * n - 1 + diff) x + mp_sum k (S n) diff x end.

Lemma mp_skip_ok diff : forall a i N x, (diff <= N)%nat ->
  mp_skip diff a (map (fun i => Hn i x) (seq i N)) = Ok (a * (-1) ^ diff, map (fun i => Hn i x) (seq (i + diff) (N - diff))).
Proof.
  induction diff as [|diff IH]; intros a i N x H; cbn [mp_skip].
  - rewrite Nat.add_0_r, Nat.sub_0_r. f_equal. f_equal. cbn. ring.
  - destruct N as [|N]; [lia|]. cbn [seq map]. rewrite IH by lia. f_equal. f_equal; [cbn [pow]; ring|]. f_equal. f_equal; lia.
Qed.

Lemma mp_loop_ok diff x c k : forall n s N, (0 < n)%nat -> (2 * k <= N)%nat ->
  mp_loop k n (c * An (n - 1)) s (map (fun i => Hn i x) (seq (2 * n - 2 + diff) N)) = Ok (s + c * mp_sum k n diff x).
Proof.
  induction k as [|k IH]; intros n s N Hn' HN; cbn [mp_loop mp_sum].
  - f_equal. ring.
  - destruct N as [|[|N]]; [lia|lia|]. cbn [seq map].
    replace (c * An (n - 1) / (-4 * INR n)) with (c * An n).
    2:{ destruct n as [|n]; [lia|]. rewrite An_S. replace (S n - 1)%nat with n by lia. unfold Rdiv. ring. }
    pose proof (IH (S n) (s + c * An n * Hn (S (2 * n - 2 + diff)) x) N ltac:(lia) ltac:(lia)) as E.
    replace (S n - 1)%nat with n in E by lia. replace (2 * S n - 2 + diff)%nat with (S (S (2 * n - 2 + diff))) in E by lia.
    rewrite E. f_equal. replace (2 * n - 1 + diff)%nat with (S (2 * n - 2 + diff)) by lia. ring.
Qed.

Lemma mp_term_ok order diff x : (diff + 2 * order <= 100)%nat ->
  methfessel_paxton_term x order diff = Ok ((-1) ^ diff * mp_sum order 1 diff x * gauss_delta x).
Proof.
  intros H. unfold methfessel_paxton_term. rewrite hermite_ok, mp_skip_ok by lia. cbn [bind].
  pose proof (mp_loop_ok diff x (1 * (-1) ^ diff) order 1 0 (100 - diff) ltac:(lia) ltac:(lia)) as E.
  change (2 * 1 - 2 + diff)%nat with (0 + diff)%nat in E. change (1 - 1)%nat with 0%nat in E.
  replace (1 * (-1) ^ diff * An 0) with (1 * (-1) ^ diff) in E by (unfold An; cbn; field). rewrite E. cbn [bind]. f_equal. ring.
Qed.

Lemma mp_sum_derive k diff x : forall n, (0 < n)%nat ->
  is_derive (fun x => mp_sum k n diff x * gauss_delta x) x (- (mp_sum k n (S diff) x * gauss_delta x)).
Proof.
  induction k as [|k IH]; intros n Hn'; cbn [mp_sum].
  - apply (is_derive_ext (fun _ => 0)); [intros t; apply eq_sym, Rmult_0_l|]. apply is_derive_eq with 0; [apply @is_derive_const|ring].
  - apply is_derive_ext with (fun x => scal (An n) (Hn (2 * n - 1 + diff) x * gauss_delta x) + mp_sum k (S n) diff x * gauss_delta x).
    { intros t. unfold scal. cbn -[Hn]. unfold mult. cbn -[Hn]. ring. }
    eapply is_derive_eq.
    + apply @is_derive_plus; [apply (is_derive_scal (fun x => Hn (2 * n - 1 + diff) x * gauss_delta x)), Hgauss_derive|apply IH; lia].
    + unfold plus. cbn [plus]. replace (2 * n - 1 + S diff)%nat with (S (2 * n - 1 + diff)) by lia. cbn -[Hn mp_sum]. ring.
Qed.

Definition MP0 (order : nat) (x : R) : R := gauss x + mp_sum order 1 0 x * gauss_delta x.
Definition MP1 (order : nat) (x : R) : R := gauss_delta x + mp_sum order 1 1 x * gauss_delta x.
Definition MP2 (order : nat) (x : R) : R := gauss_delta_prime x - mp_sum order 1 2 x * gauss_delta x.

Lemma MP0_ok order x : (2 * order <= 100)%nat -> methfessel_paxton order x = Ok (MP0 order x).
Proof. intros H. unfold methfessel_paxton. rewrite mp_term_ok by lia. cbn [bind]. f_equal. unfold MP0. cbn [pow]. ring. Qed.

Lemma MP1_ok order x : (1 + 2 * order <= 100)%nat -> methfessel_paxton_delta order x = Ok (MP1 order x).
Proof. intros H. unfold methfessel_paxton_delta. rewrite mp_term_ok by lia. cbn [bind]. f_equal. unfold MP1. cbn [pow]. ring. Qed.

Lemma MP2_ok order x : (2 + 2 * order <= 100)%nat -> methfessel_paxton_delta_prime order x = Ok (MP2 order x).
Proof. intros H. unfold methfessel_paxton_delta_prime. rewrite mp_term_ok by lia. cbn [bind]. f_equal. unfold MP2. cbn [pow]. ring. Qed.

Lemma MP0_derive order x : is_derive (MP0 order) x (- MP1 order x).
Proof.
  unfold MP0, MP1. eapply is_derive_eq; [apply @is_derive_plus; [apply gauss_derive|apply mp_sum_derive; lia]|]. unfold plus. cbn -[mp_sum]. ring.
Qed.

Lemma MP1_derive order x : is_derive (MP1 order) x (MP2 order x).
Proof.
  unfold MP1, MP2. eapply is_derive_eq; [apply @is_derive_plus; [apply gauss_delta_derive|apply mp_sum_derive; lia]|]. unfold plus. cbn -[mp_sum]. ring.
Qed.

Lemma mp_sum_odd k x : forall n, (0 < n)%nat -> mp_sum k n 0 (- x) = - mp_sum k n 0 x.
Proof.
  induction k as [|k IH]; intros n H; cbn [mp_sum]; [ring|]. rewrite IH by lia.
  destruct (Hn_parity (2 * n - 2) x) as [_ E]. replace (2 * n - 1 + 0)%nat with (S (2 * n - 2)) by lia. rewrite E.
  replace (2 * n - 2)%nat with (2 * (n - 1))%nat by lia. rewrite Nat.even_mul. cbn [Nat.even orb]. ring.
Qed.

Lemma gauss_opp x : gauss (- x) = 1 - gauss x.
Proof. unfold gauss. rewrite erf_opp. field. Qed.

Lemma gauss_delta_opp x : gauss_delta (- x) = gauss_delta x.
Proof. unfold gauss_delta. f_equal. f_equal. ring. Qed.

Lemma MP0_opp order x : MP0 order (- x) = 1 - MP0 order x.
Proof. unfold MP0. rewrite gauss_opp, gauss_delta_opp, mp_sum_odd by lia. ring. Qed.

Lemma mp_entropy_ok x : methfessel_paxton_entropy 1 x = Ok (1 / 2 * mp_sum 1 1 1 x * gauss_delta x).
Proof. unfold methfessel_paxton_entropy. cbn [Nat.eqb negb]. rewrite mp_term_ok by lia. cbn [bind]. f_equal. cbn [pow]. field. Qed.

Lemma mp_entropy_derive x : is_derive (fun x => 1 / 2 * mp_sum 1 1 1 x * gauss_delta x) x (x * - MP1 1 x).
Proof.
  apply is_derive_ext with (fun x => scal (1 / 2) (mp_sum 1 1 1 x * gauss_delta x)); [intros t; unfold scal; cbn -[mp_sum]; unfold mult; cbn -[mp_sum]; ring|].
  eapply is_derive_eq; [apply (is_derive_scal (fun x => mp_sum 1 1 1 x * gauss_delta x)), mp_sum_derive; lia|].
  unfold MP1. cbn [mp_sum]. unfold An, Hn. cbn. field.
Qed.
