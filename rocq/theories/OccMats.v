(** Sums over Matsubara frequencies converge to the Fermi function. *)
From Coq Require Import Reals Lra Lia Psatz.
From Coquelicot Require Import Coquelicot.
From Verif Require Import Common OccModel OccSpec GaussProofs OccProofs OccFermi.
Local Open Scope R_scope.

(** Mean-value bound. *)
Lemma mv_bound (G g : R -> R) a b M : a <= b -> (forall t, a <= t <= b -> is_derive G t (g t)) ->
  (forall t, a <= t <= b -> Rabs (g t) <= M) -> Rabs (G b - G a) <= M * (b - a).
Proof.
  intros H D B. destruct (MVT_gen G a b g) as (c & Hc & E).
  - intros t Ht. rewrite Rmin_left, Rmax_right in Ht by exact H. apply D. lra.
  - intros t Ht. rewrite Rmin_left, Rmax_right in Ht by exact H. apply continuity_pt_filterlim, (ex_derive_continuous G t). exists (g t). apply D. lra.
  - rewrite Rmin_left, Rmax_right in Hc by exact H. rewrite E, Rabs_mult, (Rabs_right (b - a)) by lra.
    apply Rmult_le_compat_r; [lra|apply B, Hc].
Qed.

Lemma sin_ge y : 0 <= y <= PI / 2 -> y / 4 <= sin y.
Proof.
  intros H. pose proof PI_RGT_0.
  assert (C : forall c, 0 <= c <= PI / 4 -> 1 / 2 <= cos c).
  { intros c Hc. apply Rle_trans with (cos (PI / 4)); [|apply cos_decr_1; lra].
    assert (P : 0 < cos (PI / 4)) by (apply cos_gt_0; lra). pose proof (sin2_cos2 (PI / 4)) as E. rewrite sin_cos_PI4 in E. unfold Rsqr in E. nra. }
  assert (S : y / 4 <= sin (y / 2)).
  { destruct (MVT_gen sin 0 (y / 2) cos) as (c & Hc & E).
    - intros t _. apply is_derive_Reals, derivable_pt_lim_sin.
    - intros t _. apply continuity_sin.
    - rewrite Rmin_left, Rmax_right in Hc by lra. rewrite sin_0 in E. specialize (C c ltac:(lra)). nra. }
  replace y with (2 * (y / 2)) at 2 by field. rewrite sin_2a. pose proof (C (y / 2) ltac:(lra)). nra.
Qed.

Section Mats.
Variable x : R.

Let g (t : R) : R := (exp (x * (1 / 2 - t)) - exp (- (x * (1 / 2 - t)))) / 2.
Let ch (t : R) : R := (exp (x * (1 / 2 - t)) + exp (- (x * (1 / 2 - t)))) / 2.
Let u (t : R) : R := g t - g 0 * cos (PI * t).
Let u' (t : R) : R := - x * ch t + g 0 * (PI * sin (PI * t)).
Let v (t : R) : R := u' t * sin (PI * t) - u t * (PI * cos (PI * t)).

Lemma u_derive t : is_derive u t (u' t).
Proof. unfold u, u', g, ch. auto_derive; [exact I|]. unfold g. change (1 / 2 + - t) with (1 / 2 - t). field. Qed.

Lemma v_derive t : is_derive v t ((x * x + PI * PI) * g t * sin (PI * t)).
Proof. unfold v, u', u, g, ch. auto_derive; [exact I|]. change (1 / 2 + - t) with (1 / 2 - t). field. Qed.

Lemma g_half : g (1 / 2) = 0.
Proof. unfold g. replace (x * (1 / 2 - 1 / 2)) with 0 by ring. rewrite Ropp_0. field. Qed.

Lemma ch_pos t : 0 < ch t.
Proof. unfold ch. pose proof (exp_pos (x * (1 / 2 - t))). pose proof (exp_pos (- (x * (1 / 2 - t)))). lra. Qed.

Lemma u_0 : u 0 = 0.
Proof. unfold u. rewrite Rmult_0_r, cos_0. ring. Qed.

Lemma v_0 : v 0 = 0.
Proof. unfold v. rewrite u_0, Rmult_0_r, sin_0. ring. Qed.

(** Bounds on the interval. *)
Let B := exp (Rabs x).

Lemma exps t : 0 <= t <= 1 / 2 -> exp (x * (1 / 2 - t)) <= B /\ exp (- (x * (1 / 2 - t))) <= B.
Proof.
  intros H. assert (E : Rabs (x * (1 / 2 - t)) <= Rabs x).
  { rewrite Rabs_mult, (Rabs_right (1 / 2 - t)) by lra. pose proof (Rabs_pos x). nra. }
  assert (M : forall a b, a <= b -> exp a <= exp b) by (intros a b [L|L]; [left; apply exp_increasing, L|rewrite L; lra]).
  split; apply M.
  - pose proof (Rle_abs (x * (1 / 2 - t))). lra.
  - pose proof (Rle_abs (- (x * (1 / 2 - t)))). rewrite Rabs_Ropp in *. lra.
Qed.

Lemma g_bound t : 0 <= t <= 1 / 2 -> Rabs (g t) <= B.
Proof.
  intros H. destruct (exps t H). pose proof (exp_pos (x * (1 / 2 - t))). pose proof (exp_pos (- (x * (1 / 2 - t)))).
  unfold g. apply Rabs_le. lra.
Qed.

Lemma B_pos : 0 < B.
Proof. apply exp_pos. Qed.

Lemma ch_bound t : 0 <= t <= 1 / 2 -> Rabs (ch t) <= B.
Proof.
  intros H. destruct (exps t H). pose proof (exp_pos (x * (1 / 2 - t))). pose proof (exp_pos (- (x * (1 / 2 - t)))).
  unfold ch. apply Rabs_le. lra.
Qed.

Lemma sin_abs y : Rabs (sin y) <= 1.
Proof. apply Rabs_le. apply SIN_bound. Qed.

Lemma cos_abs y : Rabs (cos y) <= 1.
Proof. apply Rabs_le. apply COS_bound. Qed.

Lemma u'_bound t : 0 <= t <= 1 / 2 -> Rabs (u' t) <= (Rabs x + PI) * B.
Proof.
  intros H. pose proof PI_RGT_0. unfold u'. eapply Rle_trans; [apply Rabs_triang|]. rewrite !Rabs_mult, Rabs_Ropp, (Rabs_right PI) by lra.
  pose proof (ch_bound t H). pose proof (g_bound 0 ltac:(lra)). pose proof (sin_abs (PI * t)). pose proof B_pos.
  pose proof (Rabs_pos x). pose proof (Rabs_pos (ch t)). pose proof (Rabs_pos (g 0)). pose proof (Rabs_pos (sin (PI * t))).
  assert (Rabs x * Rabs (ch t) <= Rabs x * B) by (apply Rmult_le_compat_l; assumption).
  assert (PI * Rabs (sin (PI * t)) <= PI * 1) by (apply Rmult_le_compat_l; lra).
  assert (Rabs (g 0) * (PI * Rabs (sin (PI * t))) <= B * (PI * 1)) by (apply Rmult_le_compat; nra). lra.
Qed.

Lemma u_bound t : 0 <= t <= 1 / 2 -> Rabs (u t) <= (Rabs x + PI) * B * t.
Proof.
  intros H. pose proof (mv_bound u u' 0 t ((Rabs x + PI) * B) (proj1 H)) as M. rewrite u_0, !Rminus_0_r in M. apply M.
  - intros s _. apply u_derive.
  - intros s Hs. apply u'_bound. lra.
Qed.

Lemma v_bound t : 0 <= t <= 1 / 2 -> Rabs (v t) <= (x * x + PI * PI) * B * (PI * t) * t.
Proof.
  intros H. pose proof PI_RGT_0.
  pose proof (mv_bound v (fun t => (x * x + PI * PI) * g t * sin (PI * t)) 0 t ((x * x + PI * PI) * B * (PI * t)) (proj1 H)) as M.
  rewrite v_0, !Rminus_0_r in M. apply M.
  - intros s _. apply v_derive.
  - intros s Hs. rewrite !Rabs_mult, (Rabs_right (x * x + PI * PI)) by nra. pose proof (g_bound s ltac:(lra)). pose proof B_pos.
    assert (S : Rabs (sin (PI * s)) <= PI * t).
    { destruct (Req_dec s 0) as [->|N]; [rewrite Rmult_0_r, sin_0, Rabs_R0; nra|].
      assert (Hps : 0 < PI * s) by nra. assert (PI * s <= PI * t) by nra. rewrite Rabs_right.
      - pose proof (sin_lt_x (PI * s) Hps). lra.
      - apply Rle_ge, sin_ge_0; nra. }
    assert (0 <= x * x + PI * PI) by nra. pose proof (Rabs_pos (g s)). pose proof (Rabs_pos (sin (PI * s))).
    apply Rmult_le_compat; [nra|assumption| |exact S]. apply Rmult_le_compat_l; assumption.
Qed.

(** The kernel of the sum. *)
Let D (N : nat) (t : R) : R := sumR (fun n => cos (nu n * t)) N.

Lemma kernel N t : 2 * sin (PI * t) * D N t = sin (2 * INR N * (PI * t)).
Proof.
  unfold D. induction N as [|N IH].
  - unfold sumR. cbn. rewrite !Rmult_0_r, Rmult_0_l, sin_0. reflexivity.
  - rewrite sumR_S, Rmult_plus_distr_l, IH, S_INR. unfold nu. replace ((2 * INR N + 1) * PI * t) with (2 * INR N * (PI * t) + PI * t) by ring.
    replace (2 * (INR N + 1) * (PI * t)) with (2 * INR N * (PI * t) + 2 * (PI * t)) by ring.
    set (a := 2 * INR N * (PI * t)). set (b := PI * t). rewrite cos_plus, sin_plus, cos_2a_sin, sin_2a.
    pose proof (sin2_cos2 b). unfold Rsqr in H. ring.
Qed.

(** Antiderivatives. *)
Let a (n : nat) (t : R) : R := - (x * ch t * cos (nu n * t) - nu n * (g t * sin (nu n * t))) / (x * x + nu n * nu n).
Let b (n : nat) (t : R) : R :=
  match n with
  | O => t / 2 + sin (2 * (PI * t)) / (4 * PI)
  | S _ => sin (2 * INR n * (PI * t)) / (4 * INR n * PI) + sin (2 * INR (S n) * (PI * t)) / (4 * INR (S n) * PI)
  end.

Lemma den_pos n : 0 < x * x + nu n * nu n.
Proof. pose proof (nu_pos n). nra. Qed.

Lemma a_derive n t : is_derive (a n) t (g t * cos (nu n * t)).
Proof. pose proof (den_pos n). unfold a, g, ch. auto_derive; [exact I|]. change (1 / 2 + - t) with (1 / 2 - t). field. nra. Qed.

Lemma b_derive n t : is_derive (b n) t (cos (PI * t) * cos (nu n * t)).
Proof.
  pose proof PI_RGT_0. destruct n as [|n]; unfold b, nu.
  - auto_derive; [exact I|]. replace ((2 * INR 0 + 1) * PI * t) with (PI * t) by (cbn; ring). rewrite cos_2a_cos. field. lra.
  - assert (Hm : 0 < INR (S n)) by (apply lt_0_INR; lia). rewrite (S_INR (S n)). revert Hm. generalize (INR (S n)). intros m Hm.
    auto_derive; [exact I|]. set (c := 2 * m * (PI * t)). set (d := PI * t).
    replace ((2 * m + 1) * PI * t) with (c + d) by (unfold c, d; ring).
    replace (2 * (m + 1) * d) with (c + 2 * d) by (unfold c, d; ring).
    rewrite !cos_plus, sin_2a, cos_2a_cos. field. lra.
Qed.

Let Phi (N : nat) (t : R) : R := sumR (fun n => a n t - g 0 * b n t) N.

Lemma sumR_scale c (f : nat -> R) N : sumR (fun n => c * f n) N = c * sumR f N.
Proof. induction N as [|N IH]; [unfold sumR; cbn; ring|]. rewrite !sumR_S, IH. ring. Qed.

Lemma Phi_derive N t : is_derive (Phi N) t (u t * D N t).
Proof.
  unfold Phi, D. rewrite <- sumR_scale.
  apply (sumR_derive (fun n t => a n t - g 0 * b n t) (fun n t => u t * cos (nu n * t))). intros n.
  eapply is_derive_eq.
  - apply @is_derive_minus; [apply a_derive|]. apply (is_derive_scal (b n)), b_derive.
  - unfold minus, plus, opp, u. cbn. ring.
Qed.

Lemma sin_pi n : sin (INR n * PI) = 0.
Proof.
  induction n as [|n IH]; [cbn; rewrite Rmult_0_l; apply sin_0|]. rewrite S_INR, Rmult_plus_distr_r, Rmult_1_l, neg_sin, IH. ring.
Qed.

Lemma cos_half n : cos (nu n * (1 / 2)) = 0.
Proof.
  unfold nu. replace ((2 * INR n + 1) * PI * (1 / 2)) with (PI / 2 + INR n * PI) by field. rewrite cos_plus, cos_PI2, sin_pi. ring.
Qed.

Lemma a_diff n : a n (1 / 2) - a n 0 = x * ch 0 / (x * x + nu n * nu n).
Proof.
  pose proof (den_pos n). unfold a. rewrite cos_half, g_half, !Rmult_0_r, cos_0, sin_0. field. lra.
Qed.

Lemma b_diff n : b n (1 / 2) - b n 0 = match n with O => 1 / 4 | S _ => 0 end.
Proof.
  pose proof PI_RGT_0. destruct n as [|n]; unfold b; rewrite !Rmult_0_r, sin_0.
  - replace (2 * (PI * (1 / 2))) with PI by field. rewrite sin_PI. field. lra.
  - replace (2 * INR (S n) * (PI * (1 / 2))) with (INR (S n) * PI) by field.
    replace (2 * INR (S (S n)) * (PI * (1 / 2))) with (INR (S (S n)) * PI) by field. rewrite !sin_pi.
    assert (0 < INR (S n)) by (apply lt_0_INR; lia). assert (0 < INR (S (S n))) by (apply lt_0_INR; lia). field. lra.
Qed.

Lemma Phi_diff N : (0 < N)%nat -> Phi N (1 / 2) - Phi N 0 = - ch 0 * sumR (fun n => inv_re x (nu n)) N - g 0 / 4.
Proof.
  intros H. destruct N as [|N]; [lia|]. clear H. unfold Phi. induction N as [|N IH].
  - rewrite !sumR_S. unfold sumR. cbn [seq map fold_right]. pose proof (a_diff 0) as A. pose proof (b_diff 0) as Bd. cbn in Bd. pose proof (den_pos 0).
    unfold inv_re. replace (- x / (x * x + nu 0 * nu 0)) with (- (x / (x * x + nu 0 * nu 0))) by (field; lra).
    replace (x * ch 0 / (x * x + nu 0 * nu 0)) with (ch 0 * (x / (x * x + nu 0 * nu 0))) in A by (field; lra).
    fold (b 0 (1 / 2)) (b 0 0) in *. assert (g 0 * b 0 (1 / 2) - g 0 * b 0 0 = g 0 * (1 / 4)) by (rewrite <- Rmult_minus_distr_l; f_equal; exact Bd). lra.
  - rewrite (sumR_S _ (S N)), (sumR_S (fun n => a n 0 - _) (S N)), (sumR_S (fun n => inv_re x (nu n)) (S N)).
    pose proof (a_diff (S N)) as A. pose proof (b_diff (S N)) as Bd. pose proof (den_pos (S N)).
    assert (E : inv_re x (nu (S N)) * ch 0 = - (x * ch 0 / (x * x + nu (S N) * nu (S N)))) by (unfold inv_re; field; lra).
    assert (g 0 * b (S N) (1 / 2) - g 0 * b (S N) 0 = 0) by (rewrite <- Rmult_minus_distr_l, Bd; ring). lra.
Qed.

(** Integration by parts. *)
Let h (t : R) : R := u t / (2 * sin (PI * t)).
Let h' (t : R) : R := v t / (2 * (sin (PI * t) * sin (PI * t))).

Lemma sin_pos t : 0 < t <= 1 / 2 -> 0 < PI * t / 4 <= sin (PI * t).
Proof. intros H. pose proof PI_RGT_0. split; [nra|]. apply sin_ge. nra. Qed.

Lemma h_derive t : 0 < t <= 1 / 2 -> is_derive h t (h' t).
Proof.
  intros H. pose proof (sin_pos t H). unfold h. eapply is_derive_eq.
  - apply (is_derive_div u (fun t => 2 * sin (PI * t)) t (u' t) (2 * (PI * cos (PI * t)))); [apply u_derive| |lra].
    auto_derive; [exact I|ring].
  - unfold h', v. field. lra.
Qed.

Let C1 := 2 * (Rabs x + PI) * B / PI.
Let C2 := 8 * (x * x + PI * PI) * B / PI.

Lemma h_bound t : 0 < t <= 1 / 2 -> Rabs (h t) <= C1.
Proof.
  intros H. pose proof (sin_pos t H). pose proof PI_RGT_0. unfold h, Rdiv. rewrite Rabs_mult, (Rabs_right (/ _)) by (left; apply Rinv_0_lt_compat; lra).
  apply Rle_trans with ((Rabs x + PI) * B * t * / (2 * (PI * t / 4))).
  - apply Rmult_le_compat; [apply Rabs_pos|left; apply Rinv_0_lt_compat; lra|apply u_bound; lra|apply Rinv_le_contravar; lra].
  - right. unfold C1. field. lra.
Qed.

Lemma h'_bound t : 0 < t <= 1 / 2 -> Rabs (h' t) <= C2.
Proof.
  intros H. pose proof (sin_pos t H) as S. pose proof PI_RGT_0. set (s := sin (PI * t)) in *. set (r := PI * t / 4) in *.
  assert (0 < r * r <= s * s) by nra. unfold h', Rdiv. fold s. rewrite Rabs_mult, (Rabs_right (/ _)) by (left; apply Rinv_0_lt_compat; lra).
  apply Rle_trans with ((x * x + PI * PI) * B * (PI * t) * t * / (2 * (r * r))).
  - apply Rmult_le_compat; [apply Rabs_pos|left; apply Rinv_0_lt_compat; lra|apply v_bound; lra|apply Rinv_le_contravar; lra].
  - right. unfold C2, r. field. lra.
Qed.

Let E (N : nat) (t : R) : R := Phi N t - Phi N 0 + h t * (cos (2 * INR N * (PI * t)) / (2 * INR N * PI)).

Lemma E_derive N t : (0 < N)%nat -> 0 < t <= 1 / 2 -> is_derive (E N) t (h' t * (cos (2 * INR N * (PI * t)) / (2 * INR N * PI))).
Proof.
  intros HN H. pose proof PI_RGT_0. assert (0 < INR N) by (apply lt_0_INR, HN). pose proof (sin_pos t H). unfold E. eapply is_derive_eq.
  - apply @is_derive_plus.
    + apply @is_derive_minus; [apply Phi_derive|apply @is_derive_const].
    + apply (is_derive_mult h (fun t => cos (2 * INR N * (PI * t)) / (2 * INR N * PI)) t); [apply h_derive, H| |intros; apply Rmult_comm].
      apply is_derive_eq with (- sin (2 * INR N * (PI * t))); [|reflexivity]. auto_derive; [exact I|]. field. lra.
  - unfold minus, plus, opp, mult, zero. cbn. rewrite <- kernel. unfold h. field. split; [lra|]. lra.
Qed.

Lemma remainder N : (0 < N)%nat -> Rabs (Phi N (1 / 2) - Phi N 0) <= (2 * C1 + C2 + 1) / INR N.
Proof.
  intros HN. pose proof PI_RGT_0. pose proof PI2_1 as P2. unfold PI2 in P2. assert (HI : 0 < INR N) by (apply lt_0_INR, HN).
  assert (c1 : 0 <= C1). { pose proof B_pos. pose proof (Rabs_pos x). unfold C1. apply Rmult_le_pos; [nra|left; apply Rinv_0_lt_compat; lra]. }
  assert (c2 : 0 <= C2). { pose proof B_pos. unfold C2. apply Rmult_le_pos; [nra|left; apply Rinv_0_lt_compat; lra]. }
  assert (K : forall t, Rabs (cos (2 * INR N * (PI * t)) / (2 * INR N * PI)) <= / INR N).
  { intros t. unfold Rdiv. rewrite Rabs_mult, (Rabs_right (/ _)) by (left; apply Rinv_0_lt_compat; nra).
    apply Rle_trans with (1 * / (2 * INR N * PI)).
    - apply Rmult_le_compat_r; [left; apply Rinv_0_lt_compat; nra|apply cos_abs].
    - rewrite Rmult_1_l. apply Rinv_le_contravar; nra. }
  assert (I0 : 0 < / INR N) by (apply Rinv_0_lt_compat, HI).
  (* close to zero *)
  assert (CT : continuity_pt (Phi N) 0).
  { apply continuity_pt_filterlim, (ex_derive_continuous (Phi N) 0). exists (u 0 * D N 0). apply Phi_derive. }
  destruct (CT (/ INR N) I0) as (al & Hal & CT'). set (d := Rmin (al / 2) (1 / 4)).
  assert (Hd : 0 < d <= 1 / 4 /\ d < al) by (unfold d, Rmin; destruct (Rle_dec (al / 2) (1 / 4)); lra).
  assert (P0 : Rabs (Phi N d - Phi N 0) < / INR N).
  { apply CT'. split; [split; [exact I|lra]|]. cbn. unfold R_dist. rewrite Rminus_0_r, Rabs_right; lra. }
  assert (EM : Rabs (E N (1 / 2) - E N d) <= C2 * / INR N * (1 / 2 - d)).
  { apply mv_bound with (g := fun t => h' t * (cos (2 * INR N * (PI * t)) / (2 * INR N * PI))); [lra| |].
    - intros t Ht. apply E_derive; [exact HN|lra].
    - intros t Ht. rewrite Rabs_mult. apply Rmult_le_compat; [apply Rabs_pos|apply Rabs_pos|apply h'_bound; lra|apply K]. }
  assert (C2 * / INR N * (1 / 2 - d) <= C2 * / INR N * 1) by (apply Rmult_le_compat_l; [nra|lra]).
  assert (H1 : forall t, 0 < t <= 1 / 2 -> Rabs (h t * (cos (2 * INR N * (PI * t)) / (2 * INR N * PI))) <= C1 * / INR N).
  { intros t Ht. rewrite Rabs_mult. apply Rmult_le_compat; [apply Rabs_pos|apply Rabs_pos|apply h_bound, Ht|apply K]. }
  pose proof (H1 (1 / 2) ltac:(lra)) as A1. pose proof (H1 d ltac:(lra)) as A2. unfold E in EM.
  set (r1 := h (1 / 2) * _) in *. set (r2 := h d * _) in *. set (P1 := Phi N (1 / 2)) in *. set (Pd := Phi N d) in *. set (Pz := Phi N 0) in *.
  replace ((2 * C1 + C2 + 1) / INR N) with (2 * (C1 * / INR N) + C2 * / INR N + / INR N) by (field; lra).
  apply Rabs_def2 in P0. apply Rabs_le_between in EM. apply Rabs_le_between in A1. apply Rabs_le_between in A2. apply Rabs_le_between. lra.
Qed.

Lemma tanh_FD : g 0 / ch 0 = 1 - 2 * FDf x.
Proof.
  pose proof (ch_pos 0). unfold g, ch, FDf in *. replace (x * (1 / 2 - 0)) with (x / 2) in * by field.
  replace (exp x) with (exp (x / 2) * exp (x / 2)) by (rewrite <- exp_plus; f_equal; field).
  pose proof (exp_inv (x / 2)). pose proof (exp_pos (x / 2)). set (p := exp (x / 2)) in *.
  assert (E' : exp (- (x / 2)) = / p) by (apply Rmult_eq_reg_r with p; [rewrite Rinv_l; lra|lra]). rewrite E'. field. split; nra.
Qed.

Lemma matsubara_rate : exists C, forall N, (0 < N)%nat -> Rabs (fermi_dirac_matsubara N x - FDf x) <= C / INR N.
Proof.
  exists (2 * (2 * C1 + C2 + 1) / ch 0). intros N HN. assert (HI : 0 < INR N) by (apply lt_0_INR, HN). pose proof (ch_pos 0) as P.
  pose proof (remainder N HN) as R. rewrite (Phi_diff N HN) in R. unfold fermi_dirac_matsubara. set (s := sumR _ N) in *.
  pose proof tanh_FD as T. assert (FD : FDf x = 1 / 2 - g 0 / ch 0 / 2) by lra. rewrite FD.
  replace (1 / 2 + 2 * s - (1 / 2 - g 0 / ch 0 / 2)) with (- (- ch 0 * s - g 0 / 4) * (2 / ch 0)) by (field; lra).
  rewrite Rabs_mult, Rabs_Ropp, (Rabs_right (2 / ch 0)) by (left; apply Rdiv_lt_0_compat; lra).
  replace (2 * (2 * C1 + C2 + 1) / ch 0 / INR N) with ((2 * C1 + C2 + 1) / INR N * (2 / ch 0)) by (field; lra).
  apply Rmult_le_compat_r; [left; apply Rdiv_lt_0_compat; lra|exact R].
Qed.
End Mats.
