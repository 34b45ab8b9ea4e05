(** The error function: derivative, symmetry and the Gaussian integral. *)
From Coq Require Import Reals Lra Psatz.
From Coquelicot Require Import Coquelicot.
From Verif Require Import Common OccModel.
Local Open Scope R_scope.

Definition gf (t : R) : R := exp (- (t * t)).

Lemma continuous_gf x : continuous gf x.
Proof. apply (ex_derive_continuous gf x). unfold gf. auto_derive. exact I. Qed.

Lemma ex_RInt_gf a b : ex_RInt gf a b.
Proof. apply (ex_RInt_continuous (V := R_CompleteNormedModule)). intros z _. apply continuous_gf. Qed.

Definition Ig (x : R) : R := RInt gf 0 x.

Lemma Ig_derive x : is_derive Ig x (gf x).
Proof.
  unfold Ig. apply is_derive_RInt with 0.
  - apply filter_forall. intros y. apply (RInt_correct (V := R_CompleteNormedModule)), ex_RInt_gf.
  - apply continuous_gf.
Qed.

Lemma Ig_0 : Ig 0 = 0.
Proof. unfold Ig. rewrite RInt_point. reflexivity. Qed.

(** A function with derivative zero is constant. *)
Lemma derive_zero_const (f : R -> R) : (forall x, is_derive f x 0) -> forall x y, f x = f y.
Proof.
  intros H x y. destruct (MVT_gen f x y (fun _ => 0)) as (c & _ & E).
  - intros z _. apply H.
  - intros z _. apply continuity_pt_filterlim, (ex_derive_continuous f z). exists 0. apply H.
  - lra.
Qed.

Lemma Ig_opp x : Ig (- x) = - Ig x.
Proof.
  assert (H : forall x, is_derive (fun x => Ig x + Ig (- x)) x 0).
  { intros z. evar_last.
    - apply @is_derive_plus; [apply Ig_derive|]. apply (is_derive_comp Ig Ropp z); [apply Ig_derive|].
      apply @is_derive_opp, @is_derive_id.
    - unfold plus, scal, opp, one, mult. cbn. unfold mult. cbn. unfold gf. replace (- z * - z) with (z * z) by ring. ring. }
  pose proof (derive_zero_const _ H x 0) as E. cbn beta in E. rewrite Ropp_0, Ig_0 in E. lra.
Qed.

(** The parametric integral of the classical proof. *)
Definition kern (x t : R) : R := exp (- (x * x) * (1 + t * t)) / (1 + t * t).
Definition kern' (x t : R) : R := - 2 * x * exp (- (x * x) * (1 + t * t)).
Definition Kg (x : R) : R := RInt (kern x) 0 1.

Lemma pos1 t : 0 < 1 + t * t.
Proof. nra. Qed.

Lemma kern_derive x t : is_derive (fun x => kern x t) x (kern' x t).
Proof. unfold kern, kern'. pose proof (pos1 t). auto_derive; [lra|]. field. lra. Qed.

Lemma kern_derive_t x t : ex_derive (fun t => kern x t) t.
Proof. unfold kern. pose proof (pos1 t). auto_derive. lra. Qed.

Lemma ex_RInt_kern x a b : ex_RInt (kern x) a b.
Proof. apply (ex_RInt_continuous (V := R_CompleteNormedModule)). intros z _. apply (ex_derive_continuous (kern x) z), kern_derive_t. Qed.

Lemma continuity_2d_kern' x t : continuity_2d_pt kern' x t.
Proof.
  unfold kern'. apply continuity_2d_pt_mult.
  - apply continuity_2d_pt_mult; [apply continuity_2d_pt_const|apply continuity_2d_pt_id1].
  - apply (continuity_1d_2d_pt_comp exp (fun u v => - (u * u) * (1 + v * v))).
    + apply derivable_continuous_pt, derivable_pt_exp.
    + apply continuity_2d_pt_mult.
      * apply continuity_2d_pt_opp, continuity_2d_pt_mult; apply continuity_2d_pt_id1.
      * apply continuity_2d_pt_plus; [apply continuity_2d_pt_const|]. apply continuity_2d_pt_mult; apply continuity_2d_pt_id2.
Qed.

Lemma kern'_split x t : kern' x t = - 2 * gf x * (x * gf (x * t + 0)).
Proof.
  unfold kern', gf. replace (- (x * x) * (1 + t * t)) with (- (x * x) + - ((x * t + 0) * (x * t + 0))) by ring. rewrite exp_plus. ring.
Qed.

Lemma Kg_derive x : is_derive Kg x (- 2 * gf x * Ig x).
Proof.
  assert (D : is_derive Kg x (RInt (fun t => Derive (fun u => kern u t) x) 0 1)).
  { unfold Kg. apply is_derive_RInt_param.
    - apply filter_forall. intros y t _. exists (kern' y t). apply kern_derive.
    - intros t _. apply (continuity_2d_pt_ext kern').
      + intros u v. symmetry. apply is_derive_unique, kern_derive.
      + apply continuity_2d_kern'.
    - apply filter_forall. intros y. exact (ex_RInt_kern y 0 1). }
  replace (- 2 * gf x * Ig x) with (RInt (fun t => Derive (fun u => kern u t) x) 0 1); [exact D|].
  rewrite (RInt_ext _ (fun t => - 2 * gf x * (x * gf (x * t + 0)))).
  2:{ intros t _. apply eq_trans with (kern' x t); [exact (is_derive_unique _ _ _ (kern_derive x t))|exact (kern'_split x t)]. }
  assert (E : is_RInt (fun t => x * gf (x * t + 0)) 0 1 (Ig x)).
  { apply (is_RInt_comp_lin gf x 0 0 1 (Ig x)). 
    rewrite Rmult_0_r, Rmult_1_r, !Rplus_0_r. apply (RInt_correct (V := R_CompleteNormedModule)), ex_RInt_gf. }
  apply is_RInt_unique. apply (is_RInt_scal _ 0 1 (- 2 * gf x) (Ig x)) in E. exact E.
Qed.

Lemma kern_0 t : kern 0 t = / (1 + t * t).
Proof. unfold kern. replace (- (0 * 0) * (1 + t * t)) with 0 by ring. rewrite exp_0. unfold Rdiv. ring. Qed.

Lemma Kg_0 : Kg 0 = PI / 4.
Proof.
  unfold Kg. assert (E : is_RInt (fun t => / (1 + t * t)) 0 1 (atan 1 - atan 0)).
  { apply (is_RInt_derive atan).
    - intros t _. apply is_derive_Reals. replace (/ (1 + t * t)) with (/ (1 + t ^ 2)) by (f_equal; ring). apply derivable_pt_lim_atan.
    - intros t _. apply (ex_derive_continuous (fun t => / (1 + t * t)) t). pose proof (pos1 t). auto_derive. lra. }
  rewrite atan_1, atan_0 in E. 
  rewrite (RInt_ext (kern 0) (fun t => / (1 + t * t))).
  - rewrite (is_RInt_unique _ _ _ _ E). lra.
  - intros t _. exact (kern_0 t).
Qed.

Lemma gauss_identity x : Ig x * Ig x + Kg x = PI / 4.
Proof.
  assert (H : forall x, is_derive (fun x => Ig x * Ig x + Kg x) x 0).
  { intros z. evar_last.
    - apply @is_derive_plus; [|apply Kg_derive]. apply @is_derive_mult; [apply Ig_derive|apply Ig_derive|]. intros; apply Rmult_comm.
    - unfold plus, mult. cbn. ring. }
  rewrite (derive_zero_const _ H x 0). rewrite Ig_0, Kg_0. lra.
Qed.

Lemma Kg_pos x : 0 < Kg x.
Proof.
  unfold Kg. apply RInt_gt_0; [lra| |].
  - intros t _. unfold kern. apply Rdiv_lt_0_compat; [apply exp_pos|apply pos1].
  - intros t _. apply (ex_derive_continuous (kern x) t), kern_derive_t.
Qed.

Lemma Kg_le x : Kg x <= exp (- (x * x)).
Proof.
  unfold Kg. replace (exp (- (x * x))) with (RInt (fun _ => exp (- (x * x))) 0 1).
  2:{ rewrite RInt_const. unfold scal. cbn. unfold mult. cbn. ring. }
  apply RInt_le; [lra|apply ex_RInt_kern|apply ex_RInt_const|].
  intros t Ht. unfold kern. pose proof (pos1 t). apply Rle_div_l; [assumption|].
  assert (exp (- (x * x) * (1 + t * t)) <= exp (- (x * x))).
  { destruct (Req_dec (- (x * x) * (1 + t * t)) (- (x * x))) as [e|n]; [rewrite e; lra|]. left. apply exp_increasing. nra. }
  pose proof (exp_pos (- (x * x))). nra.
Qed.

(** ** The error function *)

Lemma sqrt_PI_pos : 0 < sqrt PI.
Proof. apply sqrt_lt_R0, PI_RGT_0. Qed.

Lemma erf_Ig x : erf x = 2 / sqrt PI * Ig x.
Proof. reflexivity. Qed.

Lemma erf_derive x : is_derive erf x (2 / sqrt PI * exp (- (x * x))).
Proof. apply (is_derive_scal Ig x (2 / sqrt PI) (gf x)), Ig_derive. Qed.

Lemma erf_opp x : erf (- x) = - erf x.
Proof. rewrite !erf_Ig, Ig_opp. ring. Qed.

Lemma erf_0 : erf 0 = 0.
Proof. rewrite erf_Ig, Ig_0. ring. Qed.

Lemma erf_sqr x : erf x * erf x = 1 - 4 / PI * Kg x.
Proof.
  rewrite erf_Ig. pose proof (gauss_identity x). pose proof sqrt_PI_pos as Hs. pose proof PI_RGT_0 as Hp.
  assert (E : sqrt PI * sqrt PI = PI) by (apply sqrt_sqrt; lra).
  replace (2 / sqrt PI * Ig x * (2 / sqrt PI * Ig x)) with (4 / (sqrt PI * sqrt PI) * (Ig x * Ig x)) by (field; lra).
  rewrite E. replace (Ig x * Ig x) with (PI / 4 - Kg x) by lra. field. lra.
Qed.

Lemma erf_bound x : -1 < erf x < 1.
Proof.
  pose proof (erf_sqr x). pose proof (Kg_pos x). pose proof PI_RGT_0.
  assert (0 < 4 / PI * Kg x) by (apply Rmult_lt_0_compat; [apply Rdiv_lt_0_compat|]; lra). nra.
Qed.

Lemma erf_increasing x y : x < y -> erf x < erf y.
Proof.
  intros H. destruct (MVT_gen erf x y (fun z => 2 / sqrt PI * exp (- (z * z)))) as (c & _ & E).
  - intros z _. apply erf_derive.
  - intros z _. apply continuity_pt_filterlim, (ex_derive_continuous erf z). eexists. apply erf_derive.
  - assert (0 < 2 / sqrt PI * exp (- (c * c)) * (y - x)).
    { pose proof sqrt_PI_pos. pose proof (exp_pos (- (c * c))). apply Rmult_lt_0_compat; [|lra].
      apply Rmult_lt_0_compat; [apply Rdiv_lt_0_compat; lra|assumption]. }
    lra.
Qed.

(** The limit at infinity. *)
Lemma erf_tail x : 0 <= x -> 1 - erf x <= 4 / PI * exp (- (x * x)).
Proof.
  intros Hx. pose proof (erf_sqr x) as E. pose proof (Kg_le x). pose proof (erf_bound x). pose proof PI_RGT_0.
  assert (0 <= erf x) by (destruct (Req_dec x 0) as [->|]; [rewrite erf_0; lra|]; rewrite <- erf_0; left; apply erf_increasing; lra).
  assert (0 < 4 / PI) by (apply Rdiv_lt_0_compat; lra).
  assert (4 / PI * Kg x <= 4 / PI * exp (- (x * x))) by (apply Rmult_le_compat_l; lra).
  nra.
Qed.
