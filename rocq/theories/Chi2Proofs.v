(** Proofs about sums over products of Green's functions. *)
From Coq Require Import Reals Lra Lia Psatz List.
From Coquelicot Require Import Coquelicot.
From Verif Require Import Common Cx CxProofs OccModel OccSpec OccProofs OccFermi OccMats.
From Verif Require Import DiagModel DiagSpec DiagProofs Chi2Model Chi2Spec.
Local Open Scope R_scope.

Lemma sumR_rsum f n : sumR f n = rsum n f.
Proof.
  unfold sumR. induction n as [|n IH]; [reflexivity|]. rewrite seq_S, map_app, fold_right_app. cbn [map fold_right rsum]. rewrite <- IH, Nat.add_0_l.
  generalize (map f (seq 0 n)). intros l. induction l as [|x l IHl]; cbn [fold_right]; [ring|]. rewrite IHl. ring.
Qed.

Lemma nu_pos n : 0 < nu n.
Proof. unfold nu. pose proof PI_RGT_0. pose proof (pos_INR n). nra. Qed.
Lemma nu_large n : 3 * (2 * INR n + 1) <= nu n.
Proof. unfold nu. pose proof PI2_3_2. pose proof (pos_INR n). nra. Qed.
Lemma mats_nu kT n : mats kT n = kT * nu n.
Proof. unfold mats, nu. ring. Qed.

(** Real part of the product of two Green's functions at a frequency [v] *)
Definition gg (v a b : R) : R := (a * b - v * v) / ((v * v + a * a) * (v * v + b * b)).

Lemma sq_sum_pos v a : 0 < v -> 0 < v * v + a * a.
Proof. intros; nra. Qed.

Lemma gg_inv v a b : 0 < v -> (a - b) * gg v a b = inv_re a v - inv_re b v.
Proof.
  intros H. pose proof (sq_sum_pos v a H). pose proof (sq_sum_pos v b H). unfold gg, inv_re. field. repeat split; nra.
Qed.

Lemma abs_le_sq v b : 1 <= v -> Rabs b <= v * v + b * b.
Proof. intros H. pose proof (Rle_0_sqr (b + 1 / 2)) as A. pose proof (Rle_0_sqr (b - 1 / 2)) as B. unfold Rsqr in A, B. apply Rabs_le. split; nra. Qed.

Lemma gg_num v a b : 1 <= v -> Rabs (v * v * (b + 2 * a) - a * a * b) * (v * v) <= 3 * ((v * v + a * a) * (v * v + a * a) * (v * v + b * b)).
Proof.
  intros H. pose proof (abs_le_sq v a H) as Ha. pose proof (abs_le_sq v b H) as Hb.
  assert (A : Rabs (v * v * (b + 2 * a) - a * a * b) <= (v * v + a * a) * Rabs b + 2 * (v * v) * Rabs a).
  { replace (v * v * (b + 2 * a) - a * a * b) with ((v * v - a * a) * b + 2 * (v * v) * a) by ring.
    eapply Rle_trans; [apply Rabs_triang|]. rewrite !Rabs_mult. apply Rplus_le_compat.
    - apply Rmult_le_compat_r; [apply Rabs_pos|]. apply Rabs_le. split; nra.
    - rewrite (Rabs_right 2), (Rabs_right v) by lra. lra. }
  assert (V1 : v * v <= v * v + a * a) by nra. assert (V2 : v * v <= v * v + b * b) by nra. assert (V0 : 0 <= v * v) by nra.
  pose proof (Rabs_pos a) as Qa. pose proof (Rabs_pos b) as Qb. pose proof (Rabs_pos (v * v * (b + 2 * a) - a * a * b)) as Q.
  revert A Ha Hb V1 V2 V0 Qa Qb Q. generalize (Rabs (v * v * (b + 2 * a) - a * a * b)). intros z.
  generalize (v * v + a * a). intros p. generalize (v * v + b * b). intros r. generalize (v * v). intros w. generalize (Rabs a). intros A. generalize (Rabs b). intros B. intros. assert (B1 : p * B * w <= p * r * p) by (apply Rmult_le_compat; [apply Rmult_le_pos; lra|lra|apply Rmult_le_compat_l; lra|lra]).
  assert (B2 : w * A * w <= r * p * p) by (apply Rmult_le_compat; [apply Rmult_le_pos; lra|lra|apply Rmult_le_compat; lra|lra]).
  apply Rle_trans with ((p * B + 2 * w * A) * w); [apply Rmult_le_compat_r; lra|]. lra.
Qed.

(** Difference from the product for equal energies *)
Lemma gg_close v a b : 1 <= v -> Rabs (gg v a b - gg v a a) <= 3 * Rabs (a - b) / (v * v).
Proof.
  intros H. assert (Hv : 0 < v) by lra. pose proof (sq_sum_pos v a Hv) as Pa. pose proof (sq_sum_pos v b Hv) as Pb.
  assert (E : gg v a b - gg v a a = (b - a) * ((v * v * (b + 2 * a) - a * a * b) / ((v * v + a * a) * (v * v + a * a) * (v * v + b * b)))).
  { unfold gg. field. repeat split; lra. }
  rewrite E, Rabs_mult, (Rabs_minus_sym b a). replace (3 * Rabs (a - b) / (v * v)) with (Rabs (a - b) * (3 / (v * v))) by (field; lra).
  apply Rmult_le_compat_l; [apply Rabs_pos|]. pose proof (gg_num v a b H) as B.
  assert (Pd : 0 < (v * v + a * a) * (v * v + a * a) * (v * v + b * b)) by (repeat apply Rmult_lt_0_compat; assumption).
  revert B Pd. generalize ((v * v + a * a) * (v * v + a * a) * (v * v + b * b)) (v * v * (b + 2 * a) - a * a * b). intros d z B Pd.
  assert (Pv : 0 < v * v) by nra.
  unfold Rdiv at 1. rewrite Rabs_mult, (Rabs_right (/ d)) by (left; apply Rinv_0_lt_compat, Pd).
  apply Rmult_le_reg_r with (d * (v * v)); [apply Rmult_lt_0_compat; assumption|].
  replace (Rabs z * / d * (d * (v * v))) with (Rabs z * (v * v)) by (field; lra).
  replace (3 / (v * v) * (d * (v * v))) with (3 * d) by (field; lra). exact B.
Qed.

(** The sum over frequencies *)
Definition GG (N : nat) (x y : R) : R := rsum N (fun n => gg (nu n) x y).

Lemma inv_sq_bound N : rsum N (fun n => / (nu n * nu n)) <= 2 - 1 / (INR N + 1).
Proof.
  induction N as [|N IH]; cbn [rsum]; [cbn; lra|]. rewrite S_INR. pose proof (pos_INR N) as P. pose proof (nu_large N) as L.
  assert (B : / (nu N * nu N) <= 1 / (INR N + 1) - 1 / (INR N + 1 + 1)).
  { replace (1 / (INR N + 1) - 1 / (INR N + 1 + 1)) with (/ ((INR N + 1) * (INR N + 2))) by (field; lra). apply Rinv_le_contravar; nra. }
  lra.
Qed.

Lemma inv_sq_le N : rsum N (fun n => / (nu n * nu n)) <= 2.
Proof.
  pose proof (inv_sq_bound N). pose proof (pos_INR N). assert (0 < 1 / (INR N + 1)) by (apply Rdiv_lt_0_compat; lra). lra.
Qed.

Lemma GG_close N x y : Rabs (GG N x y - GG N x x) <= 6 * Rabs (x - y).
Proof.
  unfold GG. rewrite <- rsum_minus. eapply Rle_trans; [apply rsum_abs|].
  apply Rle_trans with (rsum N (fun n => 3 * Rabs (x - y) * / (nu n * nu n))).
  - apply rsum_le. intros n _. apply gg_close. pose proof (nu_large n). pose proof (pos_INR n). lra.
  - rewrite rsum_scal. pose proof (inv_sq_le N). pose proof (Rabs_pos (x - y)). nra.
Qed.

Lemma GG_diff N x y : 2 * (x - y) * GG N x y = fermi_dirac_matsubara N x - fermi_dirac_matsubara N y.
Proof.
  unfold fermi_dirac_matsubara, GG. rewrite !sumR_rsum. replace (2 * (x - y) * rsum N (fun n => gg (nu n) x y)) with (2 * ((x - y) * rsum N (fun n => gg (nu n) x y))) by ring.
  rewrite <- rsum_scal, (rsum_ext N _ (fun n => inv_re x (nu n) - inv_re y (nu n))) by (intros n _; apply gg_inv, nu_pos). rewrite rsum_minus. ring.
Qed.

Lemma cv_of_rate (u : nat -> R) l : (exists C, forall N, (0 < N)%nat -> Rabs (u N - l) <= C / INR N) -> Un_cv u l.
Proof.
  intros [C H] eps He. destruct (archimed ((Rabs C + 1) / eps)) as [A _]. exists (Z.to_nat (up ((Rabs C + 1) / eps))). intros N HN.
  assert (P : 0 < (Rabs C + 1) / eps) by (apply Rdiv_lt_0_compat; [pose proof (Rabs_pos C)|]; lra).
  assert (U : (0 < up ((Rabs C + 1) / eps))%Z) by (apply lt_IZR; lra).
  assert (HN' : (Rabs C + 1) / eps < INR N). { eapply Rlt_le_trans; [exact A|]. rewrite INR_IZR_INZ. apply IZR_le. lia. }
  unfold R_dist. eapply Rle_lt_trans; [apply H; lia|]. apply Rmult_lt_reg_r with (INR N); [lra|]. unfold Rdiv. rewrite Rmult_assoc, Rinv_l, Rmult_1_r by lra.
  apply Rmult_lt_compat_l with (r := eps) in HN'; [|exact He]. replace (eps * ((Rabs C + 1) / eps)) with (Rabs C + 1) in HN' by (field; lra). pose proof (RRle_abs C). lra.
Qed.

Lemma Un_cv_ext2 (u v : nat -> R) l : (forall N, v N = u N) -> Un_cv u l -> Un_cv v l.
Proof. intros E H. apply (Un_cv_ext u); [intros; symmetry; apply E|exact H]. Qed.

Lemma cv_const c : Un_cv (fun _ => c) c.
Proof. intros eps He. exists 0%nat. intros N _. unfold R_dist. rewrite Rminus_diag_eq, Rabs_R0 by reflexivity. exact He. Qed.

Lemma GG_cv_off x y : x <> y -> Un_cv (fun N => 2 * GG N x y) ((FDf x - FDf y) / (x - y)).
Proof.
  intros Hxy. assert (Hd : x - y <> 0) by lra. apply (Un_cv_ext (fun N => (fermi_dirac_matsubara N x - fermi_dirac_matsubara N y) * / (x - y))).
  - intros N. rewrite <- GG_diff. field. exact Hd.
  - apply CV_mult; [apply CV_minus; apply cv_of_rate, matsubara_rate|]. intros eps He. exists 0%nat. intros N _. unfold R_dist. rewrite Rminus_diag_eq, Rabs_R0 by reflexivity. exact He.
Qed.

Lemma GG_cv_diag x : Un_cv (fun N => 2 * GG N x x) (- FDd x).
Proof.
  intros eps He. pose proof (FDf_derive x) as D. apply is_derive_Reals in D. destruct (D (eps / 3) ltac:(lra)) as [d Hd].
  set (h := Rmin (d / 2) (eps / 72)). assert (Pd := cond_pos d).
  assert (Hh : 0 < h) by (unfold h; apply Rmin_glb_lt; lra). assert (h1 : h <= d / 2) by apply Rmin_l. assert (h2 : h <= eps / 72) by apply Rmin_r.
  specialize (Hd h ltac:(lra) ltac:(rewrite Rabs_right; lra)).
  destruct (GG_cv_off (x + h) x ltac:(lra) (eps / 3) ltac:(lra)) as [N0 H0]. exists N0. intros N HN. specialize (H0 N HN). unfold R_dist in *.
  replace (x + h - x) with h in H0 by ring.
  pose proof (GG_close N x (x + h)) as Cl. replace (x - (x + h)) with (- h) in Cl by ring. rewrite Rabs_Ropp, (Rabs_right h) in Cl by lra.
  assert (Sy : GG N (x + h) x = GG N x (x + h)).
  { unfold GG. apply rsum_ext. intros n _. unfold gg. rewrite (Rmult_comm (x + h) x), (Rmult_comm (nu n * nu n + (x + h) * (x + h))). reflexivity. }
  rewrite Sy in H0.
  replace (2 * GG N x x - - FDd x) with (- (2 * (GG N x (x + h) - GG N x x)) + (2 * GG N x (x + h) - (FDf (x + h) - FDf x) / h) + ((FDf (x + h) - FDf x) / h - - FDd x)) by ring.
  eapply Rle_lt_trans; [apply Rabs_triang|]. apply Rlt_le_trans with (eps / 3 + eps / 3 + eps / 3); [|lra]. apply Rplus_lt_compat; [|exact Hd].
  eapply Rle_lt_trans; [apply Rabs_triang|]. apply Rplus_le_lt_compat; [|exact H0]. rewrite Rabs_Ropp, Rabs_mult, (Rabs_right 2) by lra. lra.
Qed.

(** ** Green's functions *)

(** Frequencies are shifted by the hybridization. *)
Definition shifted (kT width height : R) (n : nat) : R := mats kT n + 2 * height * atan (2 * width / mats kT n).

Lemma mats_pos kT n : 0 < kT -> 0 < mats kT n.
Proof. intros H. rewrite mats_nu. pose proof (nu_pos n). nra. Qed.

Lemma shifted_ge kT width height n : 0 < kT -> 0 <= width -> 0 <= height -> mats kT n <= shifted kT width height n.
Proof.
  intros H Hw Hh. unfold shifted. pose proof (mats_pos kT n H) as P.
  assert (A : 0 <= atan (2 * width / mats kT n)). { rewrite <- atan_0. destruct (Rle_lt_or_eq_dec 0 (2 * width / mats kT n)) as [L|<-].
    - apply Rmult_le_pos; [lra|]. left. apply Rinv_0_lt_compat, P.
    - left. apply atan_increasing, L.
    - right. reflexivity. }
  nra.
Qed.

Lemma shifted_pos kT width height n : 0 < kT -> 0 <= width -> 0 <= height -> 0 < shifted kT width height n.
Proof. intros. pose proof (mats_pos kT n H). pose proof (shifted_ge kT width height n H H0 H1). lra. Qed.

Lemma green_parts a v t : 0 < v + t -> green a v (0, - t) = (- a / ((v + t) * (v + t) + a * a), - (v + t) / ((v + t) * (v + t) + a * a)).
Proof.
  intros H. pose proof (sq_sum_pos (v + t) a H) as P. unfold green. apply c_ext; cbn; field; nra.
Qed.

Definition gg_im (v a b : R) : R := v * (a + b) / ((v * v + a * a) * (v * v + b * b)).

Lemma green_prod a b v t : 0 < v + t -> (green a v (0, - t)%R * green b v (0, - t)%R)%C = (gg (v + t) a b, gg_im (v + t) a b).
Proof.
  intros H. rewrite !green_parts by exact H. pose proof (sq_sum_pos (v + t) a H). pose proof (sq_sum_pos (v + t) b H).
  unfold gg, gg_im. apply c_ext; cbn [fst snd Cmult]; field; split; lra.
Qed.

Section Mesh.
  Variables (nk : nat) (e : nat -> nat -> R) (kT width height : R).
  Hypotheses (Hnk : (0 < nk)%nat) (HkT : 0 < kT) (Hw : 0 <= width) (Hh : 0 <= height).

  Notation V := (shifted kT width height).

  Lemma G_prod n i j i' j' : (G_ nk e kT width height n i j * G_ nk e kT width height n i' j')%C
    = (gg (V n) (tile2 nk e i j) (tile2 nk e i' j'), gg_im (V n) (tile2 nk e i j) (tile2 nk e i' j')).
  Proof.
    unfold G_. assert (E : hybridization width height (mats kT n) = (0, - (2 * height * atan (2 * width / mats kT n)))) by (unfold hybridization; f_equal; ring).
    rewrite E. apply green_prod. exact (shifted_pos kT width height n HkT Hw Hh).
  Qed.

  Lemma tile2_in i j : (i < nk)%nat -> (j < nk)%nat -> tile2 nk e i j = e i j.
  Proof. intros. unfold tile2. rewrite !Nat.mod_small by assumption. reflexivity. Qed.

  (** Contribution of a k point *)
  Definition term (nmats m1 m2 i j : nat) : R :=
    4 * kT * (rsum nmats (fun n => gg (V n) (e i j) (displaced nk e m1 m2 i j) + 1 / mats kT n ^ 2)) - 2 / (4 * kT).

  Lemma nk_pos : 0 < INR nk. Proof. apply lt_0_INR, Hnk. Qed.

  Lemma chi2_term nmats q1 q2 i j : (i < nk)%nat -> (j < nk)%nat ->
    chi2 nk e kT nmats width height q1 q2 i j = term nmats (q_index nk q1) (q_index nk q2) i j / INR nk ^ 2.
  Proof.
    intros Hi Hj. unfold chi2, term. rewrite fst_csum. rewrite (rsum_ext nmats _ (fun n => gg (V n) (e i j) (displaced nk e (q_index nk q1) (q_index nk q2) i j))).
    - rewrite rsum_plus. pose proof nk_pos. field. lra.
    - intros n _. rewrite G_prod, tile2_in by assumption. reflexivity.
  Qed.

  Lemma susceptibility2_re nmats q1 q2 : fst (susceptibility2 nk e kT nmats width height q1 q2)
    = / INR nk ^ 2 * rsum nk (fun i => rsum nk (fun j => term nmats (q_index nk q1) (q_index nk q2) i j)).
  Proof.
    unfold susceptibility2. set (m1 := q_index nk q1). set (m2 := q_index nk q2). pose proof nk_pos as P.
    assert (E : rsum nk (fun i => rsum nk (fun j => term nmats m1 m2 i j))
      = 4 * kT * rsum nmats (fun n => rsum nk (fun i => rsum nk (fun j => gg (V n) (e i j) (displaced nk e m1 m2 i j))))
        + INR nk ^ 2 * (4 * kT * rsum nmats (fun n => 1 / mats kT n ^ 2) - 2 / (4 * kT))).
    { rewrite (rsum_ext nk _ (fun i => 4 * kT * rsum nk (fun j => rsum nmats (fun n => gg (V n) (e i j) (displaced nk e m1 m2 i j)))
        + INR nk * (4 * kT * rsum nmats (fun n => 1 / mats kT n ^ 2) - 2 / (4 * kT)))).
      - rewrite rsum_plus, rsum_const, rsum_scal. rewrite (rsum_ext nk (fun i => rsum nk (fun j => rsum nmats _)) (fun i => rsum nmats (fun n => rsum nk (fun j => gg (V n) (e i j) (displaced nk e m1 m2 i j))))) by (intros i _; apply (rsum_swap nk nmats)).
        rewrite (rsum_swap nk nmats (fun i n => rsum nk (fun j => gg (V n) (e i j) (displaced nk e m1 m2 i j)))). ring.
      - intros i _. unfold term. rewrite <- rsum_const, <- rsum_scal, <- rsum_plus. apply rsum_ext. intros j _. rewrite rsum_plus. ring. }
    rewrite E. cbn [fst Cplus]. rewrite fst_RtoC_mult, fst_csum.
    rewrite (rsum_ext nmats (fun n => fst _) (fun n => rsum nk (fun i => rsum nk (fun j => gg (V n) (e i j) (displaced nk e m1 m2 i j))))).
    - cbn [fst RtoC]. field. lra.
    - intros n _. rewrite fst_csum. apply rsum_ext. intros i Hi. rewrite fst_csum. apply rsum_ext. intros j Hj. rewrite G_prod, tile2_in by assumption. reflexivity.
  Qed.

  Lemma susceptibility2_im nmats q1 q2 : snd (susceptibility2 nk e kT nmats width height q1 q2)
    = 4 * kT / INR nk ^ 2 * rsum nmats (fun n => rsum nk (fun i => rsum nk (fun j => gg_im (V n) (e i j) (displaced nk e (q_index nk q1) (q_index nk q2) i j)))).
  Proof.
    unfold susceptibility2. set (m1 := q_index nk q1). set (m2 := q_index nk q2).
    assert (S : forall (x y : R) z, snd (RtoC x * z + RtoC y)%C = x * snd z) by (intros x y [z1 z2]; cbn; ring). rewrite S. f_equal.
    rewrite snd_csum. apply rsum_ext. intros n _. rewrite snd_csum. apply rsum_ext. intros i Hi. rewrite snd_csum. apply rsum_ext. intros j Hj. rewrite G_prod, tile2_in by assumption. reflexivity.
  Qed.

  (** Each frequency adds something nonnegative. *)
  Lemma gg_tail v w a b : 0 < w <= v -> 0 <= gg v a b + 1 / w ^ 2.
  Proof.
    intros [H1 H2]. assert (Hv : 0 < v) by lra. pose proof (sq_sum_pos v a Hv) as Pa. pose proof (sq_sum_pos v b Hv) as Pb.
    assert (A : 1 / v ^ 2 <= 1 / w ^ 2). { unfold Rdiv. apply Rmult_le_compat_l; [lra|]. apply Rinv_le_contravar; [nra|]. nra. }
    assert (B : 0 <= gg v a b + 1 / v ^ 2); [|lra].
    replace (gg v a b + 1 / v ^ 2) with ((v * v * (a * a + a * b + b * b) + a * a * (b * b)) / (v * v * ((v * v + a * a) * (v * v + b * b)))) by (unfold gg; field; repeat split; lra).
    apply Rmult_le_pos; [|left; apply Rinv_0_lt_compat, Rmult_lt_0_compat; [nra|apply Rmult_lt_0_compat; assumption]].
    assert (0 <= a * a + a * b + b * b) by (pose proof (Rle_0_sqr (a + b / 2)); pose proof (Rle_0_sqr b); unfold Rsqr in *; lra).
    apply Rplus_le_le_0_compat; apply Rmult_le_pos; [nra|assumption|apply Rle_0_sqr|apply Rle_0_sqr].
  Qed.

  Lemma term_S nmats m1 m2 i j : term nmats m1 m2 i j <= term (S nmats) m1 m2 i j.
  Proof.
    unfold term. cbn [rsum]. pose proof (gg_tail (V nmats) (mats kT nmats) (e i j) (displaced nk e m1 m2 i j)) as P.
    assert (0 < mats kT nmats <= V nmats) by (split; [apply mats_pos, HkT|apply shifted_ge; assumption]). specialize (P H). nra.
  Qed.

  Lemma term_mono N N' m1 m2 i j : (N <= N')%nat -> term N m1 m2 i j <= term N' m1 m2 i j.
  Proof. induction 1; [lra|]. eapply Rle_trans; [exact IHle|apply term_S]. Qed.

  Lemma term_0 m1 m2 i j : term 0 m1 m2 i j = - (1 / (2 * kT)).
  Proof. unfold term. cbn [rsum]. field. lra. Qed.

  Lemma sym_gg v a b : gg v a b = gg v b a.
  Proof. unfold gg. rewrite (Rmult_comm a b), (Rmult_comm (v * v + a * a)). reflexivity. Qed.
  Lemma sym_gg_im v a b : gg_im v a b = gg_im v b a.
  Proof. unfold gg_im. rewrite (Rplus_comm a b), (Rmult_comm (v * v + a * a)). reflexivity. Qed.
End Mesh.

(** ** Without hybridization *)

Lemma shifted_none kT width n : shifted kT width 0 n = mats kT n.
Proof. unfold shifted. ring. Qed.

Lemma gg_scale kT v x y : 0 < kT -> 0 < v -> gg (kT * v) (kT * x) (kT * y) = gg v x y / kT ^ 2.
Proof.
  intros H Hv. pose proof (sq_sum_pos v x Hv). pose proof (sq_sum_pos v y Hv). unfold gg.
  replace (kT * v * (kT * v) + kT * x * (kT * x)) with (kT ^ 2 * (v * v + x * x)) by ring.
  replace (kT * v * (kT * v) + kT * y * (kT * y)) with (kT ^ 2 * (v * v + y * y)) by ring. field. repeat split; lra.
Qed.

Lemma pair_cv kT a b : 0 < kT -> Un_cv (fun N => 4 * kT * rsum N (fun n => gg (mats kT n) a b)) (2 * pair_response kT a b).
Proof.
  intros H.
  assert (E : forall N, 4 * kT * rsum N (fun n => gg (mats kT n) a b) = 2 * GG N (a / kT) (b / kT) * (2 / kT)).
  { intros N. unfold GG. rewrite (rsum_ext N _ (fun n => gg (nu n) (a / kT) (b / kT) * / kT ^ 2)).
    - rewrite rsum_scal_r. field. lra.
    - intros n _. rewrite mats_nu. replace a with (kT * (a / kT)) at 1 by (field; lra). replace b with (kT * (b / kT)) at 1 by (field; lra). apply gg_scale; [exact H|apply nu_pos]. }
  apply (Un_cv_ext (fun N => 2 * GG N (a / kT) (b / kT) * (2 / kT))); [intros N; symmetry; apply E|].
  assert (K : forall c, Un_cv (fun _ => c) c). { intros c eps He. exists 0%nat. intros N _. unfold R_dist. rewrite Rminus_diag_eq, Rabs_R0 by reflexivity. exact He. }
  unfold pair_response. destruct (Req_EM_T a b) as [<-|Hab].
  - replace (2 * fermi' kT a) with (- FDd (a / kT) * (2 / kT)).
    + apply CV_mult; [apply GG_cv_diag|apply K].
    + unfold fermi'. rewrite FDd_f. unfold FDf. pose proof (exp_pos (a / kT)). field. split; lra.
  - assert (Hx : a / kT <> b / kT). { intros X. apply Hab. apply (f_equal (Rmult kT)) in X. replace (kT * (a / kT)) with a in X by (field; lra). replace (kT * (b / kT)) with b in X by (field; lra). exact X. }
    replace (2 * ((fermi kT a - fermi kT b) / (a - b))) with ((FDf (a / kT) - FDf (b / kT)) / (a / kT - b / kT) * (2 / kT)).
    + apply CV_mult; [apply GG_cv_off, Hx|apply K].
    + change (fermi kT a) with (FDf (a / kT)). change (fermi kT b) with (FDf (b / kT)). field. repeat split; lra.
Qed.

Lemma tail_cv kT : 0 < kT -> Un_cv (fun N => 4 * kT * rsum N (fun n => 1 / mats kT n ^ 2) - 2 / (4 * kT)) 0.
Proof.
  intros H. pose proof (pair_cv kT 0 0 H) as C.
  assert (E : 2 * pair_response kT 0 0 = - (2 / (4 * kT))).
  { unfold pair_response. destruct (Req_EM_T 0 0) as [_|X]; [|lra]. unfold fermi'. replace (0 / kT) with 0 by (field; lra). rewrite exp_0. field. lra. }
  rewrite E in C. apply CV_opp in C. replace 0 with (- - (2 / (4 * kT)) - 2 / (4 * kT)) by ring.
  apply (Un_cv_ext (fun N => (- (4 * kT * rsum N (fun n => gg (mats kT n) 0 0))) - 2 / (4 * kT))).
  - intros N. replace (- (4 * kT * rsum N (fun n => gg (mats kT n) 0 0))) with (4 * kT * (-1 * rsum N (fun n => gg (mats kT n) 0 0))) by ring.
    rewrite <- rsum_scal. f_equal. f_equal. apply rsum_ext. intros n _. pose proof (mats_pos kT n H). unfold gg. field. lra.
  - apply CV_minus; [exact C|]. intros eps He. exists 0%nat. intros N _. unfold R_dist. rewrite Rminus_diag_eq, Rabs_R0 by reflexivity. exact He.
Qed.

Lemma term_cv nk e kT width m1 m2 i j : 0 < kT ->
  Un_cv (fun N => term nk e kT width 0 N m1 m2 i j) (2 * pair_response kT (e i j) (displaced nk e m1 m2 i j)).
Proof.
  intros H. rewrite <- (Rplus_0_r (2 * _)). apply (Un_cv_ext (fun N => 4 * kT * rsum N (fun n => gg (mats kT n) (e i j) (displaced nk e m1 m2 i j)) + (4 * kT * rsum N (fun n => 1 / mats kT n ^ 2) - 2 / (4 * kT)))).
  - intros N. unfold term. rewrite rsum_plus. rewrite (rsum_ext N (fun n => gg (shifted _ _ _ _) _ _) (fun n => gg (mats kT n) (e i j) (displaced nk e m1 m2 i j))) by (intros n _; rewrite shifted_none; reflexivity). ring.
  - apply CV_plus; [apply pair_cv, H|apply tail_cv, H].
Qed.

Lemma rsum_cv n (u : nat -> nat -> R) (l : nat -> R) : (forall i, (i < n)%nat -> Un_cv (fun N => u N i) (l i)) -> Un_cv (fun N => rsum n (u N)) (rsum n l).
Proof.
  induction n as [|n IH]; intros H; cbn [rsum].
  - intros eps He. exists 0%nat. intros N _. unfold R_dist. rewrite Rminus_diag_eq, Rabs_R0 by reflexivity. exact He.
  - apply (CV_plus (fun N => rsum n (u N)) (fun N => u N n)); [apply IH; intros; apply H; lia|apply H; lia].
Qed.

(** ** Opposite momenta *)
Lemma opposite_sum nk (F : R -> R -> R) e q1 q2 : (0 < nk)%nat -> (forall a b, F a b = F b a) ->
  rsum nk (fun i => rsum nk (fun j => F (e i j) (displaced nk e (q_index nk (- q1)) (q_index nk (- q2)) i j)))
  = rsum nk (fun i => rsum nk (fun j => F (e i j) (displaced nk e (q_index nk q1) (q_index nk q2) i j))).
Proof.
  intros Hnk Hs.
  assert (Ms : forall x i, (i < nk)%nat -> ((q_index nk (- x) + (q_index nk x + i) mod nk) mod nk)%nat = i).
  { intros x i Hi. rewrite Nat.add_mod_idemp_r by lia. replace (q_index nk (- x) + (q_index nk x + i))%nat with ((q_index nk x + q_index nk (- x)) + i)%nat by lia.
    rewrite <- Nat.add_mod_idemp_l, q_index_opp by lia. apply Nat.mod_small. lia. }
  rewrite <- (rsum_shift nk (q_index nk q1)). apply rsum_ext. intros i Hi. rewrite <- (rsum_shift nk (q_index nk q2)). apply rsum_ext. intros j Hj.
  unfold displaced. rewrite !Ms by assumption. apply Hs.
Qed.
