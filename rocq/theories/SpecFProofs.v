From Coq Require Import Reals List Lra Lia.
From Coquelicot Require Import Coquelicot.
From Verif Require Import Common Cx CxProofs MPIModel DiagModel DiagProofs HermSpec HermProofs SpecFModel SpecFSpec.
Local Open Scope R_scope.

Lemma delta_csum n j f : (j < n)%nat -> csum n (fun i => (delta i j * f i)%C) = f j.
Proof. intros H. rewrite <- (csum_delta n j f H). apply csum_ext. intros i _. unfold delta. destruct (Nat.eqb i j); ring. Qed.
Lemma delta_csum' n j f : (j < n)%nat -> csum n (fun i => (delta j i * f i)%C) = f j.
Proof. intros H. rewrite <- (delta_csum n j f H). apply csum_ext. intros i _. unfold delta. rewrite Nat.eqb_sym. reflexivity. Qed.

Lemma G_inv_mv N D omega eta (v : nat -> C) i : (i < N)%nat ->
  csum N (fun j => (G_inv D omega eta i j * v j)%C) =
  (csum N (fun j => D i j * v j) - ((omega, eta) * (omega, eta)) * v i)%C.
Proof.
  intros Hi. rewrite <- (delta_csum' N i v Hi), <- csum_scal, <- csum_minus. apply csum_ext. intros j _. unfold G_inv, delta. ring.
Qed.

(** <y|G|y> *)
Lemma expect_G N D omega eta v :
  expect N (G_inv D omega eta) v = (expect N D v - ((omega, eta) * (omega, eta)) * RtoC (rsum N (fun i => abs2 (v i))))%C.
Proof.
  unfold expect. rewrite RtoC_rsum, <- csum_scal, <- csum_minus. apply csum_ext. intros i Hi.
  rewrite (csum_ext N _ (fun j => (conj (v i) * (G_inv D omega eta i j * v j))%C)) by (intros; ring).
  rewrite csum_scal, G_inv_mv by exact Hi. rewrite abs2_conj.
  rewrite (csum_ext N (fun j => (conj (v i) * D i j * v j)%C) (fun j => (conj (v i) * (D i j * v j))%C)) by (intros; ring).
  rewrite csum_scal. ring.
Qed.

Lemma inverse_diagonal N A X i : inverse N A X -> (i < N)%nat -> X i i = conj (expect N A (fun j => X j i)).
Proof.
  intros H Hi. unfold expect. rewrite csum_conj.
  rewrite (csum_ext N _ (fun j => (delta j i * X j i)%C)).
  - rewrite delta_csum by exact Hi. reflexivity.
  - intros j Hj. rewrite (csum_ext N _ (fun l => (conj (X j i) * (A j l * X l i))%C)) by (intros; ring).
    rewrite csum_scal, (proj1 (H j i Hj Hi)), conj_mult, conj_conj. unfold delta. destruct (Nat.eqb j i); rewrite conj_R; ring.
Qed.

Lemma inverse_im N D X omega eta i : inverse N (G_inv D omega eta) X -> (i < N)%nat ->
  snd (X i i) = - snd (expect N D (fun j => X j i)) + 2 * omega * eta * rsum N (fun j => abs2 (X j i)).
Proof. intros H Hi. rewrite (inverse_diagonal _ _ _ _ H Hi), expect_G. cbn. ring. Qed.

Lemma spectral_one_nonneg inv N D omega eta : inverts N inv -> (exists X, inverse N (G_inv D omega eta) X) -> damped N D ->
  0 <= omega -> 0 <= eta -> 0 <= spectral_one inv N D omega eta.
Proof.
  intros Hinv HX HD Ho He. unfold spectral_one. apply Rmult_le_pos.
  - apply Rmult_le_pos; [lra|]. left. apply Rinv_0_lt_compat, PI_RGT_0.
  - apply rsum_nonneg. intros i Hi. rewrite (inverse_im N D _ omega eta i (Hinv _ HX) Hi).
    pose proof (HD (fun j => inv (G_inv D omega eta) j i)).
    pose proof (rsum_nonneg N (fun j => abs2 (inv (G_inv D omega eta) j i)) (fun j _ => abs2_nonneg _)).
    assert (0 <= 2 * omega * eta) by nra. nra.
Qed.

(** ** Eigenvalues *)

Section Eigen.
  Variables (N : nat) (D U : nat -> nat -> C) (lam : nat -> R) (omega eta : R).
  Hypothesis (HU : eigensystem N D lam U).
  Let den n : C := (RtoC (lam n) - (omega, eta) * (omega, eta))%C.
  Hypothesis (Hden : forall n, (n < N)%nat -> den n <> RtoC 0).

  Definition resolvent : nat -> nat -> C := fun i j => csum N (fun n => (U i n * / den n * conj (U j n))%C).

  Lemma G_col n i : (n < N)%nat -> (i < N)%nat -> csum N (fun j => (G_inv D omega eta i j * U j n)%C) = (den n * U i n)%C.
  Proof. intros Hn Hi. rewrite G_inv_mv by exact Hi. rewrite (proj2 HU i n Hi Hn). unfold den. ring. Qed.

  Lemma D_herm i j : (i < N)%nat -> (j < N)%nat -> D i j = csum N (fun n => (RtoC (lam n) * U i n * conj (U j n))%C).
  Proof.
    intros Hi Hj. transitivity (csum N (fun l => (D i l * delta l j)%C)).
    - rewrite (csum_ext N _ (fun l => (delta l j * D i l)%C)) by (intros; ring). rewrite delta_csum by exact Hj. reflexivity.
    - rewrite (csum_ext N _ (fun l => csum N (fun n => (D i l * U l n * conj (U j n))%C))).
      + rewrite csum_swap. apply csum_ext. intros n Hn. rewrite csum_scal_r, (proj2 HU i n Hi Hn). reflexivity.
      + intros l Hl. rewrite <- (proj2 (proj1 HU) l j Hl Hj), <- csum_scal. apply csum_ext. intros. ring.
  Qed.

  Lemma G_herm i j : (i < N)%nat -> (j < N)%nat -> G_inv D omega eta i j = csum N (fun n => (den n * U i n * conj (U j n))%C).
  Proof.
    intros Hi Hj. unfold G_inv. rewrite (D_herm i j Hi Hj). fold (delta i j). rewrite <- (proj2 (proj1 HU) i j Hi Hj), <- csum_scal, <- csum_minus.
    apply csum_ext. intros n _. unfold den. ring.
  Qed.

  Lemma resolvent_inverse : inverse N (G_inv D omega eta) resolvent.
  Proof.
    intros i j Hi Hj. split.
    - rewrite (csum_ext N _ (fun l => csum N (fun n => (G_inv D omega eta i l * U l n * (/ den n * conj (U j n)))%C))).
      + rewrite csum_swap, <- (proj2 (proj1 HU) i j Hi Hj). apply csum_ext. intros n Hn.
        rewrite csum_scal_r, (G_col n i Hn Hi). field. apply Hden, Hn.
      + intros l _. unfold resolvent. rewrite <- csum_scal. apply csum_ext. intros. ring.
    - rewrite (csum_ext N _ (fun l => csum N (fun n => (U i n * / den n * (conj (U l n) * G_inv D omega eta l j))%C))).
      + rewrite csum_swap, <- (proj2 (proj1 HU) i j Hi Hj). apply csum_ext. intros n Hn. rewrite csum_scal.
        rewrite (csum_ext N _ (fun l => csum N (fun m => (den m * conj (U j m) * (conj (U l n) * U l m))%C))).
        * rewrite csum_swap, (csum_ext N _ (fun m => (delta n m * (den m * conj (U j m)))%C)).
          -- rewrite delta_csum' by exact Hn. field. apply Hden, Hn.
          -- intros m Hm. rewrite csum_scal, (proj1 (proj1 HU) n m Hn Hm). ring.
        * intros l Hl. rewrite (G_herm l j Hl Hj), <- csum_scal. apply csum_ext. intros. ring.
      + intros l _. unfold resolvent. rewrite <- csum_scal_r. apply csum_ext. intros. ring.
  Qed.

  Lemma inverse_unique A X Y : inverse N A X -> inverse N A Y -> forall i j, (i < N)%nat -> (j < N)%nat -> X i j = Y i j.
  Proof.
    intros HX HY i j Hi Hj.
    transitivity (csum N (fun l => csum N (fun m => (X i l * A l m * Y m j)%C))).
    - rewrite (csum_ext N _ (fun l => (delta l j * X i l)%C)).
      + rewrite delta_csum by exact Hj. reflexivity.
      + intros l Hl. rewrite <- (proj1 (HY l j Hl Hj)), <- csum_scal_r. apply csum_ext. intros. ring.
    - rewrite csum_swap, (csum_ext N _ (fun m => (delta i m * Y m j)%C)).
      + exact (delta_csum' N i (fun m => Y m j) Hi).
      + intros m Hm. rewrite <- (proj2 (HX i m Hi Hm)), <- csum_scal_r. reflexivity.
  Qed.

  Lemma trace_resolvent : csum N (fun i => resolvent i i) = csum N (fun n => (/ den n)%C).
  Proof.
    unfold resolvent. rewrite csum_swap. apply csum_ext. intros n Hn.
    rewrite (csum_ext N _ (fun i => (/ den n * (conj (U i n) * U i n))%C)) by (intros; ring).
    rewrite csum_scal, (proj1 (proj1 HU) n n Hn Hn). unfold delta. rewrite Nat.eqb_refl. ring.
  Qed.

  Lemma spectral_eigen inv : inverts N inv ->
    spectral_one inv N D omega eta = rsum N (fun n => 2 * omega / PI * snd (/ den n)%C).
  Proof.
    intros Hinv. unfold spectral_one. rewrite rsum_scal. f_equal.
    rewrite <- !snd_csum. f_equal. rewrite <- trace_resolvent. apply csum_ext. intros i Hi.
    apply (inverse_unique (G_inv D omega eta)); try assumption; [apply Hinv; exists resolvent|]; apply resolvent_inverse.
  Qed.
End Eigen.

(** ** Frequency integral *)

Definition peak (w eta omega : R) : R := 4 * omega ^ 2 * eta / PI / (((omega - w) ^ 2 + eta ^ 2) * ((omega + w) ^ 2 + eta ^ 2)).

Lemma den_parts w omega eta : (RtoC (w ^ 2) - (omega, eta) * (omega, eta) = ((w ^ 2 - omega ^ 2 + eta ^ 2)%R, (- (2 * omega * eta))%R))%C.
Proof. apply c_ext; cbn; ring. Qed.

Lemma den_abs w omega eta : (w ^ 2 - omega ^ 2 + eta ^ 2) ^ 2 + (2 * omega * eta) ^ 2 = ((omega - w) ^ 2 + eta ^ 2) * ((omega + w) ^ 2 + eta ^ 2).
Proof. ring. Qed.

Lemma den_pos w omega eta : 0 < eta -> 0 < ((omega - w) ^ 2 + eta ^ 2) * ((omega + w) ^ 2 + eta ^ 2).
Proof.
  intros He. assert (0 < eta ^ 2) by (apply pow_lt; exact He).
  apply Rmult_lt_0_compat; [pose proof (pow2_ge_0 (omega - w))|pose proof (pow2_ge_0 (omega + w))]; lra.
Qed.

Lemma den_nonzero w omega eta : 0 < eta -> (RtoC (w ^ 2) - (omega, eta) * (omega, eta) <> RtoC 0)%C.
Proof.
  intros He E. rewrite den_parts in E. pose proof (den_pos w omega eta He) as H. rewrite <- den_abs in H.
  pose proof (f_equal fst E) as E1. pose proof (f_equal snd E) as E2. cbn [fst snd RtoC] in E1, E2. rewrite E1 in H.
  replace (2 * omega * eta) with 0 in H by lra. lra.
Qed.

Lemma peak_im w omega eta : 0 < eta -> 2 * omega / PI * snd (/ (RtoC (w ^ 2) - (omega, eta) * (omega, eta)))%C = peak w eta omega.
Proof.
  intros He. rewrite den_parts. unfold Cinv. cbn [fst snd]. unfold peak.
  pose proof (den_pos w omega eta He) as H. pose proof PI_RGT_0.
  replace ((w ^ 2 - omega ^ 2 + eta ^ 2) ^ 2 + (- (2 * omega * eta)) ^ 2) with (((omega - w) ^ 2 + eta ^ 2) * ((omega + w) ^ 2 + eta ^ 2)) by ring.
  field. repeat split; try lra; intros E; rewrite E in H; lra.
Qed.

Definition primitive (w eta omega : R) : R :=
  / PI * (atan ((omega - w) / eta) + atan ((omega + w) / eta)) +
  eta / (2 * PI * w) * (ln ((omega - w) ^ 2 + eta ^ 2) - ln ((omega + w) ^ 2 + eta ^ 2)).
Definition primitive0 (eta omega : R) : R := 2 / PI * (atan (omega / eta) - omega * eta / (omega ^ 2 + eta ^ 2)).

Lemma primitive_derive w eta omega : 0 < w -> 0 < eta -> is_derive (primitive w eta) omega (peak w eta omega).
Proof.
  intros Hw He. pose proof PI_RGT_0. assert (H2 : 0 < eta ^ 2) by (apply pow_lt; exact He).
  pose proof (pow2_ge_0 (omega - w)). pose proof (pow2_ge_0 (omega + w)).
  unfold primitive. auto_derive; [repeat split; try lra; nra|].
  unfold peak. field. repeat split; try lra; nra.
Qed.

Lemma primitive0_derive eta omega : 0 < eta -> is_derive (primitive0 eta) omega (peak 0 eta omega).
Proof.
  intros He. pose proof PI_RGT_0. assert (H2 : 0 < eta ^ 2) by (apply pow_lt; exact He). pose proof (pow2_ge_0 omega).
  unfold primitive0. auto_derive; [repeat split; try lra; nra|].
  unfold peak. field. repeat split; try lra; nra.
Qed.

Lemma atan_limit : is_lim atan p_infty (PI / 2).
Proof.
  apply (is_lim_ext_loc (fun x => PI / 2 - atan (/ x))).
  - exists 0. intros x Hx. rewrite atan_inv by exact Hx. ring.
  - replace (Finite (PI / 2)) with (Finite (PI / 2 - atan 0)) by (rewrite atan_0, Rminus_0_r; reflexivity).
    apply (is_lim_minus' (fun _ => PI / 2) (fun x => atan (/ x))); [apply is_lim_const|].
    apply (is_lim_comp_continuous (fun x => / x) atan); [|apply continuous_atan].
    replace (Finite 0) with (Rbar_inv p_infty) by reflexivity. apply is_lim_inv; [apply is_lim_id|discriminate].
Qed.

Lemma affine_limit w eta : 0 < eta -> is_lim (fun x => (x - w) / eta) p_infty p_infty.
Proof.
  intros He. apply (is_lim_le_p_loc (fun x => (x - w) / eta)); [exists 0; intros; lra|].
  intros P [M HM]. exists (eta * M + w). intros x Hx. apply HM. apply (Rmult_lt_reg_r eta); [exact He|].
  unfold Rdiv. rewrite Rmult_assoc, Rinv_l, Rmult_1_r by lra. lra.
Qed.

Lemma atan_affine_limit w eta : 0 < eta -> is_lim (fun x => atan ((x - w) / eta)) p_infty (PI / 2).
Proof.
  intros He. apply (is_lim_comp atan (fun x => (x - w) / eta) p_infty (PI / 2) p_infty); [exact atan_limit|apply affine_limit; exact He|].
  exists 0. intros x _. discriminate.
Qed.

Lemma inv_limit c : is_lim (fun x => c / x) p_infty 0.
Proof.
  replace (Finite 0) with (Rbar_mult c (Finite 0)) by (cbn; f_equal; ring).
  apply (is_lim_mult (fun _ => c) (fun x => / x)); [apply is_lim_const| |exact Logic.I].
  replace (Finite 0) with (Rbar_inv p_infty) by reflexivity. apply is_lim_inv; [apply is_lim_id|discriminate].
Qed.

Lemma ratio_limit w eta : 0 < w -> 0 < eta -> is_lim (fun x => ln ((x - w) ^ 2 + eta ^ 2) - ln ((x + w) ^ 2 + eta ^ 2)) p_infty 0.
Proof.
  intros Hw He. assert (H2 : 0 < eta ^ 2) by (apply pow_lt; exact He).
  apply (is_lim_ext (fun x => ln (1 - 4 * x * w / ((x + w) ^ 2 + eta ^ 2)))).
  - intros x. pose proof (pow2_ge_0 (x - w)). pose proof (pow2_ge_0 (x + w)).
    rewrite <- ln_div by lra. f_equal. field. lra.
  - rewrite <- ln_1. apply (is_lim_comp_continuous _ ln); [|apply continuous_ln; lra].
    replace (Finite 1) with (Finite (1 - 0)) by (f_equal; ring).
    apply (is_lim_minus' (fun _ => 1)); [apply is_lim_const|].
    apply (is_lim_le_le_loc (fun _ => 0) (fun x => 4 * w / x)); [|apply is_lim_const|apply inv_limit].
    exists 0. intros x Hx. pose proof (pow2_ge_0 (x + w)). assert (Hd : 0 < (x + w) ^ 2 + eta ^ 2) by lra. split.
    + apply Rmult_le_pos; [nra|left; apply Rinv_0_lt_compat; exact Hd].
    + apply (Rmult_le_reg_r ((x + w) ^ 2 + eta ^ 2)); [exact Hd|]. unfold Rdiv. rewrite Rmult_assoc, Rinv_l, Rmult_1_r by lra.
      apply (Rmult_le_reg_l x); [exact Hx|].
      replace (x * (4 * w * / x * ((x + w) ^ 2 + eta ^ 2))) with (4 * w * ((x + w) ^ 2 + eta ^ 2)) by (field; lra).
      replace (x * (4 * x * w)) with (4 * w * x ^ 2) by ring. apply Rmult_le_compat_l; [lra|]. nra.
Qed.

Lemma primitive_limit w eta : 0 < w -> 0 < eta -> is_lim (primitive w eta) p_infty 1.
Proof.
  intros Hw He. pose proof PI_RGT_0. unfold primitive.
  replace (Finite 1) with (Finite (/ PI * (PI / 2 + PI / 2) + eta / (2 * PI * w) * 0)) by (f_equal; field; lra).
  apply (is_lim_plus' (fun x => / PI * (atan ((x - w) / eta) + atan ((x + w) / eta)))).
  - apply (is_lim_scal_l (fun x => atan ((x - w) / eta) + atan ((x + w) / eta)) (/ PI) p_infty (PI / 2 + PI / 2)).
    apply (is_lim_plus' (fun x => atan ((x - w) / eta))); [apply atan_affine_limit; exact He|].
    apply (is_lim_ext (fun x => atan ((x - - w) / eta))); [intros; do 2 f_equal; ring|apply atan_affine_limit; exact He].
  - apply (is_lim_scal_l (fun x => ln ((x - w) ^ 2 + eta ^ 2) - ln ((x + w) ^ 2 + eta ^ 2)) (eta / (2 * PI * w)) p_infty 0), ratio_limit; assumption.
Qed.

Lemma primitive0_limit eta : 0 < eta -> is_lim (primitive0 eta) p_infty 1.
Proof.
  intros He. pose proof PI_RGT_0. assert (H2 : 0 < eta ^ 2) by (apply pow_lt; exact He). unfold primitive0.
  replace (Finite 1) with (Finite (2 / PI * (PI / 2 - 0))) by (f_equal; field; lra).
  apply (is_lim_scal_l (fun x => atan (x / eta) - x * eta / (x ^ 2 + eta ^ 2)) (2 / PI) p_infty (PI / 2 - 0)).
  apply (is_lim_minus' (fun x => atan (x / eta))).
  - apply (is_lim_ext (fun x => atan ((x - 0) / eta))); [intros; do 2 f_equal; ring|apply atan_affine_limit; exact He].
  - apply (is_lim_le_le_loc (fun _ => 0) (fun x => eta / x)); [|apply is_lim_const|apply inv_limit].
    exists 0. intros x Hx. pose proof (pow2_ge_0 x). assert (Hd : 0 < x ^ 2 + eta ^ 2) by lra. split.
    + apply Rmult_le_pos; [nra|left; apply Rinv_0_lt_compat; exact Hd].
    + apply (Rmult_le_reg_r (x ^ 2 + eta ^ 2)); [exact Hd|]. unfold Rdiv. rewrite Rmult_assoc, Rinv_l, Rmult_1_r by lra.
      apply (Rmult_le_reg_l x); [exact Hx|].
      replace (x * (eta * / x * (x ^ 2 + eta ^ 2))) with (eta * (x ^ 2 + eta ^ 2)) by (field; lra). nra.
Qed.

Lemma peak_continuous w eta x : 0 < eta -> continuous (peak w eta) x.
Proof.
  intros He. apply (ex_derive_continuous (V := R_NormedModule)). unfold peak.
  pose proof (den_pos w x eta He). auto_derive. cbn in H. repeat split; lra.
Qed.

(** Normalization of a single mode *)
Lemma peak_integral w eta L : 0 <= w -> 0 < eta -> exists F : R -> R,
  is_RInt (peak w eta) 0 L (F L) /\ is_lim F p_infty 1 /\ forall M, is_RInt (peak w eta) 0 M (F M).
Proof.
  intros [Hw|<-] He.
  - assert (E : forall M, is_RInt (peak w eta) 0 M (primitive w eta M)).
    { intros M. replace (primitive w eta M) with (minus (primitive w eta M) (primitive w eta 0)).
      - apply (is_RInt_derive (primitive w eta)); intros; [apply primitive_derive|apply peak_continuous]; assumption.
      - unfold primitive at 2. replace ((0 - w) / eta) with (- ((0 + w) / eta)) by (field; lra). rewrite atan_opp.
        replace ((0 - w) ^ 2) with ((0 + w) ^ 2) by ring. unfold minus, plus, opp. cbn. ring. }
    exists (primitive w eta). split; [apply E|]. split; [apply primitive_limit; assumption|exact E].
  - assert (E : forall M, is_RInt (peak 0 eta) 0 M (primitive0 eta M)).
    { intros M. replace (primitive0 eta M) with (minus (primitive0 eta M) (primitive0 eta 0)).
      - apply (is_RInt_derive (primitive0 eta)); intros; [apply primitive0_derive|apply peak_continuous]; assumption.
      - unfold primitive0 at 2. unfold Rdiv. rewrite !Rmult_0_l, atan_0. unfold minus, plus, opp. cbn. ring. }
    exists (primitive0 eta). split; [apply E|]. split; [apply primitive0_limit; assumption|exact E].
Qed.

Lemma peaks_integral N (w : nat -> R) eta : 0 < eta -> (forall n, (n < N)%nat -> 0 <= w n) ->
  exists F : R -> R, (forall M, is_RInt (fun x => rsum N (fun n => peak (w n) eta x)) 0 M (F M)) /\ is_lim F p_infty (INR N).
Proof.
  intros He. induction N as [|N IH]; intros Hw.
  - exists (fun _ => 0). split; [|apply is_lim_const]. intros M. cbn [rsum].
    evar_last; [apply (is_RInt_const (V := R_NormedModule))|]. unfold scal. cbn. unfold mult. cbn. ring.
  - destruct IH as (F & HF & LF); [intros; apply Hw; lia|].
    destruct (peak_integral (w N) eta 0 ltac:(apply Hw; lia) He) as (G & _ & LG & HG).
    exists (fun M => F M + G M). split.
    + intros M. cbn [rsum]. apply (is_RInt_plus (V := R_NormedModule)); [apply HF|apply HG].
    + rewrite S_INR. apply is_lim_plus'; assumption.
Qed.
