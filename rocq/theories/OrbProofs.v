(** Proofs for the Coulomb interaction in the band basis. *)
From Coq Require Import Reals Lra Lia ZArith List.
From Verif Require Import Common LatModel MPIModel MPIProofs SymModel SymSpec SymProofs SymProofs3 Cx CxProofs OrbModel OrbSpec.
Import ListNotations.
Local Open Scope nat_scope.

Lemma nth_error_flat_map {A B} (f : A -> list B) len l i j x : (forall x, length (f x) = len) -> nth_error l i = Some x -> j < len ->
  nth_error (flat_map f l) (i * len + j) = nth_error (f x) j.
Proof.
  intros Hl. revert i. induction l as [|y l IH]; intros [|i] Hi Hj; try discriminate; cbn [flat_map].
  - injection Hi as ->. cbn. apply nth_error_app1. rewrite Hl. exact Hj.
  - rewrite nth_error_app2 by (rewrite Hl; lia). rewrite Hl. replace (S i * len + j - len) with (i * len + j) by lia. apply IH; assumption.
Qed.

Lemma length_flat_map_const {A B} (f : A -> list B) len l : (forall x, length (f x) = len) -> length (flat_map f l) = length l * len.
Proof. intros H. induction l as [|x l IH]; [reflexivity|]. cbn. rewrite app_length, H, IH. reflexivity. Qed.

Lemma nth_error_seq n i : i < n -> nth_error (seq 0 n) i = Some i.
Proof. intros H. rewrite (nth_error_nth' _ 0) by (rewrite seq_length; exact H). rewrite seq_nth by exact H. reflexivity. Qed.

Section Rows.
  Context (nq nqC : Z) (nk : nat).

  Lemma rows_length Q : length (rows nq nqC nk Q) = length Q * (nk * (nk * (nk * nk))).
  Proof.
    unfold rows. apply length_flat_map_const. intros q. rewrite (length_flat_map_const _ (nk * (nk * nk))), seq_length; [reflexivity|]. intros k1.
    rewrite (length_flat_map_const _ (nk * nk)), seq_length; [reflexivity|]. intros k2. rewrite (length_flat_map_const _ nk), seq_length; [reflexivity|]. intros K1.
    rewrite map_length. apply seq_length.
  Qed.

  Lemma rows_nth Q iq q k1 k2 K1 K2 : nth_error Q iq = Some q -> k1 < nk -> k2 < nk -> K1 < nk -> K2 < nk ->
    nth_error (rows nq nqC nk Q) ((((iq * nk + k1) * nk + k2) * nk + K1) * nk + K2) = Some (row_of nq nqC nk q k1 k2 K1 K2).
  Proof.
    intros Hq H1 H2 H3 H4. unfold rows.
    assert (L1 : forall q k1 k2 K1, length (map (fun K2 => row_of nq nqC nk q k1 k2 K1 K2) (seq 0 nk)) = nk) by (intros; rewrite map_length; apply seq_length).
    assert (L2 : forall q k1 k2, length (flat_map (fun K1 => map (fun K2 => row_of nq nqC nk q k1 k2 K1 K2) (seq 0 nk)) (seq 0 nk)) = nk * nk)
      by (intros; rewrite (length_flat_map_const _ nk), seq_length; [reflexivity|apply L1]).
    assert (L3 : forall q k1, length (flat_map (fun k2 => flat_map (fun K1 => map (fun K2 => row_of nq nqC nk q k1 k2 K1 K2) (seq 0 nk)) (seq 0 nk)) (seq 0 nk)) = nk * (nk * nk))
      by (intros; rewrite (length_flat_map_const _ (nk * nk)), seq_length; [reflexivity|apply L2]).
    assert (L4 : forall q, length (flat_map (fun k1 => flat_map (fun k2 => flat_map (fun K1 => map (fun K2 => row_of nq nqC nk q k1 k2 K1 K2) (seq 0 nk)) (seq 0 nk)) (seq 0 nk)) (seq 0 nk)) = nk * (nk * (nk * nk)))
      by (intros; rewrite (length_flat_map_const _ (nk * (nk * nk))), seq_length; [reflexivity|apply L3]).
    replace ((((iq * nk + k1) * nk + k2) * nk + K1) * nk + K2) with (iq * (nk * (nk * (nk * nk))) + (k1 * (nk * (nk * nk)) + (k2 * (nk * nk) + (K1 * nk + K2)))) by ring.
    assert (B1 : K1 * nk + K2 < nk * nk) by nia. assert (B2 : k2 * (nk * nk) + (K1 * nk + K2) < nk * (nk * nk)) by nia.
    assert (B3 : k1 * (nk * (nk * nk)) + (k2 * (nk * nk) + (K1 * nk + K2)) < nk * (nk * (nk * nk))) by nia.
    rewrite (nth_error_flat_map _ (nk * (nk * (nk * nk))) Q iq _ q L4 Hq B3).
    rewrite (nth_error_flat_map _ (nk * (nk * nk)) (seq 0 nk) k1 _ k1 (L3 q) (nth_error_seq nk k1 H1) B2).
    rewrite (nth_error_flat_map _ (nk * nk) (seq 0 nk) k2 _ k2 (L2 q k1) (nth_error_seq nk k2 H2) B1).
    rewrite (nth_error_flat_map _ nk (seq 0 nk) K1 _ K1 (L1 q k1 k2) (nth_error_seq nk K1 H3) H4).
    rewrite nth_error_map, (nth_error_seq nk K2 H4). reflexivity.
  Qed.
End Rows.

Lemma orbital2band_ok nproc no nqC U psi nq nk dd : (0 < nproc)%Z -> (0 < nq)%Z -> (nqC mod nq = 0)%Z ->
  exists irr V, irreducibles nq 60 = Ok irr /\ orbital2band nproc no nqC U psi nq nk dd = Ok (Some V) /\
  length V = length (sorted_points nq irr) * (nk * (nk * (nk * nk))) /\
  forall iq q k1 k2 K1 K2, nth_error (sorted_points nq irr) iq = Some q -> k1 < nk -> k2 < nk -> K1 < nk -> K2 < nk ->
  element5 nk V iq k1 k2 K1 K2 = band_element no dd U psi (row_of nq nqC nk q k1 k2 K1 K2).
Proof.
  intros Hp Hn Hm. destruct (irreducibles_spec 60 nq) as (irr & HI & _); [unfold allowed_angle; tauto|exact Hn|].
  exists irr, (map (band_element no dd U psi) (rows nq nqC nk (sorted_points nq irr))). split; [exact HI|]. split; [|split].
  - unfold orbital2band. replace (nq =? 0)%Z with false by (symmetry; apply Z.eqb_neq; lia). rewrite Hm. cbn [Z.eqb negb]. rewrite HI. cbn [bind].
    rewrite scatter_compute_gather_serial by exact Hp. reflexivity.
  - rewrite map_length. apply rows_length.
  - intros iq q k1 k2 K1 K2 Hq H1 H2 H3 H4. unfold element5.
    apply nth_error_nth. rewrite nth_error_map, (rows_nth nq nqC nk _ iq q k1 k2 K1 K2 Hq H1 H2 H3 H4). reflexivity.
Qed.

Local Open Scope Z_scope.

Lemma uint8_small x : 0 <= x < 256 -> uint8 x = x.
Proof. intros H. apply Z.mod_small. exact H. Qed.

Lemma mesh_fine n m i (f : Z) : 0 < n -> n * f = m -> 0 < m -> (IZR (i * f) / IZR m = IZR i / IZR n)%R.
Proof.
  intros Hn E Hm. assert (Hf : f <> 0) by (intros ->; lia). rewrite <- E, !mult_IZR. field. split; apply not_0_IZR; lia.
Qed.

(** Sampled periodic functions at k + q, folded back to the mesh *)
Lemma folded {A} (psi : wavevector -> A) nq nk k1 k2 q1 q2 : periodic psi -> 0 < nq -> 0 < nk -> nk mod nq = 0 ->
  psi (on_mesh nk ((k1 + q1 * nk / nq) mod nk) ((k2 + q2 * nk / nq) mod nk)) = psi (wplus (on_mesh nk k1 k2) (on_mesh nq q1 q2)).
Proof.
  intros Hp Hq Hk Hd. apply Z.mod_divide in Hd; [|lia]. destruct Hd as [f Hf].
  assert (HQ : forall q, q * nk / nq = q * f) by (intros q; rewrite Hf, Z.mul_assoc; apply Z.div_mul; lia). rewrite !HQ.
  assert (E : forall k q, (IZR ((k + q * f) mod nk) / IZR nk = IZR k / IZR nk + IZR q / IZR nq + IZR (- ((k + q * f) / nk)))%R).
  { intros k q. rewrite Z.mod_eq by lia. rewrite minus_IZR, plus_IZR, opp_IZR, mult_IZR, (mult_IZR nk). rewrite <- (mesh_fine nq nk q f Hq ltac:(lia) Hk), mult_IZR.
    field. apply not_0_IZR. lia. }
  unfold on_mesh at 1. rewrite !E. unfold wplus, on_mesh. cbn [fst snd]. apply Hp.
Qed.

Section Momentum.
  Context (no : nat) (nq nqC nk : Z) (U : wavevector -> nat -> nat -> nat -> nat -> C) (psi : wavevector -> nat -> C).
  Hypotheses (Hq : 0 < nq) (Hk : 0 < nk <= 256) (HC : 0 < nqC <= 256) (Dk : nk mod nq = 0) (DC : nqC mod nq = 0) (Hpsi : periodic psi).

  Lemma band_element_ok q k1 k2 K1 K2 : in_mesh nq q ->
    Z.of_nat k1 < nk -> Z.of_nat k2 < nk -> Z.of_nat K1 < nk -> Z.of_nat K2 < nk ->
    band_element no false (fun i j => U (on_mesh nqC i j)) (fun i j => psi (on_mesh nk i j)) (row_of nq nqC (Z.to_nat nk) q k1 k2 K1 K2) =
    band_interaction no U psi (on_mesh nq (fst q) (snd q)) (on_mesh nk (Z.of_nat k1) (Z.of_nat k2)) (on_mesh nk (Z.of_nat K1) (Z.of_nat K2)).
  Proof.
    intros [Q1 Q2] H1 H2 H3 H4.
    unfold row_of, uint8_row, uint8_pt. cbn [r_q r_k r_K r_kq r_Kq fst snd]. rewrite Z2Nat.id by lia.
    assert (M : forall x, 0 <= x mod nk < 256) by (intros x; pose proof (Z.mod_pos_bound x nk ltac:(lia)); lia).
    apply Z.mod_divide in DC; [|lia]. destruct DC as [f Hf].
    assert (Ef : nqC / nq = f) by (rewrite Hf; apply Z.div_mul; lia).
    rewrite Ef. assert (0 < f) by nia.
    rewrite !uint8_small by (try apply M; nia).
    unfold band_element, band_interaction, at_pt. cbn [r_q r_k r_K r_kq r_Kq fst snd].
    apply csum_ext. intros a _. apply csum_ext. intros b _. apply csum_ext. intros c _. apply csum_ext. intros d _.
    rewrite !(folded psi nq nk) by (try assumption; lia).
    replace (on_mesh nqC (fst q * f) (snd q * f)) with (on_mesh nq (fst q) (snd q)).
    - ring.
    - unfold on_mesh. rewrite !(mesh_fine nq nqC) by lia. reflexivity.
  Qed.

  Lemma band_element_dd r : density_density no U ->
    band_element no true (fun i j => U (on_mesh nqC i j)) (fun i j => psi (on_mesh nk i j)) r =
    band_element no false (fun i j => U (on_mesh nqC i j)) (fun i j => psi (on_mesh nk i j)) r.
  Proof.
    intros D. unfold band_element, at_pt. apply csum_ext. intros a Ha.
    transitivity (csum no (fun b => if Nat.eqb b a then csum no (fun c => csum no (fun d =>
      U (on_mesh nqC (fst (r_q r)) (snd (r_q r))) a b c d * conj (psi (on_mesh nk (fst (r_Kq r)) (snd (r_Kq r))) d) * conj (psi (on_mesh nk (fst (r_k r)) (snd (r_k r))) b) *
      psi (on_mesh nk (fst (r_kq r)) (snd (r_kq r))) a * psi (on_mesh nk (fst (r_K r)) (snd (r_K r))) c))%C else RtoC 0)).
    - rewrite (csum_delta no a (fun b => csum no (fun c => csum no (fun d => _)))) by exact Ha. apply csum_ext. intros c Hc.
      rewrite <- (csum_delta no c (fun d => U (on_mesh nqC (fst (r_q r)) (snd (r_q r))) a a c d * conj (psi (on_mesh nk (fst (r_Kq r)) (snd (r_Kq r))) d) * conj (psi (on_mesh nk (fst (r_k r)) (snd (r_k r))) a) *
        psi (on_mesh nk (fst (r_kq r)) (snd (r_kq r))) a * psi (on_mesh nk (fst (r_K r)) (snd (r_K r))) c)%C) by exact Hc.
      apply csum_ext. intros d Hd. destruct (Nat.eqb_spec d c) as [->|NE]; [reflexivity|]. rewrite D by (try assumption; right; congruence). ring.
    - apply csum_ext. intros b Hb. destruct (Nat.eqb_spec b a) as [->|NE]; [reflexivity|].
      rewrite <- (csum_zero no). apply csum_ext. intros c Hc. rewrite <- (csum_zero no) at 1. apply csum_ext. intros d Hd.
      rewrite D by (try assumption; left; congruence). ring.
  Qed.
End Momentum.

(** ** Consequences for the interaction *)

Definition S4 (no : nat) (f : nat -> nat -> nat -> nat -> C) : C := csum no (fun a => csum no (fun b => csum no (fun c => csum no (fun d => f a b c d)))).
Lemma S4_ab no f : S4 no f = S4 no (fun a b c d => f b a c d).
Proof. apply csum_swap. Qed.
Lemma S4_bc no f : S4 no f = S4 no (fun a b c d => f a c b d).
Proof. apply csum_ext. intros a _. apply csum_swap. Qed.
Lemma S4_cd no f : S4 no f = S4 no (fun a b c d => f a b d c).
Proof. apply csum_ext. intros a _. apply csum_ext. intros b _. apply csum_swap. Qed.
Lemma S4_ext no f g : (forall a b c d, (a < no)%nat -> (b < no)%nat -> (c < no)%nat -> (d < no)%nat -> f a b c d = g a b c d) -> S4 no f = S4 no g.
Proof. intros H. apply csum_ext. intros a Ha. apply csum_ext. intros b Hb. apply csum_ext. intros c Hc. apply csum_ext. intros d Hd. apply H; assumption. Qed.
Lemma S4_rev no f : S4 no f = S4 no (fun a b c d => f d c b a).
Proof.
  rewrite (S4_ab no f), (S4_bc no (fun a b c d => f b a c d)), (S4_ab no (fun a b c d => f c a b d)), (S4_cd no (fun a b c d => f c b a d)),
    (S4_bc no (fun a b c d => f d b a c)), (S4_ab no (fun a b c d => f d c a b)). reflexivity.
Qed.
Lemma S4_conj no f : conj (S4 no f) = S4 no (fun a b c d => conj (f a b c d)).
Proof.
  unfold S4. rewrite csum_conj. apply csum_ext. intros a _. rewrite csum_conj. apply csum_ext. intros b _. rewrite csum_conj. apply csum_ext. intros c _. apply csum_conj.
Qed.
Lemma S4_scal no z f : (S4 no (fun a b c d => z * f a b c d) = z * S4 no f)%C.
Proof.
  unfold S4. rewrite <- csum_scal. apply csum_ext. intros a _. rewrite <- csum_scal. apply csum_ext. intros b _. rewrite <- csum_scal. apply csum_ext. intros c _. apply csum_scal.
Qed.

Lemma band_interaction_hermitian no U psi q k K : hermitian_interaction no U ->
  band_interaction no U psi q K k = conj (band_interaction no U psi q k K).
Proof.
  intros H. change (S4 no (fun a b c d => U q a b c d * psi (wplus K q) a * conj (psi K b) * psi k c * conj (psi (wplus k q) d))%C =
    conj (S4 no (fun a b c d => U q a b c d * psi (wplus k q) a * conj (psi k b) * psi K c * conj (psi (wplus K q) d))%C)).
  rewrite S4_rev, S4_conj. apply S4_ext. intros a b c d Ha Hb Hc Hd. rewrite (H q a b c d) by assumption. rewrite !conj_mult, !conj_conj. ring.
Qed.

(** Change of the phases of the states *)
Lemma band_interaction_phase no U psi phase q k K :
  (band_interaction no U (fun k a => phase k * psi k a) q k K =
   (phase (wplus k q) * conj (phase k) * phase K * conj (phase (wplus K q))) * band_interaction no U psi q k K)%C.
Proof.
  unfold band_interaction. change (S4 no (fun a b c d => U q a b c d * (phase (wplus k q) * psi (wplus k q) a) * conj (phase k * psi k b) * (phase K * psi K c) * conj (phase (wplus K q) * psi (wplus K q) d))%C =
    ((phase (wplus k q) * conj (phase k) * phase K * conj (phase (wplus K q))) * S4 no (fun a b c d => U q a b c d * psi (wplus k q) a * conj (psi k b) * psi K c * conj (psi (wplus K q) d)))%C).
  rewrite <- S4_scal. apply S4_ext. intros. rewrite !conj_mult. ring.
Qed.

(** ** Hartree energy *)
Local Open Scope R_scope.

Lemma norm3_sq g : norm3 g ^ 2 = dot3 g g.
Proof.
  destruct g as [[x y] z]. unfold norm3, dot3. cbn [pow]. rewrite Rmult_1_r, sqrt_sqrt; [reflexivity|]. pose proof (Rle_0_sqr x). pose proof (Rle_0_sqr y). pose proof (Rle_0_sqr z). unfold Rsqr in *. lra.
Qed.

Lemma dot3_nonneg g : 0 <= dot3 g g.
Proof. destruct g as [[x y] z]. unfold dot3. pose proof (Rle_0_sqr x). pose proof (Rle_0_sqr y). pose proof (Rle_0_sqr z). unfold Rsqr in *. lra. Qed.

Lemma dot3_zero g : dot3 g g = 0 -> g = (0, 0, 0).
Proof.
  destruct g as [[x y] z]. unfold dot3. intros H. assert (x = 0) by nra. assert (y = 0) by nra. assert (z = 0) by nra. congruence.
Qed.

Lemma hartree_eq a0 rho g ng volume a : a0 <> 0 -> a <> 0 -> (forall i, (0 < i < ng)%nat -> g i <> (0, 0, 0)) ->
  hartree_energy a0 rho g ng volume a = hartree (ng - 1) rho (fun i => scale3 (2 * PI / (a / a0)) (g i)) volume.
Proof.
  intros H0 Ha Hg. unfold hartree_energy, hartree. cbv zeta. set (t := 2 * PI / (a / a0)).
  assert (Ht : t <> 0). { unfold t. pose proof PI_RGT_0. intros E. assert (E2 : 2 * PI = 0); [|lra]. replace (2 * PI) with (2 * PI / (a / a0) * (a / a0)) by (field; split; assumption). rewrite E. ring. }
  transitivity (volume / 2 * (8 * PI / t ^ 2 * rsum (ng - 1) (fun i => (fst (rho (S i)) ^ 2 + snd (rho (S i)) ^ 2) * (1 / norm3 (g (S i)) ^ 2)))).
  { field. exact Ht. }
  apply f_equal2; [reflexivity|]. rewrite <- rsum_scal. apply rsum_ext. intros i Hi.
  assert (Ng : dot3 (g (S i)) (g (S i)) <> 0) by (intros E; apply dot3_zero in E; apply (Hg (S i)); [lia|exact E]).
  rewrite norm3_sq. replace (dot3 (scale3 t (g (S i))) (scale3 t (g (S i)))) with (t ^ 2 * dot3 (g (S i)) (g (S i))).
  - unfold abs2. field. split; [exact Ng|exact Ht].
  - destruct (g (S i)) as [[x y] z]. unfold dot3, scale3. ring.
Qed.
