(** Property theorems about the Lindhard bubble from Green's functions. *)
From Coq Require Import Reals Lra Lia Psatz List ZArith.
From Verif Require Import Common Cx CxProofs OccModel OccProofs MdModel DiagModel DiagSpec DiagProofs Chi2Model Chi2Spec Chi2Proofs.
Import ListNotations.
Local Open Scope R_scope.

(** ** C98 *)

(** The more Matsubara frequencies, the closer to the Lindhard function, including states
    of the same energy. *)
Theorem C98_converges nk e kT width m1 m2 : (0 < nk)%nat -> 0 < kT -> 0 <= width ->
  Un_cv (fun nmats => fst (susceptibility2 nk e kT nmats width 0 (mesh_q nk m1) (mesh_q nk m2))) (lindhard nk e kT m1 m2).
Proof.
  intros Hnk HkT Hw. pose proof (nk_pos nk Hnk) as P.
  assert (D : forall i j, displaced nk e (m1 mod nk) (m2 mod nk) i j = displaced nk e m1 m2 i j).
  { intros i j. unfold displaced. rewrite !Nat.add_mod_idemp_l by lia. reflexivity. }
  apply (Un_cv_ext2 (fun N => / INR nk ^ 2 * rsum nk (fun i => rsum nk (fun j => term nk e kT width 0 N (m1 mod nk) (m2 mod nk) i j)))).
  - intros N. rewrite susceptibility2_re by (assumption || lra). unfold mesh_q. rewrite !q_index_mesh by exact Hnk. reflexivity.
  - unfold lindhard. replace (2 / INR (nk * nk) * rsum nk _) with (/ INR nk ^ 2 * rsum nk (fun i => rsum nk (fun j => 2 * pair_response kT (e i j) (displaced nk e m1 m2 i j)))).
    + apply (CV_mult (fun _ => / INR nk ^ 2)); [apply cv_const|]. apply rsum_cv. intros i _. apply rsum_cv. intros j _. rewrite <- D. apply term_cv, HkT.
    + rewrite (rsum_ext nk _ (fun i => 2 * rsum nk (fun j => pair_response kT (e i j) (displaced nk e m1 m2 i j)))) by (intros; apply rsum_scal).
      rewrite rsum_scal, mult_INR. field. lra.
Qed.
Print Assumptions C98_converges.

(** It is approached from below, from minus the inverse of twice the temperature, and
    monotonically, also with a hybridization. *)
Theorem C98_bounds nk e kT width height q1 q2 N N' : (0 < nk)%nat -> 0 < kT -> 0 <= width -> 0 <= height -> (N <= N')%nat ->
  - (1 / (2 * kT)) <= fst (susceptibility2 nk e kT N width height q1 q2) <= fst (susceptibility2 nk e kT N' width height q1 q2).
Proof.
  intros Hnk HkT Hw Hh HN. pose proof (nk_pos nk Hnk) as P. assert (I : 0 < / INR nk ^ 2) by (apply Rinv_0_lt_compat; nra). rewrite !susceptibility2_re by assumption. split.
  - apply Rle_trans with (/ INR nk ^ 2 * rsum nk (fun i => rsum nk (fun j => - (1 / (2 * kT))))).
    + rewrite !rsum_const. right. field. lra.
    + apply Rmult_le_compat_l; [lra|]. apply rsum_le. intros i _. apply rsum_le. intros j _. rewrite <- (term_0 nk e kT width height HkT (q_index nk q1) (q_index nk q2) i j). apply term_mono; try assumption. lia.
  - apply Rmult_le_compat_l; [lra|]. apply rsum_le. intros i _. apply rsum_le. intros j _. apply term_mono; assumption.
Qed.
Print Assumptions C98_bounds.

Theorem C98_below nk e kT width m1 m2 N : (0 < nk)%nat -> 0 < kT -> 0 <= width ->
  fst (susceptibility2 nk e kT N width 0 (mesh_q nk m1) (mesh_q nk m2)) <= lindhard nk e kT m1 m2.
Proof.
  intros Hnk HkT Hw. apply (growing_ineq (fun N => fst (susceptibility2 nk e kT N width 0 (mesh_q nk m1) (mesh_q nk m2)))).
  - intros n. apply C98_bounds; try assumption; [lra|lia].
  - apply C98_converges; assumption.
Qed.
Print Assumptions C98_below.

(** The same for opposite momenta *)
Theorem C98_opposite nk e kT N width height q1 q2 : (0 < nk)%nat -> 0 < kT -> 0 <= width -> 0 <= height ->
  susceptibility2 nk e kT N width height (- q1) (- q2) = susceptibility2 nk e kT N width height q1 q2.
Proof.
  intros Hnk HkT Hw Hh. apply c_ext.
  - rewrite !susceptibility2_re by assumption. f_equal. unfold term.
    apply (opposite_sum nk (fun a b => 4 * kT * rsum N (fun n => gg (shifted kT width height n) a b + 1 / mats kT n ^ 2) - 2 / (4 * kT))); [exact Hnk|].
    intros a b. f_equal. f_equal. apply rsum_ext. intros n _. rewrite sym_gg. reflexivity.
  - rewrite !susceptibility2_im by assumption. f_equal. apply rsum_ext. intros n _. apply (opposite_sum nk (gg_im (shifted kT width height n))); [exact Hnk|]. intros. apply sym_gg_im.
Qed.
Print Assumptions C98_opposite.

(** Electrons and holes: the sign of the energies only matters to the imaginary part. *)
Theorem C98_holes nk e kT N width height q1 q2 : (0 < nk)%nat -> 0 < kT -> 0 <= width -> 0 <= height ->
  susceptibility2 nk (fun i j => - e i j) kT N width height q1 q2 = conj (susceptibility2 nk e kT N width height q1 q2).
Proof.
  intros Hnk HkT Hw Hh. apply c_ext; cbn [conj fst snd].
  - rewrite !susceptibility2_re by assumption. f_equal. apply rsum_ext. intros i _. apply rsum_ext. intros j _. unfold term, displaced. f_equal. f_equal. apply rsum_ext. intros n _. f_equal.
    unfold gg. rewrite !Rmult_opp_opp. reflexivity.
  - rewrite !susceptibility2_im by assumption. rewrite Ropp_mult_distr_r. f_equal.
    match goal with |- _ = - ?x => replace (- x) with (-1 * x) by ring end. rewrite <- rsum_scal. apply rsum_ext. intros n _. rewrite <- rsum_scal. apply rsum_ext. intros i _. rewrite <- rsum_scal. apply rsum_ext. intros j _.
    unfold gg_im, displaced. rewrite !Rmult_opp_opp. unfold Rdiv. ring.
Qed.
Print Assumptions C98_holes.

(** The result is not real, as it should be, unless electrons and holes cancel: negative
    frequencies are only accounted for via a factor. *)
Theorem C98_real_refuted : exists nk e kT, (0 < nk)%nat /\ 0 < kT /\ exists c, 0 < c /\
  forall N, (0 < N)%nat -> c <= snd (susceptibility2 nk e kT N 1 0 0 0).
Proof.
  exists 1%nat, (fun _ _ => 1), 1. split; [lia|]. split; [lra|].
  assert (P : forall n, 0 < gg_im (shifted 1 1 0 n) 1 1).
  { intros n. pose proof (shifted_pos 1 1 0 n ltac:(lra) ltac:(lra) ltac:(lra)) as S. unfold gg_im. apply Rdiv_lt_0_compat; [lra|]. apply Rmult_lt_0_compat; nra. }
  assert (E : forall N, snd (susceptibility2 1 (fun _ _ => 1) 1 N 1 0 0 0) = 4 * rsum N (fun n => gg_im (shifted 1 1 0 n) 1 1)).
  { intros N. rewrite susceptibility2_im by (lia || lra). cbn [rsum INR]. unfold displaced. rewrite (rsum_ext N _ (fun n => gg_im (shifted 1 1 0 n) 1 1)) by (intros; ring). field. }
  exists (4 * gg_im (shifted 1 1 0 0) 1 1). split; [specialize (P 0%nat); lra|]. intros N HN. rewrite E. apply Rmult_le_compat_l; [lra|].
  apply (rsum_term N (fun n => gg_im (shifted 1 1 0 n) 1 1) 0 HN). intros j _. left. apply P.
Qed.
Print Assumptions C98_real_refuted.

(** The two implementations agree: the limit is what [susceptibility] yields without
    broadening, unless states at different k points have the same energy. *)
Definition exact_fd : smearing := mk_smearing (fun x => 1 / (exp x + 1)) (fun x => exp x / (exp x + 1) ^ 2) (fun _ => 0).

Theorem C98_susceptibility nk e kT width m1 m2 : (0 < nk)%nat -> 0 < kT -> 0 <= width ->
  (m1 mod nk = 0 /\ m2 mod nk = 0)%nat \/ (forall i j, (i < nk)%nat -> (j < nk)%nat -> displaced nk e m1 m2 i j <> e i j) ->
  Un_cv (fun nmats => fst (susceptibility2 nk e kT nmats width 0 (mesh_q nk m1) (mesh_q nk m2)))
    (susceptibility nk e kT 0 exact_fd (mesh_q nk m1) (mesh_q nk m2)).
Proof.
  intros Hnk HkT Hw Hq. pose proof (nk_pos nk Hnk) as P.
  replace (susceptibility nk e kT 0 exact_fd (mesh_q nk m1) (mesh_q nk m2)) with (lindhard nk e kT m1 m2); [apply C98_converges; assumption|].
  unfold susceptibility, mesh_q. rewrite !q_index_mesh by exact Hnk. unfold lindhard. rewrite mult_INR. replace (2 / (INR nk * INR nk)) with (2 / INR nk ^ 2) by (field; lra).
  assert (NZ : (forall i j, (i < nk)%nat -> (j < nk)%nat -> displaced nk e m1 m2 i j <> e i j) ->
    rsum nk (fun i => rsum nk (fun j => pair_response kT (e i j) (displaced nk e m1 m2 i j))) =
    rsum nk (fun i => rsum nk (fun j =>
      (occ exact_fd (e ((m1 mod nk + i) mod nk)%nat ((m2 mod nk + j) mod nk)%nat / kT) - occ exact_fd (e (i mod nk) (j mod nk)%nat / kT)) *
      (e ((m1 mod nk + i) mod nk)%nat ((m2 mod nk + j) mod nk)%nat - e (i mod nk) (j mod nk)%nat) /
      ((e ((m1 mod nk + i) mod nk)%nat ((m2 mod nk + j) mod nk)%nat - e (i mod nk) (j mod nk)%nat) * (e ((m1 mod nk + i) mod nk)%nat ((m2 mod nk + j) mod nk)%nat - e (i mod nk) (j mod nk)%nat) + 0 ^ 2)))).
  { intros Hd. apply rsum_ext. intros i Hi. apply rsum_ext. intros j Hj. specialize (Hd i j Hi Hj). unfold displaced in *. rewrite !Nat.add_mod_idemp_l, !(Nat.mod_small i), !(Nat.mod_small j) by lia.
    unfold pair_response. destruct (Req_EM_T _ _) as [X|_]; [congruence|]. cbn [occ exact_fd]. unfold fermi.
    set (a := e i j) in *. set (b := e ((m1 + i) mod nk)%nat ((m2 + j) mod nk)%nat) in *. pose proof (exp_pos (a / kT)). pose proof (exp_pos (b / kT)). field. repeat split; try lra; nra. }
  destruct (Nat.eqb_spec (m1 mod nk) (m2 mod nk)) as [E12|E12]; cbn [andb].
  - destruct (Nat.eqb_spec (m2 mod nk) 0) as [E2|E2]; cbn [andb].
    + assert (E1 : (m1 mod nk = 0)%nat) by congruence. f_equal. unfold Rdiv. rewrite Ropp_mult_distr_r, <- (Rmult_comm (- / kT)), <- rsum_scal. apply rsum_ext. intros i Hi. rewrite <- rsum_scal. apply rsum_ext. intros j Hj.
      unfold displaced. rewrite <- (Nat.add_mod_idemp_l m1), <- (Nat.add_mod_idemp_l m2), E1, E2, !Nat.add_0_l, (Nat.mod_small i), (Nat.mod_small j) by lia.
      unfold pair_response. destruct (Req_EM_T _ _) as [_|X]; [|congruence]. cbn [delta exact_fd]. unfold fermi'. pose proof (exp_pos (e i j / kT)). unfold Rdiv. field. split; lra.
    + f_equal. apply NZ. destruct Hq as [[A B]|A]; [congruence|exact A].
  - f_equal. apply NZ. destruct Hq as [[A B]|A]; [congruence|exact A].
Qed.
Print Assumptions C98_susceptibility.

(** The self-energy is the sum of couplings times the response of each k point; it does
    not depend on the number of processes; its limit is the usual second-order result. *)
Theorem C98_self_energy nk e kT width nQ nmodes (m : nat -> nat * nat) g2 : (0 < nk)%nat -> 0 < kT -> 0 <= width ->
  exists Pi : nat -> nat -> nat -> C,
  (forall nproc N GB, (0 < nproc)%Z -> INR N * (2 * INR nk) ^ 2 * 16 * IZR nproc <= GB * 1000000000 ->
     phonon_self_energy2 nk e kT N width 0 nproc nQ nmodes (fun iq => (mesh_q nk (fst (m iq)), mesh_q nk (snd (m iq)))) g2 GB
     = Ok (map (fun iq => map (Pi N iq) (seq 0 nmodes)) (seq 0 nQ))) /\
  forall iq mode,
    let limit part := 2 / INR (nk * nk) * rsum nk (fun i => rsum nk (fun j =>
      part (g2 iq mode i j) * pair_response kT (e i j) (displaced nk e (fst (m iq)) (snd (m iq)) i j))) in
    Un_cv (fun N => fst (Pi N iq mode)) (limit fst) /\ Un_cv (fun N => snd (Pi N iq mode)) (limit snd).
Proof.
  intros Hnk HkT Hw. pose proof (nk_pos nk Hnk) as P.
  exists (fun N iq mode => csum nk (fun i => csum nk (fun j => g2 iq mode i j * RtoC (chi2 nk e kT N width 0 (mesh_q nk (fst (m iq))) (mesh_q nk (snd (m iq))) i j))%C)). split.
  - intros nproc N GB Hp HM. unfold phonon_self_energy2. destruct (Rlt_dec _ _) as [X|_]; [lra|]. rewrite distributed_ok by exact Hp. reflexivity.
  - intros iq mode limit.
    assert (G : forall (part : C -> R), (forall (z : C) (x : R), part (z * RtoC x)%C = part z * x) -> (forall f, part (csum nk f) = rsum nk (fun i => part (f i))) ->
      Un_cv (fun N => part (csum nk (fun i => csum nk (fun j => g2 iq mode i j * RtoC (chi2 nk e kT N width 0 (mesh_q nk (fst (m iq))) (mesh_q nk (snd (m iq))) i j))%C))) (limit part)).
    { intros part H1 H2. unfold limit.
      apply (Un_cv_ext2 (fun N => / INR nk ^ 2 * rsum nk (fun i => rsum nk (fun j => part (g2 iq mode i j) * term nk e kT width 0 N (fst (m iq) mod nk) (snd (m iq) mod nk) i j)))).
      - intros N. rewrite H2, <- rsum_scal. apply rsum_ext. intros i Hi. rewrite H2, <- rsum_scal. apply rsum_ext. intros j Hj. rewrite H1, chi2_term by (assumption || lra).
        unfold mesh_q. rewrite !q_index_mesh by exact Hnk. field. lra.
      - replace (2 / INR (nk * nk) * rsum nk _) with (/ INR nk ^ 2 * rsum nk (fun i => rsum nk (fun j => part (g2 iq mode i j) * (2 * pair_response kT (e i j) (displaced nk e (fst (m iq)) (snd (m iq)) i j))))).
        + apply (CV_mult (fun _ => / INR nk ^ 2)); [apply cv_const|]. apply rsum_cv. intros i _. apply rsum_cv. intros j _. apply (CV_mult (fun _ => part (g2 iq mode i j))); [apply cv_const|].
          replace (displaced nk e (fst (m iq)) (snd (m iq)) i j) with (displaced nk e (fst (m iq) mod nk) (snd (m iq) mod nk) i j) by (unfold displaced; rewrite !Nat.add_mod_idemp_l by lia; reflexivity). apply term_cv, HkT.
        + rewrite (rsum_ext nk (fun i => rsum nk (fun j => part _ * (2 * _))) (fun i => 2 * rsum nk (fun j => part (g2 iq mode i j) * pair_response kT (e i j) (displaced nk e (fst (m iq)) (snd (m iq)) i j)))) by (intros; rewrite <- rsum_scal; apply rsum_ext; intros; ring).
          rewrite rsum_scal, mult_INR. field. lra. }
    split; apply G; intros.
    + cbn. ring.
    + apply fst_csum.
    + cbn. ring.
    + apply snd_csum.
Qed.
Print Assumptions C98_self_energy.

(** With the coupling set to one, it is the real part of the susceptibility. *)
Theorem C98_unit nk e kT N width height nproc nQ nmodes q GB : (0 < nk)%nat -> 0 < kT -> 0 <= width -> 0 <= height -> (0 < nproc)%Z ->
  INR N * (2 * INR nk) ^ 2 * 16 * IZR nproc <= GB * 1000000000 ->
  phonon_self_energy2 nk e kT N width height nproc nQ nmodes q (fun _ _ _ _ => RtoC 1) GB
  = Ok (map (fun iq => map (fun _ => RtoC (fst (susceptibility2 nk e kT N width height (fst (q iq)) (snd (q iq))))) (seq 0 nmodes)) (seq 0 nQ)).
Proof.
  intros Hnk HkT Hw Hh Hp HM. unfold phonon_self_energy2. destruct (Rlt_dec _ _) as [X|_]; [lra|]. rewrite distributed_ok by exact Hp. f_equal.
  apply map_ext. intros iq. destruct (q iq) as [q1 q2]. apply map_ext. intros _. cbn [fst snd]. rewrite susceptibility2_re by assumption.
  rewrite <- rsum_scal, RtoC_rsum. apply csum_ext. intros i Hi. rewrite <- rsum_scal, RtoC_rsum. apply csum_ext. intros j Hj. rewrite chi2_term by assumption.
  rewrite Cmult_1_l. f_equal. unfold Rdiv. ring.
Qed.
Print Assumptions C98_unit.

(** Too little memory *)
Theorem C98_memory nk e kT N width height nproc nQ nmodes q g2 GB : GB * 1000000000 < INR N * (2 * INR nk) ^ 2 * 16 * IZR nproc ->
  phonon_self_energy2 nk e kT N width height nproc nQ nmodes q g2 GB = Raise SystemExit.
Proof. intros H. unfold phonon_self_energy2. destruct (Rlt_dec _ _) as [_|X]; [reflexivity|lra]. Qed.
Print Assumptions C98_memory.

(** A flat band at the Fermi level, with two frequencies and infinitely many *)
Example C98_example : fst (susceptibility2 2 (fun _ _ => 0) 1 2 0 0 (mesh_q 2 1) 0) = - (1 / 2) /\ lindhard 2 (fun _ _ => 0) 1 1 0 = - (1 / 2).
Proof.
  split.
  - rewrite susceptibility2_re by (lia || lra). cbn [rsum]. unfold term, displaced, gg, shifted, mats. cbn [rsum INR]. pose proof PI_RGT_0. field. lra.
  - unfold lindhard, pair_response, displaced, fermi'. cbn [rsum]. destruct (Req_EM_T 0 0) as [_|X]; [|lra]. replace (0 / 1) with 0 by field. rewrite exp_0. cbn. field.
Qed.
Example C98_distinct_example : forall i j, (i < 2)%nat -> (j < 2)%nat -> displaced 2 (fun i _ => INR i) 1 0 i j <> INR i.
Proof.
  intros [|[|i]] j Hi Hj; unfold displaced; [change ((1 + 0) mod 2)%nat with 1%nat; cbn; lra|change ((1 + 1) mod 2)%nat with 0%nat; cbn; lra|lia].
Qed.
