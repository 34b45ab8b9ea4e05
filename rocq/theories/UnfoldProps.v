(** C91: weights for unfolding of supercell dispersions. *)
From Coq Require Import Reals Lra Lia Psatz.
From Verif Require Import Common MPIModel MPIProofs LatModel LatSpec LatProofs LatProps Cx CxProofs HermSpec HermProofs UnfoldModel UnfoldSpec UnfoldProofs.
From Verif Require UnfoldProofs2.
Local Open Scope C_scope.

Lemma weights_ok nproc ks Rs b U0 U sgn : (0 < nproc)%Z -> (0 < b)%nat ->
  unfolding_weights nproc ks Rs b b (length Rs * b) (length Rs * b) U0 U None None sgn =
  Ok (map (fun ik => weight (nth ik ks []) Rs b (U0 ik) (U ik) sgn) (seq 0 (length ks))).
Proof.
  intros Hp Hb. unfold unfolding_weights. destruct (Nat.eqb_spec b 0); [lia|].
  replace (forallb _ _) with true; [cbn [orb]; rewrite scatter_compute_gather_serial by exact Hp; reflexivity|].
  symmetry. apply forallb_forall. intros ir Hir. apply in_seq in Hir. rewrite default_blocks_ok by lia. unfold default_blocks0. rewrite !seq_length. apply Nat.eqb_refl.
Qed.

Lemma nth_weights {A} (f : nat -> A) n d i : (i < n)%nat -> nth i (map f (seq 0 n)) d = f i.
Proof. intros H. rewrite (nth_indep _ d (f 0%nat)) by (rewrite map_length, seq_length; exact H). rewrite (map_nth f), seq_nth by exact H. reflexivity. Qed.

Lemma unitary_norm N U n : unitary N U -> (n < N)%nat -> (rsum N (fun i => abs2 (U i n)) = 1)%R.
Proof.
  intros [H _] Hn. apply RtoC_inj'. rewrite RtoC_rsum. rewrite (csum_ext N _ (fun i => conj (U i n) * U i n)) by (intros; apply abs2_conj).
  rewrite (H n n Hn Hn). unfold delta. rewrite Nat.eqb_refl. reflexivity.
Qed.

Definition zero_row : nat -> R := fun _ => 0%R.

(** For orthonormal eigenvectors and any number of processes, the weights are
    between zero and one, and at each k point, they add up to the number of bands
    of the symmetric system. *)
Theorem C91_weights : forall nproc ks Rs b U0 U sgn, (0 < nproc)%Z -> (0 < b)%nat -> (0 < length Rs)%nat ->
  (forall ik, (ik < length ks)%nat -> unitary b (U0 ik) /\ unitary (length Rs * b) (U ik)) ->
  exists w, unfolding_weights nproc ks Rs b b (length Rs * b) (length Rs * b) U0 U None None sgn = Ok w /\ length w = length ks /\
    forall ik, (ik < length ks)%nat ->
      (forall n, (n < length Rs * b)%nat -> (0 <= nth ik w zero_row n <= 1)%R) /\
      rsum (length Rs * b) (nth ik w zero_row) = INR b.
Proof.
  intros nproc ks Rs b U0 U sgn Hp Hb HR HU. eexists. split; [apply weights_ok; assumption|]. split; [rewrite map_length; apply seq_length|].
  intros ik Hik. rewrite (nth_weights (fun ik => weight (nth ik ks []) Rs b (U0 ik) (U ik) sgn)) by exact Hik. destruct (HU ik Hik) as [H0 H1]. split.
  - intros n Hn. split; [apply weight_nonneg|]. apply weight_le; [assumption..|]. apply unitary_norm; assumption.
  - apply weight_sum; assumption.
Qed.
Print Assumptions C91_weights.

(** The weights do not depend on the eigenvectors of the symmetric system and not
    on the phases of those of the supercell. *)
Theorem C91_gauge : forall nproc nproc' ks Rs b U0 U0' U U' sgn, (0 < nproc)%Z -> (0 < nproc')%Z -> (0 < b)%nat -> (0 < length Rs)%nat ->
  (forall ik, (ik < length ks)%nat -> unitary b (U0 ik) /\ unitary b (U0' ik)) ->
  (forall ik n, (ik < length ks)%nat -> (n < length Rs * b)%nat -> exists z, abs2 z = 1%R /\ forall i, (i < length Rs * b)%nat -> U' ik i n = z * U ik i n) ->
  exists w w', unfolding_weights nproc ks Rs b b (length Rs * b) (length Rs * b) U0 U None None sgn = Ok w /\
    unfolding_weights nproc' ks Rs b b (length Rs * b) (length Rs * b) U0' U' None None sgn = Ok w' /\
    forall ik n, (ik < length ks)%nat -> (n < length Rs * b)%nat -> nth ik w zero_row n = nth ik w' zero_row n.
Proof.
  intros nproc nproc' ks Rs b U0 U0' U U' sgn Hp Hp' Hb HR HU0 HU. eexists _, _. split; [apply weights_ok; assumption|]. split; [apply weights_ok; assumption|].
  intros ik n Hik Hn. rewrite !nth_weights by exact Hik. destruct (HU0 ik Hik) as [H0 H1]. rewrite !weight_amp by assumption. f_equal.
  apply rsum_ext. intros a Ha. destruct (HU ik n Hik Hn) as (z & Hz & E).
  replace (amp (nth ik ks []) Rs b (U' ik) sgn a n) with (z * amp (nth ik ks []) Rs b (U ik) sgn a n); [rewrite abs2_mult, Hz; ring|].
  unfold amp. rewrite <- csum_scal. apply csum_ext. intros ir Hir. rewrite E by nia. ring.
Qed.
Print Assumptions C91_gauge.

(** A Bloch state with wave vector q has the weight given by the average of the
    phases of the difference of wave vectors over the cells. *)
Theorem C91_bloch : forall nproc ks Rs b U0 U sgn q ik n, (0 < nproc)%Z -> (0 < b)%nat -> (0 < length Rs)%nat -> (ik < length ks)%nat -> (n < length Rs * b)%nat ->
  unitary b (U0 ik) -> unitary (length Rs * b) (U ik) -> bloch sgn q Rs b (U ik) n ->
  exists w, unfolding_weights nproc ks Rs b b (length Rs * b) (length Rs * b) U0 U None None sgn = Ok w /\
    nth ik w zero_row n = abs2 (csum (length Rs) (fun ir =>
      turn (sgn * (scalar (nth ik ks []) (nth ir Rs []) - scalar q (nth ir Rs []))) / RtoC (INR (length Rs)))).
Proof.
  intros nproc ks Rs b U0 U sgn q ik n Hp Hb HR Hik Hn H0 H1 HB. eexists. split; [apply weights_ok; assumption|]. rewrite nth_weights by exact Hik.
  apply weight_bloch; [assumption..|apply unitary_norm; assumption|exact HB].
Qed.
Print Assumptions C91_bloch.

Lemma scalar_coords a b c v : scalar [a; b; c] (coords v) = (a * IZR (vx v) + b * IZR (vy v) + c * IZR (vz v))%R.
Proof. cbn. ring. Qed.

Lemma turn_1 x : turn x = RtoC 1 <-> exists m, (x = 2 * PI * IZR m)%R.
Proof.
  split.
  - intros E. injection E as E1 E2.
    assert (Hs : sin (x / 2) = 0%R).
    { assert (D : cos x = (1 - 2 * sin (x / 2) * sin (x / 2))%R) by (rewrite <- cos_2a_sin; f_equal; field).
      assert (sin (x / 2) * sin (x / 2) = 0)%R by lra. apply Rmult_integral in H. tauto. }
    apply sin_eq_0_0 in Hs as (m & Hm). exists m. lra.
  - intros (m & ->). unfold turn. assert (G : forall j : nat, cos (2 * PI * INR j) = 1%R /\ sin (2 * PI * INR j) = 0%R).
    { intros j. replace (2 * PI * INR j)%R with (0 + 2 * INR j * PI)%R by ring. rewrite cos_period, sin_period, cos_0, sin_0. split; reflexivity. }
    destruct (Z.le_ge_cases 0 m) as [H|H].
    + rewrite <- (Z2Nat.id m H), <- INR_IZR_INZ. destruct (G (Z.to_nat m)) as [-> ->]. reflexivity.
    + replace m with (- Z.of_nat (Z.to_nat (- m)))%Z by lia. rewrite opp_IZR, <- INR_IZR_INZ.
      replace (2 * PI * - INR (Z.to_nat (- m)))%R with (- (2 * PI * INR (Z.to_nat (- m))))%R by ring. rewrite cos_neg, sin_neg.
      destruct (G (Z.to_nat (- m))) as [-> ->]. rewrite Ropp_0. reflexivity.
Qed.

(** In the supercells of C17: The weight of a Bloch state with wave vector q is
    one at all equivalent k points and zero at all other k points that fold onto
    the same point of the supercell. *)
Theorem C91_supercell : forall nproc ks a1 a2 a3 sc b U0 U sgn q1 q2 q3 k1 k2 k3 ik n, (0 < nproc)%Z -> (0 < b)%nat -> (sgn = 1 \/ sgn = -1)%R ->
  det3 (arg1 a1) (arg2 a2) (arg3 a3) <> 0%Z -> supercell a1 a2 a3 = Ok sc ->
  let Rs := map coords (sc_cells sc) in let difference v := (scalar [k1; k2; k3] (coords v) - scalar [q1; q2; q3] (coords v))%R in
  (ik < length ks)%nat -> nth ik ks [] = [k1; k2; k3] -> (n < length Rs * b)%nat ->
  (forall v, in_lattice (arg1 a1) (arg2 a2) (arg3 a3) v -> exists m, difference v = 2 * PI * IZR m)%R ->
  unitary b (U0 ik) -> unitary (length Rs * b) (U ik) -> bloch sgn [q1; q2; q3] Rs b (U ik) n ->
  exists w, unfolding_weights nproc ks Rs b b (length Rs * b) (length Rs * b) U0 U None None sgn = Ok w /\
    ((forall v, exists m, difference v = 2 * PI * IZR m)%R -> nth ik w zero_row n = 1%R) /\
    (forall v, (~ exists m, difference v = 2 * PI * IZR m)%R -> nth ik w zero_row n = 0%R).
Proof.
  intros nproc ks a1 a2 a3 sc b U0 U sgn q1 q2 q3 k1 k2 k3 ik n Hp Hb Hs HD HS Rs difference Hik Hk Hn HL H0 H1 HB.
  destruct (C17_cells a1 a2 a3 HD) as (sc' & ES & _ & _ & _ & _ & _ & Rp & I0 & _). rewrite HS in ES. injection ES as <-.
  assert (HR : (0 < length Rs)%nat) by (unfold Rs; rewrite map_length; destruct (sc_cells sc); [destruct I0|cbn; lia]).
  assert (PR : (0 < INR (length Rs))%R) by (apply lt_0_INR, HR).
  destruct (C91_bloch nproc ks Rs b U0 U sgn [q1; q2; q3] ik n Hp Hb HR Hik Hn H0 H1 HB) as (w & Ew & Hw). exists w. split; [exact Ew|].
  set (chi := fun v => turn (sgn * difference v)).
  assert (E : csum (length Rs) (fun ir => turn (sgn * (scalar (nth ik ks []) (nth ir Rs []) - scalar [q1; q2; q3] (nth ir Rs []))) / RtoC (INR (length Rs)))
    = RtoC (/ INR (length Rs)) * csuml chi (sc_cells sc)).
  { rewrite <- (csum_csuml chi (sc_cells sc) vzero), <- csum_scal. unfold Rs at 1. rewrite map_length. apply csum_ext. intros ir Hir. rewrite Hk.
    unfold Rs at 1 2. rewrite (nth_indep _ [] (coords vzero)) by (rewrite map_length; exact Hir). rewrite map_nth. unfold Cdiv. rewrite RtoC_inv by lra. apply Cmult_comm. }
  assert (T1 : forall v, (exists m, difference v = 2 * PI * IZR m)%R -> chi v = RtoC 1).
  { intros v (m & Em). apply turn_1. rewrite Em. destruct Hs as [->| ->]; [exists m; ring|exists (- m)%Z; rewrite opp_IZR; ring]. }
  rewrite Hw, E. split.
  - intros All. rewrite <- (csum_csuml chi (sc_cells sc) vzero), (csum_ext _ _ (fun _ => RtoC 1)) by (intros; apply T1, All).
    replace (length (sc_cells sc)) with (length Rs) by (unfold Rs; apply map_length).
    rewrite <- (RtoC_rsum (length Rs) (fun _ => 1%R)), rsum_const, <- RtoC_mult', abs2_R. field. lra.
  - intros v Nv.
    assert (Add : forall u v, difference (vadd u v) = (difference u + difference v)%R) by (intros u u'; unfold difference; rewrite !scalar_coords; destruct u, u'; cbn; rewrite !plus_IZR; ring).
    rewrite (character_sum (in_lattice (arg1 a1) (arg2 a2) (arg3 a3)) chi (sc_cells sc) v).
    + rewrite Cmult_0_r. unfold abs2. cbn. ring.
    + intros u u'. unfold chi. rewrite Add, Rmult_plus_distr_l. change turn with cis. apply cis_plus.
    + intros u Hu. apply T1, HL, Hu.
    + intros u u' (x & ->) (y & ->). exists (vadd x y). destruct (arg1 a1), (arg2 a2), (arg3 a3), x, y. unfold comb, vadd, vscale. cbn. f_equal; ring.
    + intros u (x & ->). exists (vopp x). destruct (arg1 a1), (arg2 a2), (arg3 a3), x. unfold comb, vadd, vscale, vopp. cbn. f_equal; ring.
    + exact Rp.
    + intros E1. apply Nv. apply turn_1 in E1 as (m & Em). destruct Hs as [->| ->]; [exists m; lra|exists (- m)%Z; rewrite opp_IZR; lra].
Qed.
Print Assumptions C91_supercell.

(** The sum of the weights of a state over a complete set of k points that fold
    onto the same point is one. *)
Theorem C91_complete : forall nproc ks Rs b U0 U sgn n, (0 < nproc)%Z -> (0 < b)%nat -> (0 < length Rs)%nat -> (sgn = 1 \/ sgn = -1)%R ->
  (forall ik, (ik < length ks)%nat -> unitary b (U0 ik)) -> unitary (length Rs * b) U -> (n < length Rs * b)%nat -> complete_set ks Rs ->
  exists w, unfolding_weights nproc ks Rs b b (length Rs * b) (length Rs * b) U0 (fun _ => U) None None sgn = Ok w /\
    rsum (length ks) (fun ik => nth ik w zero_row n) = 1%R.
Proof.
  intros nproc ks Rs b U0 U sgn n Hp Hb HR Hs HU0 HU Hn HC. eexists. split; [apply weights_ok; assumption|].
  rewrite (rsum_ext _ _ (fun ik => weight (nth ik ks []) Rs b (U0 ik) U sgn n)) by (intros ik Hik; rewrite nth_weights by exact Hik; reflexivity).
  rewrite weights_complete by assumption. apply unitary_norm; assumption.
Qed.
Print Assumptions C91_complete.

(** Such sets are, for example, the points of a mesh of as many points as there
    are cells along the lattice vectors, also shifted ones. *)
Theorem C91_mesh : forall nproc n points cells k1 k2 k3 b U0 U sgn j,
  let ks := map (fun m => [k1 + 2 * PI * IZR (vx m) / IZR (vx n); k2 + 2 * PI * IZR (vy m) / IZR (vy n); k3 + 2 * PI * IZR (vz m) / IZR (vz n)]%R) points in
  let Rs := map coords cells in (0 < nproc)%Z -> (0 < b)%nat -> (sgn = 1 \/ sgn = -1)%R ->
  (0 < vx n /\ 0 < vy n /\ 0 < vz n)%Z -> enumerates n points -> enumerates n cells ->
  (forall ik, (ik < length ks)%nat -> unitary b (U0 ik)) -> unitary (length Rs * b) U -> (j < length Rs * b)%nat ->
  exists w, unfolding_weights nproc ks Rs b b (length Rs * b) (length Rs * b) U0 (fun _ => U) None None sgn = Ok w /\
    rsum (length ks) (fun ik => nth ik w zero_row j) = 1%R.
Proof.
  intros nproc n points cells k1 k2 k3 b U0 U sgn j ks Rs Hp Hb Hs Hn HP HC HU0 HU Hj. apply C91_complete; try assumption; [destruct (length Rs); lia|].
  exact (UnfoldProofs2.complete_mesh n points cells k1 k2 k3 Hn HP HC).
Qed.
Print Assumptions C91_mesh.

Example C91_mesh_example : enumerates (V3 2 1 1) [V3 1 0 0; V3 0 0 0].
Proof.
  split; [repeat constructor; cbn; intuition congruence|]. intros [x y z]. cbn. split.
  - intros [E|[E|[]]]; injection E as <- <- <-; lia.
  - intros (H1 & H2 & H3). assert (y = 0%Z) by lia. assert (z = 0%Z) by lia. assert (x = 0 \/ x = 1)%Z as [->| ->] by lia; subst; auto.
Qed.

(** Orbitals in any order are selected by blocks. *)
Theorem C91_blocks : forall nproc ks Rs b U0 U U' sgn (s : nat -> nat), (0 < nproc)%Z -> (0 < b)%nat ->
  (forall ik i n, (ik < length ks)%nat -> (i < length Rs * b)%nat -> U' ik (s i) n = U ik i n) ->
  exists w w', unfolding_weights nproc ks Rs b b (length Rs * b) (length Rs * b) U0 U None None sgn = Ok w /\
    unfolding_weights nproc ks Rs b b (length Rs * b) (length Rs * b) U0 U' None (Some (fun ir => map s (seq (ir * b) b))) sgn = Ok w' /\
    forall ik n, (ik < length ks)%nat -> nth ik w zero_row n = nth ik w' zero_row n.
Proof.
  intros nproc ks Rs b U0 U U' sgn s Hp Hb HU. eexists. exists (map (fun ik => unfold_weight (nth ik ks []) Rs b (length Rs * b) (U0 ik) (U' ik) (default_blocks0 b) (fun ir => map s (seq (ir * b) b)) sgn) (seq 0 (length ks))).
  split; [apply weights_ok; assumption|]. split.
  - unfold unfolding_weights. destruct (Nat.eqb_spec b 0); [lia|].
    replace (forallb _ _) with true; [cbn [orb]; rewrite scatter_compute_gather_serial by exact Hp; reflexivity|].
    symmetry. apply forallb_forall. intros ir Hir. unfold default_blocks0. rewrite map_length, !seq_length. apply Nat.eqb_refl.
  - intros ik n Hik. rewrite nth_weights by exact Hik. rewrite (nth_weights (fun ik => unfold_weight _ _ _ _ _ _ _ _ _)) by exact Hik.
    unfold weight, unfold_weight. apply rsum_ext. intros m Hm. f_equal. apply csum_ext. intros ir Hir. f_equal.
    rewrite default_blocks_ok by exact Hir. unfold default_blocks0. rewrite seq_length. apply csum_ext. intros a Ha. f_equal.
    rewrite (nth_indep (map s _) 0%nat (s 0%nat)) by (rewrite map_length, seq_length; exact Ha). rewrite (map_nth s), !seq_nth by exact Ha.
    rewrite HU; [reflexivity|exact Hik|nia].
Qed.
Print Assumptions C91_blocks.

(** Two cells with one orbital: symmetric and antisymmetric combination *)
Definition ex_r : R := (/ sqrt 2)%R.
Definition ex_U (i n : nat) : C := RtoC (if (i =? 1)%nat && (n =? 1)%nat then - ex_r else ex_r)%R.
Definition ex_one (i n : nat) : C := RtoC 1.

Example C91_example : (0 < 3)%Z /\ unitary 1 ex_one /\ unitary (length [[0]; [1]]%R * 1) ex_U /\
  bloch (-1) [0]%R [[0]; [1]]%R 1 ex_U 0 /\ bloch (-1) [PI]%R [[0]; [1]]%R 1 ex_U 1 /\ complete_set [[0]; [PI]]%R [[0]; [1]]%R.
Proof.
  assert (R2 : (ex_r * ex_r = / 2)%R).
  { unfold ex_r. rewrite <- Rinv_mult. rewrite sqrt_sqrt by lra. reflexivity. }
  split; [lia|]. split.
  { split; intros m n Hm Hn; assert (m = 0%nat) by lia; assert (n = 0%nat) by lia; subst; apply c_ext; cbn; ring. }
  split.
  { split; intros m n Hm Hn; destruct m as [|[|m]], n as [|[|n]]; cbn in Hm, Hn; try lia; apply c_ext; cbn; try ring; nra. }
  split; [|split].
  - exists (fun _ => RtoC ex_r). intros ir a Hir Ha. cbn in Hir. assert (a = 0%nat) by lia. subst a. destruct ir as [|[|ir]]; [| |lia]; apply c_ext; cbn;
      replace (- -1 * (0 * 0 + 0))%R with 0%R by ring; replace (- -1 * (0 * 1 + 0))%R with 0%R by ring; rewrite ?cos_0, ?sin_0; ring.
  - exists (fun _ => RtoC ex_r). intros ir a Hir Ha. cbn in Hir. assert (a = 0%nat) by lia. subst a. destruct ir as [|[|ir]]; [| |lia]; apply c_ext; cbn;
      replace (- -1 * (PI * 0 + 0))%R with 0%R by ring; replace (- -1 * (PI * 1 + 0))%R with PI by ring; rewrite ?cos_0, ?sin_0, ?cos_PI, ?sin_PI; ring.
  - intros ir jr Hi Hj. cbn in Hi, Hj.
    destruct ir as [|[|ir]], jr as [|[|jr]]; try lia; apply c_ext; cbn;
      repeat match goal with |- context [cos ?x] => progress first [replace x with 0%R by ring|replace x with PI by ring|replace x with (- PI)%R by ring]
        | |- context [sin ?x] => progress first [replace x with 0%R by ring|replace x with PI by ring|replace x with (- PI)%R by ring] end;
      rewrite ?cos_neg, ?sin_neg, ?cos_0, ?sin_0, ?cos_PI, ?sin_PI; ring.
Qed.
