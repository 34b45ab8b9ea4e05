(** C96: Coulomb interaction in the band basis; C97: Hartree energy. *)
From Coq Require Import Reals Lra Lia ZArith List.
From Verif Require Import Common LatModel MPIModel SymModel SymSpec SymProofs3 Cx CxProofs OrbModel OrbSpec OrbProofs.
Import ListNotations.
Local Open Scope Z_scope.

(** The interaction that has been requested, for all numbers of processes, if the
    meshes of k points and of the interaction contain that of q points and are not
    larger than 256 x 256. *)
Theorem C96_orbital2band_partial nproc no nqC U psi nq nk : 0 < nproc -> 0 < nq -> 0 < nk <= 256 -> 0 < nqC <= 256 ->
  nk mod nq = 0 -> nqC mod nq = 0 -> periodic psi ->
  exists irr V, irreducibles nq 60 = Ok irr /\
  orbital2band nproc no nqC (fun i j => U (on_mesh nqC i j)) (fun i j => psi (on_mesh nk i j)) nq (Z.to_nat nk) false = Ok (Some V) /\
  length V = (length (sorted_points nq irr) * Z.to_nat nk ^ 4)%nat /\
  forall iq q k1 k2 K1 K2, nth_error (sorted_points nq irr) iq = Some q ->
  Z.of_nat k1 < nk -> Z.of_nat k2 < nk -> Z.of_nat K1 < nk -> Z.of_nat K2 < nk ->
  element5 (Z.to_nat nk) V iq k1 k2 K1 K2 = band_interaction no U psi (on_mesh nq (fst q) (snd q))
    (on_mesh nk (Z.of_nat k1) (Z.of_nat k2)) (on_mesh nk (Z.of_nat K1) (Z.of_nat K2)).
Proof.
  intros Hp Hq Hk HC Dk DC Hpsi.
  destruct (orbital2band_ok nproc no nqC (fun i j => U (on_mesh nqC i j)) (fun i j => psi (on_mesh nk i j)) nq (Z.to_nat nk) false Hp Hq DC) as (irr & V & HI & E & L & H).
  exists irr, V. split; [exact HI|]. split; [exact E|]. split; [rewrite L; cbn [Nat.pow]; lia|]. intros iq q k1 k2 K1 K2 Hiq H1 H2 H3 H4.
  rewrite (H iq q k1 k2 K1 K2 Hiq) by lia. apply band_element_ok; try assumption.
  apply nth_error_In, sorted_points_in in Hiq. tauto.
Qed.
Print Assumptions C96_orbital2band_partial.

(** Meshes that do not match are only detected for the interaction ... *)
Theorem C96_mismatch nproc no nqC U psi nq nk dd : 0 < nq -> nqC mod nq <> 0 -> orbital2band nproc no nqC U psi nq nk dd = Ok None.
Proof.
  intros Hq Hm. unfold orbital2band. replace (nq =? 0) with false by (symmetry; apply Z.eqb_neq; lia). replace (nqC mod nq =? 0) with false by (symmetry; apply Z.eqb_neq; exact Hm). reflexivity.
Qed.
Print Assumptions C96_mismatch.

Definition psi_y (k : wavevector) (a : nat) : C := RtoC (cos (2 * PI * snd k)).
Definition psi_x (k : wavevector) (a : nat) : C := RtoC (cos (2 * PI * fst k)).
Lemma cos_shift x i : cos (2 * PI * (x + IZR i)) = cos (2 * PI * x).
Proof.
  replace (2 * PI * (x + IZR i))%R with (2 * PI * x + 2 * IZR i * PI)%R by ring. destruct (Z_le_gt_dec 0 i) as [P|P].
  - rewrite <- (Z2Nat.id i P), <- INR_IZR_INZ. apply cos_period.
  - set (n := Z.to_nat (- i)). assert (E : (2 * IZR i * PI = - (2 * INR n * PI))%R).
    { unfold n. rewrite INR_IZR_INZ, Z2Nat.id by lia. rewrite opp_IZR. ring. }
    rewrite E. rewrite <- (cos_period (2 * PI * x + - (2 * INR n * PI)) n). f_equal. ring.
Qed.
Lemma psi_y_periodic : periodic psi_y.
Proof. intros x y i j. unfold psi_y. cbn [snd]. rewrite cos_shift. reflexivity. Qed.
Lemma psi_x_periodic : periodic psi_x.
Proof. intros x y i j. unfold psi_x. cbn [fst]. rewrite cos_shift. reflexivity. Qed.

(** ... if the mesh of k points does not contain the q points, the states at k + q
    are silently replaced by others, ... *)
Theorem C96_mesh_refuted : exists U psi V, periodic psi /\
  orbital2band 1 1 2 (fun i j => U (on_mesh 2 i j)) (fun i j => psi (on_mesh 3 i j)) 2 3 false = Ok (Some V) /\
  exists irr, irreducibles 2 60 = Ok irr /\ nth_error (sorted_points 2 irr) 1 = Some (0, 1) /\
  element5 3 V 1 0 0 0 0 <> band_interaction 1 U psi (on_mesh 2 0 1) (on_mesh 3 0 0) (on_mesh 3 0 0).
Proof.
  exists (fun _ _ _ _ _ => RtoC 1), psi_y.
  destruct (orbital2band_ok 1 1 2 (fun i j => (fun (_ : wavevector) (_ _ _ _ : nat) => RtoC 1) (on_mesh 2 i j)) (fun i j => psi_y (on_mesh 3 i j)) 2 3 false ltac:(lia) ltac:(lia) eq_refl) as (irr & V & HI & E & L & H).
  exists V. split; [exact psi_y_periodic|]. split; [exact E|]. exists irr. split; [exact HI|].
  assert (HS : nth_error (sorted_points 2 irr) 1 = Some (0, 1)).
  { vm_compute in HI. injection HI as <-. vm_compute. reflexivity. }
  split; [exact HS|]. rewrite (H 1%nat (0, 1) 0%nat 0%nat 0%nat 0%nat HS) by lia.
  unfold band_element, band_interaction, at_pt, row_of, uint8_row, uint8_pt. cbn [r_q r_k r_K r_kq r_Kq fst snd csum].
  change (uint8 (Z.of_nat 0)) with 0. change (uint8 ((Z.of_nat 0 + 1 * Z.of_nat 3 / 2) mod Z.of_nat 3)) with 1. change (uint8 ((Z.of_nat 0 + 0 * Z.of_nat 3 / 2) mod Z.of_nat 3)) with 0.
  unfold psi_y, on_mesh, wplus. cbn [fst snd]. intros X. apply (f_equal fst) in X. cbn in X.
  replace (2 * PI * (0 / 3))%R with 0%R in X by field. replace (2 * PI * (1 / 3))%R with (2 * (PI / 3))%R in X by field. replace (2 * PI * (0 / 3 + 1 / 2))%R with PI in X by field.
  rewrite cos_0, cos_2PI3, cos_PI in X. lra.
Qed.
Print Assumptions C96_mesh_refuted.

(** ... and on larger meshes indices overflow. *)
Theorem C96_large_refuted : exists U psi V, periodic psi /\
  orbital2band 1 1 1 (fun i j => U (on_mesh 1 i j)) (fun i j => psi (on_mesh 257 i j)) 1 257 false = Ok (Some V) /\
  element5 257 V 0 256 0 0 0 <> band_interaction 1 U psi (on_mesh 1 0 0) (on_mesh 257 256 0) (on_mesh 257 0 0).
Proof.
  exists (fun _ _ _ _ _ => RtoC 1), psi_x.
  destruct (orbital2band_ok 1 1 1 (fun i j => (fun (_ : wavevector) (_ _ _ _ : nat) => RtoC 1) (on_mesh 1 i j)) (fun i j => psi_x (on_mesh 257 i j)) 1 257 false ltac:(lia) ltac:(lia) eq_refl) as (irr & V & HI & E & L & H).
  exists V. split; [exact psi_x_periodic|]. split; [exact E|].
  assert (HS : nth_error (sorted_points 1 irr) 0 = Some (0, 0)).
  { vm_compute in HI. injection HI as <-. vm_compute. reflexivity. }
  rewrite (H 0%nat (0, 0) 256%nat 0%nat 0%nat 0%nat HS) by lia.
  unfold band_element, band_interaction, at_pt, row_of, uint8_row, uint8_pt. cbn [r_q r_k r_K r_kq r_Kq fst snd csum].
  change (uint8 (Z.of_nat 0)) with 0. change (uint8 (Z.of_nat 256)) with 0. change (uint8 ((Z.of_nat 0 + 0 * Z.of_nat 257 / 1) mod Z.of_nat 257)) with 0.
  change (uint8 ((Z.of_nat 256 + 0 * Z.of_nat 257 / 1) mod Z.of_nat 257)) with 0.
  unfold psi_x, on_mesh, wplus. cbn [fst snd]. intros X. apply (f_equal fst) in X. cbn in X.
  replace (2 * PI * (0 / 257))%R with 0%R in X by field. replace (2 * PI * (0 / 257 + 0 / 1))%R with 0%R in X by field.
  replace (2 * PI * (256 / 257 + 0 / 1))%R with (2 * PI * (256 / 257))%R in X by field.
  rewrite cos_0 in X. set (t := (2 * PI * (256 / 257))%R) in *. pose proof (sin2_cos2 t) as S2. unfold Rsqr in S2.
  assert (S : (sin t < 0)%R) by (apply sin_lt_0; unfold t; pose proof PI_RGT_0; lra). nra.
Qed.
Print Assumptions C96_large_refuted.

(** With [dd=True], the same result for an interaction of densities *)
Theorem C96_dd nproc no nqC U psi nq nk : density_density no U ->
  orbital2band nproc no nqC (fun i j => U (on_mesh nqC i j)) (fun i j => psi (on_mesh nk i j)) nq (Z.to_nat nk) true =
  orbital2band nproc no nqC (fun i j => U (on_mesh nqC i j)) (fun i j => psi (on_mesh nk i j)) nq (Z.to_nat nk) false.
Proof.
  intros HD. unfold orbital2band. destruct (nq =? 0); [reflexivity|]. destruct (nqC mod nq =? 0); [|reflexivity]. cbn [negb].
  destruct (irreducibles nq 60) as [irr|x]; [|reflexivity]. cbn [bind]. apply (f_equal (fun r => do V <- r ;; Ok (Some V))).
  unfold scatter_compute_gather. destruct (distribute _ nproc) as [[sizes bounds]|x]; [|reflexivity]. cbn [bind].
  destruct (Scatterv _ _) as [mine|x]; [|reflexivity]. cbn [bind]. f_equal. apply map_ext. intros l. apply map_ext. intros r. apply band_element_dd. exact HD.
Qed.
Print Assumptions C96_dd.

(** A Hermitian interaction remains Hermitian. *)
Theorem C96_hermitian nproc no nqC U psi nq nk V : 0 < nproc -> 0 < nq -> 0 < nk <= 256 -> 0 < nqC <= 256 ->
  nk mod nq = 0 -> nqC mod nq = 0 -> periodic psi -> hermitian_interaction no U ->
  orbital2band nproc no nqC (fun i j => U (on_mesh nqC i j)) (fun i j => psi (on_mesh nk i j)) nq (Z.to_nat nk) false = Ok (Some V) ->
  forall irr iq k1 k2 K1 K2, irreducibles nq 60 = Ok irr -> (iq < length (sorted_points nq irr))%nat ->
  Z.of_nat k1 < nk -> Z.of_nat k2 < nk -> Z.of_nat K1 < nk -> Z.of_nat K2 < nk ->
  element5 (Z.to_nat nk) V iq K1 K2 k1 k2 = conj (element5 (Z.to_nat nk) V iq k1 k2 K1 K2).
Proof.
  intros Hp Hq Hk HC Dk DC Hpsi HU HV irr iq k1 k2 K1 K2 HI Hiq H1 H2 H3 H4.
  destruct (C96_orbital2band_partial nproc no nqC U psi nq nk Hp Hq Hk HC Dk DC Hpsi) as (irr' & V' & HI' & E & _ & H).
  rewrite HI in HI'. injection HI' as <-. rewrite HV in E. injection E as <-.
  destruct (nth_error (sorted_points nq irr) iq) as [q|] eqn:Eq; [|apply nth_error_None in Eq; lia].
  rewrite !(H iq q) by assumption. apply band_interaction_hermitian. exact HU.
Qed.
Print Assumptions C96_hermitian.

(** The phases of the states do not influence the modulus of the interaction and its
    values for k = k'. *)
Theorem C96_gauge nproc no nqC U psi phase nq nk V V' : 0 < nproc -> 0 < nq -> 0 < nk <= 256 -> 0 < nqC <= 256 ->
  nk mod nq = 0 -> nqC mod nq = 0 -> periodic psi -> periodic phase -> (forall k, abs2 (phase k) = 1%R) ->
  orbital2band nproc no nqC (fun i j => U (on_mesh nqC i j)) (fun i j => psi (on_mesh nk i j)) nq (Z.to_nat nk) false = Ok (Some V) ->
  orbital2band nproc no nqC (fun i j => U (on_mesh nqC i j)) (fun i j a => phase (on_mesh nk i j) * psi (on_mesh nk i j) a)%C nq (Z.to_nat nk) false = Ok (Some V') ->
  forall irr iq k1 k2 K1 K2, irreducibles nq 60 = Ok irr -> (iq < length (sorted_points nq irr))%nat ->
  Z.of_nat k1 < nk -> Z.of_nat k2 < nk -> Z.of_nat K1 < nk -> Z.of_nat K2 < nk ->
  abs2 (element5 (Z.to_nat nk) V' iq k1 k2 K1 K2) = abs2 (element5 (Z.to_nat nk) V iq k1 k2 K1 K2) /\
  element5 (Z.to_nat nk) V' iq k1 k2 k1 k2 = element5 (Z.to_nat nk) V iq k1 k2 k1 k2.
Proof.
  intros Hp Hq Hk HC Dk DC Hpsi Hph H1ph HV HV' irr iq k1 k2 K1 K2 HI Hiq H1 H2 H3 H4.
  assert (Hpsi' : periodic (fun k a => phase k * psi k a)%C) by (intros x y i j; rewrite Hpsi, Hph; reflexivity).
  destruct (C96_orbital2band_partial nproc no nqC U psi nq nk Hp Hq Hk HC Dk DC Hpsi) as (irr1 & V1 & HI1 & E1 & _ & R1).
  destruct (C96_orbital2band_partial nproc no nqC U _ nq nk Hp Hq Hk HC Dk DC Hpsi') as (irr2 & V2 & HI2 & E2 & _ & R2).
  rewrite HI in HI1, HI2. injection HI1 as <-. injection HI2 as <-. rewrite HV in E1. injection E1 as <-. rewrite HV' in E2. injection E2 as <-.
  destruct (nth_error (sorted_points nq irr) iq) as [q|] eqn:Eq; [|apply nth_error_None in Eq; lia].
  rewrite !(R1 iq q), !(R2 iq q) by assumption. rewrite !band_interaction_phase. split.
  - rewrite !abs2_mult, !abs2_of_conj, !H1ph. ring.
  - set (k := on_mesh nk (Z.of_nat k1) (Z.of_nat k2)). set (kq := wplus k (on_mesh nq (fst q) (snd q))).
    transitivity ((conj (phase kq) * phase kq) * (conj (phase k) * phase k) * band_interaction no U psi (on_mesh nq (fst q) (snd q)) k k)%C; [ring|].
    rewrite <- !abs2_conj, !H1ph. ring.
Qed.
Print Assumptions C96_gauge.

(** Two orbitals, interaction of densities and exchange *)
Definition U2o (q : wavevector) (a b c d : nat) : C := if (Nat.eqb a b && Nat.eqb c d)%bool then RtoC 2 else if (Nat.eqb a d && Nat.eqb b c)%bool then RtoC 1 else RtoC 0.
Example C96_example : hermitian_interaction 2 U2o /\ periodic psi_y /\ 6 mod 3 = 0 /\ 12 mod 3 = 0 /\
  exists V, orbital2band 4 2 12 (fun i j => U2o (on_mesh 12 i j)) (fun i j => psi_y (on_mesh 6 i j)) 3 6 false = Ok (Some V) /\ length V = 3888%nat.
Proof.
  split.
  { intros q a b c d Ha Hb Hc Hd. unfold U2o. destruct a as [|[|a]]; try lia; destruct b as [|[|b]]; try lia; destruct c as [|[|c]]; try lia; destruct d as [|[|d]]; try lia; cbn; rewrite conj_R; reflexivity. }
  split; [exact psi_y_periodic|]. split; [reflexivity|]. split; [reflexivity|].
  destruct (C96_orbital2band_partial 4 2 12 U2o psi_y 3 6) as (irr & V & HI & E & L & _); try lia; try reflexivity; [exact psi_y_periodic|].
  exists V. split; [exact E|]. rewrite L. vm_compute in HI. injection HI as <-. vm_compute. reflexivity.
Qed.

(** ** C97: Hartree energy *)
Local Open Scope R_scope.

Theorem C97_formula a0 rho g ng volume a : a0 <> 0 -> a <> 0 -> (forall i, (0 < i < ng)%nat -> g i <> (0, 0, 0)) ->
  hartree_energy a0 rho g ng volume a = hartree (ng - 1) rho (fun i => scale3 (2 * PI / (a / a0)) (g i)) volume.
Proof. apply hartree_eq. Qed.
Print Assumptions C97_formula.

(** The energy is not negative; it vanishes for uniform densities only. *)
Theorem C97_positive a0 rho g ng volume a : a0 <> 0 -> a <> 0 -> 0 < volume -> (forall i, (0 < i < ng)%nat -> g i <> (0, 0, 0)) ->
  0 <= hartree_energy a0 rho g ng volume a /\
  (hartree_energy a0 rho g ng volume a = 0 <-> forall i, (0 < i < ng)%nat -> rho i = RtoC 0).
Proof.
  intros H0 Ha Hv Hg. rewrite (hartree_eq a0 rho g ng volume a H0 Ha Hg). unfold hartree.
  set (t := 2 * PI / (a / a0)). pose proof PI_RGT_0 as HPI.
  assert (Ht : t <> 0). { unfold t. intros E. assert (E2 : 2 * PI = 0); [|lra]. replace (2 * PI) with (2 * PI / (a / a0) * (a / a0)) by (field; split; assumption). rewrite E. ring. }
  assert (Hd : forall i, (i < ng - 1)%nat -> 0 < dot3 (scale3 t (g (S i))) (scale3 t (g (S i)))).
  { intros i Hi. destruct (dot3_nonneg (scale3 t (g (S i)))) as [P|P]; [exact P|]. exfalso. symmetry in P. apply dot3_zero in P. apply (Hg (S i)); [lia|].
    destruct (g (S i)) as [[x y] z]. unfold scale3 in P. injection P as P1 P2 P3. f_equal; [f_equal|]; (eapply Rmult_eq_reg_l; [|exact Ht]); rewrite Rmult_0_r; assumption. }
  assert (Hn : forall i, (i < ng - 1)%nat -> 0 <= 8 * PI * abs2 (rho (S i)) / dot3 (scale3 t (g (S i))) (scale3 t (g (S i)))).
  { intros i Hi. apply Rmult_le_pos; [|left; apply Rinv_0_lt_compat, Hd, Hi]. apply Rmult_le_pos; [lra|apply abs2_nonneg]. }
  split; [apply Rmult_le_pos; [lra|apply rsum_nonneg; exact Hn]|]. split.
  - intros E i Hi. assert (S0 : rsum (ng - 1) (fun i => 8 * PI * abs2 (rho (S i)) / dot3 (scale3 t (g (S i))) (scale3 t (g (S i)))) = 0).
    { apply Rmult_eq_reg_l with (volume / 2); [rewrite E; ring|lra]. }
    destruct i as [|i]; [lia|]. pose proof (rsum_term (ng - 1) _ i ltac:(lia) Hn) as T. cbv beta in T. rewrite S0 in T. pose proof (Hn i ltac:(lia)) as T2. specialize (Hd i ltac:(lia)).
    assert (A : abs2 (rho (S i)) = 0).
    { set (D := dot3 _ _) in *. assert (Z : 8 * PI * abs2 (rho (S i)) / D = 0) by lra. apply Rmult_eq_reg_l with (8 * PI / D).
      - rewrite Rmult_0_r, <- Z. field. lra.
      - apply Rgt_not_eq, Rdiv_lt_0_compat; lra. }
    unfold abs2 in A. apply c_ext; cbn; nra.
  - intros H. rewrite (rsum_ext _ _ (fun _ => 0)); [rewrite rsum_zero; ring|]. intros i Hi. rewrite (H (S i)) by lia. rewrite abs2_R. unfold Rdiv. ring.
Qed.
Print Assumptions C97_positive.

(** It neither changes with the choice of the origin, ... *)
Theorem C97_translation a0 rho g ng volume a (t : R * R * R) :
  hartree_energy a0 (fun i => rho i * (cos (dot3 (g i) t), - sin (dot3 (g i) t))%R)%C g ng volume a = hartree_energy a0 rho g ng volume a.
Proof.
  unfold hartree_energy. cbv zeta. do 3 (apply f_equal2; [|reflexivity]). apply rsum_ext. intros i _. apply f_equal2; [|reflexivity].
  set (x := dot3 (g (S i)) t). pose proof (sin2_cos2 x) as E. unfold Rsqr in E. cbn [fst snd Cmult].
  replace ((fst (rho (S i)) * cos x - snd (rho (S i)) * - sin x) ^ 2 + (fst (rho (S i)) * - sin x + snd (rho (S i)) * cos x) ^ 2)
    with ((fst (rho (S i)) ^ 2 + snd (rho (S i)) ^ 2) * (sin x * sin x + cos x * cos x)) by ring. rewrite E. ring.
Qed.
Print Assumptions C97_translation.

(** ... nor with the unit in which the reciprocal lattice vectors are given, and is
    quadratic in the density. *)
Theorem C97_units a0 rho g ng volume a c : a0 <> 0 -> a <> 0 -> c <> 0 -> (forall i, (0 < i < ng)%nat -> g i <> (0, 0, 0)) ->
  hartree_energy a0 rho (fun i => scale3 c (g i)) ng volume (c * a) = hartree_energy a0 rho g ng volume a.
Proof.
  intros H0 Ha Hc Hg. rewrite !hartree_eq; try assumption.
  - unfold hartree. apply f_equal2; [reflexivity|]. apply rsum_ext. intros i _. apply f_equal2; [reflexivity|]. destruct (g (S i)) as [[x y] z]. unfold dot3, scale3. field. tauto.
  - intros E. apply Rmult_integral in E. tauto.
  - intros i Hi. specialize (Hg i Hi). destruct (g i) as [[x y] z]. unfold scale3. intros E. apply Hg. injection E as E1 E2 E3.
    f_equal; [f_equal|]; (eapply Rmult_eq_reg_l; [|exact Hc]); rewrite Rmult_0_r; assumption.
Qed.
Print Assumptions C97_units.

Theorem C97_quadratic a0 rho g ng volume a c :
  hartree_energy a0 (fun i => RtoC c * rho i)%C g ng volume a = c ^ 2 * hartree_energy a0 rho g ng volume a.
Proof.
  unfold hartree_energy. cbv zeta. rewrite <- !Rmult_assoc. do 3 (apply f_equal2; [|reflexivity]). rewrite <- rsum_scal. apply rsum_ext. intros i _. cbn. ring.
Qed.
Print Assumptions C97_quadratic.

Example C97_example : hartree_energy 1 (fun i => match i with O => RtoC 7 | _ => (1, 1) end) (fun i => (INR i, 0, 0)) 3 2 1 = 5 / PI.
Proof.
  rewrite hartree_eq; [|lra|lra|].
  - unfold hartree, scale3, dot3, abs2. cbn. field. apply PI_neq0.
  - intros i Hi E. injection E as E. revert E. apply not_0_INR. lia.
Qed.
