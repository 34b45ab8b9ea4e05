(** Property C74: elphmod/models. The parameters (hopping, spring constants, masses,
    etc.) are arbitrary real numbers. *)
From Coq Require Import Reals Lra.
From Verif Require Import Common CommonProofs Num NumC ModelsModel ModelsSpec ModelsProofs.
Local Open Scope R_scope.

(** C74. Hamiltonians, dynamical matrices and the Coulomb interaction are Hermitian
    for any wave vector. *)
Theorem C74_hamiltonians t e_z2 e_x2y2 t_z2 t_z2_x2y2 t_z2_xy t_x2y2 t_x2y2_xy t_xy k1 k2 k3 :
  hermitian 1 (chain_hamiltonian t k1 k2 k3) /\
  hermitian 2 (graphene_hamiltonian t k1 k2 k3) /\
  hermitian 3 (tas2_hamiltonian e_z2 e_x2y2 t_z2 t_z2_x2y2 t_z2_xy t_x2y2 t_x2y2_xy t_xy k1 k2 k3).
Proof. split; [apply chain_hamiltonian_herm|]. split; [apply graphene_hamiltonian_herm|apply tas2_hamiltonian_herm]. Qed.
Print Assumptions C74_hamiltonians.

(** The off-diagonal elements do not vanish. *)
Example C74_hamiltonians_example :
  graphene_hamiltonian 1 0 0 0 0%nat 1%nat = RtoC 3 /\
  tas2_hamiltonian 0 0 0 1 1 0 0 0 PI 0 0 0%nat 1%nat <> n0.
Proof.
  split.
  - unfold graphene_hamiltonian. rewrite Ropp_0, expi_0. unfold RtoC. cbn. apply f_equal2; ring.
  - unfold tas2_hamiltonian, cplus, times. rewrite Rplus_0_r, Ropp_0, expi_0.
    destruct t_angles as (E0 & E3 & E1 & E4 & E2 & E5). unfold ModelsModel.t.
    change (0 / 2)%nat with 0%nat. change (1 / 2)%nat with 0%nat. change (2 / 2)%nat with 1%nat. change (3 / 2)%nat with 1%nat. change (4 / 2)%nat with 2%nat. change (5 / 2)%nat with 2%nat.
    cbn [Nat.even INR]. replace (1 + 1) with 2 by ring. rewrite E0, E1, E2, E3, E4, E5. rewrite !hopping_PI, !hopping_tr by lia.
    unfold hopping, mmul, R2, ModelsModel.t0, rows. cbn [nth]. replace (2 * - 0) with 0 by ring. replace (2 * 0) with 0 by ring.
    rewrite cos_0, sin_0. replace (2 * - (PI / 3)) with (- (2 * (PI / 3))) by ring. replace (2 * - (2 * (PI / 3))) with (- (4 * (PI / 3))) by ring. replace (2 * (2 * (PI / 3))) with (4 * (PI / 3)) by ring.
    rewrite !cos_neg, !sin_neg, cos120, sin120, cos240, sin240. unfold RtoC, real, e0, diag, rows, expi. rewrite cos_neg, sin_neg, cos_PI, sin_PI. cbn. intros H. injection H as H _. revert H. clear.
    intros H. ring_simplify in H. assert (G : sqrt 3 * sqrt 3 = 3) by apply root3. assert (0 < sqrt 3) by (apply sqrt_lt_R0; lra). nra.
Qed.

Theorem C74_dynamical_matrices w0 M m Cx Cy Cz ax ay az axz azx by_ bz cx cy cz dx dy dz dyz ex ez fx fy fz fyz q1 q2 q3 :
  hermitian 3 (chain_dynamical_matrix w0 q1 q2 q3) /\
  hermitian 6 (graphene_dynamical_matrix M Cx Cy Cz q1 q2 q3) /\
  hermitian 9 (tas2_dynamical_matrix M m ax ay az axz azx by_ bz cx cy cz dx dy dz dyz ex ez fx fy fz fyz q1 q2 q3).
Proof. split; [apply chain_dynamical_herm|]. split; [apply graphene_dynamical_herm|apply tas2_dynamical_herm]. Qed.
Print Assumptions C74_dynamical_matrices.

Theorem C74_coulomb_interaction U00 U01 U02 U03 q1 q2 q3 : hermitian 2 (coulomb_interaction U00 U01 U02 U03 q1 q2 q3).
Proof. apply coulomb_herm. Qed.
Print Assumptions C74_coulomb_interaction.

(** There is no restoring force for rigid displacements of the crystal. *)
Theorem C74_acoustic_sum_rule w0 M m Cx Cy Cz ax ay az axz azx by_ bz cx cy cz dx dy dz dyz ex ez fx fy fz fyz :
  0 < M -> 0 < m ->
  no_restoring_force 1 (fun _ => RtoC (sqrt M)) (chain_dynamical_matrix w0 0 0 0) /\
  no_restoring_force 2 (fun _ => RtoC (sqrt M)) (graphene_dynamical_matrix M Cx Cy Cz 0 0 0) /\
  no_restoring_force 3 (fun na => RtoC (sqrt (if Nat.eqb na 0 then M else m))) (tas2_dynamical_matrix M m ax ay az axz azx by_ bz cx cy cz dx dy dz dyz ex ez fx fy fz fyz 0 0 0).
Proof.
  intros HM Hm. split; [apply chain_dynamical_asr|]. split; [apply graphene_dynamical_asr; reflexivity|].
  exact (tas2_dynamical_asr M m ax ay az axz azx by_ bz cx cy cz dx dy dz dyz ex ez fx fy fz fyz 0 HM Hm).
Qed.
Print Assumptions C74_acoustic_sum_rule.

(** The elements of the sum do not vanish: two sulfur atoms connected by springs *)
Example C74_acoustic_example : let D := tas2_dynamical_matrix 1 4 0 0 0 0 0 1 0 0 0 0 0 0 0 0 0 0 0 0 0 0 0 0 0 in
  D 3%nat 3%nat = RtoC (1 / 4) /\ D 3%nat 6%nat = RtoC (- (1 / 4)).
Proof.
  intros D. assert (R2 : sqrt 4 = 2) by (replace 4 with (2 * 2) by ring; apply sqrt_square; lra).
  assert (Z : forall A phi, (forall i j, A i j = 0) -> forall i j, rotate A phi i j = 0) by (intros A phi H i j; unfold rotate, mmul; rewrite !H; ring).
  assert (X : forall A, (forall i j, A i j = 0) -> forall i j, xreflect A i j = 0) by (intros A H i j; unfold xreflect; rewrite H; destruct (xorb _ _); ring).
  assert (RZ : forall l, (forall u, In u l -> forall v, In v u -> v = 0) -> forall i j, rows l i j = 0).
  { intros l H i j. unfold rows. destruct (Nat.lt_ge_cases i (length l)) as [Hi|Hi]; [|rewrite (nth_overflow l) by exact Hi; destruct j; reflexivity].
    destruct (Nat.lt_ge_cases j (length (nth i l []))) as [Hj|Hj]; [|apply nth_overflow; exact Hj]. apply (H (nth i l [])); apply nth_In; assumption. }
  assert (ZA : forall i j, A0 0 0 0 0 0 i j = 0) by (apply RZ; intros u [<-|[<-|[<-|[]]]] v [<-|[<-|[<-|[]]]]; reflexivity).
  assert (ZC : forall i j, diag 0 0 0 i j = 0) by (apply RZ; intros u [<-|[<-|[<-|[]]]] v [<-|[<-|[<-|[]]]]; reflexivity).
  assert (ZD : forall i j, D1 0 0 0 0 i j = 0) by (apply RZ; intros u [<-|[<-|[<-|[]]]] v [<-|[<-|[<-|[]]]]; lra).
  assert (ZF : forall i j, F1 0 0 0 0 i j = 0) by (apply RZ; intros u [<-|[<-|[<-|[]]]] v [<-|[<-|[<-|[]]]]; lra).
  unfold D, tas2_dynamical_matrix. change (3 / 3)%nat with 1%nat. change (6 / 3)%nat with 2%nat. change (3 mod 3)%nat with 0%nat. change (6 mod 3)%nat with 0%nat. change (Nat.ltb 3 3) with false. change (Nat.ltb 6 3) with false.
  cbv beta iota zeta delta [tas2_springs inc dec set Nat.eqb andb]. unfold cplus, cminus, tr, conj. rewrite six_zero, R2.
  unfold six, cplus, times, real, rplus, A1, A2, A3, E1, E2, E3, E0, F2, F4, F6, F3, F5.
  assert (ZE : forall phi i j, rotate (diag 0 0 0) phi i j = 0) by (intros; apply Z, ZC).
  assert (ZA' : forall phi i j, rotate (A0 0 0 0 0 0) phi i j = 0) by (intros; apply Z, ZA).
  assert (ZF' : forall phi i j, rotate (F1 0 0 0 0) phi i j = 0) by (intros; apply Z, ZF).
  assert (ZF1 : forall i j, xreflect (F1 0 0 0 0) i j = 0) by (intros; apply X, ZF).
  assert (ZF2 : forall phi i j, xreflect (rotate (F1 0 0 0 0) phi) i j = 0) by (intros; apply X; intros; apply Z, ZF).
  rewrite ?ZE, ?ZA', ?ZF', ?ZF1, ?ZF2, ?ZF. unfold B, diag, rows, RtoC, expi. cbn. split; apply f_equal2; field.
Qed.

(** Rigid displacements do not couple to the electrons. For the chain and TaS2, where
    only one atom couples, the coupling vanishes. *)
Theorem C74_coupling_zero g0 M m t beta tau r t_z2 t_z2_x2y2 t_z2_xy t_x2y2 t_x2y2_xy t_xy a k1 k2 k3 :
  (forall x i j, chain_coupling g0 0 0 0 k1 k2 k3 x i j = n0) /\
  no_coupling 2 2 (fun _ => RtoC (sqrt M)) (graphene_coupling M t beta tau (bond0 r) (bond1 r) (bond2 r) 0 0 0 k1 k2 k3) /\
  (forall x i j, tas2_coupling M m t_z2 t_z2_x2y2 t_z2_xy t_x2y2 t_x2y2_xy t_xy beta a 0 0 0 k1 k2 k3 x i j = n0).
Proof. split; [intros; apply chain_coupling_zero|]. split; [apply graphene_coupling_sum; reflexivity|intros; apply tas2_coupling_zero]. Qed.
Print Assumptions C74_coupling_zero.

(** For graphene, it does not vanish: the atoms couple with opposite signs. *)
Example C74_coupling_example : let r := fun na x => if Nat.eqb na 0 then 1 else 3 in
  graphene_coupling 1 1 1 1 (bond0 r) (bond1 r) (bond2 r) 0 0 0 0 PI 0 0 0%nat 1%nat = RtoC 6 /\
  graphene_coupling 1 1 1 1 (bond0 r) (bond1 r) (bond2 r) 0 0 0 0 PI 0 3 0%nat 1%nat = RtoC (-6).
Proof.
  intros r. unfold graphene_coupling. rewrite !Rplus_0_r, sqrt_1, Ropp_0, expi_0. change (Nat.ltb 0 3) with true. change (Nat.ltb 3 3) with false. cbv iota. change (3 - 3)%nat with 0%nat. unfold bond0, bond1, bond2, r, expi, RtoC. rewrite sin_neg, cos_neg, cos_PI, sin_PI. cbn. split; apply f_equal2; field.
Qed.

Theorem C74_coupling_hermitian g0 M m t beta tau tau0 tau1 tau2 t_z2 t_z2_x2y2 t_z2_xy t_x2y2 t_x2y2_xy t_xy a :
  hermitian_coupling 1 1 (chain_coupling g0) /\
  hermitian_coupling 2 2 (graphene_coupling M t beta tau tau0 tau1 tau2) /\
  hermitian_coupling 3 3 (tas2_coupling M m t_z2 t_z2_x2y2 t_z2_xy t_x2y2 t_x2y2_xy t_xy beta a).
Proof.
  split; [intros q1 q2 q3 k1 k2 k3 x i j _ _ _; apply chain_coupling_herm|]. split; intros q1 q2 q3 k1 k2 k3 x i j _ Hi Hj; [apply graphene_coupling_herm|apply tas2_coupling_herm]; assumption.
Qed.
Print Assumptions C74_coupling_hermitian.

Example C74_coupling_hermitian_example : chain_coupling 1 (PI / 2) 0 0 0 0 0 0 0%nat 0%nat = Ci /\ chain_coupling 1 (- (PI / 2)) 0 0 (PI / 2) 0 0 0 0%nat 0%nat = nopp Ci.
Proof. unfold chain_coupling. cbn [Nat.eqb]. rewrite Rplus_0_l, Rplus_opp_r, sin_PI2, sin_0. unfold RtoC, Ci. cbn. split; apply f_equal2; ring. Qed.

(** All functions are periodic and originate from real parameters. *)
Theorem C74_periodic t w0 g0 M m Cx Cy Cz beta tau U00 U01 U02 U03 tau0 tau1 tau2 e_z2 e_x2y2 t_z2 t_z2_x2y2 t_z2_xy t_x2y2 t_x2y2_xy t_xy a
    ax ay az axz azx by_ bz cx cy cz dx dy dz dyz ex ez fx fy fz fyz :
  Forall (fun nf => periodic (fst nf) (snd nf) /\ reversible (fst nf) (snd nf))
    [(1%nat, chain_hamiltonian t); (2%nat, graphene_hamiltonian t);
     (3%nat, tas2_hamiltonian e_z2 e_x2y2 t_z2 t_z2_x2y2 t_z2_xy t_x2y2 t_x2y2_xy t_xy);
     (3%nat, chain_dynamical_matrix w0); (6%nat, graphene_dynamical_matrix M Cx Cy Cz);
     (9%nat, tas2_dynamical_matrix M m ax ay az axz azx by_ bz cx cy cz dx dy dz dyz ex ez fx fy fz fyz);
     (2%nat, coulomb_interaction U00 U01 U02 U03)] /\
  Forall (fun nf => periodic_coupling (fst nf) (fst nf) (snd nf) /\ reversible_coupling (fst nf) (fst nf) (snd nf))
    [(1%nat, chain_coupling g0); (2%nat, graphene_coupling M t beta tau tau0 tau1 tau2);
     (3%nat, tas2_coupling M m t_z2 t_z2_x2y2 t_z2_xy t_x2y2 t_x2y2_xy t_xy beta a)].
Proof.
  assert (P1 : forall n f, periodic1 f -> reversible1 f -> periodic n f /\ reversible n f) by (intros n f H1 H2; split; [intros k1 k2 k3 n1 n2 n3 i j _ _; apply H1|intros k1 k2 k3 i j _ _; apply H2]).
  assert (P2 : forall n f, periodic2 f -> reversible2 f -> periodic_coupling n n f /\ reversible_coupling n n f) by (intros n f H1 H2; split; [intros q1 q2 q3 k1 k2 k3 n1 n2 n3 m1 m2 m3 x i j _ _ _; apply H1|intros q1 q2 q3 k1 k2 k3 x i j _ _ _; apply H2]).
  split; repeat (apply Forall_cons; [cbn [fst snd]|]); try apply Forall_nil.
  - apply P1; [apply chain_H_periodic|apply chain_H_reversible].
  - apply P1; [apply graphene_H_periodic|apply graphene_H_reversible].
  - apply P1; [apply tas2_H_periodic|apply tas2_H_reversible].
  - apply P1; [apply chain_D_periodic|apply chain_D_reversible].
  - apply P1; [apply graphene_D_periodic|apply graphene_D_reversible].
  - split; [intros k1 k2 k3 n1 n2 n3 i j Hi Hj; exact (tas2_D_periodic _ _ _ _ _ _ _ _ _ _ _ _ _ _ _ _ _ _ _ _ _ _ k1 k2 k3 n1 n2 n3 i j Hi Hj)|intros k1 k2 k3 i j Hi Hj; apply tas2_D_reversible; assumption].
  - apply P1; [apply U_periodic|apply U_reversible].
  - apply P2; [apply chain_g_periodic|apply chain_g_reversible].
  - apply P2; [apply graphene_g_periodic|apply graphene_g_reversible].
  - apply P2; [apply tas2_g_periodic|apply tas2_g_reversible].
Qed.
Print Assumptions C74_periodic.

Example C74_periodic_example : graphene_hamiltonian 1 (PI / 2) 0 0 0%nat 1%nat = (2, 1) /\ graphene_hamiltonian 1 (- (PI / 2)) 0 0 0%nat 1%nat = (2, -1).
Proof. unfold graphene_hamiltonian, expi. rewrite Ropp_0, !sin_neg, !cos_neg, sin_PI2, cos_PI2, sin_0, cos_0. unfold RtoC. cbn. split; apply f_equal2; ring. Qed.
