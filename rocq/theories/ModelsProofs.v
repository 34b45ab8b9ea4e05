From Coq Require Import Reals Lra.
From Verif Require Import Common CommonProofs Num NumC ModelsModel ModelsSpec.
Local Open Scope R_scope.

Lemma below3 (P : nat -> Prop) : P 0%nat -> P 1%nat -> P 2%nat -> forall i, (i < 3)%nat -> P i.
Proof. intros H0 H1 H2 [|[|[|i]]] H; try assumption; lia. Qed.
Lemma below2 (P : nat -> Prop) : P 0%nat -> P 1%nat -> forall i, (i < 2)%nat -> P i.
Proof. intros H0 H1 [|[|i]] H; try assumption; lia. Qed.

(** ** Angles *)
Lemma cos_period x : cos (x + 2 * PI) = cos x. Proof. rewrite cos_plus, cos_2PI, sin_2PI. ring. Qed.
Lemma sin_period x : sin (x + 2 * PI) = sin x. Proof. rewrite sin_plus, cos_2PI, sin_2PI. ring. Qed.
Lemma cos_plus_PI x : cos (x + PI) = - cos x. Proof. rewrite cos_plus, cos_PI, sin_PI. ring. Qed.
Lemma sin_plus_PI x : sin (x + PI) = - sin x. Proof. rewrite sin_plus, cos_PI, sin_PI. ring. Qed.

Lemma cos30 : cos (PI / 6) = sqrt 3 / 2. Proof. exact cos_PI6. Qed.
Lemma sin30 : sin (PI / 6) = 1 / 2. Proof. exact sin_PI6. Qed.
Lemma cos60 : cos (PI / 3) = 1 / 2. Proof. exact cos_PI3. Qed.
Lemma sin60 : sin (PI / 3) = sqrt 3 / 2. Proof. exact sin_PI3. Qed.
Lemma cos120 : cos (2 * (PI / 3)) = - 1 / 2. Proof. exact cos_2PI3. Qed.
Lemma sin120 : sin (2 * (PI / 3)) = sqrt 3 / 2. Proof. exact sin_2PI3. Qed.
Lemma cos240 : cos (4 * (PI / 3)) = - 1 / 2.
Proof. replace (4 * (PI / 3)) with (PI / 3 + PI) by field. rewrite cos_plus_PI, cos60. field. Qed.
Lemma sin240 : sin (4 * (PI / 3)) = - (sqrt 3 / 2).
Proof. replace (4 * (PI / 3)) with (PI / 3 + PI) by field. rewrite sin_plus_PI, sin60. field. Qed.
Lemma cos150 : cos (5 * (PI / 6)) = - (sqrt 3 / 2).
Proof. replace (5 * (PI / 6)) with (- (PI / 6) + PI) by field. rewrite cos_plus_PI, cos_neg, cos30. reflexivity. Qed.
Lemma sin150 : sin (5 * (PI / 6)) = 1 / 2.
Proof. replace (5 * (PI / 6)) with (- (PI / 6) + PI) by field. rewrite sin_plus_PI, sin_neg, sin30. field. Qed.
Lemma cos210 : cos (7 * (PI / 6)) = - (sqrt 3 / 2).
Proof. replace (7 * (PI / 6)) with (PI / 6 + PI) by field. rewrite cos_plus_PI, cos30. reflexivity. Qed.
Lemma sin210 : sin (7 * (PI / 6)) = - (1 / 2).
Proof. replace (7 * (PI / 6)) with (PI / 6 + PI) by field. rewrite sin_plus_PI, sin30. reflexivity. Qed.
Lemma cos270 : cos (3 * (PI / 2)) = 0. Proof. exact cos_3PI2. Qed.
Lemma sin270 : sin (3 * (PI / 2)) = -1. Proof. exact sin_3PI2. Qed.
Lemma root3 : sqrt 3 * sqrt 3 = 3. Proof. apply sqrt_sqrt. lra. Qed.

(** ** Matrices *)
Definition symmetric (A : rmat) : Prop := forall i j, (i < 3)%nat -> (j < 3)%nat -> A i j = A j i.
Definition opposite (A B : rmat) : Prop := forall i j, (i < 3)%nat -> (j < 3)%nat -> A i j = B j i.


Lemma mmul_rotation_sym (Q A : rmat) : symmetric A -> symmetric (mmul (mmul Q A) (tr Q)).
Proof.
  intros H i j Hi Hj. unfold mmul, tr. rewrite (H 1%nat 0%nat), (H 2%nat 0%nat), (H 2%nat 1%nat) by lia. ring.
Qed.
Lemma g_rotate_sym A phi : symmetric A -> symmetric (g_rotate A phi).
Proof. apply mmul_rotation_sym. Qed.
Lemma diag_sym x y z : symmetric (diag x y z).
Proof. intros i j Hi Hj. revert i Hi j Hj. apply (below3 (fun i => forall j, (j < 3)%nat -> diag x y z i j = diag x y z j i)); apply below3; reflexivity. Qed.
Lemma rplus_sym A B : symmetric A -> symmetric B -> symmetric (rplus A B).
Proof. intros HA HB i j Hi Hj. unfold rplus. rewrite (HA i j), (HB i j) by assumption. reflexivity. Qed.

Lemma Rz_neg phi i j : (i < 3)%nat -> (j < 3)%nat -> Rz (- phi) i j = Rz phi j i.
Proof.
  intros Hi Hj. revert i Hi j Hj. apply (below3 (fun i => forall j, (j < 3)%nat -> Rz (- phi) i j = Rz phi j i)); apply below3; unfold Rz, rows; cbn [nth]; rewrite ?cos_neg, ?sin_neg; ring.
Qed.
Lemma R2_neg phi i j : (i < 3)%nat -> (j < 3)%nat -> R2 (- phi) i j = R2 phi j i.
Proof.
  intros Hi Hj. revert i Hi j Hj. apply (below3 (fun i => forall j, (j < 3)%nat -> R2 (- phi) i j = R2 phi j i)); apply below3; unfold R2, rows; cbn [nth]; replace (2 * - phi) with (- (2 * phi)) by ring; rewrite ?cos_neg, ?sin_neg; ring.
Qed.
Lemma rotate_sym A phi : symmetric A -> symmetric (rotate A phi).
Proof.
  intros H i j Hi Hj. unfold rotate, mmul. rewrite !Rz_neg by lia. rewrite (H 1%nat 0%nat), (H 2%nat 0%nat), (H 2%nat 1%nat) by lia. ring.
Qed.
Lemma xreflect_sym A : symmetric A -> symmetric (xreflect A).
Proof. intros H i j Hi Hj. unfold xreflect. rewrite (H i j), xorb_comm by assumption. reflexivity. Qed.

(** ** TaS2: neighbors in opposite directions *)
Lemma hopping_tr T phi i j : (i < 3)%nat -> (j < 3)%nat -> hopping (tr T) phi i j = hopping T phi j i.
Proof. intros Hi Hj. unfold hopping, mmul, tr. rewrite !R2_neg by lia. ring. Qed.
Lemma R2_PI phi i j : R2 (phi + PI) i j = R2 phi i j.
Proof. unfold R2. replace (2 * (phi + PI)) with (2 * phi + 2 * PI) by ring. rewrite cos_period, sin_period. reflexivity. Qed.
Lemma R2_neg_PI phi i j : R2 (- (phi + PI)) i j = R2 (- phi) i j.
Proof. rewrite <- R2_PI. replace (- (phi + PI) + PI) with (- phi) by ring. reflexivity. Qed.
Lemma dR2_PI phi i j : dR2_dphi (phi + PI) i j = dR2_dphi phi i j.
Proof. unfold dR2_dphi. replace (2 * (phi + PI)) with (2 * phi + 2 * PI) by ring. rewrite cos_period, sin_period. reflexivity. Qed.
Lemma dR2_neg_PI phi i j : dR2_dphi (- (phi + PI)) i j = dR2_dphi (- phi) i j.
Proof. rewrite <- dR2_PI. replace (- (phi + PI) + PI) with (- phi) by ring. reflexivity. Qed.
Lemma dR2_neg phi i j : (i < 3)%nat -> (j < 3)%nat -> dR2_dphi (- phi) i j = - dR2_dphi phi j i.
Proof.
  intros Hi Hj. revert i Hi j Hj. apply (below3 (fun i => forall j, (j < 3)%nat -> dR2_dphi (- phi) i j = - dR2_dphi phi j i)); apply below3; unfold dR2_dphi, rscale, rows; cbn [nth]; replace (2 * - phi) with (- (2 * phi)) by ring; rewrite ?cos_neg, ?sin_neg; ring.
Qed.
Lemma hopping_PI T phi i j : hopping T (phi + PI) i j = hopping T phi i j.
Proof. unfold hopping, mmul. rewrite !R2_PI, !R2_neg_PI. reflexivity. Qed.

Section Opposite.
  Variables t_z2 t_z2_x2y2 t_z2_xy t_x2y2 t_x2y2_xy t_xy beta a : R.
  Notation t := (t t_z2 t_z2_x2y2 t_z2_xy t_x2y2 t_x2y2_xy t_xy).
  Notation dt := (dt t_z2 t_z2_x2y2 t_z2_xy t_x2y2 t_x2y2_xy t_xy beta a).
  Notation t0 := (t0 t_z2 t_z2_x2y2 t_z2_xy t_x2y2 t_x2y2_xy t_xy).

  Lemma derivative_opposite T phi x i j : (i < 3)%nat -> (j < 3)%nat -> derivative beta a (tr T) (phi + PI) x i j = - derivative beta a T phi x j i.
  Proof using Type.
    intros Hi Hj.
    assert (S : (rminus (mmul (mmul (dR2_dphi (phi + PI)) (tr T)) (R2 (- (phi + PI)))) (mmul (mmul (R2 (phi + PI)) (tr T)) (dR2_dphi (- (phi + PI))))) i j
      = (rminus (mmul (mmul (dR2_dphi phi) T) (R2 (- phi))) (mmul (mmul (R2 phi) T) (dR2_dphi (- phi)))) j i).
    { unfold rminus, mmul, tr. rewrite !R2_PI, !R2_neg_PI, !dR2_PI, !dR2_neg_PI, !R2_neg, !dR2_neg by lia. ring. }
    cbv beta delta [rminus] in S. destruct x; cbv beta iota zeta delta [derivative rminus rplus rscale]; rewrite S, hopping_PI, hopping_tr, cos_plus_PI, sin_plus_PI by assumption; unfold Rdiv; ring.
  Qed.

  Lemma t_angles : 0 * 120 * deg = 0 /\ (120 * 1 + 60) * deg = 0 + PI /\ (120 * 0 + 60) * deg = PI / 3 /\ 2 * 120 * deg = PI / 3 + PI /\ 1 * 120 * deg = 2 * (PI / 3) /\ (120 * 2 + 60) * deg = 2 * (PI / 3) + PI.
  Proof using Type. clear. unfold deg. repeat split; field. Qed.

  Lemma t_opposite i j : (i < 3)%nat -> (j < 3)%nat -> t 3 i j = t 0 j i /\ t 4 i j = t 1 j i /\ t 5 i j = t 2 j i.
  Proof using Type.
    intros Hi Hj. destruct t_angles as (E0 & E3 & E1 & E4 & E2 & E5). unfold ModelsModel.t.
    change (0 / 2)%nat with 0%nat. change (1 / 2)%nat with 0%nat. change (2 / 2)%nat with 1%nat. change (3 / 2)%nat with 1%nat. change (4 / 2)%nat with 2%nat. change (5 / 2)%nat with 2%nat.
    cbn [Nat.even INR]. replace (1 + 1) with 2 by ring. rewrite E0, E1, E2, E3, E4, E5, !hopping_PI, !hopping_tr by assumption. repeat split.
  Qed.
  Lemma dt_opposite x i j : (i < 3)%nat -> (j < 3)%nat -> dt 3 x i j = - dt 0 x j i /\ dt 4 x i j = - dt 1 x j i /\ dt 5 x i j = - dt 2 x j i.
  Proof using Type.
    intros Hi Hj. destruct t_angles as (E0 & E3 & E1 & E4 & E2 & E5). unfold ModelsModel.dt.
    change (0 / 2)%nat with 0%nat. change (1 / 2)%nat with 0%nat. change (2 / 2)%nat with 1%nat. change (3 / 2)%nat with 1%nat. change (4 / 2)%nat with 2%nat. change (5 / 2)%nat with 2%nat.
    cbn [Nat.even INR]. replace (1 + 1) with 2 by ring. rewrite E0, E1, E2, E3, E4, E5. destruct (Nat.ltb x 2); [|repeat split; ring].
    rewrite !derivative_opposite by assumption. split; [reflexivity|]. split; [|reflexivity].
    change t0 with (tr (tr t0)) at 1. apply derivative_opposite; assumption.
  Qed.
End Opposite.

(** ** TaS2: force constants *)
Lemma on_indices (P : nat -> nat -> Prop) : P 0%nat 0%nat -> P 0%nat 1%nat -> P 0%nat 2%nat -> P 1%nat 0%nat -> P 1%nat 1%nat -> P 1%nat 2%nat -> P 2%nat 0%nat -> P 2%nat 1%nat -> P 2%nat 2%nat ->
  forall i j, (i < 3)%nat -> (j < 3)%nat -> P i j.
Proof. intros. destruct i as [|[|[|i]]]; destruct j as [|[|[|j]]]; try assumption; lia. Qed.

Ltac on_all := match goal with |- forall i j, _ -> _ -> @?P i j => apply (on_indices P); cbv beta end.
Ltac values := unfold rplus, xreflect, rotate, mmul, Rz, diag, rows; cbn [nth Nat.eqb xorb]; rewrite ?cos_neg, ?sin_neg, ?cos30, ?sin30, ?cos120, ?sin120, ?cos240, ?sin240, ?cos150, ?sin150, ?cos210, ?sin210, ?cos270, ?sin270, ?cos_PI2, ?sin_PI2.

Lemma degrees : -30 * deg = - (PI / 6) /\ 30 * deg = PI / 6 /\ 90 * deg = PI / 2 /\ 120 * deg = 2 * (PI / 3) /\ 150 * deg = 5 * (PI / 6) /\ 210 * deg = 7 * (PI / 6) /\ 240 * deg = 4 * (PI / 3) /\ 270 * deg = 3 * (PI / 2).
Proof. unfold deg. repeat split; field. Qed.

Section Springs.
  Variables ax ay az axz azx by_ bz cx cy cz dx dy dz dyz ex ez fx fy fz fyz : R.

  Lemma A_sym : symmetric (rplus (rplus (A1 ax ay az axz azx) (A2 ax ay az axz azx)) (A3 ax ay az axz azx)).
  Proof using Type.
    clear. unfold A1, A2, A3, A0. destruct degrees as (-> & _ & -> & _ & _ & -> & _). unfold symmetric; on_all; values; field.
  Qed.
  Lemma B_sym : symmetric (B by_ bz). Proof using Type. apply diag_sym. Qed.
  Lemma C1_sym : symmetric (C1 cx cy cz). Proof using Type. apply diag_sym. Qed.
  Lemma D1_sym : symmetric (D1 dx dy dz dyz).
  Proof using Type. clear. unfold D1. unfold symmetric; on_all; values; ring. Qed.
  Lemma E_sym : symmetric (E1 ex ez) /\ symmetric (E2 ex ez) /\ symmetric (E3 ex ez).
  Proof using Type. repeat split; apply rotate_sym, diag_sym. Qed.
  Lemma E_total_sym : symmetric (rplus (rplus (E1 ex ez) (E2 ex ez)) (E3 ex ez)).
  Proof using Type. apply rplus_sym; [apply rplus_sym|]; apply rotate_sym, diag_sym. Qed.
  Lemma F_sym : symmetric (rplus (rplus (rplus (rplus (rplus (F1 fx fy fz fyz) (F2 fx fy fz fyz)) (F3 fx fy fz fyz)) (F4 fx fy fz fyz)) (F5 fx fy fz fyz)) (F6 fx fy fz fyz)).
  Proof using Type.
    clear. unfold F2, F4, F6, F3, F5, F1. destruct degrees as (_ & _ & _ & -> & _ & _ & -> & _). unfold symmetric; on_all; values; field.
  Qed.
  Lemma C_opposite i j : (i < 3)%nat -> (j < 3)%nat -> C4 cx cy cz i j = C1 cx cy cz j i /\ C5 cx cy cz i j = C2 cx cy cz j i /\ C6 cx cy cz i j = C3 cx cy cz j i.
  Proof using Type.
    clear. unfold C2, C4, C6, C3, C5, C1. destruct degrees as (_ & _ & _ & -> & _ & _ & -> & _). revert i j. on_all; values; repeat split; field.
  Qed.
  Lemma D_opposite i j : (i < 3)%nat -> (j < 3)%nat -> D4 dx dy dz dyz i j = D1 dx dy dz dyz j i /\ D5 dx dy dz dyz i j = D2 dx dy dz dyz j i /\ D6 dx dy dz dyz i j = D3 dx dy dz dyz j i.
  Proof using Type.
    clear. unfold D2, D4, D6, D3, D5, D1. destruct degrees as (_ & _ & _ & -> & _ & _ & -> & _). revert i j. on_all; values; repeat split; field.
  Qed.
End Springs.

(** ** Complex numbers, componentwise *)
Ltac parts := unfold times, real, conj, cplus, cminus, tr, RtoC, expi; cbn; apply f_equal2.

Definition cherm (A : cmat) : Prop := forall i j, (i < 3)%nat -> (j < 3)%nat -> A i j = nconj (A j i).

Lemma cherm_plus A B : cherm A -> cherm B -> cherm (cplus A B).
Proof. intros HA HB i j Hi Hj. unfold cplus. rewrite n_conj_add, <- HA, <- HB by assumption. reflexivity. Qed.
Lemma cherm_real A : symmetric A -> cherm (real A).
Proof. intros H i j Hi Hj. unfold real. rewrite (H i j) by assumption. unfold RtoC. cbn. apply f_equal2; ring. Qed.
Lemma cherm_tr A : cherm A -> cherm (tr A).
Proof. intros H i j Hi Hj. apply H; assumption. Qed.
Lemma cherm_zreflect A : cherm A -> cherm (zreflect A).
Proof.
  intros H i j Hi Hj. unfold zreflect. rewrite (H i j), xorb_comm by assumption. destruct (xorb (Nat.eqb j 2) (Nat.eqb i 2)); [|reflexivity]. destruct (A j i). cbn. apply f_equal2; ring.
Qed.
Lemma cherm_zero : cherm (fun _ _ => n0).
Proof. intros i j _ _. cbn. apply f_equal2; ring. Qed.

Lemma six_herm f Q1 Q2 Q3 Q4 Q5 Q6 q1 q2 : (forall x, f (- x) = nconj (f x)) ->
  (forall i j, (i < 3)%nat -> (j < 3)%nat -> Q4 i j = Q1 j i /\ Q5 i j = Q2 j i /\ Q6 i j = Q3 j i) -> cherm (six f Q1 Q2 Q3 Q4 Q5 Q6 q1 q2).
Proof.
  intros Hf H i j Hi Hj. destruct (H i j Hi Hj) as (E4 & E5 & E6). destruct (H j i Hj Hi) as (E1 & E2 & E3). unfold six, times, cplus.
  rewrite E4, E5, E6, E1, E2, E3, !Hf. destruct (f q1), (f (q1 + q2)), (f q2). unfold RtoC. cbn. apply f_equal2; ring.
Qed.
Lemma expi_neg x : expi (- x) = nconj (expi x).
Proof. rewrite expi_conj. reflexivity. Qed.
Lemma one_minus_neg x : nsub n1 (expi (- x)) = nconj (nsub n1 (expi x)).
Proof. rewrite expi_neg. unfold expi. cbn. apply f_equal2; ring. Qed.
Lemma six_zero Q1 Q2 Q3 Q4 Q5 Q6 i j : six (fun x => nsub n1 (expi x)) Q1 Q2 Q3 Q4 Q5 Q6 0 0 i j = n0.
Proof.
  unfold six, times, cplus. replace (- (0 + 0)) with 0 by ring. replace (0 + 0) with 0 by ring. rewrite Ropp_0, expi_0. unfold RtoC. cbn. apply f_equal2; ring.
Qed.

(** ** Hamiltonians *)
Ltac herm2 := intros [|[|i]] [|[|j]] Hi Hj; try lia.

Lemma chain_hamiltonian_herm t k1 k2 k3 : hermitian 1 (chain_hamiltonian t k1 k2 k3).
Proof. intros i j _ _. unfold chain_hamiltonian, RtoC. cbn. apply f_equal2; ring. Qed.
Lemma graphene_hamiltonian_herm t k1 k2 k3 : hermitian 2 (graphene_hamiltonian t k1 k2 k3).
Proof. herm2; unfold graphene_hamiltonian; cbn; apply f_equal2; ring. Qed.
Lemma coulomb_herm U00 U01 U02 U03 q1 q2 q3 : hermitian 2 (coulomb_interaction U00 U01 U02 U03 q1 q2 q3).
Proof. herm2; unfold coulomb_interaction; cbn; apply f_equal2; ring. Qed.

Lemma tas2_hamiltonian_herm e_z2 e_x2y2 t_z2 t_z2_x2y2 t_z2_xy t_x2y2 t_x2y2_xy t_xy k1 k2 k3 :
  hermitian 3 (tas2_hamiltonian e_z2 e_x2y2 t_z2 t_z2_x2y2 t_z2_xy t_x2y2 t_x2y2_xy t_xy k1 k2 k3).
Proof.
  intros i j Hi Hj. destruct (t_opposite t_z2 t_z2_x2y2 t_z2_xy t_x2y2 t_x2y2_xy t_xy i j Hi Hj) as (E3 & E4 & E5).
  destruct (t_opposite t_z2 t_z2_x2y2 t_z2_xy t_x2y2 t_x2y2_xy t_xy j i Hj Hi) as (F3 & F4 & F5).
  pose proof (cherm_real _ (diag_sym e_z2 e_x2y2 e_x2y2) i j Hi Hj) as E0. unfold tas2_hamiltonian, cplus, times. change (real (e0 e_z2 e_x2y2)) with (real (diag e_z2 e_x2y2 e_x2y2)). rewrite E3, E4, E5, F3, F4, F5, E0, !expi_neg.
  set (Z := real (diag e_z2 e_x2y2 e_x2y2) j i). destruct Z, (expi k1), (expi (k1 + k2)), (expi k2). unfold RtoC. cbn. apply f_equal2; ring.
Qed.

(** ** Dynamical matrices *)
Lemma chain_dynamical_herm w0 q1 q2 q3 : hermitian 3 (chain_dynamical_matrix w0 q1 q2 q3).
Proof. intros i j _ _. unfold chain_dynamical_matrix. rewrite Nat.eqb_sym. unfold RtoC. cbn. apply f_equal2; ring. Qed.
Lemma chain_dynamical_asr w0 q2 q3 root : no_restoring_force 1 root (chain_dynamical_matrix w0 0 q2 q3).
Proof. intros x j _ _. unfold chain_dynamical_matrix. cbn [seq nsum]. rewrite cos_0. destruct (root 0%nat). unfold RtoC. cbn. apply f_equal2; ring. Qed.

Lemma blocks_herm (D : nat -> nat -> cmat) n : (forall p q i j, (p < n)%nat -> (q < n)%nat -> (i < 3)%nat -> (j < 3)%nat -> D p q i j = nconj (D q p j i)) ->
  hermitian (3 * n) (fun x y => D (x / 3)%nat (y / 3)%nat (x mod 3)%nat (y mod 3)%nat).
Proof.
  intros H x y Hx Hy. apply H; [apply Nat.div_lt_upper_bound; lia|apply Nat.div_lt_upper_bound; lia|apply Nat.mod_upper_bound; lia|apply Nat.mod_upper_bound; lia].
Qed.

Lemma graphene_dynamical_herm M Cx Cy Cz q1 q2 q3 : hermitian 6 (graphene_dynamical_matrix M Cx Cy Cz q1 q2 q3).
Proof.
  intros x y Hx Hy. unfold graphene_dynamical_matrix. set (i := (x mod 3)%nat). set (j := (y mod 3)%nat).
  assert (Hi : (i < 3)%nat) by (apply Nat.mod_upper_bound; lia). assert (Hj : (j < 3)%nat) by (apply Nat.mod_upper_bound; lia).
  pose proof (g_rotate_sym _ 30 (diag_sym Cx Cy Cz)) as S1. pose proof (g_rotate_sym _ 150 (diag_sym Cx Cy Cz)) as S2. pose proof (g_rotate_sym _ 270 (diag_sym Cx Cy Cz)) as S3.
  pose proof (g_rotate_sym _ 0 (diag_sym 0 (- Cy / 6) (- Cz / 6))) as T1. pose proof (g_rotate_sym _ 120 (diag_sym 0 (- Cy / 6) (- Cz / 6))) as T2. pose proof (g_rotate_sym _ 240 (diag_sym 0 (- Cy / 6) (- Cz / 6))) as T3.
  fold (K Cx Cy Cz) (L Cy Cz) in *. fold (K1 Cx Cy Cz) (K2 Cx Cy Cz) (K3 Cx Cy Cz) (L1 Cy Cz) (L2 Cy Cz) (L3 Cy Cz) in *.
  destruct (Nat.ltb x 3), (Nat.ltb y 3); unfold cplus, cminus, times, real, conj, tr, rplus, rscale, RtoC, expi.
  - rewrite (S1 i j), (S2 i j), (S3 i j), (T1 i j), (T2 i j), (T3 i j) by assumption. cbn. apply f_equal2; ring.
  - cbn. apply f_equal2; ring.
  - cbn. apply f_equal2; ring.
  - rewrite (S1 i j), (S2 i j), (S3 i j), (T1 i j), (T2 i j), (T3 i j) by assumption. cbn. apply f_equal2; ring.
Qed.

Lemma graphene_dynamical_asr M Cx Cy Cz q3 root : root 1%nat = root 0%nat -> no_restoring_force 2 root (graphene_dynamical_matrix M Cx Cy Cz 0 0 q3).
Proof.
  intros Hr x j Hx Hj. cbn [seq nsum]. rewrite Hr. unfold graphene_dynamical_matrix. set (i := (x mod 3)%nat).
  assert (Hi : (i < 3)%nat) by (apply Nat.mod_upper_bound; lia).
  replace ((3 * 0 + j) mod 3)%nat with j by (replace (3 * 0 + j)%nat with j by lia; symmetry; apply Nat.mod_small; exact Hj).
  replace ((3 * 1 + j) mod 3)%nat with j by (replace (3 * 1 + j)%nat with (j + 1 * 3)%nat by lia; rewrite Nat.mod_add by lia; symmetry; apply Nat.mod_small; exact Hj).
  replace (Nat.ltb (3 * 0 + j) 3) with true by (symmetry; apply Nat.ltb_lt; lia). replace (Nat.ltb (3 * 1 + j) 3) with false by (symmetry; apply Nat.ltb_ge; lia).
  replace (- (0 + 0)) with 0 by ring. rewrite Ropp_0, expi_0.
  pose proof (g_rotate_sym _ 30 (diag_sym Cx Cy Cz)) as S1. pose proof (g_rotate_sym _ 150 (diag_sym Cx Cy Cz)) as S2. pose proof (g_rotate_sym _ 270 (diag_sym Cx Cy Cz)) as S3.
  fold (K Cx Cy Cz) (L Cy Cz) in *. fold (K1 Cx Cy Cz) (K2 Cx Cy Cz) (K3 Cx Cy Cz) in *.
  destruct (root 0%nat). destruct (Nat.ltb x 3); unfold cplus, cminus, times, real, conj, tr, rplus, rscale, RtoC.
  - rewrite (S1 j i), (S2 j i), (S3 j i) by assumption. cbn. apply f_equal2; ring.
  - cbn. apply f_equal2; ring.
Qed.

Section TaS2Proofs.
  Variables M m ax ay az axz azx by_ bz cx cy cz dx dy dz dyz ex ez fx fy fz fyz : R.
  Notation springs := (tas2_springs ax ay az axz azx by_ bz cx cy cz dx dy dz dyz ex ez fx fy fz fyz).

  Lemma springs_diag q1 q2 q3 p : (p < 3)%nat -> cherm (springs q1 q2 q3 p p).
  Proof using Type.
    intros Hp. pose proof (cherm_real _ (A_sym ax ay az axz azx)) as HA. pose proof (cherm_real _ (B_sym by_ bz)) as HB. pose proof (cherm_real _ (E_total_sym ex ez)) as HE. pose proof (cherm_real _ (F_sym fx fy fz fyz)) as HF.
    pose proof (six_herm _ _ _ _ _ _ _ q1 q2 one_minus_neg (C_opposite cx cy cz)) as HC. pose proof (six_herm _ _ _ _ _ _ _ q1 q2 one_minus_neg (D_opposite dx dy dz dyz)) as HD. cbv beta in HC, HD.
    revert p Hp. apply below3; cbv beta iota zeta delta [tas2_springs inc dec set Nat.eqb andb].
    - apply cherm_plus; [apply cherm_plus; [apply cherm_plus; [apply cherm_plus; [apply cherm_plus; [apply cherm_zero|]|]|]|]|]; try exact HC; try exact HA; try exact HE; apply cherm_zreflect; assumption.
    - repeat (apply cherm_plus; [|first [exact HD | apply cherm_tr; exact HA | apply cherm_tr; exact HE | apply cherm_tr; exact HF | exact (cherm_tr _ HB)]]). apply cherm_zero.
    - repeat (apply cherm_plus; [|first [exact (cherm_zreflect _ HD) | exact (cherm_tr _ (cherm_zreflect _ HA)) | exact (cherm_tr _ (cherm_zreflect _ HE)) | exact HF | exact HB]]). apply cherm_zero.
  Qed.

  Lemma springs_herm q1 q2 q3 p q i j : (p < 3)%nat -> (q < 3)%nat -> (i < 3)%nat -> (j < 3)%nat -> springs q1 q2 q3 p q i j = nconj (springs q1 q2 q3 q p j i).
  Proof using Type.
    intros Hp Hq Hi Hj. destruct (Nat.eq_dec p q) as [<-|N]; [apply springs_diag; assumption|].
    destruct p as [|[|[|p]]], q as [|[|[|q]]]; try lia; cbv beta iota zeta delta [tas2_springs inc dec set Nat.eqb andb]; unfold tr at 1, conj at 1; try reflexivity; symmetry; apply n_conj_conj.
  Qed.

  Lemma springs_asr q3 p i j : (p < 3)%nat -> (i < 3)%nat -> (j < 3)%nat ->
    nadd (springs 0 0 q3 p 0%nat i j) (nadd (springs 0 0 q3 p 1%nat i j) (springs 0 0 q3 p 2%nat i j)) = n0.
  Proof using Type.
    intros Hp Hi Hj. revert p Hp. apply below3; cbv beta iota zeta delta [tas2_springs inc dec set Nat.eqb andb]; unfold tr, conj, zreflect, cplus, cminus; rewrite ?six_zero; unfold six, times, real, cplus;
      replace (- (0 - 0)) with 0 by ring; replace (- (0 + 0)) with 0 by ring; replace (0 + 0) with 0 by ring; rewrite ?Ropp_0, ?expi_0; unfold rplus, RtoC;
      try (rewrite (xorb_comm (Nat.eqb j 2) (Nat.eqb i 2))); destruct (xorb (Nat.eqb i 2) (Nat.eqb j 2)); cbn; apply f_equal2; try ring.
  Qed.
End TaS2Proofs.

Section TaS2Proofs2.
  Variables M m ax ay az axz azx by_ bz cx cy cz dx dy dz dyz ex ez fx fy fz fyz : R.
  Notation D := (tas2_dynamical_matrix M m ax ay az axz azx by_ bz cx cy cz dx dy dz dyz ex ez fx fy fz fyz).

  Lemma tas2_dynamical_herm q1 q2 q3 : hermitian 9 (D q1 q2 q3).
  Proof using Type.
    intros x y Hx Hy. unfold tas2_dynamical_matrix.
    rewrite (springs_herm ax ay az axz azx by_ bz cx cy cz dx dy dz dyz ex ez fx fy fz fyz q1 q2 q3 (x / 3) (y / 3)) by (try (apply Nat.div_lt_upper_bound; lia); apply Nat.mod_upper_bound; lia).
    rewrite !n_conj_mul. set (z := nconj _). set (u := sqrt (if Nat.ltb x 3 then M else m)). set (v := sqrt (if Nat.ltb y 3 then M else m)). destruct z. unfold RtoC. cbn. apply f_equal2; ring.
  Qed.

  Definition tas2_root (na : nat) : C := RtoC (sqrt (if Nat.eqb na 0 then M else m)).

  Lemma tas2_dynamical_asr q3 : 0 < M -> 0 < m -> no_restoring_force 3 tas2_root (D 0 0 q3).
  Proof using Type.
    intros HM Hm x j Hx Hj. cbn [seq nsum]. unfold tas2_dynamical_matrix.
    pose proof (springs_asr ax ay az axz azx by_ bz cx cy cz dx dy dz dyz ex ez fx fy fz fyz q3 (x / 3) (x mod 3) j ltac:(apply Nat.div_lt_upper_bound; lia) ltac:(apply Nat.mod_upper_bound; lia) Hj) as H.
    replace ((3 * 0 + j) / 3)%nat with 0%nat by (symmetry; apply Nat.div_small; lia).
    replace ((3 * 1 + j) / 3)%nat with 1%nat by (apply (Nat.div_unique _ 3 1 j); lia).
    replace ((3 * 2 + j) / 3)%nat with 2%nat by (apply (Nat.div_unique _ 3 2 j); lia).
    replace ((3 * 0 + j) mod 3)%nat with j by (apply (Nat.mod_unique _ 3 0 j); lia).
    replace ((3 * 1 + j) mod 3)%nat with j by (apply (Nat.mod_unique _ 3 1 j); lia).
    replace ((3 * 2 + j) mod 3)%nat with j by (apply (Nat.mod_unique _ 3 2 j); lia).
    replace (Nat.ltb (3 * 0 + j) 3) with true by (symmetry; apply Nat.ltb_lt; lia). replace (Nat.ltb (3 * 1 + j) 3) with false by (symmetry; apply Nat.ltb_ge; lia). replace (Nat.ltb (3 * 2 + j) 3) with false by (symmetry; apply Nat.ltb_ge; lia).
    unfold tas2_root. cbn [Nat.eqb]. apply sqrt_lt_R0 in HM, Hm.
    set (a0 := tas2_springs _ _ _ _ _ _ _ _ _ _ _ _ _ _ _ _ _ _ _ _ _ _ _ _ 0%nat _ _) in *. set (a1 := tas2_springs _ _ _ _ _ _ _ _ _ _ _ _ _ _ _ _ _ _ _ _ _ _ _ _ 1%nat _ _) in *. set (a2 := tas2_springs _ _ _ _ _ _ _ _ _ _ _ _ _ _ _ _ _ _ _ _ _ _ _ _ 2%nat _ _) in *.
    clearbody a0 a1 a2. set (r := / sqrt (if Nat.ltb x 3 then M else m)). clearbody r.
    assert (G : forall w a, 0 < w -> nmul (RtoC w) (nmul (nmul a (RtoC r)) (RtoC (/ w))) = nmul a (RtoC r)).
    { intros w [u v] Hw. unfold RtoC. cbn. apply f_equal2; field; lra. }
    rewrite !G by assumption. destruct a0 as [u0 v0], a1 as [u1 v1], a2 as [u2 v2]. cbn in H |- *. injection H as H1 H2. unfold RtoC in *. cbn in *. apply f_equal2.
    - transitivity ((u0 + (u1 + u2)) * r); [ring|]. rewrite H1. ring.
    - transitivity ((v0 + (v1 + v2)) * r); [ring|]. rewrite H2. ring.
  Qed.
End TaS2Proofs2.

(** ** Coupling *)
Lemma chain_coupling_zero g0 q2 q3 k1 k2 k3 x a b : chain_coupling g0 0 q2 q3 k1 k2 k3 x a b = n0.
Proof. unfold chain_coupling. destruct (Nat.eqb x 0); [|reflexivity]. rewrite Rplus_0_r. unfold RtoC, Ci. cbn. apply f_equal2; ring. Qed.
Lemma chain_coupling_herm g0 q1 q2 q3 k1 k2 k3 x a b :
  chain_coupling g0 q1 q2 q3 k1 k2 k3 x a b = nconj (chain_coupling g0 (- q1) (- q2) (- q3) (k1 + q1) (k2 + q2) (k3 + q3) x b a).
Proof. unfold chain_coupling. destruct (Nat.eqb x 0); [|cbn; apply f_equal2; ring]. replace (k1 + q1 + - q1) with k1 by ring. unfold RtoC, Ci. cbn. apply f_equal2; ring. Qed.

Section GrapheneCoupling.
  Variables M t beta tau : R.
  Variables tau0 tau1 tau2 : nat -> R.
  Notation g := (graphene_coupling M t beta tau tau0 tau1 tau2).

  Lemma graphene_coupling_sum q3 k1 k2 k3 root : root 1%nat = root 0%nat -> no_coupling 2 2 root (g 0 0 q3 k1 k2 k3).
  Proof using Type.
    intros Hr j a b Hj Ha Hb. cbn [seq nsum]. rewrite Hr. unfold graphene_coupling. rewrite !Rplus_0_r.
    replace (Nat.ltb (3 * 0 + j) 3) with true by (symmetry; apply Nat.ltb_lt; lia). replace (Nat.ltb (3 * 1 + j) 3) with false by (symmetry; apply Nat.ltb_ge; lia).
    replace (3 * 1 + j - 3)%nat with (3 * 0 + j)%nat by lia. destruct (root 0%nat). rewrite !expi_neg. unfold RtoC, expi. destruct a as [|[|a]], b as [|[|b]]; try lia; cbn; apply f_equal2; ring.
  Qed.
  Lemma graphene_coupling_herm q1 q2 q3 k1 k2 k3 x a b : (a < 2)%nat -> (b < 2)%nat ->
    g q1 q2 q3 k1 k2 k3 x a b = nconj (g (- q1) (- q2) (- q3) (k1 + q1) (k2 + q2) (k3 + q3) x b a).
  Proof using Type.
    intros Ha Hb. unfold graphene_coupling. replace (k1 + q1 + - q1) with k1 by ring. replace (k2 + q2 + - q2) with k2 by ring.
    rewrite !expi_neg. unfold RtoC, expi. set (f := beta * t / (tau ^ 2 * sqrt M)). clearbody f. destruct (Nat.ltb x 3); destruct a as [|[|a]], b as [|[|b]]; try lia; cbn; apply f_equal2; ring.
  Qed.
End GrapheneCoupling.

Section TaS2Coupling.
  Variables M m t_z2 t_z2_x2y2 t_z2_xy t_x2y2 t_x2y2_xy t_xy beta a : R.
  Notation g := (tas2_coupling M m t_z2 t_z2_x2y2 t_z2_xy t_x2y2 t_x2y2_xy t_xy beta a).

  Lemma tas2_coupling_zero q3 k1 k2 k3 x i j : g 0 0 q3 k1 k2 k3 x i j = n0.
  Proof using Type.
    unfold tas2_coupling. rewrite !Rplus_0_r. unfold cplus, times, RtoC. destruct (expi k1), (expi k2), (expi (- k1)), (expi (- k2)), (expi (k1 + k2)), (expi (- (k1 + k2))). cbn. apply f_equal2; ring.
  Qed.
  Lemma tas2_coupling_herm q1 q2 q3 k1 k2 k3 x i j : (i < 3)%nat -> (j < 3)%nat ->
    g q1 q2 q3 k1 k2 k3 x i j = nconj (g (- q1) (- q2) (- q3) (k1 + q1) (k2 + q2) (k3 + q3) x j i).
  Proof using Type.
    intros Hi Hj. unfold tas2_coupling. replace (k1 + q1 + - q1) with k1 by ring. replace (k2 + q2 + - q2) with k2 by ring.
    destruct (dt_opposite t_z2 t_z2_x2y2 t_z2_xy t_x2y2 t_x2y2_xy t_xy beta a x i j Hi Hj) as (E3 & E4 & E5).
    destruct (dt_opposite t_z2 t_z2_x2y2 t_z2_xy t_x2y2 t_x2y2_xy t_xy beta a x j i Hj Hi) as (F3 & F4 & F5).
    unfold cplus, times. rewrite E3, E4, E5, F3, F4, F5, !expi_neg. set (f := / sqrt (if Nat.ltb x 3 then M else m)). clearbody f. unfold RtoC.
    destruct (expi k1), (expi k2), (expi (k1 + k2)), (expi (k1 + q1)), (expi (k2 + q2)), (expi (k1 + q1 + (k2 + q2))). cbn. apply f_equal2; ring.
  Qed.
End TaS2Coupling.

(** ** Periodicity and time reversal *)
Definition turn (n : Z) : R := 2 * PI * IZR n.
Lemma expi_turn x n : expi (x + turn n) = expi x.
Proof. unfold turn. rewrite expi_add, expi_2PI. destruct (expi x). cbn. apply f_equal2; ring. Qed.
Lemma cos_turn x n : cos (x + turn n) = cos x.
Proof. pose proof (expi_turn x n) as H. injection H. intros _ E. exact E. Qed.
Lemma sin_turn x n : sin (x + turn n) = sin x.
Proof. pose proof (expi_turn x n) as H. injection H. intros E _. exact E. Qed.
Lemma turn_neg x n : - (x + turn n) = - x + turn (- n).
Proof. unfold turn. rewrite opp_IZR. ring. Qed.
Lemma turn_add x y n m : x + turn n + (y + turn m) = x + y + turn (n + m).
Proof. unfold turn. rewrite plus_IZR. ring. Qed.
Lemma turn_sub x y n m : x + turn n - (y + turn m) = x - y + turn (n - m).
Proof. unfold turn. rewrite minus_IZR. ring. Qed.

Ltac turns := repeat rewrite ?turn_add, ?turn_sub, ?turn_neg; rewrite ?expi_turn, ?cos_turn, ?sin_turn.
Ltac reversed := repeat rewrite ?Ropp_involutive, <- ?Ropp_plus_distr.

Lemma six_turn f Q1 Q2 Q3 Q4 Q5 Q6 q1 q2 n1 n2 i j : (forall x n, f (x + turn n) = f x) -> six f Q1 Q2 Q3 Q4 Q5 Q6 (q1 + turn n1) (q2 + turn n2) i j = six f Q1 Q2 Q3 Q4 Q5 Q6 q1 q2 i j.
Proof. intros H. unfold six, cplus, times. rewrite turn_add, !turn_neg, !H. reflexivity. Qed.
Lemma six_reversed f Q1 Q2 Q3 Q4 Q5 Q6 q1 q2 i j : (forall x, f (- x) = nconj (f x)) -> six f Q1 Q2 Q3 Q4 Q5 Q6 (- q1) (- q2) i j = nconj (six f Q1 Q2 Q3 Q4 Q5 Q6 q1 q2 i j).
Proof.
  intros H. unfold six, cplus, times. rewrite <- Ropp_plus_distr, !Ropp_involutive, !H. destruct (f q1), (f q2), (f (q1 + q2)). unfold RtoC. cbn. apply f_equal2; ring.
Qed.

Section Periodic.
  Variables t w0 g0 M m Cx Cy Cz beta tau U00 U01 U02 U03 : R.
  Variables tau0 tau1 tau2 : nat -> R.
  Variables e_z2 e_x2y2 t_z2 t_z2_x2y2 t_z2_xy t_x2y2 t_x2y2_xy t_xy a : R.
  Variables ax ay az axz azx by_ bz cx cy cz dx dy dz dyz ex ez fx fy fz fyz : R.
  Notation tas2_H := (tas2_hamiltonian e_z2 e_x2y2 t_z2 t_z2_x2y2 t_z2_xy t_x2y2 t_x2y2_xy t_xy).
  Notation tas2_D := (tas2_dynamical_matrix M m ax ay az axz azx by_ bz cx cy cz dx dy dz dyz ex ez fx fy fz fyz).
  Notation springs := (tas2_springs ax ay az axz azx by_ bz cx cy cz dx dy dz dyz ex ez fx fy fz fyz).
  Notation tas2_g := (tas2_coupling M m t_z2 t_z2_x2y2 t_z2_xy t_x2y2 t_x2y2_xy t_xy beta a).
  Notation graphene_D := (graphene_dynamical_matrix M Cx Cy Cz).
  Notation graphene_g := (graphene_coupling M t beta tau tau0 tau1 tau2).
  Notation U := (coulomb_interaction U00 U01 U02 U03).

  (** Functions of one or two points *)
  Definition periodic1 (f : R -> R -> R -> cmat) : Prop := forall k1 k2 k3 n1 n2 n3 i j, f (k1 + turn n1) (k2 + turn n2) (k3 + turn n3) i j = f k1 k2 k3 i j.
  Definition reversible1 (f : R -> R -> R -> cmat) : Prop := forall k1 k2 k3 i j, f (- k1) (- k2) (- k3) i j = nconj (f k1 k2 k3 i j).

  Lemma chain_H_periodic : periodic1 (chain_hamiltonian t).
  Proof using Type. intros k1 k2 k3 n1 n2 n3 i j. unfold chain_hamiltonian. turns. reflexivity. Qed.
  Lemma chain_D_periodic : periodic1 (chain_dynamical_matrix w0).
  Proof using Type. intros k1 k2 k3 n1 n2 n3 i j. unfold chain_dynamical_matrix. turns. reflexivity. Qed.
  Lemma graphene_H_periodic : periodic1 (graphene_hamiltonian t).
  Proof using Type. intros k1 k2 k3 n1 n2 n3 i j. unfold graphene_hamiltonian. turns. reflexivity. Qed.
  Lemma graphene_D_periodic : periodic1 graphene_D.
  Proof using Type. intros k1 k2 k3 n1 n2 n3 i j. unfold graphene_dynamical_matrix. turns. reflexivity. Qed.
  Lemma U_periodic : periodic1 U.
  Proof using Type. intros k1 k2 k3 n1 n2 n3 i j. unfold coulomb_interaction. turns. reflexivity. Qed.
  Lemma tas2_H_periodic : periodic1 tas2_H.
  Proof using Type. intros k1 k2 k3 n1 n2 n3 i j. unfold tas2_hamiltonian. turns. reflexivity. Qed.
  Lemma springs_periodic k1 k2 k3 n1 n2 n3 p q i j : (p < 3)%nat -> (q < 3)%nat -> springs (k1 + turn n1) (k2 + turn n2) (k3 + turn n3) p q i j = springs k1 k2 k3 p q i j.
  Proof using Type.
    intros Hp Hq. revert p q Hp Hq. on_all; cbv beta iota zeta delta [tas2_springs inc dec set Nat.eqb andb]; unfold zreflect, tr, conj, cplus, cminus;
      rewrite ?(six_turn expi), ?(six_turn (fun x => nsub Num.n1 (expi x))) by (intros; rewrite expi_turn; reflexivity); unfold times; turns; reflexivity.
  Qed.
  Lemma tas2_D_periodic k1 k2 k3 n1 n2 n3 x y : (x < 9)%nat -> (y < 9)%nat -> tas2_D (k1 + turn n1) (k2 + turn n2) (k3 + turn n3) x y = tas2_D k1 k2 k3 x y.
  Proof using Type. clear. intros Hx Hy. unfold tas2_dynamical_matrix. rewrite springs_periodic by (apply Nat.div_lt_upper_bound; lia). reflexivity. Qed.

  Lemma chain_H_reversible : reversible1 (chain_hamiltonian t).
  Proof using Type. intros k1 k2 k3 i j. unfold chain_hamiltonian. rewrite cos_neg. unfold RtoC. cbn. apply f_equal2; ring. Qed.
  Lemma chain_D_reversible : reversible1 (chain_dynamical_matrix w0).
  Proof using Type. intros k1 k2 k3 i j. unfold chain_dynamical_matrix. rewrite cos_neg. unfold RtoC. cbn. apply f_equal2; ring. Qed.
  Lemma graphene_H_reversible : reversible1 (graphene_hamiltonian t).
  Proof using Type. intros k1 k2 k3 i j. unfold graphene_hamiltonian. rewrite !expi_neg. unfold RtoC, expi. destruct i as [|[|i]], j as [|[|j]]; cbn; apply f_equal2; ring. Qed.
  Lemma graphene_D_reversible : reversible1 graphene_D.
  Proof using Type.
    intros k1 k2 k3 i j. unfold graphene_dynamical_matrix. rewrite <- Ropp_plus_distr, !expi_neg. unfold cplus, cminus, times, real, conj, tr, RtoC, expi. destruct (Nat.ltb i 3), (Nat.ltb j 3); cbn; apply f_equal2; ring.
  Qed.
  Lemma U_reversible : reversible1 U.
  Proof using Type.
    intros k1 k2 k3 i j. unfold coulomb_interaction. rewrite <- Ropp_plus_distr. replace (- k1 - - k2) with (- (k1 - k2)) by ring. rewrite !expi_neg, !cos_neg. unfold RtoC, expi. destruct i as [|i], j as [|j]; cbn; apply f_equal2; ring.
  Qed.
  Lemma tas2_H_reversible : reversible1 tas2_H.
  Proof using Type.
    intros k1 k2 k3 i j. unfold tas2_hamiltonian. rewrite <- Ropp_plus_distr, !Ropp_involutive, !expi_neg. unfold cplus, times, real, RtoC. destruct (expi k1), (expi k2), (expi (k1 + k2)). cbn. apply f_equal2; ring.
  Qed.
  Lemma springs_reversible k1 k2 k3 p q i j : (p < 3)%nat -> (q < 3)%nat -> springs (- k1) (- k2) (- k3) p q i j = nconj (springs k1 k2 k3 p q i j).
  Proof using Type.
    intros Hp Hq. revert p q Hp Hq. on_all; cbv beta iota zeta delta [tas2_springs inc dec set Nat.eqb andb]; unfold zreflect, tr, conj, cplus, cminus;
      rewrite ?(six_reversed expi), ?(six_reversed (fun x => nsub Num.n1 (expi x))) by (intros; rewrite expi_neg; unfold expi; cbn; apply f_equal2; ring); unfold times, real;
      replace (- k1 - - k2) with (- (k1 - k2)) by ring; rewrite <- ?Ropp_plus_distr, ?Ropp_involutive, ?expi_neg;
      repeat match goal with |- context [six ?f ?A ?B ?C ?D ?E ?F ?x ?y ?u ?v] => let z := fresh "z" in set (z := six f A B C D E F x y u v); clearbody z; destruct z end;
      destruct (expi k1), (expi k2), (expi (k1 + k2)), (expi (k1 - k2)); unfold RtoC; rewrite ?(xorb_comm (Nat.eqb j 2)); destruct (xorb (Nat.eqb i 2) (Nat.eqb j 2)); cbn; apply f_equal2; ring.
  Qed.

  Lemma tas2_D_reversible k1 k2 k3 x y : (x < 9)%nat -> (y < 9)%nat -> tas2_D (- k1) (- k2) (- k3) x y = nconj (tas2_D k1 k2 k3 x y).
  Proof using Type.
    clear. intros Hx Hy. unfold tas2_dynamical_matrix. rewrite springs_reversible by (apply Nat.div_lt_upper_bound; lia). rewrite !n_conj_mul. f_equal; [f_equal|]; unfold RtoC; cbn; apply f_equal2; ring.
  Qed.

  (** Coupling *)
  Definition periodic2 (f : R -> R -> R -> R -> R -> R -> nat -> cmat) : Prop := forall q1 q2 q3 k1 k2 k3 n1 n2 n3 m1 m2 m3 x i j,
    f (q1 + turn n1) (q2 + turn n2) (q3 + turn n3) (k1 + turn m1) (k2 + turn m2) (k3 + turn m3) x i j = f q1 q2 q3 k1 k2 k3 x i j.
  Definition reversible2 (f : R -> R -> R -> R -> R -> R -> nat -> cmat) : Prop := forall q1 q2 q3 k1 k2 k3 x i j,
    f (- q1) (- q2) (- q3) (- k1) (- k2) (- k3) x i j = nconj (f q1 q2 q3 k1 k2 k3 x i j).

  Lemma chain_g_periodic : periodic2 (chain_coupling g0).
  Proof using Type. intros q1 q2 q3 k1 k2 k3 n1 n2 n3 m1 m2 m3 x i j. unfold chain_coupling. turns. reflexivity. Qed.
  Lemma graphene_g_periodic : periodic2 graphene_g.
  Proof using Type. intros q1 q2 q3 k1 k2 k3 n1 n2 n3 m1 m2 m3 x i j. unfold graphene_coupling. turns. reflexivity. Qed.
  Lemma tas2_g_periodic : periodic2 tas2_g.
  Proof using Type. intros q1 q2 q3 k1 k2 k3 n1 n2 n3 m1 m2 m3 x i j. unfold tas2_coupling. turns. reflexivity. Qed.
  Lemma chain_g_reversible : reversible2 (chain_coupling g0).
  Proof using Type.
    intros q1 q2 q3 k1 k2 k3 x i j. unfold chain_coupling. destruct (Nat.eqb x 0); [|cbn; apply f_equal2; ring]. rewrite <- Ropp_plus_distr, !sin_neg. unfold RtoC, Ci. cbn. apply f_equal2; ring.
  Qed.
  Lemma graphene_g_reversible : reversible2 graphene_g.
  Proof using Type.
    intros q1 q2 q3 k1 k2 k3 x i j. unfold graphene_coupling. rewrite <- !Ropp_plus_distr, !Ropp_involutive, !expi_neg. set (f := beta * t / (tau ^ 2 * sqrt M)). clearbody f. unfold RtoC, expi.
    destruct (Nat.ltb x 3); destruct i as [|[|i]], j as [|[|j]]; cbn; apply f_equal2; ring.
  Qed.
  Lemma tas2_g_reversible : reversible2 tas2_g.
  Proof using Type.
    intros q1 q2 q3 k1 k2 k3 x i j. unfold tas2_coupling. rewrite <- !Ropp_plus_distr, !Ropp_involutive, !expi_neg. unfold cplus, times. set (f := / sqrt (if Nat.ltb x 3 then M else m)). clearbody f. unfold RtoC.
    destruct (expi k1), (expi k2), (expi (k1 + k2)), (expi (k1 + q1)), (expi (k2 + q2)), (expi (k1 + q1 + (k2 + q2))). cbn. apply f_equal2; ring.
  Qed.
End Periodic.
