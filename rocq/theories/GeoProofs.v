(** Proofs about GeoModel.v. *)
From Coq Require Import Lra.
From Verif Require Import Common GeoModel SymModel SymSpec.
Local Open Scope R_scope.

Lemma r2_ext (u v : r2) : fst u = fst v -> snd u = snd v -> u = v.
Proof. destruct u, v; cbn; intros -> ->; reflexivity. Qed.
Lemma r3_ext (u v : r3) : rx u = rx v -> ry u = ry v -> rz u = rz v -> u = v.
Proof. destruct u, v; cbn; intros -> -> ->; reflexivity. Qed.

Ltac r2ring := apply r2_ext; cbn [fst snd rotate2 add2 scale2]; ring.

Lemma rotate2_add v a b : rotate2 (rotate2 v a) b = rotate2 v (a + b).
Proof. apply r2_ext; cbn; rewrite cos_plus, sin_plus; ring. Qed.

Lemma rotate2_lin c d u v a :
  rotate2 (add2 (scale2 c u) (scale2 d v)) a = add2 (scale2 c (rotate2 u a)) (scale2 d (rotate2 v a)).
Proof. r2ring. Qed.

Lemma rotate2_0 v : rotate2 v 0 = v.
Proof. apply r2_ext; cbn; rewrite cos_0, sin_0; ring. Qed.

Lemma cos90 : cos (90 * deg) = 0.
Proof. replace (90 * deg) with (PI / 2) by (unfold deg; field). apply cos_PI2. Qed.
Lemma sin90 : sin (90 * deg) = 1.
Proof. replace (90 * deg) with (PI / 2) by (unfold deg; field). apply sin_PI2. Qed.
Lemma cosm90 : cos (- 90 * deg) = 0.
Proof. replace (- 90 * deg) with (- (90 * deg)) by ring. rewrite cos_neg. apply cos90. Qed.
Lemma sinm90 : sin (- 90 * deg) = -1.
Proof. replace (- 90 * deg) with (- (90 * deg)) by ring. rewrite sin_neg, sin90. reflexivity. Qed.
Lemma cos60 : cos (60 * deg) = 1 / 2.
Proof. replace (60 * deg) with (PI / 3) by (unfold deg; field). apply cos_PI3. Qed.
Lemma sin60 : sin (60 * deg) = sqrt 3 / 2.
Proof. replace (60 * deg) with (PI / 3) by (unfold deg; field). apply sin_PI3. Qed.
Lemma cos120 : cos (120 * deg) = - (1 / 2).
Proof. replace (120 * deg) with (2 * (PI / 3)) by (unfold deg; field). rewrite cos_2PI3. field. Qed.
Lemma sin120 : sin (120 * deg) = sqrt 3 / 2.
Proof. replace (120 * deg) with (2 * (PI / 3)) by (unfold deg; field). apply sin_2PI3. Qed.

Lemma reciprocals2_eq a1 a2 :
  reciprocals2 a1 a2 =
  let d := fst a1 * snd a2 - snd a1 * fst a2 in
  ((/ d * snd a2, / d * - fst a2), (/ d * - snd a1, / d * fst a1)).
Proof.
  unfold reciprocals2, rotate2, scale2, dot2. cbn [fst snd]. rewrite cos90, sin90, cosm90, sinm90.
  cbn zeta. apply (f_equal2 (@pair r2 r2)); apply r2_ext; cbn [fst snd].
  - f_equal; [f_equal; ring|ring].
  - f_equal; [f_equal; ring|ring].
  - f_equal; [f_equal; ring|ring].
  - f_equal; [f_equal; ring|ring].
Qed.

Section Hex.
  Let s := sqrt 3.
  Lemma ss : s * s = 3.
  Proof. apply sqrt_sqrt. lra. Qed.
  Lemma s0 : s <> 0.
  Proof. intros H. pose proof ss. rewrite H in *. lra. Qed.

  (** Reciprocal vectors in units of the (unit) lattice vectors. *)
  Lemma recips angle : allowed_angle angle ->
    exists a1 a2 b1 b2,
      translations2 (180 - IZR angle) 0 = (a1, a2) /\ reciprocals2 a1 a2 = (b1, b2) /\
      dot2 b1 a1 = 1 /\ dot2 b1 a2 = 0 /\ dot2 b2 a1 = 0 /\ dot2 b2 a2 = 1 /\
      (forall k : pt,
         let K := fun k : pt => add2 (scale2 (IZR (fst k)) b1) (scale2 (IZR (snd k)) b2) in
         rotate2 (K k) ((if (angle =? 90)%Z then 90 else 60) * deg) = K (rot angle k) /\
         (- fst (K k), snd (K k)) = K (refl angle k)).
  Proof.
    pose proof ss as S3. pose proof s0 as S0.
    intros Ha. unfold translations2.
    assert (Z0 : rotate2 (1, 0) (0 * deg) = (1, 0)) by (rewrite Rmult_0_l; apply rotate2_0).
    rewrite Z0. destruct Ha as [-> | [-> | ->]].
    - replace ((180 - 60) * deg) with (120 * deg) by (unfold deg; field).
      exists (1, 0), (- (1 / 2), s / 2), (1, 1 / s), (0, 2 / s).
      split; [|split; [|split; [|split; [|split; [|split]]]]].
      + f_equal. unfold rotate2. cbn [fst snd]. rewrite cos120, sin120. fold s. apply r2_ext; cbn; ring.
      + rewrite reciprocals2_eq. cbn [fst snd]. cbn zeta. apply (f_equal2 (@pair r2 r2)); apply r2_ext; cbn [fst snd]; field; exact S0.
      + unfold dot2; cbn; ring.
      + unfold dot2; cbn; field; exact S0.
      + unfold dot2; cbn; ring.
      + unfold dot2; cbn; field; exact S0.
      + intros [k1 k2]. cbn -[IZR Z.mul Z.add Z.opp]. unfold rotate2, add2, scale2. cbn [fst snd].
        rewrite cos60, sin60. fold s. rewrite !plus_IZR, !opp_IZR.
        split; apply r2_ext; cbn [fst snd]; try (field; exact S0).
        apply (Rmult_eq_reg_r s); [|exact S0].
          transitivity ((s * s) / 2 * IZR k1 + (IZR k1 / 2 + IZR k2)); [field; exact S0|].
          rewrite S3. field. exact S0.
    - replace ((180 - 90) * deg) with (90 * deg) by (unfold deg; field).
      exists (1, 0), (0, 1), (1, 0), (0, 1).
      split; [|split; [|split; [|split; [|split; [|split]]]]]; try (unfold dot2; cbn; ring).
      + f_equal. unfold rotate2. cbn [fst snd]. rewrite cos90, sin90. apply r2_ext; cbn; ring.
      + rewrite reciprocals2_eq. cbn [fst snd]. cbn zeta. apply (f_equal2 (@pair r2 r2)); apply r2_ext; cbn [fst snd]; field.
      + intros [k1 k2]. cbn -[IZR Z.mul Z.add Z.opp]. unfold rotate2, add2, scale2. cbn [fst snd].
        rewrite cos90, sin90, !opp_IZR. split; apply r2_ext; cbn [fst snd]; ring.
    - replace ((180 - 120) * deg) with (60 * deg) by (unfold deg; field).
      exists (1, 0), (1 / 2, s / 2), (1, - (1 / s)), (0, 2 / s).
      split; [|split; [|split; [|split; [|split; [|split]]]]].
      + f_equal. unfold rotate2. cbn [fst snd]. rewrite cos60, sin60. fold s. apply r2_ext; cbn; ring.
      + rewrite reciprocals2_eq. cbn [fst snd]. cbn zeta. apply (f_equal2 (@pair r2 r2)); apply r2_ext; cbn [fst snd]; field; exact S0.
      + unfold dot2; cbn; ring.
      + unfold dot2; cbn; field; exact S0.
      + unfold dot2; cbn; ring.
      + unfold dot2; cbn; field; exact S0.
      + intros [k1 k2]. cbn -[IZR Z.mul Z.add Z.opp Z.sub]. unfold rotate2, add2, scale2. cbn [fst snd].
        rewrite cos60, sin60. fold s. rewrite !minus_IZR, ?opp_IZR.
        split; apply r2_ext; cbn [fst snd]; try (field; exact S0).
        apply (Rmult_eq_reg_r s); [|exact S0].
        transitivity ((s * s) / 2 * IZR k1 + (- IZR k1 / 2 + IZR k2)); [field; exact S0|].
        rewrite S3. field. exact S0.
  Qed.
End Hex.

(** The integer maps of SymModel.v are the maps in Cartesian coordinates. *)
Lemma symmetry_image_int angle reflect n k : allowed_angle angle ->
  symmetry_image (IZR angle) reflect (INR n * (if (angle =? 90)%Z then 90 else 60)) (IZR (fst k), IZR (snd k)) =
  let K := rot_n angle n k in let K := if reflect then refl angle K else K in (IZR (fst K), IZR (snd K)).
Proof.
  intros Ha. destruct (recips angle Ha) as (a1 & a2 & b1 & b2 & Et & Er & D11 & D12 & D21 & D22 & H).
  unfold symmetry_image. rewrite Et, Er. cbn [fst snd].
  set (K := fun k : pt => add2 (scale2 (IZR (fst k)) b1) (scale2 (IZR (snd k)) b2)) in *.
  set (w := if (angle =? 90)%Z then 90 else 60) in *.
  assert (Hr : rotate2 (K k) (INR n * w * deg) = K (rot_n angle n k)).
  { clear - H. induction n as [|n IH].
    - cbn. rewrite !Rmult_0_l. apply rotate2_0.
    - replace (INR (S n) * w * deg) with (INR n * w * deg + w * deg) by (rewrite S_INR; ring).
      rewrite <- rotate2_add, IH. cbn [rot_n]. apply H. }
  change (add2 (scale2 (IZR (fst k)) b1) (scale2 (IZR (snd k)) b2)) with (K k). rewrite Hr.
  assert (HK : forall q, (dot2 (K q) a1, dot2 (K q) a2) = (IZR (fst q), IZR (snd q))).
  { intros q. unfold K, dot2, add2, scale2 in *. cbn [fst snd] in *. f_equal.
    - transitivity (IZR (fst q) * (fst b1 * fst a1 + snd b1 * snd a1) + IZR (snd q) * (fst b2 * fst a1 + snd b2 * snd a1)); [ring|].
      rewrite D11, D21. ring.
    - transitivity (IZR (fst q) * (fst b1 * fst a2 + snd b1 * snd a2) + IZR (snd q) * (fst b2 * fst a2 + snd b2 * snd a2)); [ring|].
      rewrite D12, D22. ring. }
  destruct reflect.
  - rewrite (proj2 (H (rot_n angle n k))). apply HK.
  - apply HK.
Qed.

From Verif Require Import GeoSpec.

(** ** Reciprocal vectors *)

Lemma reciprocals2_dual a1 a2 : independent2 a1 a2 ->
  let (b1, b2) := reciprocals2 a1 a2 in dual2 a1 a2 b1 b2.
Proof.
  unfold independent2. intros H. rewrite reciprocals2_eq. destruct a1 as [x1 y1], a2 as [x2 y2]. cbn [fst snd] in *.
  unfold dual2, dot2. cbn [fst snd]. repeat split; field; exact H.
Qed.

Definition det (a1 a2 a3 : r3) : R := dot3 a1 (cross3 a2 a3).

Lemma independent3_det a1 a2 a3 : independent3 a1 a2 a3 <-> det a1 a2 a3 <> 0.
Proof.
  split.
  - intros H Hd.
    (* Cofactors give dependencies. *)
    destruct a1 as [x1 y1 z1], a2 as [x2 y2 z2], a3 as [x3 y3 z3].
    unfold det, dot3, cross3 in Hd. cbn [rx ry rz] in Hd.
    assert (Hx := H (y2 * z3 - z2 * y3) (y3 * z1 - z3 * y1) (y1 * z2 - z1 * y2)).
    assert (Hy := H (z2 * x3 - x2 * z3) (z3 * x1 - x3 * z1) (z1 * x2 - x1 * z2)).
    assert (Hz := H (x2 * y3 - y2 * x3) (x3 * y1 - y3 * x1) (x1 * y2 - y1 * x2)).
    unfold add3, scale3 in *. cbn [rx ry rz] in *.
    destruct Hx as (A1 & A2 & A3).
    { apply r3_ext; cbn; [rewrite <- Hd; ring|ring|ring]. }
    destruct Hy as (B1 & B2 & B3).
    { apply r3_ext; cbn; [ring|rewrite <- Hd; ring|ring]. }
    destruct Hz as (C1 & C2 & C3).
    { apply r3_ext; cbn; [ring|ring|rewrite <- Hd; ring]. }
    (* All 2x2 minors vanish, so the vectors are parallel. *)
    assert (P12 : forall s t, s * x1 + t * x2 = 0 -> s * y1 + t * y2 = 0 -> s * z1 + t * z2 = 0 -> s = 0 /\ t = 0).
    { intros s t E1 E2 E3. destruct (H s t 0) as (? & ? & _); [|auto]. apply r3_ext; cbn; lra. }
    destruct (P12 x2 (- x1)) as [U1 U2]; [lra|lra|lra|].
    destruct (P12 y2 (- y1)) as [U3 U4]; [lra|lra|lra|].
    destruct (P12 z2 (- z1)) as [U5 U6]; [lra|lra|lra|].
    destruct (P12 1 1) as [U7 _]; [lra..|lra].
  - intros Hd x y z E.
    destruct a1 as [x1 y1 z1], a2 as [x2 y2 z2], a3 as [x3 y3 z3].
    unfold det, dot3, cross3, add3, scale3 in *. cbn [rx ry rz] in *. injection E as E1 E2 E3.
    repeat split.
    + apply (Rmult_eq_reg_r (x1 * (y2 * z3 - z2 * y3) + y1 * (z2 * x3 - x2 * z3) + z1 * (x2 * y3 - y2 * x3))); [|exact Hd].
      transitivity ((x * x1 + y * x2 + z * x3) * (y2 * z3 - z2 * y3) + (x * y1 + y * y2 + z * y3) * (z2 * x3 - x2 * z3) + (x * z1 + y * z2 + z * z3) * (x2 * y3 - y2 * x3)); [ring|].
      rewrite E1, E2, E3. ring.
    + apply (Rmult_eq_reg_r (x1 * (y2 * z3 - z2 * y3) + y1 * (z2 * x3 - x2 * z3) + z1 * (x2 * y3 - y2 * x3))); [|exact Hd].
      transitivity ((x * x1 + y * x2 + z * x3) * (y3 * z1 - z3 * y1) + (x * y1 + y * y2 + z * y3) * (z3 * x1 - x3 * z1) + (x * z1 + y * z2 + z * z3) * (x3 * y1 - y3 * x1)); [ring|].
      rewrite E1, E2, E3. ring.
    + apply (Rmult_eq_reg_r (x1 * (y2 * z3 - z2 * y3) + y1 * (z2 * x3 - x2 * z3) + z1 * (x2 * y3 - y2 * x3))); [|exact Hd].
      transitivity ((x * x1 + y * x2 + z * x3) * (y1 * z2 - z1 * y2) + (x * y1 + y * y2 + z * y3) * (z1 * x2 - x1 * z2) + (x * z1 + y * z2 + z * z3) * (x1 * y2 - y1 * x2)); [ring|].
      rewrite E1, E2, E3. ring.
Qed.

Lemma reciprocals3_dual a1 a2 a3 : independent3 a1 a2 a3 ->
  let '(b1, b2, b3) := reciprocals3 a1 a2 a3 in dual3 a1 a2 a3 b1 b2 b3.
Proof.
  intros H. apply independent3_det in H. unfold reciprocals3, dual3.
  destruct a1 as [x1 y1 z1], a2 as [x2 y2 z2], a3 as [x3 y3 z3].
  unfold det, dot3, scale3, cross3 in *. cbn [rx ry rz] in *.
  set (d1 := x1 * (y2 * z3 - z2 * y3) + y1 * (z2 * x3 - x2 * z3) + z1 * (x2 * y3 - y2 * x3)) in *.
  assert (E2 : x2 * (y3 * z1 - z3 * y1) + y2 * (z3 * x1 - x3 * z1) + z2 * (x3 * y1 - y3 * x1) = d1) by (unfold d1; ring).
  assert (E3 : x3 * (y1 * z2 - z1 * y2) + y3 * (z1 * x2 - x1 * z2) + z3 * (x1 * y2 - y1 * x2) = d1) by (unfold d1; ring).
  rewrite E2, E3.
  assert (K : forall u v w p q r, u * (/ d1 * p) + v * (/ d1 * q) + w * (/ d1 * r) = (u * p + v * q + w * r) / d1) by (intros; unfold Rdiv; ring).
  rewrite !K.
  assert (One : forall t, t = d1 -> t / d1 = 1) by (intros t ->; field; exact H).
  assert (Zero : forall t, t = 0 -> t / d1 = 0) by (intros t ->; unfold Rdiv; ring).
  repeat split; first [apply One; unfold d1; ring|apply Zero; ring].
Qed.

(** A dual basis is unique. *)
Lemma dual3_unique a1 a2 a3 b1 b2 b3 c1 c2 c3 :
  dual3 a1 a2 a3 b1 b2 b3 -> dual3 a1 a2 a3 c1 c2 c3 -> c1 = b1 /\ c2 = b2 /\ c3 = b3.
Proof.
  intros ((H11 & H12 & H13) & (H21 & H22 & H23) & (H31 & H32 & H33)) ((G11 & G12 & G13) & (G21 & G22 & G23) & (G31 & G32 & G33)).
  assert (Hd : det a1 a2 a3 <> 0).
  { assert (E : det a1 a2 a3 * det b1 b2 b3 =
      dot3 a1 b1 * (dot3 a2 b2 * dot3 a3 b3 - dot3 a2 b3 * dot3 a3 b2)
      - dot3 a1 b2 * (dot3 a2 b1 * dot3 a3 b3 - dot3 a2 b3 * dot3 a3 b1)
      + dot3 a1 b3 * (dot3 a2 b1 * dot3 a3 b2 - dot3 a2 b2 * dot3 a3 b1)) by (unfold det, dot3, cross3; cbn [rx ry rz]; ring).
    rewrite H11, H12, H13, H21, H22, H23, H31, H32, H33 in E. intros Z0. rewrite Z0 in E. lra. }
  assert (U : forall u v, dot3 a1 u = dot3 a1 v -> dot3 a2 u = dot3 a2 v -> dot3 a3 u = dot3 a3 v -> u = v).
  { intros u v E1 E2 E3. destruct a1 as [x1 y1 z1], a2 as [x2 y2 z2], a3 as [x3 y3 z3], u as [p q r], v as [p' q' r'].
    unfold det, dot3, cross3 in *. cbn [rx ry rz] in *.
    apply r3_ext; cbn.
    + apply (Rmult_eq_reg_r (x1 * (y2 * z3 - z2 * y3) + y1 * (z2 * x3 - x2 * z3) + z1 * (x2 * y3 - y2 * x3))); [|exact Hd].
      transitivity ((x1 * p + y1 * q + z1 * r) * (y2 * z3 - z2 * y3) + (x2 * p + y2 * q + z2 * r) * (y3 * z1 - z3 * y1) + (x3 * p + y3 * q + z3 * r) * (y1 * z2 - z1 * y2)); [ring|].
      rewrite E1, E2, E3. ring.
    + apply (Rmult_eq_reg_r (x1 * (y2 * z3 - z2 * y3) + y1 * (z2 * x3 - x2 * z3) + z1 * (x2 * y3 - y2 * x3))); [|exact Hd].
      transitivity ((x1 * p + y1 * q + z1 * r) * (z2 * x3 - x2 * z3) + (x2 * p + y2 * q + z2 * r) * (z3 * x1 - x3 * z1) + (x3 * p + y3 * q + z3 * r) * (z1 * x2 - x1 * z2)); [ring|].
      rewrite E1, E2, E3. ring.
    + apply (Rmult_eq_reg_r (x1 * (y2 * z3 - z2 * y3) + y1 * (z2 * x3 - x2 * z3) + z1 * (x2 * y3 - y2 * x3))); [|exact Hd].
      transitivity ((x1 * p + y1 * q + z1 * r) * (x2 * y3 - y2 * x3) + (x2 * p + y2 * q + z2 * r) * (x3 * y1 - y3 * x1) + (x3 * p + y3 * q + z3 * r) * (x1 * y2 - y1 * x2)); [ring|].
      rewrite E1, E2, E3. ring. }
  repeat split; apply U; congruence.
Qed.

Lemma dual3_sym a1 a2 a3 b1 b2 b3 : dual3 a1 a2 a3 b1 b2 b3 -> dual3 b1 b2 b3 a1 a2 a3.
Proof.
  assert (S : forall u v, dot3 u v = dot3 v u) by (intros; unfold dot3; ring).
  intros ((H11 & H12 & H13) & (H21 & H22 & H23) & (H31 & H32 & H33)). unfold dual3.
  rewrite !(S b1), !(S b2), !(S b3). tauto.
Qed.

Lemma dual3_independent a1 a2 a3 b1 b2 b3 : dual3 a1 a2 a3 b1 b2 b3 -> independent3 a1 a2 a3.
Proof.
  intros ((H11 & H12 & H13) & (H21 & H22 & H23) & (H31 & H32 & H33)) x y z E.
  assert (T : forall b, x * dot3 a1 b + y * dot3 a2 b + z * dot3 a3 b = 0).
  { intros b. transitivity (dot3 (add3 (add3 (scale3 x a1) (scale3 y a2)) (scale3 z a3)) b); [unfold dot3, add3, scale3; cbn [rx ry rz]; ring|].
    rewrite E. unfold dot3; cbn [rx ry rz]; ring. }
  pose proof (T b1) as T1. pose proof (T b2) as T2. pose proof (T b3) as T3.
  rewrite H11, H21, H31 in T1. rewrite H12, H22, H32 in T2. rewrite H13, H23, H33 in T3. lra.
Qed.

Lemma reciprocals3_involutive a1 a2 a3 : independent3 a1 a2 a3 ->
  let '(b1, b2, b3) := reciprocals3 a1 a2 a3 in reciprocals3 b1 b2 b3 = (a1, a2, a3).
Proof.
  intros H. pose proof (reciprocals3_dual a1 a2 a3 H) as D. destruct (reciprocals3 a1 a2 a3) as [[b1 b2] b3].
  apply dual3_sym in D. pose proof (reciprocals3_dual b1 b2 b3 (dual3_independent _ _ _ _ _ _ D)) as D'.
  destruct (reciprocals3 b1 b2 b3) as [[c1 c2] c3]. destruct (dual3_unique _ _ _ _ _ _ _ _ _ D D') as (-> & -> & ->). reflexivity.
Qed.

Lemma volume_dual a1 a2 a3 b1 b2 b3 : dual3 a1 a2 a3 b1 b2 b3 -> volume a1 a2 a3 * volume b1 b2 b3 = 1.
Proof.
  intros ((H11 & H12 & H13) & (H21 & H22 & H23) & (H31 & H32 & H33)). unfold volume. rewrite <- Rabs_mult.
  assert (E : dot3 a1 (cross3 a2 a3) * dot3 b1 (cross3 b2 b3) =
      dot3 a1 b1 * (dot3 a2 b2 * dot3 a3 b3 - dot3 a2 b3 * dot3 a3 b2)
      - dot3 a1 b2 * (dot3 a2 b1 * dot3 a3 b3 - dot3 a2 b3 * dot3 a3 b1)
      + dot3 a1 b3 * (dot3 a2 b1 * dot3 a3 b2 - dot3 a2 b2 * dot3 a3 b1)) by (unfold dot3, cross3; cbn [rx ry rz]; ring).
  rewrite E, H11, H12, H13, H21, H22, H23, H31, H32, H33. replace (1 * (1 * 1 - 0 * 0) - 0 * (0 * 1 - 0 * 0) + 0 * (0 * 0 - 1 * 0)) with 1 by ring.
  apply Rabs_R1.
Qed.

(** ** Crystal and Cartesian coordinates *)

Lemma mv_columns a1 a2 a3 x : mv (columns a1 a2 a3) x = to_cartesian3 a1 a2 a3 x.
Proof. unfold mv, columns, to_cartesian3, add3, scale3, dot3. cbn [rx ry rz row1 row2 row3]. apply r3_ext; cbn; ring. Qed.

Lemma mv_0 A : mv A (R3 0 0 0) = R3 0 0 0.
Proof. unfold mv, dot3. cbn [rx ry rz]. apply r3_ext; cbn; ring. Qed.

Lemma map_id_on {A} (f : A -> A) l : (forall x, f x = x) -> map f l = l.
Proof. intros H. rewrite (map_ext f (fun x => x) H). apply map_id. Qed.

Definition rows_of (b : r3 * r3 * r3) : m3 := Mat3 (fst (fst b)) (snd (fst b)) (snd b).

Lemma reciprocals_inverse a1 a2 a3 : independent3 a1 a2 a3 ->
  inverse_of (rows_of (reciprocals3 a1 a2 a3)) (columns a1 a2 a3).
Proof.
    intros Hi.
    pose proof (reciprocals3_dual a1 a2 a3 Hi) as D. pose proof (dual3_sym) as DS.
    destruct (reciprocals3 a1 a2 a3) as [[b1 b2] b3].
    unfold rows_of. cbn [fst snd]. pose proof D as D0.
    destruct D as ((H11 & H12 & H13) & (H21 & H22 & H23) & (H31 & H32 & H33)).
    assert (S : forall u v, dot3 u v = dot3 v u) by (intros; unfold dot3; ring).
    assert (L : forall x, mv (Mat3 b1 b2 b3) (mv (columns a1 a2 a3) x) = x).
    { intros x. rewrite mv_columns. unfold mv. cbn [row1 row2 row3].
      assert (T : forall b, dot3 b (to_cartesian3 a1 a2 a3 x) = rx x * dot3 a1 b + ry x * dot3 a2 b + rz x * dot3 a3 b)
        by (intros; unfold to_cartesian3, dot3, add3, scale3; cbn [rx ry rz]; ring).
      rewrite !T, H11, H12, H13, H21, H22, H23, H31, H32, H33. apply r3_ext; cbn; ring. }
    intros x. split; [apply L|].
    (* Right inverse: compare the products with the reciprocal vectors. *)
    set (y := mv (columns a1 a2 a3) (mv (Mat3 b1 b2 b3) x)).
    assert (Ey : mv (Mat3 b1 b2 b3) y = mv (Mat3 b1 b2 b3) x) by apply L.
    clearbody y. unfold mv in Ey. cbn [row1 row2 row3] in Ey.
    assert (E1 : dot3 b1 y = dot3 b1 x) by (apply (f_equal rx) in Ey; exact Ey).
    assert (E2 : dot3 b2 y = dot3 b2 x) by (apply (f_equal ry) in Ey; exact Ey).
    assert (E3 : dot3 b3 y = dot3 b3 x) by (apply (f_equal rz) in Ey; exact Ey).
    assert (Hd : det b1 b2 b3 <> 0).
    { apply independent3_det. apply (dual3_independent b1 b2 b3 a1 a2 a3). apply DS; exact D0. }
    destruct b1 as [x1 y1 z1], b2 as [x2 y2 z2], b3 as [x3 y3 z3], y as [p q r], x as [p' q' r'].
    unfold det, dot3, cross3 in *. cbn [rx ry rz] in *. clear - Hd E1 E2 E3.
    apply r3_ext; cbn.
    + apply (Rmult_eq_reg_r (x1 * (y2 * z3 - z2 * y3) + y1 * (z2 * x3 - x2 * z3) + z1 * (x2 * y3 - y2 * x3))); [|exact Hd].
      transitivity ((x1 * p + y1 * q + z1 * r) * (y2 * z3 - z2 * y3) + (x2 * p + y2 * q + z2 * r) * (y3 * z1 - z3 * y1) + (x3 * p + y3 * q + z3 * r) * (y1 * z2 - z1 * y2)); [ring|].
      rewrite E1, E2, E3. ring.
    + apply (Rmult_eq_reg_r (x1 * (y2 * z3 - z2 * y3) + y1 * (z2 * x3 - x2 * z3) + z1 * (x2 * y3 - y2 * x3))); [|exact Hd].
      transitivity ((x1 * p + y1 * q + z1 * r) * (z2 * x3 - x2 * z3) + (x2 * p + y2 * q + z2 * r) * (z3 * x1 - x3 * z1) + (x3 * p + y3 * q + z3 * r) * (z1 * x2 - x1 * z2)); [ring|].
      rewrite E1, E2, E3. ring.
    + apply (Rmult_eq_reg_r (x1 * (y2 * z3 - z2 * y3) + y1 * (z2 * x3 - x2 * z3) + z1 * (x2 * y3 - y2 * x3))); [|exact Hd].
      transitivity ((x1 * p + y1 * q + z1 * r) * (x2 * y3 - y2 * x3) + (x2 * p + y2 * q + z2 * r) * (x3 * y1 - y3 * x1) + (x3 * p + y3 * q + z3 * r) * (x1 * y2 - y1 * x2)); [ring|].
      rewrite E1, E2, E3. ring.
Qed.

Lemma inv_independent inv a1 a2 a3 : inv_contract inv ->
  (independent3 a1 a2 a3 <-> exists B, inv (columns a1 a2 a3) = Some B).
Proof.
  intros Hinv. specialize (Hinv (columns a1 a2 a3)). split.
  - intros Hi. destruct (inv _) as [B|]; [exists B; reflexivity|exfalso].
    exact (Hinv _ (reciprocals_inverse a1 a2 a3 Hi)).
  - intros (B & E). rewrite E in Hinv. intros x y z H.
    assert (Hx : R3 x y z = R3 0 0 0).
    { rewrite <- (proj1 (Hinv (R3 x y z))), mv_columns. unfold to_cartesian3. cbn [rx ry rz]. rewrite H. apply mv_0. }
    injection Hx as -> -> ->. auto.
Qed.

Lemma crystal_cartesian_inverse inv a1 a2 a3 l : inv_contract inv -> independent3 a1 a2 a3 ->
  cartesian_to_crystal inv (crystal_to_cartesian3 l a1 a2 a3) a1 a2 a3 = Ok l /\
  exists l', cartesian_to_crystal inv l a1 a2 a3 = Ok l' /\ crystal_to_cartesian3 l' a1 a2 a3 = l.
Proof.
  intros Hinv Hi. apply (inv_independent inv) in Hi; [|exact Hinv]. destruct Hi as [B E].
  unfold cartesian_to_crystal. rewrite E. specialize (Hinv (columns a1 a2 a3)). rewrite E in Hinv. split.
  - f_equal. unfold crystal_to_cartesian3. rewrite map_map. apply map_id_on. intros x. rewrite <- mv_columns. apply Hinv.
  - eexists. split; [reflexivity|]. unfold crystal_to_cartesian3. rewrite map_map. apply map_id_on.
    intros x. rewrite <- mv_columns. apply Hinv.
Qed.

Lemma cartesian_to_crystal_singular inv a1 a2 a3 l : inv_contract inv -> ~ independent3 a1 a2 a3 ->
  cartesian_to_crystal inv l a1 a2 a3 = Raise ValueError.
Proof.
  intros Hinv Hi. unfold cartesian_to_crystal. destruct (inv (columns a1 a2 a3)) as [B|] eqn:E; [|reflexivity].
  exfalso. apply Hi. apply (inv_independent inv); [exact Hinv|]. exists B; exact E.
Qed.

(** A function that meets the contract. *)
Definition ref_inv (A : m3) : option m3 :=
  let a1 := R3 (rx (row1 A)) (rx (row2 A)) (rx (row3 A)) in
  let a2 := R3 (ry (row1 A)) (ry (row2 A)) (ry (row3 A)) in
  let a3 := R3 (rz (row1 A)) (rz (row2 A)) (rz (row3 A)) in
  if Req_EM_T (det a1 a2 a3) 0 then None else Some (rows_of (reciprocals3 a1 a2 a3)).

Lemma ref_inv_contract : inv_contract ref_inv.
Proof.
  intros A. unfold ref_inv.
  set (a1 := R3 (rx (row1 A)) (rx (row2 A)) (rx (row3 A))).
  set (a2 := R3 (ry (row1 A)) (ry (row2 A)) (ry (row3 A))).
  set (a3 := R3 (rz (row1 A)) (rz (row2 A)) (rz (row3 A))).
  assert (E : A = columns a1 a2 a3) by (destruct A as [[] [] []]; reflexivity).
  destruct (Req_EM_T (det a1 a2 a3) 0) as [Hd|Hd].
  - intros B HB. apply (proj1 (independent3_det a1 a2 a3)); [|exact Hd]. intros x y z H.
    assert (Hx : R3 x y z = R3 0 0 0).
    { rewrite <- (proj1 (HB (R3 x y z))), E, mv_columns. unfold to_cartesian3. cbn [rx ry rz]. rewrite H. apply mv_0. }
    injection Hx as -> -> ->. auto.
  - rewrite E. apply reciprocals_inverse, independent3_det. exact Hd.
Qed.
