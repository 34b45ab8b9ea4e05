(** Proofs about Brillouin zones. *)
From Coq Require Import Reals Lra Lia Psatz List ZArith.
From Verif Require Import Common GeoModel GeoProofs MPIModel DiagModel DiagProofs RootsProofs BzModel BzSpec.
Import ListNotations.
Local Open Scope R_scope.

(** ** Vectors *)

Definition cross2 (u v : r2) : R := fst u * snd v - snd u * fst v.

Lemma unit_rotate x y : rotate2 (unit_vector x) (y * deg) = unit_vector (x + y).
Proof.
  unfold unit_vector. apply r2_ext; cbn [rotate2 fst snd]; replace ((x + y) * PI / 180) with (x * PI / 180 + y * deg) by (unfold deg; field).
  - rewrite cos_plus. ring.
  - rewrite sin_plus. ring.
Qed.

Lemma translations_unit angle angle0 : translations2 angle angle0 = (unit_vector angle0, unit_vector (angle0 + angle)).
Proof.
  unfold translations2. assert (E : rotate2 (1, 0) (angle0 * deg) = unit_vector angle0).
  { unfold unit_vector. apply r2_ext; cbn [rotate2 fst snd]; replace (angle0 * PI / 180) with (angle0 * deg) by (unfold deg; field); ring. }
  rewrite E. rewrite unit_rotate. reflexivity.
Qed.

Lemma unit_norm x : dot2 (unit_vector x) (unit_vector x) = 1.
Proof. unfold dot2, unit_vector. cbn [fst snd]. pose proof (sin2_cos2 (x * PI / 180)) as E. unfold Rsqr in E. lra. Qed.

Lemma unit_dot x y : dot2 (unit_vector x) (unit_vector (x + y)) = cos (y * deg).
Proof.
  rewrite <- unit_rotate. unfold dot2, rotate2. cbn [fst snd]. pose proof (unit_norm x) as E. unfold dot2 in E.
  transitivity (cos (y * deg) * (fst (unit_vector x) * fst (unit_vector x) + snd (unit_vector x) * snd (unit_vector x))); [ring|rewrite E; ring].
Qed.

Lemma unit_cross x y : cross2 (unit_vector x) (unit_vector (x + y)) = sin (y * deg).
Proof.
  rewrite <- unit_rotate. unfold cross2, rotate2. cbn [fst snd]. pose proof (unit_norm x) as E. unfold dot2 in E.
  transitivity (sin (y * deg) * (fst (unit_vector x) * fst (unit_vector x) + snd (unit_vector x) * snd (unit_vector x))); [ring|rewrite E; ring].
Qed.

(** Facts about the reciprocal vectors *)
Record facts (a1 a2 b1 b2 : r2) (c s : R) : Prop := Facts {
  dual11 : dot2 a1 b1 = 1; dual12 : dot2 a1 b2 = 0; dual21 : dot2 a2 b1 = 0; dual22 : dot2 a2 b2 = 1;
  gram11 : dot2 b1 b1 = / (s * s); gram12 : dot2 b1 b2 = - c / (s * s); gram22 : dot2 b2 b2 = / (s * s);
  cross_b : cross2 b1 b2 = / s;
  expand_a : forall k, k = add2 (scale2 (dot2 k b1) a1) (scale2 (dot2 k b2) a2);
  expand_b : forall k, k = add2 (scale2 (dot2 a1 k) b1) (scale2 (dot2 a2 k) b2) }.

Lemma recip_facts a1 a2 b1 b2 c s : reciprocals2 a1 a2 = (b1, b2) -> dot2 a1 a1 = 1 -> dot2 a2 a2 = 1 -> dot2 a1 a2 = c -> cross2 a1 a2 = s -> s <> 0 ->
  facts a1 a2 b1 b2 c s.
Proof.
  intros E N1 N2 C S S0. rewrite reciprocals2_eq in E. unfold cross2 in S. cbn zeta in E. rewrite S in E. injection E as <- <-.
  unfold dot2 in N1, N2, C. destruct a1 as [x1 y1], a2 as [x2 y2]. cbn [fst snd] in *.
  constructor; unfold dot2, cross2; cbn [fst snd].
  - transitivity (/ s * (x1 * y2 - y1 * x2)); [ring|rewrite S; field; exact S0].
  - field. exact S0.
  - field. exact S0.
  - transitivity (/ s * (x1 * y2 - y1 * x2)); [ring|rewrite S; field; exact S0].
  - transitivity (/ (s * s) * (x2 * x2 + y2 * y2)); [field; exact S0|rewrite N2; ring].
  - transitivity (- (x1 * x2 + y1 * y2) / (s * s)); [field; exact S0|rewrite C; reflexivity].
  - transitivity (/ (s * s) * (x1 * x1 + y1 * y1)); [field; exact S0|rewrite N1; ring].
  - transitivity (/ (s * s) * (x1 * y2 - y1 * x2)); [field; exact S0|rewrite S; field; exact S0].
  - intros [p q]. apply r2_ext; cbn [fst snd add2 scale2].
    + transitivity (/ s * (x1 * y2 - y1 * x2) * p); [rewrite S; field; exact S0|ring].
    + transitivity (/ s * (x1 * y2 - y1 * x2) * q); [rewrite S; field; exact S0|ring].
  - intros [p q]. apply r2_ext; cbn [fst snd add2 scale2].
    + transitivity (/ s * (x1 * y2 - y1 * x2) * p); [rewrite S; field; exact S0|ring].
    + transitivity (/ s * (x1 * y2 - y1 * x2) * q); [rewrite S; field; exact S0|ring].
Qed.

Lemma sqrt3_4 : sqrt 3 / 2 * (sqrt 3 / 2) = 3 / 4.
Proof. pose proof (sqrt_sqrt 3 ltac:(lra)). lra. Qed.
Lemma sqrt3_pos : 0 < sqrt 3 / 2.
Proof. pose proof (sqrt_lt_R0 3 ltac:(lra)). lra. Qed.

Lemma recip_unit angle angle0 : sin (angle * deg) <> 0 ->
  exists b1 b2, reciprocals2 (unit_vector angle0) (unit_vector (angle0 + angle)) = (b1, b2) /\
    facts (unit_vector angle0) (unit_vector (angle0 + angle)) b1 b2 (cos (angle * deg)) (sin (angle * deg)).
Proof.
  intros H. destruct (reciprocals2 _ _) as [b1 b2] eqn:E. exists b1, b2. split; [reflexivity|].
  apply recip_facts; [exact E|apply unit_norm|apply unit_norm|apply unit_dot|apply unit_cross|exact H].
Qed.

(** ** The zone by inequalities *)

(** [u], [v]: products of a point with the reciprocal vectors *)
Definition hexagon (sg u v : R) : Prop := Rabs u <= 2 / 3 /\ Rabs v <= 2 / 3 /\ Rabs (u - sg * v) <= 2 / 3.

Lemma abs_between x y : Rabs x <= y -> - y <= x <= y.
Proof. intros H. pose proof (RRle_abs x). pose proof (RRle_abs (- x)). rewrite Rabs_Ropp in *. lra. Qed.

Lemma hex_bound M m u v x y : Rabs u <= M -> Rabs v <= M -> Rabs (u - v) <= M -> Rabs x <= m -> Rabs y <= m -> Rabs (x + y) <= m ->
  u * x + v * y <= M * m.
Proof.
  intros Hu Hv Huv Hx Hy Hxy. apply abs_between in Hu, Hv, Huv, Hx, Hy, Hxy.
  assert (M0 : 0 <= M) by lra. assert (m0 : 0 <= m) by lra.
  destruct (Rle_lt_dec 0 u), (Rle_lt_dec 0 v).
  - destruct (Rle_lt_dec v u).
    + apply Rle_trans with (v * m + (u - v) * m); [|nra]. replace (u * x + v * y) with (v * (x + y) + (u - v) * x) by ring. nra.
    + apply Rle_trans with (u * m + (v - u) * m); [|nra]. replace (u * x + v * y) with (u * (x + y) + (v - u) * y) by ring. nra.
  - apply Rle_trans with (u * m + - v * m); [|nra]. nra.
  - apply Rle_trans with (- u * m + v * m); [|nra]. nra.
  - destruct (Rle_lt_dec v u).
    + apply Rle_trans with (- u * m + (u - v) * m); [|nra]. replace (u * x + v * y) with (- u * - (x + y) + (u - v) * - y) by ring. nra.
    + apply Rle_trans with (- v * m + (v - u) * m); [|nra]. replace (u * x + v * y) with (- v * - (x + y) + (v - u) * - x) by ring. nra.
Qed.

Lemma sq_int n : (Z.abs n <= n * n)%Z.
Proof. nia. Qed.

Lemma quad_int1 n1 n2 : (Z.abs n1 <= n1 * n1 + n1 * n2 + n2 * n2)%Z.
Proof.
  assert (H : (n1 = 0 \/ n1 = 1 \/ n1 = -1 \/ 2 <= Z.abs n1)%Z) by lia. destruct H as [-> | [-> | [-> | H]]]; try (pose proof (sq_int n2); lia).
  assert (S : (4 * (n1 * n1 + n1 * n2 + n2 * n2) = (2 * n2 + n1) * (2 * n2 + n1) + 3 * (Z.abs n1 * Z.abs n1))%Z) by (rewrite Z.abs_square; ring).
  pose proof (Z.square_nonneg (2 * n2 + n1)). nia.
Qed.

Lemma quad_int n1 n2 : (Z.abs n1 <= n1 * n1 + n1 * n2 + n2 * n2 /\ Z.abs n2 <= n1 * n1 + n1 * n2 + n2 * n2 /\ Z.abs (n1 + n2) <= n1 * n1 + n1 * n2 + n2 * n2)%Z.
Proof.
  pose proof (quad_int1 n1 n2). pose proof (quad_int1 n2 n1). pose proof (quad_int1 (n1 + n2) (- n2)).
  replace (n2 * n2 + n2 * n1 + n1 * n1)%Z with (n1 * n1 + n1 * n2 + n2 * n2)%Z in * by ring.
  replace ((n1 + n2) * (n1 + n2) + (n1 + n2) * - n2 + - n2 * - n2)%Z with (n1 * n1 + n1 * n2 + n2 * n2)%Z in * by ring. auto.
Qed.

Lemma norm_diff k G : norm_sq (fst k - fst G, snd k - snd G) = norm_sq k - 2 * dot2 k G + dot2 G G.
Proof. unfold norm_sq, dot2. cbn [fst snd]. ring. Qed.

Lemma dot2_lin k x y u v : dot2 k (add2 (scale2 x u) (scale2 y v)) = x * dot2 k u + y * dot2 k v.
Proof. unfold dot2, add2, scale2. cbn [fst snd]. ring. Qed.
Lemma dot2_comm u v : dot2 u v = dot2 v u.
Proof. unfold dot2. ring. Qed.

(** Products of a point with reciprocal lattice vectors *)
Lemma zone_products a1 a2 b1 b2 c s angle angle0 k : facts a1 a2 b1 b2 c s -> a1 = unit_vector angle0 -> a2 = unit_vector (angle0 + IZR angle) ->
  (first_zone angle angle0 k <-> forall n1 n2 : Z, 2 * (IZR n1 * dot2 k b1 + IZR n2 * dot2 k b2) <=
     IZR n1 * IZR n1 * dot2 b1 b1 + 2 * (IZR n1 * IZR n2) * dot2 b1 b2 + IZR n2 * IZR n2 * dot2 b2 b2).
Proof.
  intros F Ea1 Ea2. unfold first_zone, reciprocal. rewrite <- Ea1, <- Ea2. split.
  - intros H n1 n2. specialize (H (add2 (scale2 (IZR n1) b1) (scale2 (IZR n2) b2))). rewrite norm_diff, (dot2_lin k) in H.
    assert (Q : dot2 (add2 (scale2 (IZR n1) b1) (scale2 (IZR n2) b2)) (add2 (scale2 (IZR n1) b1) (scale2 (IZR n2) b2)) = IZR n1 * IZR n1 * dot2 b1 b1 + 2 * (IZR n1 * IZR n2) * dot2 b1 b2 + IZR n2 * IZR n2 * dot2 b2 b2) by (unfold dot2, add2, scale2; cbn [fst snd]; ring).
    rewrite Q in H. assert (P : norm_sq k <= norm_sq k - 2 * (IZR n1 * dot2 k b1 + IZR n2 * dot2 k b2) + (IZR n1 * IZR n1 * dot2 b1 b1 + 2 * (IZR n1 * IZR n2) * dot2 b1 b2 + IZR n2 * IZR n2 * dot2 b2 b2)); [|lra].
    apply H. exists n1, n2. rewrite !dot2_lin, (dual11 _ _ _ _ _ _ F), (dual12 _ _ _ _ _ _ F), (dual21 _ _ _ _ _ _ F), (dual22 _ _ _ _ _ _ F). split; ring.
  - intros H G (n1 & n2 & E1 & E2). specialize (H n1 n2). rewrite (expand_b _ _ _ _ _ _ F G), E1, E2, norm_diff, dot2_lin.
    assert (Q : dot2 (add2 (scale2 (IZR n1) b1) (scale2 (IZR n2) b2)) (add2 (scale2 (IZR n1) b1) (scale2 (IZR n2) b2)) = IZR n1 * IZR n1 * dot2 b1 b1 + 2 * (IZR n1 * IZR n2) * dot2 b1 b2 + IZR n2 * IZR n2 * dot2 b2 b2) by (unfold dot2, add2, scale2; cbn [fst snd]; ring).
    rewrite Q. lra.
Qed.

(** The three allowed angles *)
Definition allowed (angle : Z) : Prop := (angle = 60 \/ angle = 90 \/ angle = 120)%Z.

Lemma zone60 b1 b2 angle0 k : facts (unit_vector angle0) (unit_vector (angle0 + IZR 60)) b1 b2 (1 / 2) (sqrt 3 / 2) ->
  (first_zone 60 angle0 k <-> Rabs (dot2 k b1) <= 2 / 3 /\ Rabs (dot2 k b2) <= 2 / 3 /\ Rabs (dot2 k b1 + dot2 k b2) <= 2 / 3).
Proof.
  intros F. rewrite (zone_products _ _ _ _ _ _ _ _ k F eq_refl eq_refl). rewrite (gram11 _ _ _ _ _ _ F), (gram12 _ _ _ _ _ _ F), (gram22 _ _ _ _ _ _ F), sqrt3_4.
  set (u := dot2 k b1). set (v := dot2 k b2). split.
  - intros H. pose proof (H 1 0)%Z. pose proof (H (-1) 0)%Z. pose proof (H 0 1)%Z. pose proof (H 0 (-1))%Z. pose proof (H 1 1)%Z. pose proof (H (-1) (-1))%Z.
    repeat split; apply Rabs_le; split; lra.
  - intros (H1 & H2 & H3) n1 n2. destruct (quad_int n1 (- n2)) as (Q1 & Q2 & Q3). set (Q := (n1 * n1 + n1 * - n2 + - n2 * - n2)%Z) in *.
    pose proof (hex_bound (2 / 3) (IZR Q) u (- v) (IZR n1) (IZR (- n2))) as B.
    rewrite Rabs_Ropp in B. replace (u - - v) with (u + v) in B by ring. rewrite <- plus_IZR, <- !abs_IZR in B. specialize (B H1 H2 H3 (IZR_le _ _ Q1) (IZR_le _ _ Q2) (IZR_le _ _ Q3)).
    unfold Q in B. rewrite !plus_IZR, !mult_IZR, !opp_IZR in B. lra.
Qed.

Lemma zone120 b1 b2 angle0 k : facts (unit_vector angle0) (unit_vector (angle0 + IZR 120)) b1 b2 (- (1 / 2)) (sqrt 3 / 2) ->
  (first_zone 120 angle0 k <-> Rabs (dot2 k b1) <= 2 / 3 /\ Rabs (dot2 k b2) <= 2 / 3 /\ Rabs (dot2 k b1 - dot2 k b2) <= 2 / 3).
Proof.
  intros F. rewrite (zone_products _ _ _ _ _ _ _ _ k F eq_refl eq_refl). rewrite (gram11 _ _ _ _ _ _ F), (gram12 _ _ _ _ _ _ F), (gram22 _ _ _ _ _ _ F), sqrt3_4.
  set (u := dot2 k b1). set (v := dot2 k b2). split.
  - intros H. pose proof (H 1 0)%Z. pose proof (H (-1) 0)%Z. pose proof (H 0 1)%Z. pose proof (H 0 (-1))%Z. pose proof (H 1 (-1))%Z. pose proof (H (-1) 1)%Z.
    repeat split; apply Rabs_le; split; lra.
  - intros (H1 & H2 & H3) n1 n2. destruct (quad_int n1 n2) as (Q1 & Q2 & Q3). set (Q := (n1 * n1 + n1 * n2 + n2 * n2)%Z) in *.
    pose proof (hex_bound (2 / 3) (IZR Q) u v (IZR n1) (IZR n2)) as B.
    rewrite <- plus_IZR, <- !abs_IZR in B. specialize (B H1 H2 H3 (IZR_le _ _ Q1) (IZR_le _ _ Q2) (IZR_le _ _ Q3)).
    unfold Q in B. rewrite !plus_IZR, !mult_IZR in B. lra.
Qed.

Lemma zone90 b1 b2 angle0 k : facts (unit_vector angle0) (unit_vector (angle0 + IZR 90)) b1 b2 0 1 ->
  (first_zone 90 angle0 k <-> Rabs (dot2 k b1) <= 1 / 2 /\ Rabs (dot2 k b2) <= 1 / 2).
Proof.
  intros F. rewrite (zone_products _ _ _ _ _ _ _ _ k F eq_refl eq_refl). rewrite (gram11 _ _ _ _ _ _ F), (gram12 _ _ _ _ _ _ F), (gram22 _ _ _ _ _ _ F).
  set (u := dot2 k b1). set (v := dot2 k b2). split.
  - intros H. pose proof (H 1 0)%Z. pose proof (H (-1) 0)%Z. pose proof (H 0 1)%Z. pose proof (H 0 (-1))%Z. split; apply Rabs_le; split; lra.
  - intros (H1 & H2) n1 n2. pose proof (IZR_le _ _ (sq_int n1)) as Q1. pose proof (IZR_le _ _ (sq_int n2)) as Q2. rewrite abs_IZR, mult_IZR in Q1, Q2.
    assert (B : forall x y, Rabs x <= 1 / 2 -> 2 * (y * x) <= Rabs y).
    { intros x y Hx. apply abs_between in Hx. pose proof (RRle_abs y). pose proof (RRle_abs (- y)). rewrite Rabs_Ropp in *. nra. }
    pose proof (B u (IZR n1) H1). pose proof (B v (IZR n2) H2). lra.
Qed.

Lemma frame60 angle0 : exists b1 b2, frame_of 60 angle0 = Ok (Frame (unit_vector angle0) (unit_vector (angle0 + 60)) (sub2 (unit_vector angle0) (unit_vector (angle0 + 60))) b1 b2 (add2 b1 b2) (2 / 3)) /\
  reciprocals2 (unit_vector angle0) (unit_vector (angle0 + 60)) = (b1, b2) /\ facts (unit_vector angle0) (unit_vector (angle0 + 60)) b1 b2 (1 / 2) (sqrt 3 / 2).
Proof.
  pose proof sqrt3_pos. destruct (recip_unit 60 angle0) as (b1 & b2 & E & F); [rewrite sin60; lra|]. rewrite sin60, cos60 in F. exists b1, b2.
  split; [|split; assumption]. unfold frame_of. rewrite translations_unit, E. reflexivity.
Qed.
Lemma frame90 angle0 : exists b1 b2, frame_of 90 angle0 = Ok (Frame (unit_vector angle0) (unit_vector (angle0 + 90)) (unit_vector angle0) b1 b2 b1 (1 / 2)) /\
  reciprocals2 (unit_vector angle0) (unit_vector (angle0 + 90)) = (b1, b2) /\ facts (unit_vector angle0) (unit_vector (angle0 + 90)) b1 b2 0 1.
Proof.
  destruct (recip_unit 90 angle0) as (b1 & b2 & E & F); [rewrite sin90; lra|]. rewrite sin90, cos90 in F. exists b1, b2.
  split; [|split; assumption]. unfold frame_of. rewrite translations_unit, E. reflexivity.
Qed.
Lemma frame120 angle0 : exists b1 b2, frame_of 120 angle0 = Ok (Frame (unit_vector angle0) (unit_vector (angle0 + 120)) (add2 (unit_vector angle0) (unit_vector (angle0 + 120))) b1 b2 (sub2 b1 b2) (2 / 3)) /\
  reciprocals2 (unit_vector angle0) (unit_vector (angle0 + 120)) = (b1, b2) /\ facts (unit_vector angle0) (unit_vector (angle0 + 120)) b1 b2 (- (1 / 2)) (sqrt 3 / 2).
Proof.
  pose proof sqrt3_pos. destruct (recip_unit 120 angle0) as (b1 & b2 & E & F); [rewrite sin120; lra|]. rewrite sin120, cos120 in F. exists b1, b2.
  split; [|split; assumption]. unfold frame_of. rewrite translations_unit, E. reflexivity.
Qed.

(** The conditions of the code *)
Definition inside (f : frame) (k : r2) : Prop :=
  Rabs (dot2 k (BzModel.b1 f)) <= M_ f /\ Rabs (dot2 k (BzModel.b2 f)) <= M_ f /\ Rabs (dot2 k (BzModel.b3 f)) <= M_ f.

Lemma dot2_add k u v : dot2 k (add2 u v) = dot2 k u + dot2 k v.
Proof. unfold dot2, add2. cbn [fst snd]. ring. Qed.
Lemma dot2_sub k u v : dot2 k (sub2 u v) = dot2 k u - dot2 k v.
Proof. unfold dot2, sub2. cbn [fst snd]. ring. Qed.

Lemma frame_zone angle angle0 : allowed angle -> exists f, frame_of angle angle0 = Ok f /\
  BzModel.a1 f = unit_vector angle0 /\ BzModel.a2 f = unit_vector (angle0 + IZR angle) /\ forall k, first_zone angle angle0 k <-> inside f k.
Proof.
  intros [-> | [-> | ->]].
  - destruct (frame60 angle0) as (b1 & b2 & E & _ & F). eexists. split; [exact E|]. split; [reflexivity|]. split; [reflexivity|]. intros k. rewrite (zone60 b1 b2) by exact F.
    unfold inside. cbn [BzModel.b1 BzModel.b2 BzModel.b3 M_]. rewrite dot2_add. reflexivity.
  - destruct (frame90 angle0) as (b1 & b2 & E & _ & F). eexists. split; [exact E|]. split; [reflexivity|]. split; [reflexivity|]. intros k. rewrite (zone90 b1 b2) by exact F.
    unfold inside. cbn [BzModel.b1 BzModel.b2 BzModel.b3 M_]. tauto.
  - destruct (frame120 angle0) as (b1 & b2 & E & _ & F). eexists. split; [exact E|]. split; [reflexivity|]. split; [reflexivity|]. intros k. rewrite (zone120 b1 b2) by exact F.
    unfold inside. cbn [BzModel.b1 BzModel.b2 BzModel.b3 M_]. rewrite dot2_sub. reflexivity.
Qed.

(** ** Sectors *)

Lemma sqrt1_pos t : 0 < sqrt (1 + Rsqr t).
Proof. apply sqrt_lt_R0. pose proof (Rle_0_sqr t). lra. Qed.

Lemma atan2_polar x y : (x, y) <> (0, 0) -> exists r, 0 < r /\ (x, y) = (r * cos (atan2 y x), r * sin (atan2 y x)).
Proof.
  intros H. unfold atan2. destruct (Rlt_dec 0 x) as [P|P]; [|destruct (Rlt_dec x 0) as [N|N]].
  - pose proof (sqrt1_pos (y / x)). exists (x * sqrt (1 + Rsqr (y / x))). rewrite cos_atan, sin_atan. split; [nra|]. f_equal; field; lra.
  - pose proof (sqrt1_pos (y / x)). exists (- x * sqrt (1 + Rsqr (y / x))). split; [nra|]. destruct (Rlt_dec y 0) as [Q|Q].
    + rewrite cos_minus, sin_minus, cos_PI, sin_PI, cos_atan, sin_atan. f_equal; field; lra.
    + rewrite neg_cos, neg_sin, cos_atan, sin_atan. f_equal; field; lra.
  - assert (x = 0) by lra. subst x. destruct (Rlt_dec 0 y) as [Q|Q]; [|destruct (Rlt_dec y 0) as [Q'|Q']].
    + exists y. rewrite cos_PI2, sin_PI2. split; [exact Q|]. f_equal; ring.
    + exists (- y). rewrite cos_neg, sin_neg, cos_PI2, sin_PI2. split; [lra|]. f_equal; ring.
    + exfalso. apply H. f_equal. lra.
Qed.

Lemma cos_Z x i : cos (x + 2 * PI * IZR i) = cos x.
Proof.
  destruct (Z_le_gt_dec 0 i) as [P|N].
  - rewrite <- (Z2Nat.id i P), <- INR_IZR_INZ. rewrite <- (cos_period x (Z.to_nat i)). f_equal. ring.
  - rewrite <- (cos_period (x + 2 * PI * IZR i) (Z.to_nat (- i))). f_equal. rewrite INR_IZR_INZ, Z2Nat.id, opp_IZR by lia. ring.
Qed.
Lemma sin_Z x i : sin (x + 2 * PI * IZR i) = sin x.
Proof.
  destruct (Z_le_gt_dec 0 i) as [P|N].
  - rewrite <- (Z2Nat.id i P), <- INR_IZR_INZ. rewrite <- (sin_period x (Z.to_nat i)). f_equal. ring.
  - rewrite <- (sin_period (x + 2 * PI * IZR i) (Z.to_nat (- i))). f_equal. rewrite INR_IZR_INZ, Z2Nat.id, opp_IZR by lia. ring.
Qed.

Lemma sector_lt angle0 n k : (0 < n)%nat -> (sector angle0 n k < n)%nat.
Proof. intros H. unfold sector. match goal with |- (Z.to_nat (?z mod _) < _)%nat => pose proof (Z.mod_pos_bound z (Z.of_nat n) ltac:(lia)) end. lia. Qed.

Lemma sector_ok angle0 n k : (0 < n)%nat -> k <> (0, 0) -> in_sector angle0 n (sector angle0 n k) k.
Proof.
  intros Hn Hk. destruct k as [x y]. destruct (atan2_polar x y Hk) as (r & Hr & E). unfold sector. cbn [fst snd]. set (t := atan2 y x) in *.
  set (phi := (t - angle0 * (PI / 180)) * (INR n / (2 * PI))). set (z := Int_part phi). pose proof PI_RGT_0 as P. pose proof (lt_0_INR n Hn) as Pn.
  exists r, (t + 2 * PI * IZR (- (z / Z.of_nat n))). split; [exact Hr|]. rewrite cos_Z, sin_Z. split; [exact E|].
  pose proof (Z.mod_pos_bound z (Z.of_nat n) ltac:(lia)) as B. rewrite S_INR, INR_IZR_INZ, Z2Nat.id by lia.
  assert (Z : IZR z = INR n * IZR (z / Z.of_nat n) + IZR (z mod Z.of_nat n)). { rewrite INR_IZR_INZ, <- mult_IZR, <- plus_IZR. f_equal. apply Z.div_mod. lia. }
  destruct (base_Int_part phi) as [B1 B2]. fold z in B1, B2. rewrite opp_IZR. set (q := IZR (z / Z.of_nat n)) in *. set (w := IZR (z mod Z.of_nat n)) in *.
  assert (T : t = angle0 * PI / 180 + 2 * PI * phi / INR n) by (unfold phi; field; split; lra). rewrite T.
  assert (Q1 : w <= phi - INR n * q) by lra. assert (Q2 : phi - INR n * q < w + 1) by lra.
  replace (angle0 * PI / 180 + 2 * PI * phi / INR n + 2 * PI * - q) with (angle0 * PI / 180 + 2 * PI * (phi - INR n * q) / INR n) by (field; lra).
  assert (I : 0 < 2 * PI * / INR n) by (apply Rmult_lt_0_compat; [lra|apply Rinv_0_lt_compat, Pn]).
  unfold Rdiv. split; nra.
Qed.

Lemma sector_unique angle0 n w w' k : (0 < n)%nat -> (w < n)%nat -> (w' < n)%nat -> in_sector angle0 n w k -> in_sector angle0 n w' k -> w = w'.
Proof.
  intros Hn Hw Hw' (r & t & Hr & E & B) (r' & t' & Hr' & E' & B'). pose proof PI_RGT_0 as P. pose proof (lt_0_INR n Hn) as Pn.
  rewrite E in E'. injection E' as Ec Es.
  assert (R : r = r'). { pose proof (sin2_cos2 t) as T. pose proof (sin2_cos2 t') as T'. unfold Rsqr in T, T'.
    assert (r * r = r' * r'). { transitivity ((r * cos t) * (r * cos t) + (r * sin t) * (r * sin t)); [|rewrite Ec, Es].
      - transitivity (r * r * (sin t * sin t + cos t * cos t)); [rewrite T; ring|ring].
      - transitivity (r' * r' * (sin t' * sin t' + cos t' * cos t')); [ring|rewrite T'; ring]. }
    nra. }
  subst r'. apply Rmult_eq_reg_l in Ec; [|lra]. apply Rmult_eq_reg_l in Es; [|lra].
  assert (C : cos (t - t') = 1). { rewrite cos_minus, Ec, Es. pose proof (sin2_cos2 t') as T'. unfold Rsqr in T'. lra. }
  destruct (cos_one _ C) as [m Em].
  assert (Up : forall v, (v < n)%nat -> 0 <= 2 * PI * INR v / INR n /\ 2 * PI * INR (S v) / INR n <= 2 * PI).
  { intros v Hv. assert (Vn : INR (S v) <= INR n) by (apply le_INR; lia). pose proof (pos_INR v). split.
    - apply Rmult_le_pos; [nra|left; apply Rinv_0_lt_compat, Pn].
    - apply Rmult_le_reg_r with (INR n); [exact Pn|]. unfold Rdiv. rewrite Rmult_assoc, Rinv_l by lra. nra. }
  destruct (Up w Hw), (Up w' Hw').
  assert (m = 0)%Z. { assert (-1 < m < 1)%Z; [|lia]. split; apply lt_IZR; nra. }
  subst m. assert (t = t') by lra. subst t'.
  assert (L : forall v, 2 * PI * INR v / INR n = INR v * (2 * PI / INR n)) by (intros; field; lra). rewrite !L in *.
  assert (I : 0 < 2 * PI / INR n) by (apply Rdiv_lt_0_compat; lra).
  assert (L1 : INR w < INR (S w')) by nra. assert (L2 : INR w' < INR (S w)) by nra. apply INR_lt in L1, L2. lia.
Qed.

(** ** Extents *)

Lemma max3_ge x y z : x <= max3 x y z /\ y <= max3 x y z /\ z <= max3 x y z.
Proof. unfold max3. pose proof (Rmax_l (Rmax x y) z). pose proof (Rmax_r (Rmax x y) z). pose proof (Rmax_l x y). pose proof (Rmax_r x y). lra. Qed.
Lemma max3_in x y z : max3 x y z = x \/ max3 x y z = y \/ max3 x y z = z.
Proof. unfold max3. apply Rmax_case; [apply Rmax_case|]; auto. Qed.

Lemma linear_fst x y u v : fst (add2 (scale2 x u) (scale2 y v)) = x * fst u + y * fst v. Proof. reflexivity. Qed.
Lemma linear_snd x y u v : snd (add2 (scale2 x u) (scale2 y v)) = x * snd u + y * snd v. Proof. reflexivity. Qed.

(** Coordinates are linear. *)
Definition linear (p : r2 -> R) : Prop := forall x y u v, p (add2 (scale2 x u) (scale2 y v)) = x * p u + y * p v.

Definition extent (p : r2 -> R) (f : frame) : R := max3 (Rabs (p (BzModel.a1 f))) (Rabs (p (BzModel.a2 f))) (Rabs (p (BzModel.a3 f))) * M_ f.

Lemma hex_bound_abs M m u v x y : Rabs u <= M -> Rabs v <= M -> Rabs (u - v) <= M -> Rabs x <= m -> Rabs y <= m -> Rabs (x + y) <= m ->
  Rabs (u * x + v * y) <= M * m.
Proof.
  intros. apply Rabs_le. split; [|apply hex_bound; assumption].
  pose proof (hex_bound M m (- u) (- v) x y) as B. rewrite !Rabs_Ropp in B. replace (- u - - v) with (- (u - v)) in B by ring. rewrite Rabs_Ropp in B. specialize (B H H0 H1 H2 H3 H4). lra.
Qed.

Lemma extent_hex angle angle0 p : (angle = 60 \/ angle = 120)%Z -> linear p -> exists f, frame_of angle angle0 = Ok f /\ largest p (first_zone angle angle0) (extent p f).
Proof.
  intros Ha Hp.
  assert (Hs : forall c v, p (scale2 c v) = c * p v). { intros c v. rewrite <- (Rplus_0_r (c * p v)), <- (Rmult_0_l (p v)), <- Hp. f_equal. apply r2_ext; cbn; ring. }
  destruct Ha as [-> | ->].
  - destruct (frame60 angle0) as (b1 & b2 & E & _ & F). eexists. split; [exact E|]. set (a1 := unit_vector angle0) in *. set (a2 := unit_vector (angle0 + 60)) in *.
    unfold extent. cbn [BzModel.a1 BzModel.a2 BzModel.a3 M_]. set (m := max3 _ _ _). destruct (max3_ge (Rabs (p a1)) (Rabs (p a2)) (Rabs (p (sub2 a1 a2)))) as (G1 & G2 & G3). fold m in G1, G2, G3.
    assert (S : p (sub2 a1 a2) = p a1 - p a2). { transitivity (1 * p a1 + -1 * p a2); [rewrite <- Hp; f_equal; apply r2_ext; cbn; ring|ring]. }
    assert (Z : forall k, first_zone 60 angle0 k <-> Rabs (dot2 k b1) <= 2 / 3 /\ Rabs (dot2 k b2) <= 2 / 3 /\ Rabs (dot2 k b1 + dot2 k b2) <= 2 / 3) by (intros k; apply zone60, F).
    assert (D : forall x y, dot2 (add2 (scale2 x a1) (scale2 y a2)) b1 = x /\ dot2 (add2 (scale2 x a1) (scale2 y a2)) b2 = y).
    { intros x y. rewrite !(dot2_comm (add2 _ _)), !dot2_lin, !(dot2_comm _ a1), !(dot2_comm _ a2), (dual11 _ _ _ _ _ _ F), (dual12 _ _ _ _ _ _ F), (dual21 _ _ _ _ _ _ F), (dual22 _ _ _ _ _ _ F). split; ring. }
    split.
    + intros k Hk. apply Z in Hk. destruct Hk as (H1 & H2 & H3). rewrite (expand_a _ _ _ _ _ _ F k), Hp. replace (dot2 k b1 * p a1 + dot2 k b2 * p a2) with (dot2 k b1 * p a1 + (- dot2 k b2) * (- p a2)) by ring.
      rewrite (Rmult_comm m). apply hex_bound_abs; rewrite ?Rabs_Ropp; try assumption.
      * replace (dot2 k b1 - - dot2 k b2) with (dot2 k b1 + dot2 k b2) by ring. exact H3.
      * change (p a1 + - p a2) with (p a1 - p a2). rewrite <- S. exact G3.
    + assert (W : exists x y, Rabs x <= 2 / 3 /\ Rabs y <= 2 / 3 /\ Rabs (x + y) <= 2 / 3 /\ Rabs (x * p a1 + y * p a2) = m * (2 / 3)).
      { destruct (max3_in (Rabs (p a1)) (Rabs (p a2)) (Rabs (p (sub2 a1 a2)))) as [X|[X|X]]; fold m in X; rewrite X.
        - exists (2 / 3), 0. rewrite Rmult_0_l, !Rplus_0_r, Rabs_R0, Rabs_mult, (Rabs_right (2 / 3)) by lra. repeat split; lra.
        - exists 0, (2 / 3). rewrite Rmult_0_l, !Rplus_0_l, Rabs_R0, Rabs_mult, (Rabs_right (2 / 3)) by lra. repeat split; lra.
        - exists (2 / 3), (- (2 / 3)). replace (2 / 3 * p a1 + - (2 / 3) * p a2) with (2 / 3 * p (sub2 a1 a2)) by (rewrite S; ring). rewrite Rplus_opp_r, Rabs_R0, Rabs_Ropp, Rabs_mult, (Rabs_right (2 / 3)) by lra. repeat split; lra. }
      destruct W as (x & y & W1 & W2 & W3 & W4). exists (add2 (scale2 x a1) (scale2 y a2)). rewrite Z, (proj1 (D x y)), (proj2 (D x y)), Hp. auto.
  - destruct (frame120 angle0) as (b1 & b2 & E & _ & F). eexists. split; [exact E|]. set (a1 := unit_vector angle0) in *. set (a2 := unit_vector (angle0 + 120)) in *.
    unfold extent. cbn [BzModel.a1 BzModel.a2 BzModel.a3 M_]. set (m := max3 _ _ _). destruct (max3_ge (Rabs (p a1)) (Rabs (p a2)) (Rabs (p (add2 a1 a2)))) as (G1 & G2 & G3). fold m in G1, G2, G3.
    assert (S : p (add2 a1 a2) = p a1 + p a2). { transitivity (1 * p a1 + 1 * p a2); [rewrite <- Hp; f_equal; apply r2_ext; cbn; ring|ring]. }
    assert (Z : forall k, first_zone 120 angle0 k <-> Rabs (dot2 k b1) <= 2 / 3 /\ Rabs (dot2 k b2) <= 2 / 3 /\ Rabs (dot2 k b1 - dot2 k b2) <= 2 / 3) by (intros k; apply zone120, F).
    assert (D : forall x y, dot2 (add2 (scale2 x a1) (scale2 y a2)) b1 = x /\ dot2 (add2 (scale2 x a1) (scale2 y a2)) b2 = y).
    { intros x y. rewrite !(dot2_comm (add2 _ _)), !dot2_lin, !(dot2_comm _ a1), !(dot2_comm _ a2), (dual11 _ _ _ _ _ _ F), (dual12 _ _ _ _ _ _ F), (dual21 _ _ _ _ _ _ F), (dual22 _ _ _ _ _ _ F). split; ring. }
    split.
    + intros k Hk. apply Z in Hk. destruct Hk as (H1 & H2 & H3). rewrite (expand_a _ _ _ _ _ _ F k), Hp.
      rewrite (Rmult_comm m). apply hex_bound_abs; try assumption. rewrite <- S. exact G3.
    + assert (W : exists x y, Rabs x <= 2 / 3 /\ Rabs y <= 2 / 3 /\ Rabs (x - y) <= 2 / 3 /\ Rabs (x * p a1 + y * p a2) = m * (2 / 3)).
      { destruct (max3_in (Rabs (p a1)) (Rabs (p a2)) (Rabs (p (add2 a1 a2)))) as [X|[X|X]]; fold m in X; rewrite X.
        - exists (2 / 3), 0. rewrite Rmult_0_l, !Rplus_0_r, Rminus_0_r, Rabs_R0, Rabs_mult, (Rabs_right (2 / 3)) by lra. repeat split; lra.
        - exists 0, (2 / 3). rewrite Rmult_0_l, !Rplus_0_l, Rminus_0_l, Rabs_Ropp, Rabs_R0, Rabs_mult, (Rabs_right (2 / 3)) by lra. repeat split; lra.
        - exists (2 / 3), (2 / 3). replace (2 / 3 * p a1 + 2 / 3 * p a2) with (2 / 3 * p (add2 a1 a2)) by (rewrite S; ring). rewrite Rminus_diag_eq, Rabs_R0, Rabs_mult, (Rabs_right (2 / 3)) by lra. repeat split; lra. }
      destruct W as (x & y & W1 & W2 & W3 & W4). exists (add2 (scale2 x a1) (scale2 y a2)). rewrite Z, (proj1 (D x y)), (proj2 (D x y)), Hp. auto.
Qed.

Lemma kxmax_extent f : kxmax f = extent fst f. Proof. reflexivity. Qed.
Lemma kymax_extent f : kymax f = extent snd f. Proof. reflexivity. Qed.
Lemma linear_x : linear fst. Proof. intros x y u v. reflexivity. Qed.
Lemma linear_y : linear snd. Proof. intros x y u v. reflexivity. Qed.

Lemma unit_0 : unit_vector 0 = (1, 0).
Proof. unfold unit_vector. replace (0 * PI / 180) with 0 by field. rewrite cos_0, sin_0. reflexivity. Qed.
Lemma unit_90 : unit_vector (0 + 90) = (0, 1).
Proof. unfold unit_vector. replace ((0 + 90) * PI / 180) with (PI / 2) by field. rewrite cos_PI2, sin_PI2. reflexivity. Qed.

Lemma square_zone angle0 : exists b1 b2, frame_of 90 angle0 = Ok (Frame (unit_vector angle0) (unit_vector (angle0 + 90)) (unit_vector angle0) b1 b2 b1 (1 / 2)) /\
  (forall k, dot2 k b1 = dot2 k (unit_vector angle0)) /\ (forall k, dot2 k b2 = dot2 k (unit_vector (angle0 + 90))) /\
  forall k, first_zone 90 angle0 k <-> Rabs (dot2 k (unit_vector angle0)) <= 1 / 2 /\ Rabs (dot2 k (unit_vector (angle0 + 90))) <= 1 / 2.
Proof.
  destruct (frame90 angle0) as (b1 & b2 & E & _ & F). exists b1, b2. split; [exact E|]. set (a1 := unit_vector angle0) in *. set (a2 := unit_vector (angle0 + 90)) in *.
  assert (O : dot2 a1 a2 = 0) by (unfold a1, a2; rewrite unit_dot; apply cos90). pose proof (unit_norm angle0) as N1. pose proof (unit_norm (angle0 + 90)) as N2. fold a1 in N1. fold a2 in N2.
  assert (B1 : b1 = a1). { rewrite (expand_b _ _ _ _ _ _ F a1), N1, dot2_comm, O. apply r2_ext; cbn; ring. }
  assert (B2 : b2 = a2). { rewrite (expand_b _ _ _ _ _ _ F a2), N2, O. apply r2_ext; cbn; ring. }
  rewrite B1, B2 in *. split; [reflexivity|]. split; [reflexivity|]. intros k. apply (zone90 a1 a2), F.
Qed.

Lemma extent_square : exists f, frame_of 90 0 = Ok f /\ kxmax f = 1 / 2 /\ kymax f = 1 / 2 /\ largest fst (first_zone 90 0) (1 / 2) /\ largest snd (first_zone 90 0) (1 / 2).
Proof.
  destruct (square_zone 0) as (b1 & b2 & E & _ & _ & Z). eexists. split; [exact E|]. unfold kxmax, kymax. cbn [BzModel.a1 BzModel.a2 BzModel.a3 M_].
  rewrite unit_90, unit_0. cbn [fst snd]. rewrite Rabs_R0, Rabs_R1. unfold max3.
  assert (Z' : forall k, first_zone 90 0 k <-> Rabs (fst k) <= 1 / 2 /\ Rabs (snd k) <= 1 / 2).
  { intros k. rewrite Z, unit_90, unit_0. unfold dot2. cbn [fst snd]. replace (fst k * 1 + snd k * 0) with (fst k) by ring. replace (fst k * 0 + snd k * 1) with (snd k) by ring. reflexivity. }
  assert (H : Rabs (1 / 2) = 1 / 2) by (apply Rabs_right; lra).
  split; [rewrite (Rmax_left 1 0), Rmax_left by lra; lra|]. split; [rewrite (Rmax_right 0 1), Rmax_left by lra; lra|]. split; split.
  - intros k Hk. apply Z', Hk.
  - exists (1 / 2, 1 / 2). rewrite Z'. cbn [fst snd]. lra.
  - intros k Hk. apply Z', Hk.
  - exists (1 / 2, 1 / 2). rewrite Z'. cbn [fst snd]. lra.
Qed.

(** Rotated by 45 degrees, the corners are cut off. *)
Lemma square_cut : exists f k, frame_of 90 45 = Ok f /\ first_zone 90 45 k /\ kxmax f < Rabs (fst k).
Proof.
  destruct (square_zone 45) as (b1 & b2 & E & _ & _ & Z).
  assert (U1 : unit_vector 45 = (1 / sqrt 2, 1 / sqrt 2)). { unfold unit_vector. replace (45 * PI / 180) with (PI / 4) by field. rewrite cos_PI4, sin_PI4. reflexivity. }
  assert (U2 : unit_vector (45 + 90) = (- (1 / sqrt 2), 1 / sqrt 2)).
  { unfold unit_vector. replace ((45 + 90) * PI / 180) with (PI - PI / 4) by field. rewrite Rtrigo_facts.cos_pi_minus, Rtrigo_facts.sin_pi_minus, cos_PI4, sin_PI4. reflexivity. }
  eexists. exists (1 / 2 * sqrt 2, 0). split; [exact E|]. rewrite Z. unfold kxmax. cbn [BzModel.a1 BzModel.a2 BzModel.a3 M_]. rewrite U1, U2. unfold dot2. cbn [fst snd].
  pose proof (sqrt_sqrt 2 ltac:(lra)) as S. pose proof (sqrt_lt_R0 2 ltac:(lra)) as P.
  replace (1 / 2 * sqrt 2 * (1 / sqrt 2) + 0 * (1 / sqrt 2)) with (1 / 2) by (field; lra). replace (1 / 2 * sqrt 2 * - (1 / sqrt 2) + 0 * (1 / sqrt 2)) with (- (1 / 2)) by (field; lra).
  assert (I : 0 < 1 / sqrt 2) by (apply Rdiv_lt_0_compat; lra).
  rewrite !Rabs_Ropp, !(Rabs_right (1 / sqrt 2)), (Rabs_right (1 / 2)), (Rabs_right (1 / 2 * sqrt 2)) by lra. unfold max3. rewrite !(Rmax_left (1 / sqrt 2) (1 / sqrt 2)) by lra. split; [lra|].
  assert (L : 1 / sqrt 2 < sqrt 2); [|lra]. apply Rmult_lt_reg_r with (sqrt 2); [exact P|]. unfold Rdiv. rewrite Rmult_assoc, Rinv_l by lra. lra.
Qed.

(** ** Pixels *)

Lemma midpoint_centre X n i : (i < n)%nat -> midpoint X n i = X * ((2 * INR i + 1) / INR n - 1).
Proof. intros H. pose proof (lt_0_INR n ltac:(lia)). unfold midpoint. field. lra. Qed.
Lemma midpoint_rev X n i : (i < n)%nat -> midpoint X n (n - 1 - i) = X * (1 - (2 * INR i + 1) / INR n).
Proof.
  intros H. pose proof (lt_0_INR n ltac:(lia)). rewrite midpoint_centre by lia. rewrite !minus_INR by lia. cbn [INR]. field. lra.
Qed.

Lemma pixels_ok points even X : (0 <= points)%Z -> 0 <= X -> resolution points even X (pixels points even X).
Proof.
  intros Hp HX. unfold resolution, pixels. set (n := np_round (IZR points * X)). pose proof (np_round_near (IZR points * X)) as B. fold n in B.
  assert (N0 : (0 <= n)%Z). { assert (-1 < n)%Z; [|lia]. apply lt_IZR. pose proof (Rmult_le_pos _ _ (IZR_le _ _ Hp) HX). apply abs_between in B. lra. }
  destruct even.
  - pose proof (Z.mod_pos_bound n 2 ltac:(lia)) as M. split.
    + apply Nat.even_spec. rewrite <- (Nat2Z.id (Z.to_nat (n + n mod 2))) at 1. assert (Ev : Z.even (n + n mod 2) = true). { rewrite Z.even_spec. exists ((n + n mod 2) / 2)%Z. pose proof (Z.div_mod n 2 ltac:(lia)). assert ((n + n mod 2) mod 2 = 0)%Z. { rewrite Z.add_mod_idemp_r by lia. replace (n + n)%Z with (n * 2)%Z by ring. apply Z.mod_mul. lia. } pose proof (Z.div_mod (n + n mod 2) 2 ltac:(lia)). lia. }
      rewrite Nat2Z.id. apply Nat.even_spec. apply Z.even_spec in Ev. destruct Ev as [m Em]. exists (Z.to_nat m). lia.
    + rewrite INR_IZR_INZ, Z2Nat.id, plus_IZR by lia. assert (0 <= IZR (n mod 2) <= 1) by (split; apply IZR_le; lia). apply abs_between in B. apply Rabs_le. lra.
  - rewrite INR_IZR_INZ, Z2Nat.id by lia. exact B.
Qed.

(** A pixel close to any point of the image *)
Lemma pixel_near X n x : (0 < n)%nat -> 0 <= X -> Rabs x <= X -> exists i, (i < n)%nat /\ Rabs (x - X * ((2 * INR i + 1) / INR n - 1)) <= X / INR n.
Proof.
  intros Hn HX Hx. apply abs_between in Hx. pose proof (lt_0_INR n Hn) as Pn. destruct (Rle_lt_or_eq_dec 0 X HX) as [P|<-].
  - set (y := (x + X) * INR n / (2 * X)). assert (Ex : x = X * (2 * y / INR n - 1)) by (unfold y; field; lra).
    assert (Y0 : 0 <= y) by (unfold y; apply Rmult_le_pos; [nra|left; apply Rinv_0_lt_compat; lra]).
    assert (Y1 : y <= INR n). { unfold y. apply Rmult_le_reg_r with (2 * X); [lra|]. unfold Rdiv. rewrite Rmult_assoc, Rinv_l by lra. nra. }
    assert (W : exists i, (i < n)%nat /\ INR i <= y <= INR i + 1).
    { destruct (Rle_lt_or_eq_dec y (INR n) Y1) as [L|L].
      - destruct (base_Int_part y) as [B1 B2]. assert (Z0 : (0 <= Int_part y)%Z) by (assert (-1 < Int_part y)%Z; [apply lt_IZR; lra|lia]).
        exists (Z.to_nat (Int_part y)). rewrite INR_IZR_INZ, Z2Nat.id by exact Z0. split; [|lra]. apply INR_lt. rewrite INR_IZR_INZ, Z2Nat.id by exact Z0. lra.
      - exists (n - 1)%nat. rewrite minus_INR by lia. cbn [INR]. split; [lia|lra]. }
    destruct W as (i & Hi & B). exists i. split; [exact Hi|]. rewrite Ex.
    replace (X * (2 * y / INR n - 1) - X * ((2 * INR i + 1) / INR n - 1)) with (X / INR n * (2 * (y - INR i) - 1)) by (field; lra).
    assert (I : 0 < X / INR n) by (apply Rdiv_lt_0_compat; lra). rewrite Rabs_mult, (Rabs_right (X / INR n)) by lra.
    assert (Rabs (2 * (y - INR i) - 1) <= 1) by (apply Rabs_le; lra). nra.
  - exists 0%nat. split; [exact Hn|]. replace x with 0 by lra. rewrite Rmult_0_l, Rminus_0_r, Rabs_R0. unfold Rdiv. lra.
Qed.

Section Image.
  Context {A : Type}.
  Variables (angle : Z) (angle0 : R) (points : Z) (even : bool) (ndata : nat) (fn : nat -> R -> R -> A) (nk : nat) (outside : A) (f : frame).
  Hypotheses (Ha : allowed angle) (Hf : frame_of angle angle0 = Ok f) (Hd : (0 < ndata)%nat).

  Let nx := pixels points even (kxmax f).
  Let ny := pixels points even (kymax f).

  Lemma pixel_at i j : (i < ny)%nat -> (j < nx)%nat ->
    let k := centre (kxmax f) (kymax f) nx ny i j in
    let p := pixel f angle0 points even ndata fn nk outside (i * nx + j) in
    (~ first_zone angle angle0 k -> p = outside) /\
    (first_zone angle angle0 k -> p = fn (sector angle0 ndata k) (dot2 k (unit_vector angle0) * INR nk) (dot2 k (unit_vector (angle0 + IZR angle)) * INR nk)).
  Proof.
    intros Hi Hj k p. destruct (frame_zone angle angle0 Ha) as (f' & E & E1 & E2 & Z). rewrite Hf in E. injection E as <-.
    assert (Ep : p = if Rlt_dec (M_ f) (Rabs (dot2 k (BzModel.b1 f))) then outside
      else if Rlt_dec (M_ f) (Rabs (dot2 k (BzModel.b2 f))) then outside
      else if Rlt_dec (M_ f) (Rabs (dot2 k (BzModel.b3 f))) then outside
      else fn (sector angle0 ndata k) (dot2 k (BzModel.a1 f) * INR nk) (dot2 k (BzModel.a2 f) * INR nk)).
    { unfold p, pixel. fold nx. unfold nkx. fold nx.
      assert (D1 : ((i * nx + j) / nx = i)%nat) by (rewrite Nat.div_add_l, Nat.div_small by lia; lia).
      assert (D2 : ((i * nx + j) mod nx = j)%nat) by (rewrite Nat.add_comm, Nat.mod_add, Nat.mod_small by lia; reflexivity).
      rewrite D1, D2. assert (K : (kx f points even j, ky f points even i) = k).
      { unfold k, centre, kx, ky, nkx, nky. fold nx ny. rewrite midpoint_centre, midpoint_rev by assumption. reflexivity. }
      rewrite K. reflexivity. }
    rewrite Ep, Z, E1, E2. unfold inside. split.
    - intros N. destruct (Rlt_dec _ _) as [|L1]; [reflexivity|]. destruct (Rlt_dec _ _) as [|L2]; [reflexivity|]. destruct (Rlt_dec _ _) as [|L3]; [reflexivity|]. exfalso. apply N. repeat split; lra.
    - intros (I1 & I2 & I3). destruct (Rlt_dec _ _) as [L|_]; [lra|]. destruct (Rlt_dec _ _) as [L|_]; [lra|]. destruct (Rlt_dec _ _) as [L|_]; [lra|]. reflexivity.
  Qed.
End Image.

Lemma extent_nonneg angle angle0 f p : frame_of angle angle0 = Ok f -> 0 <= extent p f.
Proof.
  intros H. assert (M0 : 0 <= M_ f). { unfold frame_of in H. destruct (translations2 _ _), (reciprocals2 _ _). destruct (angle =? 60)%Z; [injection H as <-; cbn; lra|]. destruct (angle =? 90)%Z; [injection H as <-; cbn; lra|]. destruct (angle =? 120)%Z; [injection H as <-; cbn; lra|discriminate]. }
  unfold extent. apply Rmult_le_pos; [|exact M0]. eapply Rle_trans; [apply Rabs_pos|apply (proj1 (max3_ge _ (Rabs (p (BzModel.a2 f))) (Rabs (p (BzModel.a3 f)))))].
Qed.

(** ** The outline *)

Definition comb (x y : R) (u v : r2) : r2 := add2 (scale2 x u) (scale2 y v).

Lemma edge b1 b2 d p q k1 k2 : d <> 0 ->
  let P := scale2 (/ d) (comb (IZR (fst p)) (IZR (snd p)) b1 b2) in
  let Q := scale2 (/ d) (comb (IZR (fst q)) (IZR (snd q)) b1 b2) in
  let k := comb k1 k2 b1 b2 in
  (fst Q - fst P) * (snd k - snd P) - (snd Q - snd P) * (fst k - fst P) =
  cross2 b1 b2 * ((IZR (fst q - fst p) * (d * k2 - IZR (snd p)) - IZR (snd q - snd p) * (d * k1 - IZR (fst p))) * / (d * d)).
Proof.
  intros Hd. cbn zeta. unfold cross2, comb, add2, scale2. cbn [fst snd]. rewrite !minus_IZR. field. exact Hd.
Qed.

Lemma edge_sign c x : 0 < c -> (0 <= c * x <-> 0 <= x).
Proof. intros H. split; intros; nra. Qed.

Fixpoint left_int (d : R) (K : list (Z * Z)) (k1 k2 : R) : Prop :=
  match K with
  | p :: rest =>
    match rest with
    | q :: _ => 0 <= IZR (fst q - fst p) * (d * k2 - IZR (snd p)) - IZR (snd q - snd p) * (d * k1 - IZR (fst p)) /\ left_int d rest k1 k2
    | [] => True
    end
  | [] => True
  end.

Lemma left_corners b1 b2 d K k1 k2 : 0 < d -> 0 < cross2 b1 b2 -> left_of_all (corners b1 b2 d K) (comb k1 k2 b1 b2) <-> left_int d K k1 k2.
Proof.
  intros Hd Hc. induction K as [|p K IH]; [reflexivity|]. destruct K as [|q K]; [reflexivity|].
  cbn [left_int]. rewrite <- IH. cbn [corners map left_of_all]. fold (comb (IZR (fst p)) (IZR (snd p)) b1 b2). fold (comb (IZR (fst q)) (IZR (snd q)) b1 b2).
  rewrite edge, edge_sign by lra. assert (I : 0 < / (d * d)) by (apply Rinv_0_lt_compat; nra). rewrite (Rmult_comm _ (/ (d * d))), edge_sign by exact I. reflexivity.
Qed.

Lemma products a1 a2 b1 b2 c s k : facts a1 a2 b1 b2 c s -> 
  dot2 k b1 = dot2 a1 k * / (s * s) + dot2 a2 k * (- c / (s * s)) /\ dot2 k b2 = dot2 a1 k * (- c / (s * s)) + dot2 a2 k * / (s * s).
Proof.
  intros F. set (k1 := dot2 a1 k). set (k2 := dot2 a2 k). pose proof (expand_b _ _ _ _ _ _ F k) as E. fold k1 k2 in E. rewrite E, !(dot2_comm (add2 _ _)), !dot2_lin.
  rewrite (dot2_comm b2 b1), (gram11 _ _ _ _ _ _ F), (gram12 _ _ _ _ _ _ F), (gram22 _ _ _ _ _ _ F). split; reflexivity.
Qed.

Lemma abs_iff x y : Rabs x <= y <-> - y <= x <= y.
Proof. split; [apply abs_between|apply Rabs_le]. Qed.

Lemma outline60 angle0 k : exists l, BZ 60 angle0 = Ok l /\ (left_of_all l k <-> first_zone 60 angle0 k).
Proof.
  destruct (frame60 angle0) as (b1 & b2 & _ & E & F). unfold BZ. rewrite translations_unit, E. cbn [Z.eqb Pos.eqb]. eexists. split; [reflexivity|].
  pose proof (cross_b _ _ _ _ _ _ F) as C. pose proof sqrt3_pos as S. destruct (products _ _ _ _ _ _ k F) as [U V]. rewrite sqrt3_4 in U, V.
  rewrite (zone60 b1 b2 angle0 k F), !U, !V. rewrite (expand_b _ _ _ _ _ _ F k) at 1. change (add2 (scale2 ?x b1) (scale2 ?y b2)) with (comb x y b1 b2).
  rewrite left_corners by (try (rewrite C; apply Rinv_0_lt_compat; exact S); lra).
  generalize (dot2 (unit_vector angle0) k) (dot2 (unit_vector (angle0 + 60)) k). intros k1 k2. rewrite !abs_iff. cbn [left_int fst snd]. rewrite !minus_IZR. split; intros; repeat split; lra.
Qed.

Lemma outline120 angle0 k : exists l, BZ 120 angle0 = Ok l /\ (left_of_all l k <-> first_zone 120 angle0 k).
Proof.
  destruct (frame120 angle0) as (b1 & b2 & _ & E & F). unfold BZ. rewrite translations_unit, E. cbn [Z.eqb Pos.eqb]. eexists. split; [reflexivity|].
  pose proof (cross_b _ _ _ _ _ _ F) as C. pose proof sqrt3_pos as S. destruct (products _ _ _ _ _ _ k F) as [U V]. rewrite sqrt3_4 in U, V.
  rewrite (zone120 b1 b2 angle0 k F), !U, !V. rewrite (expand_b _ _ _ _ _ _ F k) at 1. change (add2 (scale2 ?x b1) (scale2 ?y b2)) with (comb x y b1 b2).
  rewrite left_corners by (try (rewrite C; apply Rinv_0_lt_compat; exact S); lra).
  generalize (dot2 (unit_vector angle0) k) (dot2 (unit_vector (angle0 + 120)) k). intros k1 k2. rewrite !abs_iff. cbn [left_int fst snd]. rewrite !minus_IZR. split; intros; repeat split; lra.
Qed.

Lemma outline90 angle0 k : exists l, BZ 90 angle0 = Ok l /\ (left_of_all l k <-> first_zone 90 angle0 (scale2 (1 / 2) k)).
Proof.
  destruct (frame90 angle0) as (b1 & b2 & _ & E & F). unfold BZ. rewrite translations_unit, E. cbn [Z.eqb Pos.eqb]. eexists. split; [reflexivity|].
  pose proof (cross_b _ _ _ _ _ _ F) as C. destruct (products _ _ _ _ _ _ k F) as [U V].
  rewrite (zone90 b1 b2 angle0 _ F), (expand_b _ _ _ _ _ _ F k) at 1. change (add2 (scale2 ?x b1) (scale2 ?y b2)) with (comb x y b1 b2).
  rewrite left_corners by (try rewrite C; lra).
  assert (H : forall v, dot2 (scale2 (1 / 2) k) v = 1 / 2 * dot2 k v) by (intros v; unfold dot2, scale2; cbn [fst snd]; ring). rewrite !H, U, V.
  generalize (dot2 (unit_vector angle0) k) (dot2 (unit_vector (angle0 + 90)) k). intros k1 k2. rewrite !abs_iff. cbn [left_int fst snd]. rewrite !minus_IZR. split; intros; repeat split; lra.
Qed.
