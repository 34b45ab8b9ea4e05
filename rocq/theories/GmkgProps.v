(** C100: the path from the origin via M and K through the hexagonal Brillouin zone. *)
From Coq Require Import Reals Lra Lia Psatz List ZArith.
From Verif Require Import Common CommonProofs GeoModel GeoProofs DiagModel DiagProofs BzModel BzSpec BzProofs GmkgModel GmkgSpec GmkgProofs.
Import ListNotations.
Local Open Scope R_scope.

Lemma k_special angle straight lift : point_k angle straight lift = scale2 (factor straight lift) (special_K angle straight).
Proof.
  destruct (K_eq angle straight lift) as [_ ->]. unfold k_of, K_of, special_K. destruct straight, (angle =? 60)%Z; apply r2_ext; unfold scale2; cbn [fst snd]; field.
Qed.

(** ** Corners

    The path starts and ends at the origin, and the corner indices are those of M and K.
    The last point reached before K is left out of account; K is found in the orientation
    required for the last part of the path. The degeneracy-lifting shift multiplies K by a
    factor slightly smaller than one. *)
Theorem C100_corners_partial N mesh angle straight lift : (2 <= N)%Z ->
  exists path x i1 i2 i3 f, GMKG N mesh angle straight lift = Ok (path, x, map Z.of_nat [0; i1; i2; i3]%nat) /\
    (0 < i1 < i2 /\ i2 < i3)%nat /\ length path = S i3 /\ length x = S i3 /\
    nth_error path 0 = Some (0, 0) /\ nth_error path i1 = Some special_M /\ nth_error path i2 = Some (scale2 f (special_K angle straight)) /\ nth_error path i3 = Some (0, 0) /\
    nth_error x 0 = Some 0 /\ nth_error x i1 = Some (1 / sqrt 3) /\ nth_error x i2 = Some (1 / sqrt 3 + 1 / 3) /\ nth_error x i3 = Some (1 / sqrt 3 + 1) /\
    (lift = false -> f = 1) /\ 1 - 2 / 10 ^ 10 <= f <= 1.
Proof.
  intros HN. destruct (numbers_ok N mesh HN) as (n1 & n2 & n3 & E & H1 & H2 & H3 & _). destruct (path_ok N mesh angle straight lift n1 n2 n3 E H1 H2 H3) as (path & x & EG & LP & LX & V).
  assert (N1 : INR n1 <> 0) by (apply not_0_INR; lia). assert (N2 : INR n2 <> 0) by (apply not_0_INR; lia). assert (N3 : INR n3 <> 0) by (apply not_0_INR; lia).
  exists path, x, n1, (n1 + n2)%nat, (n1 + n2 + n3)%nat, (factor straight lift). split; [exact EG|]. split; [lia|]. split; [lia|]. split; [lia|].
  destruct (V 0%nat ltac:(lia)) as [-> ->]. destruct (V n1 ltac:(lia)) as [-> ->]. destruct (V (n1 + n2)%nat ltac:(lia)) as [-> ->]. destruct (V (n1 + n2 + n3)%nat ltac:(lia)) as [-> ->].
  destruct (at_first angle straight lift n1 n2 n3 H1 H2 H3 0 ltac:(lia)) as [-> ->]. destruct (at_first angle straight lift n1 n2 n3 H1 H2 H3 n1 ltac:(lia)) as [-> ->].
  destruct (at_third angle straight lift n1 n2 n3 H1 H2 H3 0) as [T1 T2]. rewrite Nat.add_0_r in T1, T2. rewrite T1, T2. destruct (at_third angle straight lift n1 n2 n3 H1 H2 H3 n3) as [-> ->].
  rewrite k_special, M_eq. unfold special_M. replace (INR n1 / INR n1) with 1 by (field; assumption). replace (INR n3 / INR n3) with 1 by (field; assumption). cbn [INR]. replace (0 / INR n1) with 0 by (unfold Rdiv; ring). replace (0 / INR n3) with 0 by (unfold Rdiv; ring).
  unfold lerp2, lerp, L1, L2, L3. cbn [fst snd].
  do 8 (split; [apply f_equal; first [apply r2_ext; cbn [fst snd]; ring|field; pose proof sqrt3_bounds; lra]|]). split; [intros ->; reflexivity|].
  unfold factor, shrink. assert (T : 0 < / 10 ^ 10 < 1 / 10) by (split; [apply Rinv_0_lt_compat; lra|]; apply Rmult_lt_reg_l with (10 ^ 10); [lra|]; rewrite Rinv_r by lra; lra).
  unfold Rdiv. destruct lift, straight; nra.
Qed.
Print Assumptions C100_corners_partial.

(** What is missing: for a very small number of points, corners coincide: M is not on the
    path, or (no points at all required) the path consists of K only. *)
Theorem C100_corners_refuted mesh angle straight : 
  GMKG 0 mesh angle straight false = Ok ([special_K angle straight], [1 / sqrt 3 + 1 / 3], [0; 0; 0; 0]%Z) /\
  GMKG 1 mesh angle straight false = Ok ([(0, 0); special_K angle straight; (0, 0)], [0; 1 / sqrt 3 + 1 / 3; 1 / sqrt 3 + 1], [0; 1; 1; 2]%Z).
Proof.
  pose proof L1_bounds as B. pose proof sqrt3_bounds as S3. pose proof (k_special angle straight false) as Kk. unfold point_k in Kk.
  assert (R0 : np_round 0 = 0%Z) by (apply np_round_unique; rewrite Rminus_0_r, Rabs_R0; lra).
  assert (R1 : np_round (1 * L1) = 1%Z) by (apply np_round_unique; rewrite Rmult_1_l; apply Rabs_def1; lra).
  assert (R2 : np_round (1 * L2) = 0%Z) by (apply np_round_unique; unfold L2; apply Rabs_def1; lra).
  assert (R3 : np_round (1 * L3) = 1%Z) by (apply np_round_unique; unfold L3; apply Rabs_def1; lra).
  unfold GMKG. destruct (points_K angle straight false) as [K k]. cbn [snd] in Kk. unfold factor in Kk.
  assert (Ek : k = special_K angle straight) by (rewrite Kk; apply r2_ext; unfold scale2; cbn [fst snd]; ring). rewrite Ek. split.
  - assert (E : numbers 0 mesh = (0, 0, 1)%Z). { unfold numbers. rewrite !Rmult_0_l, R0. destruct (mesh && _); reflexivity. } rewrite E.
    unfold line, linspace. cbn. apply f_equal. apply f_equal2; [|reflexivity]. unfold L1, L2, L3. apply f_equal2; repeat apply (f_equal2 cons); try reflexivity; [apply r2_ext; cbn [fst snd INR]; ring|cbn [INR]; ring].
  - assert (E : numbers 1 mesh = (1, 0, 2)%Z). { unfold numbers. rewrite R1, R2, R3. change (1 mod 6 =? 0)%Z with false. rewrite andb_false_r. reflexivity. } rewrite E.
    unfold line, linspace. cbn. apply f_equal. apply f_equal2; [|reflexivity]. unfold L1, L2, L3. apply f_equal2; repeat apply (f_equal2 cons); try reflexivity; change (2 - 1)%Z with 1%Z; cbn [INR]; first [apply r2_ext; cbn [fst snd]; field|field; lra].
Qed.
Print Assumptions C100_corners_refuted.

(** Negative numbers are rejected. *)
Theorem C100_negative N mesh angle straight lift : (N < 0)%Z -> GMKG N mesh angle straight lift = Raise ValueError.
Proof.
  intros H. pose proof L1_bounds as B. assert (HN : IZR N <= -1) by (apply IZR_le; lia). assert (Q : exists N1 N2 N3, numbers N mesh = (N1, N2, N3) /\ (N1 < 0)%Z).
  { unfold numbers. destruct (mesh && (N mod 6 =? 0)%Z).
    - do 3 eexists. split; [reflexivity|]. apply Z.div_lt_upper_bound; lia.
    - do 3 eexists. split; [reflexivity|]. pose proof (np_round_near (IZR N * L1)) as R. apply lt_IZR. unfold Rabs in R. destruct (Rcase_abs _); nra. }
  destruct Q as (N1 & N2 & N3 & E & L). unfold GMKG. rewrite E. destruct (points_K _ _ _) as [K k]. unfold line, linspace. destruct (Z.ltb_spec N1 0) as [_|L']; [reflexivity|lia].
Qed.
Print Assumptions C100_negative.

(** ** Distances

    Without the shift, the second result is the length of the path in Cartesian coordinates:
    consecutive values differ by the distance between the points, where the point K (third
    corner) may have to be replaced by an equivalent one. *)
Theorem C100_distance N mesh angle straight : (2 <= N)%Z -> (angle = 60 \/ angle = 120)%Z ->
  exists path x i1 i2 i3, GMKG N mesh angle straight false = Ok (path, x, [0%Z; i1; i2; i3]) /\
  forall i p q y z, nth_error path i = Some p -> nth_error path (S i) = Some q -> nth_error x i = Some y -> nth_error x (S i) = Some z ->
    exists q', equivalent q q' /\ (Z.of_nat (S i) <> i2 \/ straight = false -> q' = q) /\
    forall u v, cartesian angle p u -> cartesian angle q' v -> distance u v = z - y.
Proof.
  intros HN Ha. destruct (numbers_ok N mesh HN) as (n1 & n2 & n3 & E & H1 & H2 & H3 & _). destruct (path_ok N mesh angle straight false n1 n2 n3 E H1 H2 H3) as (path & x & EG & LP & LX & V).
  do 5 eexists. split; [exact EG|]. intros i p q y z Ep Eq Ey Ez.
  assert (Hi : (S i < n1 + n2 + S n3)%nat) by (rewrite <- LP; apply nth_error_Some; congruence).
  destruct (V i ltac:(lia)) as [V1 V2]. destruct (V (S i) Hi) as [V3 V4]. rewrite Ep in V1. rewrite Eq in V3. rewrite Ey in V2. rewrite Ez in V4. injection V1 as ->. injection V3 as ->. injection V2 as ->. injection V4 as ->.
  set (P := path_at angle straight false n1 n2 n3). set (X := x_at n1 n2 n3).
  assert (W : exists c, (angle = 60%Z /\ c = - (1 / 2) \/ angle = 120%Z /\ c = 1 / 2) /\ forall k v, cartesian angle k v -> fst v = fst k / (2 * PI) /\ c * fst v + sqrt 3 / 2 * snd v = snd k / (2 * PI)).
  { destruct Ha as [-> | ->]; [exists (- (1 / 2)); destruct trig60 as [T1 T2]|exists (1 / 2); destruct trig120 as [T1 T2]]; (split; [tauto|]); unfold cartesian; rewrite T1, T2; tauto. }
  destruct W as (c & Hc & W). pose proof L1_bounds as B1. pose proof L1_square as B2. destruct (K_eq angle straight false) as [EK Ek]. unfold factor in EK, Ek.
  destruct (steps angle straight false n1 n2 n3 H1 H2 H3 i ltac:(lia)) as [(A & EP & EX)|[(A & EP & EQ & EX)|(A & EP & EX)]]; fold P X in EP, EX.
  - exists (P (S i)). split; [exists 0%Z, 0%Z; split; ring|]. split; [reflexivity|]. intros u v U W'. destruct (W _ _ U) as [U1 U2]. destruct (W _ _ W') as [W1 W2].
    rewrite EX. replace (X i + / INR n1 * L1 - X i) with (/ INR n1 * L1) by ring. pose proof (inv_pos n1 H1) as I.
    apply (distance_ok c (P i) (P (S i)) u v (/ INR n1) 0 (1 / 2) L1); try assumption; try lra; rewrite EP; unfold add2, scale2, point_M; cbn [fst snd]; field; apply not_0_INR; lia.
  - assert (EK' : forall r, r = add2 (P i) (scale2 (/ INR n2) (fst (point_K angle straight false) - fst point_M, snd (point_K angle straight false) - snd point_M)) -> forall u v, cartesian angle (P i) u -> cartesian angle r v -> distance u v = X (S i) - X i).
    { intros r -> u v U W'. destruct (W _ _ U) as [U1 U2]. destruct (W _ _ W') as [W1 W2]. rewrite EX. replace (X i + / INR n2 * L2 - X i) with (/ INR n2 * L2) by ring. pose proof (inv_pos n2 H2) as I.
      rewrite EK in W1, W2. unfold K_of in W1, W2. destruct Hc as [[-> ->]|[-> ->]]; cbn [Z.eqb Pos.eqb] in W1, W2.
      - eapply (distance_ok (- (1 / 2)) (P i) _ u v (/ INR n2) (1 / 3) (- (1 / 6)) L2); try eassumption; [unfold add2, scale2, point_M; cbn [fst snd]; field; apply not_0_INR; lia..|lra|unfold L2; lra|unfold L2; field].
      - eapply (distance_ok (1 / 2) (P i) _ u v (/ INR n2) (1 / 3) (1 / 6) L2); try eassumption; [unfold add2, scale2, point_M; cbn [fst snd]; field; apply not_0_INR; lia..|lra|unfold L2; lra|unfold L2; field]. }
    destruct (Nat.eqb_spec (S i) (n1 + n2)) as [Q|Q].
    + exists (point_K angle straight false). split; [fold P; rewrite EP; exact (K_equivalent angle straight)|]. split.
      * intros [N'|S']; [exfalso; apply N'; rewrite Q; reflexivity|]. rewrite EP, EK, Ek, S'. reflexivity.
      * intros u v U W'. apply (EK' (point_K angle straight false)); [apply EQ; exact Q|exact U|exact W'].
    + exists (P (S i)). split; [exists 0%Z, 0%Z; split; ring|]. split; [reflexivity|]. intros u v U W'. apply (EK' (P (S i))); [exact EP|exact U|exact W'].
  - exists (P (S i)). split; [exists 0%Z, 0%Z; split; ring|]. split; [reflexivity|]. intros u v U W'. destruct (W _ _ U) as [U1 U2]. destruct (W _ _ W') as [W1 W2].
    rewrite EX. replace (X i + / INR n3 * L3 - X i) with (/ INR n3 * L3) by ring. pose proof (inv_pos n3 H3) as I. rewrite EP, Ek in W1, W2. unfold k_of, K_of in W1, W2.
    destruct Hc as [[-> ->]|[-> ->]], straight; cbn [Z.eqb Pos.eqb] in W1, W2.
    + eapply (distance_ok (- (1 / 2)) (P i) _ u v (/ INR n3) (2 / 3) (- (1 / 3)) L3); try eassumption; [unfold add2, scale2; cbn [fst snd]; field; apply not_0_INR; lia..|lra|unfold L3; lra|unfold L3; field].
    + eapply (distance_ok (- (1 / 2)) (P i) _ u v (/ INR n3) (- (1 / 3)) (- (1 / 3)) L3); try eassumption; [unfold add2, scale2; cbn [fst snd]; field; apply not_0_INR; lia..|lra|unfold L3; lra|unfold L3; field].
    + eapply (distance_ok (1 / 2) (P i) _ u v (/ INR n3) (2 / 3) (1 / 3) L3); try eassumption; [unfold add2, scale2; cbn [fst snd]; field; apply not_0_INR; lia..|lra|unfold L3; lra|unfold L3; field].
    + eapply (distance_ok (1 / 2) (P i) _ u v (/ INR n3) (- (1 / 3)) (- (2 / 3)) L3); try eassumption; [unfold add2, scale2; cbn [fst snd]; field; apply not_0_INR; lia..|lra|unfold L3; lra|unfold L3; field].
Qed.
Print Assumptions C100_distance.

(** ** Direction

    The straight path does not change its direction at K. *)
Theorem C100_straight N mesh angle : (2 <= N)%Z ->
  exists path x i1 i2 i3 d, GMKG N mesh angle true false = Ok (path, x, [0%Z; i1; i2; i3]) /\ d <> (0, 0) /\
  forall i p q, (i1 <= Z.of_nat i)%Z -> nth_error path i = Some p -> nth_error path (S i) = Some q ->
    exists q' t, equivalent q q' /\ 0 < t /\ q' = add2 p (scale2 t d).
Proof.
  intros HN. destruct (numbers_ok N mesh HN) as (n1 & n2 & n3 & E & H1 & H2 & H3 & _). destruct (path_ok N mesh angle true false n1 n2 n3 E H1 H2 H3) as (path & x & EG & LP & LX & V).
  destruct (K_eq angle true false) as [EK Ek]. unfold factor in EK, Ek. pose proof PI_RGT_0 as Pi.
  do 5 eexists. exists (- fst (point_k angle true false), - snd (point_k angle true false)). split; [exact EG|]. split.
  { rewrite Ek. unfold k_of. intros Q. injection Q as Q1 Q2. destruct (angle =? 60)%Z; unfold scale2 in Q1; cbn [fst snd] in Q1; lra. }
  intros i p q I1 Ep Eq. assert (Hi : (S i < n1 + n2 + S n3)%nat) by (rewrite <- LP; apply nth_error_Some; congruence).
  destruct (V i ltac:(lia)) as [V1 V2]. destruct (V (S i) Hi) as [V3 V4]. rewrite Ep in V1. rewrite Eq in V3. injection V1 as ->. injection V3 as ->.
  set (P := path_at angle true false n1 n2 n3). pose proof (inv_pos n2 H2) as I2. pose proof (inv_pos n3 H3) as I3.
  destruct (steps angle true false n1 n2 n3 H1 H2 H3 i ltac:(lia)) as [(A & EP & EX)|[(A & EP & EQ & EX)|(A & EP & EX)]]; fold P in EP; [lia| |].
  - assert (D : scale2 (/ INR n2) (fst (point_K angle true false) - fst point_M, snd (point_K angle true false) - snd point_M) = scale2 (/ INR n2 / 2) (- fst (point_k angle true false), - snd (point_k angle true false))).
    { rewrite EK, Ek, M_eq. unfold K_of, k_of. destruct (angle =? 60)%Z; apply r2_ext; unfold scale2; cbn [fst snd]; field; apply not_0_INR; lia. }
    destruct (Nat.eqb_spec (S i) (n1 + n2)) as [Q|Q].
    + exists (point_K angle true false), (/ INR n2 / 2). split; [rewrite EP; exact (K_equivalent angle true)|]. split; [lra|]. rewrite (EQ Q) at 1. fold P. rewrite D. reflexivity.
    + exists (P (S i)), (/ INR n2 / 2). split; [exists 0%Z, 0%Z; split; ring|]. split; [lra|]. rewrite EP, D. reflexivity.
  - exists (P (S i)), (/ INR n3). split; [exists 0%Z, 0%Z; split; ring|]. split; [lra|]. exact EP.
Qed.
Print Assumptions C100_straight.

(** ** Meshes *)

Lemma K_special angle straight : point_K angle straight false = special_K angle false.
Proof. destruct (K_eq angle straight false) as [-> _]. unfold K_of, special_K, factor. destruct (angle =? 60)%Z; apply r2_ext; unfold scale2; cbn [fst snd]; field. Qed.

(** On a mesh whose size is a multiple of six, without the shift, the path consists of
    exactly those mesh points that lie on the path. *)
Theorem C100_mesh N angle straight : (0 < N)%Z -> (N mod 6 = 0)%Z ->
  exists path x corners, GMKG N true angle straight false = Ok (path, x, corners) /\
  (forall r, In r path -> mesh_pt N r) /\
  forall r, mesh_pt N r -> between true (0, 0) special_M r \/ between false special_M (special_K angle false) r \/ between true (special_K angle straight) (0, 0) r -> In r path.
Proof.
  intros HN H6. destruct (numbers_ok N true ltac:(lia)) as (n1 & n2 & n3 & E & H1 & H2 & H3 & Hm). destruct (Hm eq_refl H6) as (EN & E1 & E3). destruct (path_ok N true angle straight false n1 n2 n3 E H1 H2 H3) as (path & x & EG & LP & LX & V).
  exists path, x. eexists. split; [exact EG|]. pose proof PI_RGT_0 as Pi.
  assert (M0 : 0 < INR n2) by (apply lt_0_INR; lia). assert (RN : IZR N = 6 * INR n2) by (rewrite EN, mult_IZR, <- INR_IZR_INZ; reflexivity).
  assert (R1 : INR n1 = 3 * INR n2) by (rewrite E1, mult_INR; cbn [INR]; lra). assert (R3 : INR n3 = 2 * INR n2) by (rewrite E3, mult_INR; cbn [INR]; lra).
  split.
  - intros r Hr. apply In_nth_error in Hr. destruct Hr as [i Er]. assert (Hi : (i < n1 + n2 + S n3)%nat) by (rewrite <- LP; apply nth_error_Some; congruence).
    destruct (V i Hi) as [V1 _]. rewrite Er in V1. injection V1 as ->. unfold mesh_pt.
    destruct (Nat.lt_ge_cases i n1) as [A|A]; [|destruct (Nat.lt_ge_cases i (n1 + n2)) as [B|B]].
    + destruct (at_first angle straight false n1 n2 n3 H1 H2 H3 i ltac:(lia)) as [-> _]. exists 0%Z, (Z.of_nat i). rewrite RN, R1, M_eq, <- INR_IZR_INZ. apply r2_ext; unfold lerp2, lerp; cbn [fst snd]; field; lra.
    + replace i with (n1 + (i - n1))%nat by lia. set (j := (i - n1)%nat). destruct (at_second angle straight false n1 n2 n3 H1 H2 H3 j ltac:(lia)) as [-> _]. rewrite RN, M_eq, K_special. unfold special_K. destruct (angle =? 60)%Z.
      * exists (2 * Z.of_nat j)%Z, (3 * Z.of_nat n2 - Z.of_nat j)%Z. rewrite minus_IZR, !mult_IZR, <- !INR_IZR_INZ. apply r2_ext; unfold lerp2, lerp; cbn [fst snd]; field; lra.
      * exists (2 * Z.of_nat j)%Z, (3 * Z.of_nat n2 + Z.of_nat j)%Z. rewrite plus_IZR, !mult_IZR, <- !INR_IZR_INZ. apply r2_ext; unfold lerp2, lerp; cbn [fst snd]; field; lra.
    + replace i with (n1 + n2 + (i - n1 - n2))%nat by lia. set (j := (i - n1 - n2)%nat). destruct (at_third angle straight false n1 n2 n3 H1 H2 H3 j) as [-> _]. rewrite RN, R3, k_special. unfold special_K, factor. destruct straight, (angle =? 60)%Z.
      * exists (2 * Z.of_nat j - 4 * Z.of_nat n2)%Z, (2 * Z.of_nat n2 - Z.of_nat j)%Z. rewrite !minus_IZR, !mult_IZR, <- !INR_IZR_INZ. apply r2_ext; unfold lerp2, lerp, scale2; cbn [fst snd]; field; lra.
      * exists (2 * Z.of_nat j - 4 * Z.of_nat n2)%Z, (Z.of_nat j - 2 * Z.of_nat n2)%Z. rewrite !minus_IZR, !mult_IZR, <- !INR_IZR_INZ. apply r2_ext; unfold lerp2, lerp, scale2; cbn [fst snd]; field; lra.
      * exists (2 * Z.of_nat n2 - Z.of_nat j)%Z, (2 * Z.of_nat n2 - Z.of_nat j)%Z. rewrite !minus_IZR, !mult_IZR, <- !INR_IZR_INZ. apply r2_ext; unfold lerp2, lerp, scale2; cbn [fst snd]; field; lra.
      * exists (2 * Z.of_nat n2 - Z.of_nat j)%Z, (4 * Z.of_nat n2 - 2 * Z.of_nat j)%Z. rewrite !minus_IZR, !mult_IZR, <- !INR_IZR_INZ. apply r2_ext; unfold lerp2, lerp, scale2; cbn [fst snd]; field; lra.
  - intros r (a & b & Er) [(t & T0 & T1 & Et)|[(t & T0 & T1 & Et)|(t & T0 & T1 & Et)]].
    + assert (Eb : IZR b = 3 * INR n2 * t).
      { rewrite Er in Et. injection Et as _ Q. cbn [fst snd special_M] in Q. rewrite RN in Q. assert (Q' : PI * IZR b = PI * (3 * INR n2 * t)) by (replace (PI * IZR b) with (3 * INR n2 * (2 * PI * IZR b / (6 * INR n2))) by (field; lra); rewrite Q; ring). apply Rmult_eq_reg_l in Q'; lra. }
      assert (B0 : (0 <= b)%Z) by (apply le_IZR; rewrite Eb; apply Rmult_le_pos; lra). assert (B1 : (b <= Z.of_nat n1)%Z) by (apply le_IZR; rewrite Eb, <- INR_IZR_INZ, R1; nra).
      apply nth_error_In with (n := Z.to_nat b). destruct (V (Z.to_nat b) ltac:(lia)) as [-> _]. destruct (at_first angle straight false n1 n2 n3 H1 H2 H3 (Z.to_nat b) ltac:(lia)) as [-> _].
      apply f_equal. rewrite Et, INR_IZR_INZ, Z2Nat.id, Eb, R1, M_eq by exact B0. apply r2_ext; unfold lerp2, lerp, special_M; cbn [fst snd]; field; lra.
    + assert (Eb : exists j, IZR j = INR n2 * t).
      { rewrite Er in Et. injection Et as _ Q. cbn [fst snd special_M] in Q. rewrite RN in Q. unfold special_K in Q. destruct (angle =? 60)%Z; cbn [fst snd] in Q; [exists (3 * Z.of_nat n2 - b)%Z|exists (b - 3 * Z.of_nat n2)%Z]; rewrite minus_IZR, mult_IZR, <- INR_IZR_INZ.
        - assert (Q' : PI * IZR b = PI * (3 * INR n2 - INR n2 * t)) by (replace (PI * IZR b) with (3 * INR n2 * (2 * PI * IZR b / (6 * INR n2))) by (field; lra); rewrite Q; field). apply Rmult_eq_reg_l in Q'; lra.
        - assert (Q' : PI * IZR b = PI * (3 * INR n2 + INR n2 * t)) by (replace (PI * IZR b) with (3 * INR n2 * (2 * PI * IZR b / (6 * INR n2))) by (field; lra); rewrite Q; field). apply Rmult_eq_reg_l in Q'; lra. }
      destruct Eb as [j Ej]. assert (B0 : (0 <= j)%Z) by (apply le_IZR; rewrite Ej; apply Rmult_le_pos; lra). assert (B1 : (j < Z.of_nat n2)%Z) by (apply lt_IZR; rewrite Ej, <- INR_IZR_INZ; nra).
      apply nth_error_In with (n := (n1 + Z.to_nat j)%nat). destruct (V (n1 + Z.to_nat j)%nat ltac:(lia)) as [-> _]. destruct (at_second angle straight false n1 n2 n3 H1 H2 H3 (Z.to_nat j) ltac:(lia)) as [-> _].
      apply f_equal. rewrite Et, INR_IZR_INZ, Z2Nat.id, Ej, M_eq, K_special by exact B0. replace (INR n2 * t / INR n2) with t by (field; lra). reflexivity.
    + assert (Eb : exists j, IZR j = 2 * INR n2 * t).
      { rewrite Er in Et. injection Et as Qa Qb. cbn [fst snd] in Qa, Qb. rewrite RN in Qa, Qb. unfold special_K in Qa, Qb.
        assert (Sa : PI * IZR a = 3 * INR n2 * (2 * PI * IZR a / (6 * INR n2))) by (field; lra). assert (Sb : PI * IZR b = 3 * INR n2 * (2 * PI * IZR b / (6 * INR n2))) by (field; lra).
        destruct straight, (angle =? 60)%Z; cbn [fst snd] in Qa, Qb.
        - exists (2 * Z.of_nat n2 - b)%Z. rewrite minus_IZR, mult_IZR, <- INR_IZR_INZ. assert (Q' : PI * IZR b = PI * (2 * INR n2 - 2 * INR n2 * t)) by (rewrite Sb, Qb; field). apply Rmult_eq_reg_l in Q'; lra.
        - exists (2 * Z.of_nat n2 + b)%Z. rewrite plus_IZR, mult_IZR, <- INR_IZR_INZ. assert (Q' : PI * IZR b = PI * (2 * INR n2 * t - 2 * INR n2)) by (rewrite Sb, Qb; field). apply Rmult_eq_reg_l in Q'; lra.
        - exists (2 * Z.of_nat n2 - a)%Z. rewrite minus_IZR, mult_IZR, <- INR_IZR_INZ. assert (Q' : PI * IZR a = PI * (2 * INR n2 - 2 * INR n2 * t)) by (rewrite Sa, Qa; field). apply Rmult_eq_reg_l in Q'; lra.
        - exists (2 * Z.of_nat n2 - a)%Z. rewrite minus_IZR, mult_IZR, <- INR_IZR_INZ. assert (Q' : PI * IZR a = PI * (2 * INR n2 - 2 * INR n2 * t)) by (rewrite Sa, Qa; field). apply Rmult_eq_reg_l in Q'; lra. }
      destruct Eb as [j Ej]. assert (B0 : (0 <= j)%Z) by (apply le_IZR; rewrite Ej; apply Rmult_le_pos; lra). assert (B1 : (j <= Z.of_nat n3)%Z) by (apply le_IZR; rewrite Ej, <- INR_IZR_INZ, R3; nra).
      apply nth_error_In with (n := (n1 + n2 + Z.to_nat j)%nat). destruct (V (n1 + n2 + Z.to_nat j)%nat ltac:(lia)) as [-> _]. destruct (at_third angle straight false n1 n2 n3 H1 H2 H3 (Z.to_nat j)) as [-> _].
      apply f_equal. rewrite Et, INR_IZR_INZ, Z2Nat.id, Ej, R3, k_special by exact B0. replace (2 * INR n2 * t / (2 * INR n2)) with t by (field; lra). unfold factor. apply r2_ext; unfold lerp2, lerp, scale2; cbn [fst snd]; ring.
Qed.
Print Assumptions C100_mesh.

Lemma nth_error_same {A} (l l' : list A) : (forall i, nth_error l i = nth_error l' i) -> l = l'.
Proof.
  revert l'. induction l as [|x l IH]; intros [|y l'] H; [reflexivity|specialize (H 0%nat); discriminate|specialize (H 0%nat); discriminate|].
  f_equal; [specialize (H 0%nat); cbn in H; congruence|]. apply IH. intros i. exact (H (S i)).
Qed.

(** The shift changes neither number of points nor distances and the points hardly. *)
Theorem C100_shift N mesh angle straight : (2 <= N)%Z ->
  exists path path' x corners, GMKG N mesh angle straight false = Ok (path, x, corners) /\ GMKG N mesh angle straight true = Ok (path', x, corners) /\ length path' = length path /\
  forall i p p', nth_error path i = Some p -> nth_error path' i = Some p' -> Rabs (fst p' - fst p) <= 4 * PI / 10 ^ 10 /\ Rabs (snd p' - snd p) <= 4 * PI / 10 ^ 10.
Proof.
  intros HN. destruct (numbers_ok N mesh HN) as (n1 & n2 & n3 & E & H1 & H2 & H3 & _).
  destruct (path_ok N mesh angle straight false n1 n2 n3 E H1 H2 H3) as (path & x & EG & LP & LX & V). destruct (path_ok N mesh angle straight true n1 n2 n3 E H1 H2 H3) as (path' & x' & EG' & LP' & LX' & V').
  assert (x' = x) as ->. { apply nth_error_same. intros i. destruct (Nat.lt_ge_cases i (n1 + n2 + S n3)) as [L|L]; [rewrite (proj2 (V i L)), (proj2 (V' i L)); reflexivity|]. rewrite (proj2 (nth_error_None x i)), (proj2 (nth_error_None x' i)) by lia. reflexivity. }
  exists path, path', x. eexists. split; [exact EG|]. split; [exact EG'|]. split; [lia|]. intros i p p' Ep Ep'.
  assert (Hi : (i < n1 + n2 + S n3)%nat) by (rewrite <- LP; apply nth_error_Some; congruence). destruct (V i Hi) as [V1 _]. destruct (V' i Hi) as [V2 _]. rewrite Ep in V1. rewrite Ep' in V2. injection V1 as ->. injection V2 as ->.
  pose proof PI_RGT_0 as Pi. destruct (K_eq angle straight false) as [EK Ek]. destruct (K_eq angle straight true) as [EK' Ek'].
  set (s := factor straight true) in *. assert (S1 : 0 <= 1 - s <= 2 / 10 ^ 10). { unfold s, factor, shrink. assert (T : 0 < / 10 ^ 10 < 1 / 10) by (split; [apply Rinv_0_lt_compat; lra|]; apply Rmult_lt_reg_l with (10 ^ 10); [lra|]; rewrite Rinv_r by lra; lra). unfold Rdiv. destruct straight; nra. }
  assert (F1 : factor straight false = 1) by reflexivity. rewrite F1 in EK, Ek.
  assert (B : forall t c, 0 <= t <= 1 -> Rabs c <= 1 -> Rabs (t * (2 * PI * s * c - 2 * PI * 1 * c)) <= 4 * PI / 10 ^ 10).
  { intros t c Ht Hc. replace (t * (2 * PI * s * c - 2 * PI * 1 * c)) with (- (2 * PI * (1 - s) * (t * c))) by ring. rewrite Rabs_Ropp, !Rabs_mult, (Rabs_right 2), (Rabs_right PI), (Rabs_right (1 - s)), (Rabs_right t) by lra.
    assert (T : t * Rabs c <= 1) by (pose proof (Rabs_pos c); nra). assert (T0 : 0 <= t * Rabs c) by (apply Rmult_le_pos; [lra|apply Rabs_pos]).
    assert (Q : (1 - s) * (t * Rabs c) <= 2 / 10 ^ 10) by nra. replace (4 * PI / 10 ^ 10) with (2 * PI * (2 / 10 ^ 10)) by field. rewrite Rmult_assoc. apply Rmult_le_compat_l; [lra|exact Q]. }
  assert (Z0 : 0 <= 4 * PI / 10 ^ 10) by (apply Rmult_le_pos; [lra|apply Rlt_le, Rinv_0_lt_compat; lra]).
  assert (CK : Rabs (fst (K_of angle)) <= 1 /\ Rabs (snd (K_of angle)) <= 1) by (unfold K_of; destruct (angle =? 60)%Z; cbn [fst snd]; split; apply Rabs_le; lra).
  assert (Ck : Rabs (fst (k_of angle straight)) <= 1 /\ Rabs (snd (k_of angle straight)) <= 1) by (unfold k_of; destruct straight; [destruct (angle =? 60)%Z; cbn [fst snd]; split; apply Rabs_le; lra|exact CK]).
  destruct CK as [CK1 CK2]. destruct Ck as [Ck1 Ck2].
  assert (Frac : forall j n, (0 < n)%nat -> (j <= n)%nat -> 0 <= INR j / INR n <= 1).
  { intros j n Hn Hj. assert (0 < INR n) by (apply lt_0_INR; exact Hn). assert (0 <= INR j <= INR n) by (split; [apply pos_INR|apply le_INR; exact Hj]). split; [apply Rmult_le_pos; [lra|apply Rlt_le, Rinv_0_lt_compat; lra]|]. apply Rmult_le_reg_r with (INR n); [lra|]. replace (INR j / INR n * INR n) with (INR j) by (field; lra). lra. }
  destruct (Nat.lt_ge_cases i n1) as [A|A]; [|destruct (Nat.lt_ge_cases i (n1 + n2)) as [B'|B']].
  - destruct (at_first angle straight false n1 n2 n3 H1 H2 H3 i ltac:(lia)) as [-> _]. destruct (at_first angle straight true n1 n2 n3 H1 H2 H3 i ltac:(lia)) as [-> _]. rewrite !Rminus_diag_eq, Rabs_R0 by reflexivity. split; exact Z0.
  - replace i with (n1 + (i - n1))%nat by lia. set (j := (i - n1)%nat). destruct (at_second angle straight false n1 n2 n3 H1 H2 H3 j ltac:(lia)) as [-> _]. destruct (at_second angle straight true n1 n2 n3 H1 H2 H3 j ltac:(lia)) as [-> _]. rewrite EK, EK'.
    specialize (Frac j n2 H2 ltac:(lia)). unfold lerp2, lerp, scale2. cbn [fst snd]. generalize dependent (INR j / INR n2). intros t Ht. split.
    + specialize (B t (fst (K_of angle)) Ht CK1). match goal with |- Rabs ?x <= _ => match type of B with Rabs ?y <= _ => replace x with y by ring end end. exact B.
    + specialize (B t (snd (K_of angle)) Ht CK2). match goal with |- Rabs ?x <= _ => match type of B with Rabs ?y <= _ => replace x with y by ring end end. exact B.
  - replace i with (n1 + n2 + (i - n1 - n2))%nat by lia. set (j := (i - n1 - n2)%nat). destruct (at_third angle straight false n1 n2 n3 H1 H2 H3 j) as [-> _]. destruct (at_third angle straight true n1 n2 n3 H1 H2 H3 j) as [-> _]. rewrite Ek, Ek'.
    specialize (Frac j n3 H3 ltac:(lia)). unfold lerp2, lerp, scale2. cbn [fst snd]. generalize dependent (INR j / INR n3). intros t Ht. assert (Ht' : 0 <= 1 - t <= 1) by lra. split.
    + specialize (B (1 - t) (fst (k_of angle straight)) Ht' Ck1). match goal with |- Rabs ?x <= _ => match type of B with Rabs ?y <= _ => replace x with y by ring end end. exact B.
    + specialize (B (1 - t) (snd (k_of angle straight)) Ht' Ck2). match goal with |- Rabs ?x <= _ => match type of B with Rabs ?y <= _ => replace x with y by ring end end. exact B.
Qed.
Print Assumptions C100_shift.

(** With the shift (default), points are not on the mesh. *)
Theorem C100_mesh_refuted : exists path x corners r, GMKG 6 true 60 true true = Ok (path, x, corners) /\ In r path /\ ~ mesh_pt 6 r.
Proof.
  destruct (C100_corners_partial 6 true 60 true true ltac:(lia)) as (path & x & i1 & i2 & i3 & f & E & _). destruct (numbers_ok 6 true ltac:(lia)) as (n1 & n2 & n3 & En & H1 & H2 & H3 & _).
  destruct (path_ok 6 true 60 true true n1 n2 n3 En H1 H2 H3) as (path' & x' & EG & LP & LX & V). exists path', x'. eexists. exists (path_at 60 true true n1 n2 n3 (n1 + n2)). split; [exact EG|].
  split; [apply nth_error_In with (n := (n1 + n2)%nat); apply V; lia|]. destruct (at_third 60 true true n1 n2 n3 H1 H2 H3 0) as [T _]. rewrite Nat.add_0_r in T. rewrite T, k_special. unfold special_K, factor, shrink. cbn [Z.eqb Pos.eqb INR].
  intros (a & b & Q). injection Q as Q _. unfold scale2 in Q. cbn [fst snd] in Q. pose proof PI_RGT_0 as Pi.
  assert (Ea : IZR a = -4 + 4 * / 10 ^ 10). { assert (Q' : PI * IZR a = PI * (-4 + 4 * / 10 ^ 10)); [|apply Rmult_eq_reg_l in Q'; lra]. replace (PI * IZR a) with (3 * (2 * PI * IZR a / 6)) by field. rewrite <- Q. unfold lerp. field. apply not_0_INR. lia. }
  assert (T1 : 0 < / 10 ^ 10 < 1 / 10) by (split; [apply Rinv_0_lt_compat; lra|]; apply Rmult_lt_reg_l with (10 ^ 10); [lra|]; rewrite Rinv_r by lra; lra).
  assert (-4 < a)%Z by (apply lt_IZR; lra). assert (a < -3)%Z by (apply lt_IZR; lra). lia.
Qed.
Print Assumptions C100_mesh_refuted.

(** ** Special points

    M is a point of the first Brillouin zone half way to a neighbouring reciprocal lattice
    point; no point of the zone is farther from the origin than K. *)
Lemma hex_far x y : Rabs x <= 2 / 3 -> Rabs y <= 2 / 3 -> Rabs (x + y) <= 2 / 3 -> x * x + x * y + y * y <= 4 / 9.
Proof.
  intros Hx Hy Hz. apply abs_between in Hx. apply abs_between in Hy. apply abs_between in Hz.
  destruct (Rle_dec 0 (x * y)) as [A|A].
  - assert (x * x + x * y + y * y <= (x + y) * (x + y)) by lra. assert ((x + y) * (x + y) <= 4 / 9) by nra. lra.
  - destruct (Rle_dec (y * (x + y)) 0) as [B|B]; [nra|]. assert (x * (x + y) <= 0) by nra. nra.
Qed.

Lemma far_sq a1 a2 b1 b2 c s k : facts a1 a2 b1 b2 c s -> dot2 a1 a1 = 1 -> dot2 a2 a2 = 1 -> dot2 a1 a2 = c -> norm_sq k = dot2 k b1 * dot2 k b1 + 2 * c * (dot2 k b1 * dot2 k b2) + dot2 k b2 * dot2 k b2.
Proof.
  intros F N1 N2 C. pose proof (expand_a _ _ _ _ _ _ F k) as E. set (x := dot2 k b1) in *. set (y := dot2 k b2) in *. rewrite E. unfold norm_sq, add2, scale2, dot2 in *. cbn [fst snd].
  transitivity (x * x * (fst a1 * fst a1 + snd a1 * snd a1) + 2 * (x * y) * (fst a1 * fst a2 + snd a1 * snd a2) + y * y * (fst a2 * fst a2 + snd a2 * snd a2)); [ring|]. rewrite N1, N2, C. ring.
Qed.

Theorem C100_special angle straight M K : (angle = 60 \/ angle = 120)%Z -> cartesian angle special_M M -> cartesian angle (special_K angle straight) K ->
  first_zone (180 - angle) 0 M /\ reciprocal (180 - angle) 0 (2 * fst M, 2 * snd M) /\ ~ reciprocal (180 - angle) 0 M /\
  first_zone (180 - angle) 0 K /\ forall k, first_zone (180 - angle) 0 k -> norm_sq k <= norm_sq K.
Proof.
  intros Ha HM HK. pose proof PI_RGT_0 as Pi.
  assert (U : forall k v, cartesian angle k v -> dot2 (unit_vector 0) v = fst k / (2 * PI) /\ dot2 (unit_vector (0 + IZR (180 - angle))) v = snd k / (2 * PI)).
  { intros k v [E1 E2]. rewrite unit_0. unfold dot2, unit_vector. cbn [fst snd]. rewrite <- E2, <- E1, Rplus_0_l. split; ring. }
  destruct (U _ _ HM) as [M1 M2]. destruct (U _ _ HK) as [K1 K2].
  assert (S : forall u v : r2, dot2 u (2 * fst v, 2 * snd v) = 2 * dot2 u v) by (intros u v; unfold dot2; cbn [fst snd]; ring).
  assert (R : reciprocal (180 - angle) 0 (2 * fst M, 2 * snd M) /\ ~ reciprocal (180 - angle) 0 M).
  { split.
    - exists 0%Z, 1%Z. rewrite !S, M1, M2. unfold special_M. cbn [fst snd]. split; field; lra.
    - intros (a & b & _ & Q). rewrite M2 in Q. unfold special_M in Q. cbn [snd] in Q. assert (Q' : IZR (2 * b) = 1) by (rewrite mult_IZR, <- Q; field; lra). apply eq_IZR in Q'. lia. }
  destruct R as [R1 R2]. destruct Ha as [-> | ->].
  - change (180 - 60)%Z with 120%Z in *. destruct (frame120 0) as (b1 & b2 & _ & _ & F). pose proof (products _ _ _ _ _ _ M F) as [PM1 PM2]. pose proof (products _ _ _ _ _ _ K F) as [PK1 PK2]. rewrite sqrt3_4 in PM1, PM2, PK1, PK2.
    rewrite M1, M2 in PM1, PM2. rewrite K1, K2 in PK1, PK2. unfold special_M in PM1, PM2. cbn [fst snd] in PM1, PM2.
    assert (ZM : first_zone 120 0 M). { rewrite (zone120 b1 b2 0 M F), PM1, PM2. replace (0 / (2 * PI)) with 0 by (field; lra). replace (PI / (2 * PI)) with (1 / 2) by (field; lra). repeat split; apply Rabs_le; lra. }
    assert (NK : (dot2 K b1 = 2 / 3 /\ dot2 K b2 = 2 / 3) \/ (dot2 K b1 = - (2 / 3) /\ dot2 K b2 = 0)). { rewrite PK1, PK2. unfold special_K. destruct straight; cbn [fst snd Z.eqb Pos.eqb]; [right|left]; split; field; lra. }
    assert (ZK : first_zone 120 0 K). { rewrite (zone120 b1 b2 0 K F). destruct NK as [[-> ->]|[-> ->]]; repeat split; apply Rabs_le; lra. }
    split; [exact ZM|]. split; [exact R1|]. split; [exact R2|]. split; [exact ZK|]. intros k Zk. rewrite (zone120 b1 b2 0 k F) in Zk. destruct Zk as (Z1 & Z2 & Z3).
    assert (Nrm : forall v, norm_sq v = dot2 v b1 * dot2 v b1 + 2 * (- (1 / 2)) * (dot2 v b1 * dot2 v b2) + dot2 v b2 * dot2 v b2).
    { intros v. apply (far_sq _ _ _ _ _ _ v F); [apply unit_norm|apply unit_norm|]. rewrite unit_dot. replace (120 * deg) with (2 * (PI / 3)) by (unfold deg; field). rewrite cos_2PI3. lra. }
    rewrite !Nrm. pose proof (hex_far (dot2 k b1) (- dot2 k b2) Z1 ltac:(rewrite Rabs_Ropp; exact Z2) Z3) as Fr. destruct NK as [[-> ->]|[-> ->]]; lra.
  - change (180 - 120)%Z with 60%Z in *. destruct (frame60 0) as (b1 & b2 & _ & _ & F). pose proof (products _ _ _ _ _ _ M F) as [PM1 PM2]. pose proof (products _ _ _ _ _ _ K F) as [PK1 PK2]. rewrite sqrt3_4 in PM1, PM2, PK1, PK2.
    rewrite M1, M2 in PM1, PM2. rewrite K1, K2 in PK1, PK2. unfold special_M in PM1, PM2. cbn [fst snd] in PM1, PM2.
    assert (ZM : first_zone 60 0 M). { rewrite (zone60 b1 b2 0 M F), PM1, PM2. replace (0 / (2 * PI)) with 0 by (field; lra). replace (PI / (2 * PI)) with (1 / 2) by (field; lra). repeat split; apply Rabs_le; lra. }
    assert (NK : (dot2 K b1 = 0 /\ dot2 K b2 = 2 / 3) \/ (dot2 K b1 = - (2 / 3) /\ dot2 K b2 = 0)). { rewrite PK1, PK2. unfold special_K. destruct straight; cbn [fst snd Z.eqb Pos.eqb]; [right|left]; split; field; lra. }
    assert (ZK : first_zone 60 0 K). { rewrite (zone60 b1 b2 0 K F). destruct NK as [[-> ->]|[-> ->]]; repeat split; apply Rabs_le; lra. }
    split; [exact ZM|]. split; [exact R1|]. split; [exact R2|]. split; [exact ZK|]. intros k Zk. rewrite (zone60 b1 b2 0 k F) in Zk. destruct Zk as (Z1 & Z2 & Z3).
    assert (Nrm : forall v, norm_sq v = dot2 v b1 * dot2 v b1 + 2 * (1 / 2) * (dot2 v b1 * dot2 v b2) + dot2 v b2 * dot2 v b2).
    { intros v. apply (far_sq _ _ _ _ _ _ v F); [apply unit_norm|apply unit_norm|]. rewrite unit_dot. replace (60 * deg) with (PI / 3) by (unfold deg; field). rewrite cos_PI3. reflexivity. }
    rewrite !Nrm. pose proof (hex_far (dot2 k b1) (dot2 k b2) Z1 Z2 Z3) as Fr. destruct NK as [[-> ->]|[-> ->]]; lra.
Qed.
Print Assumptions C100_special.

(** Cartesian coordinates exist. *)
Example C100_example : cartesian 120 special_M (0, / sqrt 3) /\ cartesian 120 (special_K 120 false) (1 / 3, / sqrt 3) /\ (12 mod 6 = 0)%Z.
Proof.
  pose proof PI_RGT_0 as Pi. pose proof sqrt3_bounds as B. unfold cartesian. destruct trig120 as [-> ->]. unfold special_M, special_K. cbn [fst snd Z.eqb Pos.eqb]. repeat split; try (field; lra).
Qed.
