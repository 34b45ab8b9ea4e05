(** Proofs about the path through the hexagonal Brillouin zone. *)
From Coq Require Import Reals Lra Lia Psatz List ZArith.
From Verif Require Import Common CommonProofs GeoModel GeoProofs DiagModel DiagProofs OrbProofs GmkgModel GmkgSpec.
Import ListNotations.
Local Open Scope R_scope.

(** ** Lines *)

Definition lerp (a b t : R) : R := a + t * (b - a).
Definition lerp2 (p q : r2) (t : R) : r2 := (lerp (fst p) (fst q) t, lerp (snd p) (snd q) t).

Definition last_of (n : nat) (endpoint : bool) : nat := if endpoint then n - 1 else n.

Lemma linspace_ok a b n e : (0 < last_of n e)%nat -> linspace a b (Z.of_nat n) e = Ok (map (fun i => lerp a b (INR i / INR (last_of n e))) (seq 0 n)).
Proof.
  intros H. unfold linspace. destruct (Z.ltb_spec (Z.of_nat n) 0) as [L|_]; [lia|]. rewrite Nat2Z.id. apply f_equal. apply map_ext. intros i. unfold lerp.
  assert (E : IZR (if e then Z.of_nat n - 1 else Z.of_nat n) = INR (last_of n e)) by (rewrite INR_IZR_INZ; apply f_equal; destruct e; unfold last_of in *; lia).
  rewrite E. field. apply not_0_INR. lia.
Qed.

Lemma combine_map {A B C} (f : A -> B) (g : A -> C) l : combine (map f l) (map g l) = map (fun i => (f i, g i)) l.
Proof. induction l as [|x l IH]; [reflexivity|]. cbn. rewrite IH. reflexivity. Qed.

Lemma line_ok p q n e : (0 < last_of n e)%nat -> line p q (Z.of_nat n) e = Ok (map (fun i => lerp2 p q (INR i / INR (last_of n e))) (seq 0 n)).
Proof. intros H. unfold line. rewrite !linspace_ok by exact H. cbn [bind]. rewrite combine_map. reflexivity. Qed.

(** Three pieces *)
Definition piece {A} (n1 n2 : nat) (f g h : nat -> A) (i : nat) : A :=
  if (i <? n1)%nat then f i else if (i <? n1 + n2)%nat then g (i - n1)%nat else h (i - n1 - n2)%nat.

Lemma pieces {A} n1 n2 n3 (f g h : nat -> A) i : (i < n1 + n2 + n3)%nat ->
  nth_error (map f (seq 0 n1) ++ map g (seq 0 n2) ++ map h (seq 0 n3)) i = Some (piece n1 n2 f g h i).
Proof.
  intros Hi. unfold piece. destruct (Nat.ltb_spec i n1) as [L1|L1].
  - rewrite nth_error_app1 by (rewrite map_length, seq_length; exact L1). rewrite nth_error_map, nth_error_seq by exact L1. reflexivity.
  - rewrite nth_error_app2 by (rewrite map_length, seq_length; exact L1). rewrite map_length, seq_length. destruct (Nat.ltb_spec i (n1 + n2)) as [L2|L2].
    + rewrite nth_error_app1 by (rewrite map_length, seq_length; lia). rewrite nth_error_map, nth_error_seq by lia. reflexivity.
    + rewrite nth_error_app2 by (rewrite map_length, seq_length; lia). rewrite map_length, seq_length, nth_error_map, nth_error_seq by lia. reflexivity.
Qed.

(** ** Numbers of points *)

Lemma sqrt3_bounds : 17 / 10 < sqrt 3 < 18 / 10.
Proof. pose proof (sqrt_sqrt 3 ltac:(lra)). pose proof (sqrt_lt_R0 3 ltac:(lra)). split; nra. Qed.

Lemma L1_bounds : 1 / 2 < L1 < 3 / 5.
Proof.
  unfold L1. pose proof sqrt3_bounds. split.
  - apply Rmult_lt_reg_r with (sqrt 3); [lra|]. replace (1 / sqrt 3 * sqrt 3) with 1 by (field; lra). lra.
  - apply Rmult_lt_reg_r with (sqrt 3); [lra|]. replace (1 / sqrt 3 * sqrt 3) with 1 by (field; lra). lra.
Qed.

Lemma round_pos x : 1 / 2 < x -> (0 < np_round x)%Z.
Proof. intros H. pose proof (np_round_near x) as N. apply lt_IZR. unfold Rabs in N. destruct (Rcase_abs _); lra. Qed.

Lemma numbers_ok N mesh : (2 <= N)%Z -> exists n1 n2 n3, numbers N mesh = (Z.of_nat n1, Z.of_nat n2, Z.of_nat (S n3)) /\ (0 < n1)%nat /\ (0 < n2)%nat /\ (0 < n3)%nat /\
  (mesh = true -> (N mod 6 = 0)%Z -> N = (6 * Z.of_nat n2)%Z /\ n1 = (3 * n2)%nat /\ n3 = (2 * n2)%nat).
Proof.
  intros H. unfold numbers. destruct (mesh && (N mod 6 =? 0)%Z) eqn:E.
  - apply andb_prop in E. destruct E as [-> E]. apply Z.eqb_eq in E.
    assert (D : N = (6 * (N / 6))%Z) by (pose proof (Z.div_mod N 6); lia). set (n := (N / 6)%Z) in *. assert (P : (0 < n)%Z) by lia.
    exists (Z.to_nat (3 * n)), (Z.to_nat n), (Z.to_nat (2 * n)).
    replace (N / 2)%Z with (3 * n)%Z by (rewrite D; replace (6 * n)%Z with (3 * n * 2)%Z by lia; rewrite Z.div_mul by lia; reflexivity).
    replace (N / 3)%Z with (2 * n)%Z by (rewrite D; replace (6 * n)%Z with (2 * n * 3)%Z by lia; rewrite Z.div_mul by lia; reflexivity).
    rewrite Nat2Z.inj_succ, !Z2Nat.id by lia. split; [reflexivity|]. repeat split; try lia.
  - pose proof L1_bounds. assert (H2 : 2 <= IZR N) by (apply IZR_le; exact H).
    assert (P1 : (0 < np_round (IZR N * L1))%Z) by (apply round_pos; nra). assert (P2 : (0 < np_round (IZR N * L2))%Z) by (apply round_pos; unfold L2; lra). assert (P3 : (0 < np_round (IZR N * L3))%Z) by (apply round_pos; unfold L3; lra).
    exists (Z.to_nat (np_round (IZR N * L1))), (Z.to_nat (np_round (IZR N * L2))), (Z.to_nat (np_round (IZR N * L3))).
    rewrite Nat2Z.inj_succ, !Z2Nat.id by lia. split; [reflexivity|]. repeat split; try lia; intros -> Q; rewrite Q in E; discriminate E.
Qed.

(** ** The path *)

Definition point_K angle straight lift := fst (points_K angle straight lift).
Definition point_k angle straight lift := snd (points_K angle straight lift).

Definition path_at angle straight lift (n1 n2 n3 : nat) : nat -> r2 :=
  piece n1 n2 (fun i => lerp2 (0, 0) point_M (INR i / INR n1)) (fun i => lerp2 point_M (point_K angle straight lift) (INR i / INR n2))
    (fun i => lerp2 (point_k angle straight lift) (0, 0) (INR i / INR n3)).
Definition x_at (n1 n2 n3 : nat) : nat -> R :=
  piece n1 n2 (fun i => lerp 0 L1 (INR i / INR n1)) (fun i => lerp L1 (L1 + L2) (INR i / INR n2)) (fun i => lerp (L2 + L1) (L1 + L2 + L3) (INR i / INR n3)).

Lemma path_ok N mesh angle straight lift n1 n2 n3 : numbers N mesh = (Z.of_nat n1, Z.of_nat n2, Z.of_nat (S n3)) -> (0 < n1)%nat -> (0 < n2)%nat -> (0 < n3)%nat ->
  exists path x, GMKG N mesh angle straight lift = Ok (path, x, [0; Z.of_nat n1; Z.of_nat (n1 + n2); Z.of_nat (n1 + n2 + n3)]%Z) /\
    length path = (n1 + n2 + S n3)%nat /\ length x = (n1 + n2 + S n3)%nat /\
    forall i, (i < n1 + n2 + S n3)%nat -> nth_error path i = Some (path_at angle straight lift n1 n2 n3 i) /\ nth_error x i = Some (x_at n1 n2 n3 i).
Proof.
  intros E H1 H2 H3. unfold GMKG. rewrite E. unfold path_at, point_K, point_k. destruct (points_K angle straight lift) as [K k]. cbn [fst snd].
  rewrite !line_ok, !linspace_ok by (unfold last_of; lia). cbn [bind]. do 2 eexists. split; [apply f_equal; apply f_equal; repeat (apply f_equal2; [lia|]); reflexivity|].
  split; [rewrite !app_length, !map_length, !seq_length; lia|]. split; [rewrite !app_length, !map_length, !seq_length; lia|].
  intros i Hi. rewrite !pieces by exact Hi. unfold last_of, x_at. replace (S n3 - 1)%nat with n3 by lia. split; reflexivity.
Qed.

(** ** Distances *)

Lemma trig60 : cos (IZR (180 - 60) * PI / 180) = - (1 / 2) /\ sin (IZR (180 - 60) * PI / 180) = sqrt 3 / 2.
Proof.
  change (180 - 60)%Z with 120%Z. replace (120 * PI / 180) with (2 * (PI / 3)) by field. rewrite cos_2PI3, sin_2PI3. split; lra.
Qed.
Lemma trig120 : cos (IZR (180 - 120) * PI / 180) = 1 / 2 /\ sin (IZR (180 - 120) * PI / 180) = sqrt 3 / 2.
Proof. change (180 - 120)%Z with 60%Z. replace (60 * PI / 180) with (PI / 3) by field. rewrite cos_PI3, sin_PI3. split; reflexivity. Qed.

Lemma distance_ok (c : R) p q u v h d1 d2 L :
  fst u = fst p / (2 * PI) -> c * fst u + sqrt 3 / 2 * snd u = snd p / (2 * PI) ->
  fst v = fst q / (2 * PI) -> c * fst v + sqrt 3 / 2 * snd v = snd q / (2 * PI) ->
  fst q - fst p = 2 * PI * h * d1 -> snd q - snd p = 2 * PI * h * d2 -> 0 <= h -> 0 <= L ->
  d1 * d1 + (d2 - c * d1) * (d2 - c * d1) * (4 / 3) = L * L -> distance u v = h * L.
Proof.
  intros U1 U2 V1 V2 D1 D2 Hh HL HD. pose proof PI_RGT_0 as P. pose proof (sqrt_sqrt 3 ltac:(lra)) as S3. pose proof sqrt3_bounds as B.
  assert (E1 : fst u - fst v = - (h * d1)). { rewrite U1, V1. replace (fst p / (2 * PI) - fst q / (2 * PI)) with (- ((fst q - fst p) / (2 * PI))) by (field; lra). rewrite D1. field. lra. }
  assert (E2 : sqrt 3 / 2 * (snd u - snd v) = - (h * (d2 - c * d1))).
  { replace (sqrt 3 / 2 * (snd u - snd v)) with ((snd p / (2 * PI) - snd q / (2 * PI)) - c * (fst u - fst v)) by (rewrite <- U2, <- V2; ring). rewrite E1.
    replace (snd p / (2 * PI) - snd q / (2 * PI)) with (- ((snd q - snd p) / (2 * PI))) by (field; lra). rewrite D2. field. lra. }
  unfold distance. assert (E3 : (snd u - snd v) * (snd u - snd v) = h * h * ((d2 - c * d1) * (d2 - c * d1) * (4 / 3))).
  { assert (Q : sqrt 3 / 2 * (snd u - snd v) * (sqrt 3 / 2 * (snd u - snd v)) = h * (d2 - c * d1) * (h * (d2 - c * d1))) by (rewrite E2; ring).
    replace (sqrt 3 / 2 * (snd u - snd v) * (sqrt 3 / 2 * (snd u - snd v))) with (sqrt 3 * sqrt 3 * ((snd u - snd v) * (snd u - snd v)) / 4) in Q by field. rewrite S3 in Q. nra. }
  rewrite E1, E3. replace (- (h * d1) * - (h * d1) + h * h * ((d2 - c * d1) * (d2 - c * d1) * (4 / 3))) with ((h * L) * (h * L)) by (replace (h * L * (h * L)) with (h * h * (L * L)) by ring; rewrite <- HD; ring).
  apply sqrt_square. apply Rmult_le_pos; assumption.
Qed.

Lemma L1_square : L1 * L1 = 1 / 3.
Proof. unfold L1. pose proof (sqrt_sqrt 3 ltac:(lra)). pose proof sqrt3_bounds. replace (1 / sqrt 3 * (1 / sqrt 3)) with (1 / (sqrt 3 * sqrt 3)) by (field; lra). rewrite H. reflexivity. Qed.

Lemma lerp_diff a b t s : lerp a b s - lerp a b t = (s - t) * (b - a). Proof. unfold lerp. ring. Qed.

Lemma step_INR i n : (0 < n)%nat -> INR (S i) / INR n - INR i / INR n = / INR n.
Proof. intros H. rewrite S_INR. field. apply not_0_INR. lia. Qed.

Lemma inv_pos n : (0 < n)%nat -> 0 < / INR n.
Proof. intros H. apply Rinv_0_lt_compat. apply lt_0_INR. exact H. Qed.

(** Representation of the two points called K *)
Definition K_of (angle : Z) : R * R := if (angle =? 60)%Z then (1 / 3, 1 / 3) else (1 / 3, 2 / 3).
Definition k_of (angle : Z) (straight : bool) : R * R := if straight then (if (angle =? 60)%Z then (- 2 / 3, 1 / 3) else (- 2 / 3, - 1 / 3)) else K_of angle.
Definition factor (straight lift : bool) : R := if lift then (if straight then shrink else shrink * shrink) else 1.

Lemma K_eq angle straight lift : point_K angle straight lift = scale2 (2 * PI * factor straight lift) (K_of angle) /\ point_k angle straight lift = scale2 (2 * PI * factor straight lift) (k_of angle straight).
Proof.
  unfold point_K, point_k, points_K, K_of, k_of, K_of, factor. destruct (angle =? 60)%Z, straight, lift; cbn [fst snd]; split; apply r2_ext; unfold scale2; cbn [fst snd]; field.
Qed.

Lemma M_eq : point_M = (0, PI).
Proof. apply r2_ext; unfold point_M; cbn [fst snd]; field. Qed.

(** ** Pieces of the path *)

Section Path.
  Variables (angle : Z) (straight lift : bool) (n1 n2 n3 : nat).
  Hypotheses (H1 : (0 < n1)%nat) (H2 : (0 < n2)%nat) (H3 : (0 < n3)%nat).

  Let P := path_at angle straight lift n1 n2 n3.
  Let X := x_at n1 n2 n3.
  Let K := point_K angle straight lift.
  Let k := point_k angle straight lift.

  Lemma at_first i : (i <= n1)%nat -> P i = lerp2 (0, 0) point_M (INR i / INR n1) /\ X i = lerp 0 L1 (INR i / INR n1).
  Proof.
    intros Hi. unfold P, path_at, X, x_at, piece. destruct (Nat.ltb_spec i n1) as [L|L]; [split; reflexivity|]. assert (i = n1) as -> by lia.
    destruct (Nat.ltb_spec n1 (n1 + n2)) as [_|?]; [|lia]. rewrite Nat.sub_diag. cbn [INR]. assert (INR n1 <> 0) by (apply not_0_INR; lia). unfold lerp2, lerp. replace (0 / INR n2) with 0 by (unfold Rdiv; ring). replace (INR n1 / INR n1) with 1 by (field; assumption). split; [apply r2_ext; cbn [fst snd]; ring|ring].
  Qed.

  Lemma at_second i : (i < n2)%nat -> P (n1 + i)%nat = lerp2 point_M K (INR i / INR n2) /\ X (n1 + i)%nat = lerp L1 (L1 + L2) (INR i / INR n2).
  Proof.
    intros Hi. unfold P, path_at, X, x_at, piece. destruct (Nat.ltb_spec (n1 + i) n1) as [L|_]; [lia|]. destruct (Nat.ltb_spec (n1 + i) (n1 + n2)) as [_|L]; [|lia].
    replace (n1 + i - n1)%nat with i by lia. split; reflexivity.
  Qed.

  Lemma at_third i : P (n1 + n2 + i)%nat = lerp2 k (0, 0) (INR i / INR n3) /\ X (n1 + n2 + i)%nat = lerp (L1 + L2) (L1 + L2 + L3) (INR i / INR n3).
  Proof.
    unfold P, path_at, X, x_at, piece. destruct (Nat.ltb_spec (n1 + n2 + i) n1) as [L|_]; [lia|]. destruct (Nat.ltb_spec (n1 + n2 + i) (n1 + n2)) as [L|_]; [lia|].
    replace (n1 + n2 + i - n1 - n2)%nat with i by lia. rewrite (Rplus_comm L2 L1). split; reflexivity.
  Qed.

  (** Steps of the path *)
  Lemma steps i : (i < n1 + n2 + n3)%nat ->
    (i < n1)%nat /\ P (S i) = add2 (P i) (scale2 (/ INR n1) point_M) /\ X (S i) = X i + / INR n1 * L1 \/
    (n1 <= i < n1 + n2)%nat /\ P (S i) = (if (S i =? n1 + n2)%nat then k else add2 (P i) (scale2 (/ INR n2) (fst K - fst point_M, snd K - snd point_M))) /\
      ((S i = n1 + n2)%nat -> K = add2 (P i) (scale2 (/ INR n2) (fst K - fst point_M, snd K - snd point_M))) /\ X (S i) = X i + / INR n2 * L2 \/
    (n1 + n2 <= i)%nat /\ P (S i) = add2 (P i) (scale2 (/ INR n3) (- fst k, - snd k)) /\ X (S i) = X i + / INR n3 * L3.
  Proof.
    intros Hi. assert (N1 : INR n1 <> 0) by (apply not_0_INR; lia). assert (N2 : INR n2 <> 0) by (apply not_0_INR; lia). assert (N3 : INR n3 <> 0) by (apply not_0_INR; lia).
    destruct (Nat.lt_ge_cases i n1) as [A|A]; [left|right; destruct (Nat.lt_ge_cases i (n1 + n2)) as [B|B]; [left|right]].
    - split; [exact A|]. destruct (at_first i ltac:(lia)) as [-> ->]. destruct (at_first (S i) ltac:(lia)) as [-> ->]. unfold lerp2, lerp, add2, scale2. rewrite S_INR. cbn [fst snd]. split; [apply r2_ext; cbn [fst snd]; field; assumption|field; assumption].
    - split; [lia|]. replace i with (n1 + (i - n1))%nat by lia. set (j := (i - n1)%nat). assert (Hj : (j < n2)%nat) by lia. destruct (at_second j Hj) as [-> ->].
      destruct (Nat.eqb_spec (S (n1 + j)) (n1 + n2)) as [E|E].
      + destruct (at_third 0) as [T1 T2]. rewrite Nat.add_0_r in T1, T2. rewrite E, T1, T2. assert (Ej : INR j = INR n2 - 1) by (replace n2 with (S j) by lia; rewrite S_INR; ring).
        unfold lerp2, lerp, add2, scale2. rewrite Ej. cbn [INR fst snd]. replace (0 / INR n3) with 0 by (unfold Rdiv; ring).
        split; [apply r2_ext; cbn [fst snd]; ring|]. split; [intros _; apply r2_ext; cbn [fst snd]; field; assumption|]. field. assumption.
      + replace (S (n1 + j)) with (n1 + S j)%nat by lia. destruct (at_second (S j) ltac:(lia)) as [-> ->]. unfold lerp2, lerp, add2, scale2. rewrite S_INR. cbn [fst snd].
        split; [apply r2_ext; cbn [fst snd]; field; assumption|]. split; [intros Q; exfalso; lia|field; assumption].
    - split; [exact B|]. replace i with (n1 + n2 + (i - n1 - n2))%nat by lia. set (j := (i - n1 - n2)%nat). replace (S (n1 + n2 + j)) with (n1 + n2 + S j)%nat by lia.
      destruct (at_third j) as [-> ->]. destruct (at_third (S j)) as [-> ->]. unfold lerp2, lerp, add2, scale2. rewrite S_INR. cbn [fst snd]. split; [apply r2_ext; cbn [fst snd]; field; assumption|field; assumption].
  Qed.
End Path.

(** Both points called K are equivalent without the shift. *)
Lemma K_equivalent angle straight : equivalent (point_k angle straight false) (point_K angle straight false).
Proof.
  destruct (K_eq angle straight false) as [-> ->]. unfold equivalent, k_of, K_of, factor. destruct straight; [|exists 0%Z, 0%Z; cbn [fst snd]; split; ring].
  destruct (angle =? 60)%Z; [exists 1%Z, 0%Z|exists 1%Z, 1%Z]; unfold scale2; cbn [fst snd]; split; field.
Qed.
