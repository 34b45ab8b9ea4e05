(** Model of bravais.GMKG (bravais.py:1685-1774).

    Simplification: floats are real numbers; the corner indices are always returned. *)
From Coq Require Export Reals List ZArith.
From Verif Require Export Common GeoModel.
From Verif Require Import DiagModel.
Import ListNotations.
Local Open Scope R_scope.

(** [np.linspace(start, stop, num, endpoint)]; negative numbers of samples are rejected. *)
Definition linspace (start stop : R) (num : Z) (endpoint : bool) : res (list R) :=
  if (num <? 0)%Z then Raise ValueError
  else
    let div := if endpoint then (num - 1)%Z else num in
    let step := (stop - start) / IZR div in
    Ok (map (fun i => start + INR i * step) (seq 0 (Z.to_nat num))).

(** Lines 1751-1755 *)
Definition line (k1 k2 : r2) (N : Z) (endpoint : bool) : res (list r2) :=
  do q1 <- linspace (fst k1) (fst k2) N endpoint ;;
  do q2 <- linspace (snd k1) (snd k2) N endpoint ;;
  Ok (combine q1 q2).

(** Lines 1721-1739: the points. If the path is not straight, [k] and [K] are the same
    array, which is thus multiplied twice. *)
Definition shrink : R := 1 - / 10 ^ 10.
Definition point_M : r2 := (2 * PI * 0 / 2, 2 * PI * 1 / 2).
Definition points_K (angle : Z) (straight lift_degen : bool) : r2 * r2 :=
  let (K, k) := if (angle =? 60)%Z
    then ((2 * PI * 1 / 3, 2 * PI * 1 / 3), (2 * PI * -2 / 3, 2 * PI * 1 / 3))
    else ((2 * PI * 1 / 3, 2 * PI * 2 / 3), (2 * PI * -2 / 3, 2 * PI * -1 / 3)) in
  if straight then
    if lift_degen then (scale2 shrink K, scale2 shrink k) else (K, k)
  else
    if lift_degen then let K := scale2 shrink (scale2 shrink K) in (K, K) else (K, K).

Definition L1 : R := 1 / sqrt 3.
Definition L2 : R := 1 / 3.
Definition L3 : R := 2 / 3.

(** Lines 1745-1753 *)
Definition numbers (N : Z) (mesh : bool) : Z * Z * Z :=
  let '(N1, N2, N3) := if mesh && (N mod 6 =? 0)%Z
    then (N / 2, N / 6, N / 3)%Z
    else (np_round (IZR N * L1), np_round (IZR N * L2), np_round (IZR N * L3)) in
  (N1, N2, (N3 + 1)%Z).

Definition GMKG (N : Z) (mesh : bool) (angle : Z) (straight lift_degen : bool) : res (list r2 * list R * list Z) :=
  let G := (0, 0) in
  let (K, k) := points_K angle straight lift_degen in
  let '(N1, N2, N3) := numbers N mesh in
  do l1 <- line G point_M N1 false ;;
  do l2 <- line point_M K N2 false ;;
  do l3 <- line k G N3 true ;;
  do x1 <- linspace 0 L1 N1 false ;;
  do x2 <- linspace L1 (L1 + L2) N2 false ;;
  do x3 <- linspace (L2 + L1) (L1 + L2 + L3) N3 true ;;
  Ok (l1 ++ l2 ++ l3, x1 ++ x2 ++ x3, [0; N1; N1 + N2; N1 + N2 + N3 - 1]%Z).
