(** Model of elphmod/bravais.py: rotations, translations, reciprocal vectors and
    change of coordinates, with real numbers in place of floats. *)
From Coq Require Export Reals.
From Verif Require Import Common.
Local Open Scope R_scope.

Definition r2 : Type := R * R.
Record r3 := R3 { rx : R; ry : R; rz : R }.

(** bravais.py:14 *)
Definition deg : R := PI / 180.

Definition dot2 (u v : r2) : R := fst u * fst v + snd u * snd v.
Definition scale2 (c : R) (v : r2) : r2 := (c * fst v, c * snd v).
Definition add2 (u v : r2) : r2 := (fst u + fst v, snd u + snd v).

Definition dot3 (u v : r3) : R := rx u * rx v + ry u * ry v + rz u * rz v.
Definition scale3 (c : R) (v : r3) : r3 := R3 (c * rx v) (c * ry v) (c * rz v).
Definition add3 (u v : r3) : r3 := R3 (rx u + rx v) (ry u + ry v) (rz u + rz v).
(** numpy.cross *)
Definition cross3 (u v : r3) : r3 :=
  R3 (ry u * rz v - rz u * ry v) (rz u * rx v - rx u * rz v) (rx u * ry v - ry u * rx v).

(** bravais.py:16-48 *)
Definition rotate2 (v : r2) (angle : R) : r2 :=
  (cos angle * fst v - sin angle * snd v, sin angle * fst v + cos angle * snd v).
Definition rotate3 (v : r3) (angle : R) : r3 :=
  R3 (cos angle * rx v - sin angle * ry v) (sin angle * rx v + cos angle * ry v) (rz v).

(** bravais.py:282-316 *)
Definition translations2 (angle angle0 : R) : r2 * r2 :=
  let a1 := rotate2 (1, 0) (angle0 * deg) in (a1, rotate2 a1 (angle * deg)).
Definition translations3 (angle angle0 : R) : r3 * r3 :=
  let a1 := rotate3 (R3 1 0 0) (angle0 * deg) in (a1, rotate3 a1 (angle * deg)).

(** bravais.py:318-349. Division by zero is division by zero in R; the
    theorems require linearly independent vectors. *)
Definition reciprocals2 (a1 a2 : r2) : r2 * r2 :=
  let b1 := rotate2 a2 (- 90 * deg) in
  let b2 := rotate2 a1 (90 * deg) in
  (scale2 (/ dot2 a1 b1) b1, scale2 (/ dot2 a2 b2) b2).
Definition reciprocals3 (a1 a2 a3 : r3) : r3 * r3 * r3 :=
  let b1 := cross3 a2 a3 in
  let b2 := cross3 a3 a1 in
  let b3 := cross3 a1 a2 in
  (scale3 (/ dot3 a1 b1) b1, scale3 (/ dot3 a2 b2) b2, scale3 (/ dot3 a3 b3) b3).

(** bravais.py:351-370 *)
Definition volume (a1 a2 a3 : r3) : R := Rabs (dot3 a1 (cross3 a2 a3)).

(** bravais.py:574, 583-597: indices (before rounding) of the image of the
    mesh point [k1, k2] under a rotation by [rot] degrees, optionally followed
    by a reflection. *)
Definition symmetry_image (angle : R) (reflect : bool) (rot : R) (k : r2) : r2 :=
  let (a1, a2) := translations2 (180 - angle) 0 in
  let (b1, b2) := reciprocals2 a1 a2 in
  let K := rotate2 (add2 (scale2 (fst k) b1) (scale2 (snd k) b2)) (rot * deg) in
  let K := if reflect then (- fst K, snd K) else K in
  (dot2 K a1, dot2 K a2).

(** bravais.py:363-370: one- and two-dimensional volumes. *)
Definition volume1 (a1 : r3) : R := rx a1.
Definition volume2 (a1 a2 : r2) : R := Rabs (fst a1 * snd a2 - snd a1 * fst a2).

(** bravais.py:2589-2615, row by row. *)
Definition to_cartesian3 (a1 a2 a3 : r3) (x : r3) : r3 :=
  add3 (add3 (scale3 (rx x) a1) (scale3 (ry x) a2)) (scale3 (rz x) a3).
Definition to_cartesian2 (a1 a2 : r2) (x : r2) : r2 :=
  add2 (scale2 (fst x) a1) (scale2 (snd x) a2).
Definition crystal_to_cartesian3 (l : list r3) (a1 a2 a3 : r3) : list r3 := map (to_cartesian3 a1 a2 a3) l.
Definition crystal_to_cartesian2 (l : list r2) (a1 a2 : r2) : list r2 := map (to_cartesian2 a1 a2) l.

(** 3x3 matrices by rows. *)
Record m3 := Mat3 { row1 : r3; row2 : r3; row3 : r3 }.
Definition mv (A : m3) (x : r3) : r3 := R3 (dot3 (row1 A) x) (dot3 (row2 A) x) (dot3 (row3 A) x).

(** bravais.py:2633-2637: matrix with the given columns. *)
Definition columns (a1 a2 a3 : r3) : m3 :=
  Mat3 (R3 (rx a1) (rx a2) (rx a3)) (R3 (ry a1) (ry a2) (ry a3)) (R3 (rz a1) (rz a2) (rz a3)).

(** bravais.py:2617-2644. numpy.linalg.inv is external: [inv A] is a matrix, or
    None if NumPy raises LinAlgError (a ValueError). *)
Definition cartesian_to_crystal (inv : m3 -> option m3) (l : list r3) (a1 a2 a3 : r3) : res (list r3) :=
  match inv (columns a1 a2 a3) with
  | None => Raise ValueError
  | Some B => Ok (map (mv B) l)
  end.
