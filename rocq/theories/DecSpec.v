(** Specification vocabulary: what a list of distances and sizes of matrix elements contains. *)
From Coq Require Import Reals.
From Verif Require Import GeoModel PathModel Common LatModel Num NumC.
Local Open Scope nat_scope.

(** The 3 x 3 block of atoms [i] and [j] does not vanish. *)
Definition coupled (c : nat -> nat -> C) (i j : nat) : Prop :=
  exists x y, x < 3 /\ y < 3 /\ c (i * 3 + x) (j * 3 + y) <> n0.

(** Squared absolute value; [v] is the Frobenius norm of the block of atoms [i] and [j]. *)
Definition abs2 (z : C) : R := (Re z * Re z + Im z * Im z)%R.
Definition block_norm (c : nat -> nat -> C) (i j : nat) (v : R) : Prop :=
  (0 <= v)%R /\ let s x y := abs2 (c (i * 3 + x) (j * 3 + y)) in
  (v * v = s 0%nat 0%nat + s 0%nat 1%nat + s 0%nat 2%nat + s 1%nat 0%nat + s 1%nat 1%nat + s 1%nat 2%nat +
    s 2%nat 0%nat + s 2%nat 1%nat + s 2%nat 2%nat)%R.

(** [v] is the greatest absolute value of the elements with property [P]. *)
Definition greatest (P : C -> Prop) (v : R) : Prop :=
  (0 <= v)%R /\ (exists z, P z /\ v * v = abs2 z)%R /\ (forall z, P z -> abs2 z <= v * v)%R.

(** [d] is the length of the lattice vector [v] in the basis [a]. *)
Definition vector_length (a : r3 * r3 * r3) (v : vec) (d : R) : Prop :=
  (0 <= d)%R /\ let '(a1, a2, a3) := a in
  let s f := (IZR (vx v) * f a1 + IZR (vy v) * f a2 + IZR (vz v) * f a3)%R in
  (d * d = s rx * s rx + s ry * s ry + s rz * s rz)%R.
