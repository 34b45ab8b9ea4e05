(** What is expected of the functions in elphmod/models, in terms of their values *)
From Coq Require Import Reals.
From Verif Require Import Common Num NumC.

(** Hermitian matrix of dimension [n] *)
Definition hermitian (n : nat) (A : nat -> nat -> C) : Prop := forall i j, i < n -> j < n -> A i j = nconj (A j i).

(** A rigid displacement of all [n] atoms in direction [j] is not opposed by any
    force; [root na] are the square roots of the masses, by which the dynamical
    matrix is divided. *)
Definition no_restoring_force (n : nat) (root : nat -> C) (D : nat -> nat -> C) : Prop :=
  forall x j, x < 3 * n -> j < 3 -> nsum (fun na => nmul (root na) (D x (3 * na + j))) (seq 0 n) = n0.

(** ... and does not affect the electrons; [no] is the number of orbitals. *)
Definition no_coupling (n no : nat) (root : nat -> C) (g : nat -> nat -> nat -> C) : Prop :=
  forall j a b, j < 3 -> a < no -> b < no -> nsum (fun na => nmul (root na) (g (3 * na + j) a b)) (seq 0 n) = n0.

(** The bond vectors of graphene in terms of positions: graphene.py:90-92 *)
Definition bond0 (r : nat -> nat -> R) (x : nat) : R := (r 1%nat x - r 0%nat x)%R.
Definition bond1 (r : nat -> nat -> R) (x : nat) : R := r 0%nat x.
Definition bond2 (r : nat -> nat -> R) (x : nat) : R := (- r 1%nat x)%R.

(** Functions of one and two wave vectors, in units of radians *)
Definition bloch1 := R -> R -> R -> nat -> nat -> C.
Definition bloch2 := R -> R -> R -> R -> R -> R -> nat -> nat -> nat -> C.

(** ... that do not change if reciprocal lattice vectors are added *)
Definition periodic (n : nat) (f : bloch1) : Prop := forall k1 k2 k3 n1 n2 n3 i j, i < n -> j < n ->
  f (k1 + 2 * PI * IZR n1)%R (k2 + 2 * PI * IZR n2)%R (k3 + 2 * PI * IZR n3)%R i j = f k1 k2 k3 i j.
Definition periodic_coupling (n no : nat) (f : bloch2) : Prop := forall q1 q2 q3 k1 k2 k3 n1 n2 n3 m1 m2 m3 x a b, x < 3 * n -> a < no -> b < no ->
  f (q1 + 2 * PI * IZR n1)%R (q2 + 2 * PI * IZR n2)%R (q3 + 2 * PI * IZR n3)%R (k1 + 2 * PI * IZR m1)%R (k2 + 2 * PI * IZR m2)%R (k3 + 2 * PI * IZR m3)%R x a b =
  f q1 q2 q3 k1 k2 k3 x a b.

(** ... and are transforms of real parameters in real space *)
Definition reversible (n : nat) (f : bloch1) : Prop := forall k1 k2 k3 i j, i < n -> j < n ->
  f (- k1)%R (- k2)%R (- k3)%R i j = nconj (f k1 k2 k3 i j).
Definition reversible_coupling (n no : nat) (f : bloch2) : Prop := forall q1 q2 q3 k1 k2 k3 x a b, x < 3 * n -> a < no -> b < no ->
  f (- q1)%R (- q2)%R (- q3)%R (- k1)%R (- k2)%R (- k3)%R x a b = nconj (f q1 q2 q3 k1 k2 k3 x a b).

(** Coupling g(q, k) = g(-q, k + q)^dagger *)
Definition hermitian_coupling (n no : nat) (f : bloch2) : Prop := forall q1 q2 q3 k1 k2 k3 x a b, x < 3 * n -> a < no -> b < no ->
  f q1 q2 q3 k1 k2 k3 x a b = nconj (f (- q1)%R (- q2)%R (- q3)%R (k1 + q1)%R (k2 + q2)%R (k3 + q3)%R x b a).
