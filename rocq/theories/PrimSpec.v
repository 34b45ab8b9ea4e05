(** Specification vocabulary for Bravais lattices: lengths and angles. *)
From Verif Require Import Common GeoModel.
Local Open Scope R_scope.

Notation row1 A := (fst (fst A)) (only parsing).
Notation row2 A := (snd (fst A)) (only parsing).
Notation row3 A := (snd A) (only parsing).

(** Three vectors of lengths a, b, c with the cosines of angles between the second
    and third, first and third, first and second one. *)
Definition cell_with (A : r3 * r3 * r3) (a b c cosbc cosac cosab : R) : Prop :=
  dot3 (row1 A) (row1 A) = a * a /\ dot3 (row2 A) (row2 A) = b * b /\ dot3 (row3 A) (row3 A) = c * c /\
  dot3 (row2 A) (row3 A) = b * c * cosbc /\ dot3 (row1 A) (row3 A) = a * c * cosac /\ dot3 (row1 A) (row2 A) = a * b * cosab.

(** Integer combinations of lattice vectors. *)
Definition combination (A : r3 * r3 * r3) (n : Z * Z * Z) : r3 :=
  add3 (add3 (scale3 (IZR (fst (fst n))) (row1 A)) (scale3 (IZR (snd (fst n))) (row2 A))) (scale3 (IZR (snd n)) (row3 A)).

(** The lattice of B consists of the lattice of A together with its translations
    by the given fractions of the vectors of A: every vector of B is a
    lattice vector of A plus one of these, and all vectors of A and all of these
    fractions are lattice vectors of B. *)
Definition fraction (A : r3 * r3 * r3) (f : R * R * R) : r3 :=
  add3 (add3 (scale3 (fst (fst f)) (row1 A)) (scale3 (snd (fst f)) (row2 A))) (scale3 (snd f) (row3 A)).
Definition centered (A B : r3 * r3 * r3) (centers : list (R * R * R)) : Prop :=
  (forall v, In v [row1 B; row2 B; row3 B] -> exists f n, In f ((0, 0, 0) :: centers) /\ v = add3 (fraction A f) (combination A n)) /\
  (forall v, In v [row1 A; row2 A; row3 A] \/ (exists f, In f centers /\ v = fraction A f) -> exists n, v = combination B n).
