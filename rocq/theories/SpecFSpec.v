(** Notions for phonon spectral functions. *)
From Coq Require Import Reals.
From Verif Require Import Cx HermSpec.
Local Open Scope R_scope.

(** X is the inverse of the N x N matrix A. *)
Definition inverse (N : nat) (A X : nat -> nat -> C) : Prop :=
  forall i j, (i < N)%nat -> (j < N)%nat ->
    csum N (fun l => (A i l * X l j)%C) = delta i j /\ csum N (fun l => (X i l * A l j)%C) = delta i j.

(** What is expected of numpy.linalg.inv for N x N matrices (without rounding errors) *)
Definition inverts (N : nat) (inv : (nat -> nat -> C) -> nat -> nat -> C) : Prop :=
  forall A, (exists X, inverse N A X) -> inverse N A (inv A).

(** <v|D|v> *)
Definition expect (N : nat) (D : nat -> nat -> C) (v : nat -> C) : C :=
  csum N (fun i => csum N (fun j => (conj (v i) * D i j * v j)%C)).

(** Harmonic force constants, possibly with a self-energy that describes the decay
    of phonons: the anti-Hermitian part is not positive. *)
Definition damped (N : nat) (D : nat -> nat -> C) : Prop := forall v, snd (expect N D v) <= 0.
