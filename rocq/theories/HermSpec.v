(** Hermitian matrices and their eigensystems. *)
From Coq Require Import Reals.
From Verif Require Import Cx.
Local Open Scope C_scope.

Definition hermitian (N : nat) (A : nat -> nat -> C) : Prop :=
  forall i j, (i < N)%nat -> (j < N)%nat -> A j i = conj (A i j).

Definition delta (i j : nat) : C := if Nat.eqb i j then RtoC 1 else RtoC 0.

(** The columns of U are orthonormal and complete. *)
Definition unitary (N : nat) (U : nat -> nat -> C) : Prop :=
  (forall m n, (m < N)%nat -> (n < N)%nat -> csum N (fun i => conj (U i m) * U i n) = delta m n) /\
  (forall i j, (i < N)%nat -> (j < N)%nat -> csum N (fun n => U i n * conj (U j n)) = delta i j).

(** What numpy.linalg.eigh promises: A U = U diag(e) with unitary U (the order of
    the eigenvalues does not matter here). *)
Definition eigensystem (N : nat) (A : nat -> nat -> C) (e : nat -> R) (U : nat -> nat -> C) : Prop :=
  unitary N U /\ forall i n, (i < N)%nat -> (n < N)%nat -> csum N (fun j => A i j * U j n) = RtoC (e n) * U i n.

(** Expectation value of X for the n-th column of U, <n|X|n>, and matrix element. *)
Definition element (N : nat) (U V : nat -> nat -> C) (X : nat -> nat -> C) (m n : nat) : C :=
  csum N (fun i => csum N (fun j => conj (U i m) * X i j * V j n)).
