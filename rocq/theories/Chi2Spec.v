(** Specification notions for the Lindhard bubble. *)
From Coq Require Import Reals.
From Verif Require Import Cx.
Local Open Scope R_scope.

(** The Fermi function of an energy relative to the Fermi level, and its derivative *)
Definition fermi (kT E : R) : R := 1 / (exp (E / kT) + 1).
Definition fermi' (kT E : R) : R := - (exp (E / kT) / (kT * (exp (E / kT) + 1) ^ 2)).

(** Response of the occupation of a pair of states with given energies *)
Definition pair_response (kT a b : R) : R :=
  if Req_EM_T a b then fermi' kT a else (fermi kT a - fermi kT b) / (a - b).

(** Energy of the state at the mesh point with the indices of k plus m *)
Definition displaced (nk : nat) (e : nat -> nat -> R) (m1 m2 i j : nat) : R := e ((m1 + i) mod nk)%nat ((m2 + j) mod nk)%nat.

(** The static Lindhard function of one band, for both spins together *)
Definition lindhard (nk : nat) (e : nat -> nat -> R) (kT : R) (m1 m2 : nat) : R :=
  2 / INR (nk * nk) * rsum nk (fun i => rsum nk (fun j => pair_response kT (e i j) (displaced nk e m1 m2 i j))).

(** The point of the mesh with index [m] *)
Definition mesh_q (nk m : nat) : R := 2 * PI * INR m / INR nk.
