(** Specification notions for diagrams. *)
From Coq Require Import Reals.
From Verif Require Import Cx MdModel DiagModel.
Local Open Scope R_scope.

(** In range of the mesh *)
Definition on_mesh (nk k : pt) : Prop :=
  let '(n1, n2, n3) := nk in let '(i, j, l) := k in (i < n1 /\ j < n2 /\ l < n3)%nat.
Definition nonempty (nk : pt) : Prop := on_mesh nk (0, 0, 0)%nat.

(** Addition modulo reciprocal lattice vectors *)
Definition kadd (nk q k : pt) : pt :=
  let '(n1, n2, n3) := nk in let '(q1, q2, q3) := q in let '(i, j, l) := k in
  ((q1 + i) mod n1, (q2 + j) mod n2, (q3 + l) mod n3)%nat.

(** The q point with given indices, and q points with opposite sign *)
Definition q_point (nk m : pt) : R * R * R :=
  let '(n1, n2, n3) := nk in let '(i, j, l) := m in
  (2 * PI * INR i / INR n1, 2 * PI * INR j / INR n2, 2 * PI * INR l / INR n3).
Definition qneg (q : R * R * R) : R * R * R := let '(x, y, z) := q in (- x, - y, - z).

(** Decreasing occupations between 0 and 1, and a nonnegative delta function *)
Definition decreasing (s : smearing) : Prop := forall x y, x <= y -> occ s y <= occ s x.
Definition nonneg (h : R -> R) : Prop := forall x, 0 <= h x.
Definition fraction (s : smearing) : Prop := forall x, 0 <= occ s x <= 1.

(** Energies that differ by at most [eps] are the same. *)
Definition separated (nk : pt) (nbnd : nat) (e : pt -> nat -> R) (eps : R) : Prop :=
  forall k k' m n, on_mesh nk k -> on_mesh nk k' -> (m < nbnd)%nat -> (n < nbnd)%nat ->
    Rabs (e k m - e k' n) <= eps -> e k m = e k' n.

(** Hermitian matrices without positive eigenvalues *)
Definition form (N : nat) (M : nat -> nat -> C) (v : nat -> C) : C :=
  csum N (fun a => csum N (fun b => conj (v a) * M a b * v b))%C.
Definition nonpositive (N : nat) (M : nat -> nat -> C) : Prop :=
  (forall a b, (a < N)%nat -> (b < N)%nat -> M b a = conj (M a b)) /\ forall v, fst (form N M v) <= 0.

(** Orthonormal eigenvectors (as many bands as given) *)
Definition orthonormal (norb nbnd : nat) (U : nat -> nat -> C) : Prop :=
  forall m n, (m < nbnd)%nat -> (n < nbnd)%nat -> csum norb (fun a => conj (U a m) * U a n)%C = if Nat.eqb m n then RtoC 1 else RtoC 0.
Definition complete (norb nbnd : nat) (U : nat -> nat -> C) : Prop :=
  forall a b, (a < norb)%nat -> (b < norb)%nat -> csum nbnd (fun n => U a n * conj (U b n))%C = if Nat.eqb a b then RtoC 1 else RtoC 0.

(** Number of states per energy at the Fermi level, both spins *)
Definition fermi_dos (nk : pt) (nbnd : nat) (e : pt -> nat -> R) (kT : R) (s : smearing) : R :=
  2 / INR (prod nk) * fst (ksum nk (fun k => csum nbnd (fun n => RtoC (delta s (e k n / kT) / kT)))).

(** Transformation of an operator from the orbital basis to the band basis at k + q and k *)
Definition to_bands (norb : nat) (Ukq Uk : nat -> nat -> C) (g : nat -> nat -> C) (m n : nat) : C :=
  csum norb (fun a => csum norb (fun b => conj (Ukq a m) * g a b * Uk b n))%C.

(** Number of electrons per unit cell for energies relative to the Fermi level *)
Definition electrons (nk : pt) (nbnd : nat) (e : pt -> nat -> R) (kT : R) (s : smearing) : R :=
  2 / INR (prod nk) * fst (ksum nk (fun k => csum nbnd (fun n => RtoC (occ s (e k n / kT))))).

(** Difference quotient of a function [f], its derivative [f'] where both arguments agree *)
Definition quotient (f f' : R -> R) (x y : R) : R :=
  if Req_EM_T x y then f' x else (f x - f y) / (x - y).
