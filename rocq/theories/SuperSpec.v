(** Notions for the effective coupling strength and frequencies of superconductors. *)
From Coq Require Import Reals.
From Verif Require Import Cx HermSpec MdModel DiagModel DiagSpec.
Local Open Scope R_scope.

(** Sum over the k points of a mesh *)
Definition mesh_sum (nk : pt) (F : pt -> R) : R :=
  let '(n1, n2, n3) := nk in rsum n1 (fun i => rsum n2 (fun j => rsum n3 (fun l => F (i, j, l)))).

(** Number of states at the Fermi level per energy, spin, and unit cell *)
Definition dos (nk : pt) (nbnd : nat) (e : pt -> nat -> R) (kT : R) (s : smearing) : R :=
  mesh_sum nk (fun k => rsum nbnd (fun n => delta s (e k n / kT) / kT)) / INR (prod nk).

(** Sum over all pairs of states k n and k + q m, both at the Fermi level *)
Definition fermi_sum (nk : pt) (nbnd : nat) (e : pt -> nat -> R) (kT : R) (s : smearing)
    (nq : nat) (q : nat -> R * R * R) (X : nat -> pt -> nat -> nat -> R) : R :=
  rsum nq (fun iq => mesh_sum nk (fun k => rsum nbnd (fun m => rsum nbnd (fun n =>
    X iq k m n * (delta s (e (kadd nk (q_indices nk (q iq)) k) m / kT) / kT * (delta s (e k n / kT) / kT)))))).

(** Average over all these pairs of states *)
Definition fermi_average nk nbnd e kT s nq q X : R :=
  fermi_sum nk nbnd e kT s nq q X / fermi_sum nk nbnd e kT s nq q (fun _ _ _ _ => 1).

(** <v|A|v> for a Hermitian matrix *)
Definition energy (N : nat) (A : nat -> nat -> C) (v : nat -> C) : R :=
  fst (csum N (fun i => csum N (fun j => conj (v i) * A i j * v j)%C)).

(** Force constants divided by the square roots of the masses; three directions per atom *)
Definition dynamical_matrix (M : nat -> R) (Phi : nat -> nat -> C) (x y : nat) : C :=
  (Phi x y / RtoC (sqrt (M (x / 3)%nat) * sqrt (M (y / 3)%nat)))%C.

(** Squared coupling to the mode with the nu-th column of U as displacements *)
Definition coupling2 (M : nat -> R) (nm : nat) (U : nat -> nat -> C) (g : nat -> C) (nu : nat) : R :=
  abs2 (csum nm (fun x => g x * U x nu / RtoC (sqrt (M (x / 3)%nat))))%C.
