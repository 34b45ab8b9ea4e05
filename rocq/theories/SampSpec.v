(** What is meant by points of a mesh and matrix elements of the coupling, without
    reference to the program. *)
From Coq Require Import Reals ZArith.
From Verif Require Import Cx HermSpec.
Local Open Scope R_scope.

(** A point of the uniform mesh: (2 pi i / n1, 2 pi j / n2, 2 pi l / n3) *)
Definition mesh_point (nk K : nat * nat * nat) : R * R * R :=
  let '(n1, n2, n3) := nk in let '(i, j, l) := K in
  (2 * PI * INR i / INR n1, 2 * PI * INR j / INR n2, 2 * PI * INR l / INR n3).
Definition in_mesh (nk K : nat * nat * nat) : Prop :=
  let '(n1, n2, n3) := nk in let '(i, j, l) := K in (i < n1 /\ j < n2 /\ l < n3)%nat.

(** a and b differ by at most d, apart from a multiple of 2 pi *)
Definition close (d a b : R) : Prop := exists z : Z, Rabs (a - b - 2 * PI * IZR z) <= d.
(** Equivalence of points of reciprocal space *)
Definition equivalent (a b : R * R * R) : Prop :=
  let '(a1, a2, a3) := a in let '(b1, b2, b3) := b in close 0 a1 b1 /\ close 0 a2 b2 /\ close 0 a3 b3.
Definition translate (a b : R * R * R) : R * R * R :=
  let '(a1, a2, a3) := a in let '(b1, b2, b3) := b in (a1 + b1, a2 + b2, a3 + b3).
(** Closer than half the spacing of the mesh (or just half the spacing) in each direction *)
Definition within_half (nk : nat * nat * nat) (a b : R * R * R) : Prop :=
  let '(n1, n2, n3) := nk in let '(a1, a2, a3) := a in let '(b1, b2, b3) := b in
  close (PI / INR n1) a1 b1 /\ close (PI / INR n2) a2 b2 /\ close (PI / INR n3) a3 b3.

(** The change of the potential along displacement u, sum_x u_x g_x *)
Definition along (nph : nat) (u : nat -> C) (g : nat -> nat -> nat -> C) (a b : nat) : C :=
  csum nph (fun x => (u x * g x a b)%C).
(** Matrix element < m k' | sum_x u_x g_x | n k > for states with coefficients A m and
    B n *)
Definition braket (nph nel : nat) (A B : nat -> nat -> C) (u : nat -> nat -> C) (g : nat -> nat -> nat -> C)
    (v m n : nat) : C :=
  element nel A B (along nph (fun x => u x v) g) m n.

(** Sum of squared absolute values of all elements *)
Definition total (nph nel : nat) (g : nat -> nat -> nat -> C) : R :=
  rsum nph (fun x => rsum nel (fun a => rsum nel (fun b => abs2 (g x a b)))).
