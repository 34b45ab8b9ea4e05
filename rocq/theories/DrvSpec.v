(** Specification notions for models set up by the driver of molecular dynamics. *)
From Coq Require Import Reals.
From Verif Require Import Cx MdModel.
From Verif Require Import Common LatModel.
Local Open Scope C_scope.

(** The Hamiltonian of the distorted structure relative to the chemical potential, to
    first order in the displacements (unit: Ry) *)
Definition distorted (dr : driver) (u : nat -> R) (mu : R) (k a b : nat) : C :=
  H0 dr k a b + csum (3 * nat_ dr) (fun x => d0 dr x k a b * RtoC (u x)) - (if Nat.eqb a b then RtoC mu else RtoC 0).

(** Componentwise divisibility of meshes *)
Definition divides (d n : vec) : Prop := Z.divide (vx d) (vx n) /\ Z.divide (vy d) (vy n) /\ Z.divide (vz d) (vz n).

Definition nonempty (n : vec) : Prop := (0 < vx n /\ 0 < vy n /\ 0 < vz n)%Z.
