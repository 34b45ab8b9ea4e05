(** Specification vocabulary: shortest equivalent bonds. *)
From Verif Require Import Common LatModel VorModel Num.
Local Open Scope Z_scope.

(** Lattice vectors that differ by multiples of the mesh dimensions. *)
Definition same_cell (nr R R' : vec) : Prop :=
  (vx nr | vx R - vx R') /\ (vy nr | vy R - vy R') /\ (vz nr | vz R - vz R').

(** The supercells that are searched: [nsc] in each direction. *)
Definition searched (nr : vec) (sgn nsc : Z) (R : vec) : Prop :=
  - nsc * vx nr <= sgn * vx R < nsc * vx nr /\
  - nsc * vy nr <= sgn * vy R < nsc * vy nr /\
  - nsc * vz nr <= sgn * vz R < nsc * vz nr.

Section Spec.
  Context (nr : vec) (sgn nsc : Z) (len : vec -> nat -> nat -> Q) (eps : Q).

  (** Among the equivalent bonds searched, none is shorter by [eps] or more. *)
  Definition shortest (i j : nat) (R : vec) : Prop :=
    searched nr sgn nsc R /\
    forall R', searched nr sgn nsc R' -> same_cell nr R' R -> (len R i j < len R' i j + eps)%Q.

  (** [n] is the number of equivalent shortest bonds. *)
  Definition degeneracy (i j : nat) (R : vec) (n : nat) : Prop :=
    exists l, NoDup l /\ (forall R', In R' l <-> same_cell nr R' R /\ shortest i j R') /\ n = length l.

  (** [x] is the length of the shortest equivalent bond. *)
  Definition least_length (i j : nat) (R : vec) (x : Q) : Prop :=
    (exists R', searched nr sgn nsc R' /\ same_cell nr R' R /\ x = len R' i j) /\
    (forall R', searched nr sgn nsc R' -> same_cell nr R' R -> (x <= len R' i j)%Q).
End Spec.

(** Points of the positive mesh. *)
Definition on_mesh (nr m : vec) : Prop :=
  0 <= vx m < vx nr /\ 0 <= vy m < vy nr /\ 0 <= vz m < vz nr.

Fixpoint qsum (l : list Q) : Q := match l with [] => 0%Q | x :: l => (x + qsum l)%Q end.

(** Wave vectors of the mesh that belongs to the mesh of lattice vectors. *)
From Coq Require Import Reals.
From Verif Require Import NumC.
Definition mesh_point (nr n : vec) : kpoint :=
  K3 (2 * PI * IZR (vx n) / IZR (vx nr)) (2 * PI * IZR (vy n) / IZR (vy nr)) (2 * PI * IZR (vz n) / IZR (vz nr)).
