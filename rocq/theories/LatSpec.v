(** Specification vocabulary for lattices and supercells. *)
From Verif Require Import Common LatModel.
Local Open Scope Z_scope.

(** n1 N1 + n2 N2 + n3 N3 *)
Definition comb (N1 N2 N3 : vec) (n : vec) : vec :=
  vadd (vadd (vscale (vx n) N1) (vscale (vy n) N2)) (vscale (vz n) N3).

(** Lattice vectors of the supercell. *)
Definition in_lattice (N1 N2 N3 : vec) (v : vec) : Prop :=
  exists n, v = comb N1 N2 N3 n.

(** Determinant of the matrix with rows N1, N2, N3 (rule of Sarrus). *)
Definition det3 (N1 N2 N3 : vec) : Z :=
  vx N1 * vy N2 * vz N3 + vy N1 * vz N2 * vx N3 + vz N1 * vx N2 * vy N3
  - vz N1 * vy N2 * vx N3 - vy N1 * vx N2 * vz N3 - vx N1 * vz N2 * vy N3.

(** A complete system of representatives of the integer vectors modulo [L]. *)
Definition representatives (L : vec -> Prop) (l : list vec) : Prop :=
  NoDup l /\ forall v, exists! c, In c l /\ L (vsub v c).
