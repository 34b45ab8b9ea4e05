(** Specification vocabulary for isolines. *)
From Coq Require Import QArith.
From Verif Require Import Common VorSpec.
Local Open Scope Q_scope.

(** The first Brillouin zone of the triangular lattice in units of the reciprocal lattice
    vectors (which enclose an angle of 60 degrees): no point of the reciprocal lattice is
    closer than the origin. *)
Definition in_zone (v : Q * Q) : Prop := forall z w : Z,
  dist2 60 (fst v) (snd v) <= dist2 60 (fst v - inject_Z z) (snd v - inject_Z w).

(** Straight lines between successive points *)
Fixpoint links {A} (l : list A) : list (A * A) :=
  match l with p :: ((q :: _) as l') => (p, q) :: links l' | _ => [] end.

(** [x] is on the straight line from [p] to [q]. *)
Definition between (p q x : Q * Q) : Prop := exists u, 0 <= u <= 1 /\
  fst x == (1 - u) * fst p + u * fst q /\ snd x == (1 - u) * snd p + u * snd q.

(** [x] is on one of the contours. *)
Definition drawn (contours : list (list (Q * Q))) (x : Q * Q) : Prop :=
  exists c p q, In c contours /\ In (p, q) (links c) /\ between p q x.

(** A square array *)
Definition square (N : nat) (energies : list (list Q)) : Prop :=
  length energies = N /\ Forall (fun row => length row = N) energies.

(** Neighbors on the triangular mesh *)
Definition neighbors (i j i' j' : Z) : Prop :=
  In (i' - i, j' - j)%Z [(1, 0); (0, 1); (-1, 1); (-1, 0); (0, -1); (1, -1)]%Z.
