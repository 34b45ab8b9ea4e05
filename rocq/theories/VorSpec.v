(** Specification vocabulary: nearest lattice points. *)
From Verif Require Import Common SymModel SymSpec VorModel.
Local Open Scope Q_scope.

(** Squared distance for lattice vectors of unit length that enclose the angle
    (60, 90 or 120 degrees): x^2 + y^2 + 2 cos(angle) x y. *)
Definition dist2 (angle : Z) (x y : Q) : Q :=
  x * x + y * y + (if (angle =? 60)%Z then 1 else if (angle =? 120)%Z then -1 else 0) * (x * y).

(** Mesh points that differ by multiples of the mesh dimension. *)
Definition same_class (nk : Z) (p k : pt) : Prop :=
  ((fst p - fst k) mod nk = 0)%Z /\ ((snd p - snd k) mod nk = 0)%Z.

(** No point of the class of [k] is closer to [d]. *)
Definition nearest (angle nk : Z) (d1 d2 : Q) (k p : pt) : Prop :=
  same_class nk p k /\ forall q, same_class nk q k ->
    dist2 angle (inject_Z (fst p) - d1) (inject_Z (snd p) - d2) <=
    dist2 angle (inject_Z (fst q) - d1) (inject_Z (snd q) - d2).

(** Shifts for which the code considers enough points: less than a third (half,
    for right angles) of the mesh dimension. *)
Definition small_shift (angle nk : Z) (d : Q) : Prop :=
  (if (angle =? 90)%Z then 2 else 3) * Qabs d < inject_Z nk.

(** [n] is the number of points closest to [d] in the class of [p]. *)
Definition number_nearest (angle nk : Z) (d1 d2 : Q) (p : pt) (n : nat) : Prop :=
  exists l, NoDup l /\ (forall q, In q l <-> nearest angle nk d1 d2 p q) /\ n = length l.
