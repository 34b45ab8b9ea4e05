(** Specification vocabulary for linear interpolation. *)
From Coq Require Import Qabs.
From Verif Require Import Common StackModel StackSpec.
Local Open Scope Q_scope.

(** Periodic continuation of the data to all integer indices. *)
Definition value1 (data : list Q) (i : Z) : Q := nth (Z.to_nat (i mod Z.of_nat (length data))) data 0.
Definition value2 (data : list (list Q)) (i j : Z) : Q :=
  value1 (nth (Z.to_nat (i mod Z.of_nat (length data))) data []) j.

(** A nonempty rectangular array. *)
Definition rectangular (data : list (list Q)) : Prop :=
  data <> [] /\ hd [] data <> [] /\ Forall (fun row => length row = length (hd [] data)) data.

Definition lattice_angle (angle : Z) : Prop := (angle = 60 \/ angle = 90 \/ angle = 120)%Z.

(** [y] is a weighted average of the values of [f] at the ends of [l]. *)
Definition average {A} (l : list A) (f : A -> Q) (y : Q) : Prop :=
  exists w : A -> Q, (forall a, In a l -> 0 <= w a) /\ qsum (map w l) == 1 /\
    y == qsum (map (fun a => w a * f a) l).

(** Corners of the cell around a point. *)
Definition corners1 (n : Q) : list Z := [Qfloor n; (Qfloor n + 1)%Z].
Definition corners2 (n m : Q) : list (Z * Z) :=
  [(Qfloor n, Qfloor m); (Qfloor n + 1, Qfloor m)%Z; (Qfloor n, Qfloor m + 1)%Z; (Qfloor n + 1, Qfloor m + 1)%Z].

(** Equal up to full periods. *)
Definition congruent (p x y : Q) : Prop := exists z : Z, y == x + inject_Z z * p.
