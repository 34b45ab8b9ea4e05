(** Tiling and resampling of images, independently of how they are done. *)
From Coq Require Import Qabs.
From Verif Require Import Common.
From Coq Require Import QArith.
Local Open Scope Q_scope.

(** [c] is the smallest divisor of [n] that is not below [m]. *)
Definition least_divisor (n m c : Z) : Prop :=
  (m <= c /\ (c | n) /\ forall c', m <= c' -> (c' | n) -> 0 < c' -> c <= c')%Z.

(** Value at [t] of the piecewise linear function with values [f] at 0, 1, ... *)
Definition on_line (f : nat -> Q) (t v : Q) : Prop :=
  exists (c : nat) (r : Q), 0 <= r < 1 /\ t == inject_Z (Z.of_nat c) + r /\ v == (1 - r) * f c + r * f (c + 1)%nat.

(** The same in two dimensions *)
Definition on_grid (f : nat -> nat -> Q) (s t v : Q) : Prop :=
  exists (c : nat) (r v0 v1 : Q), 0 <= r < 1 /\ s == inject_Z (Z.of_nat c) + r /\ on_line (f c) t v0 /\ on_line (f (c + 1)%nat) t v1 /\ v == (1 - r) * v0 + r * v1.

(** Element of an image *)
Definition at_ (image : list (list Q)) (y x : nat) : Q := nth x (nth y image []) 0.

(** The line from [p] to [p'] is mapped onto that from [q] to [q']: what belongs to [x]? *)
Definition along (p p' q q' x : Z) : Q := inject_Z p + inject_Z (x - q) * inject_Z (p' - p) / inject_Z (q' - q).

Definition nearest (x : Q) (z : Z) : Prop := Qabs (x - inject_Z z) <= 1 # 2.

Fixpoint increasing (l : list Z) : Prop := match l with x :: ((y :: _) as l') => (x < y)%Z /\ increasing l' | _ => True end.
