(** Specification vocabulary for paths and meshes. *)
From Verif Require Import Common GeoModel.
Local Open Scope R_scope.

(** The point that divides the line from p to q in the ratio j : n - j. *)
Definition between (n j : nat) (p q : r3) : r3 :=
  R3 (rx p + INR j / INR n * (rx q - rx p)) (ry p + INR j / INR n * (ry q - ry p)) (rz p + INR j / INR n * (rz q - rz p)).

(** Squared Cartesian distance of two points given in units of b. *)
Definition distance (b : r3 * r3 * r3) (p q : r3) : R :=
  let x c := (rx q - rx p) * c (fst (fst b)) + (ry q - ry p) * c (snd (fst b)) + (rz q - rz p) * c (snd b) in
  sqrt (x rx * x rx + x ry * x ry + x rz * x rz).

Definition on_segment (A B t : r3) : Prop :=
  exists s, 0 <= s <= 1 /\ t = R3 (rx A + s * (rx B - rx A)) (ry A + s * (ry B - ry A)) (rz A + s * (rz B - rz A)).

Definition distance2 (u v : r3) : R := (rx u - rx v) * (rx u - rx v) + (ry u - ry v) * (ry u - ry v) + (rz u - rz v) * (rz u - rz v).

(** Index tuples of a grid and their place in row-major order. *)
Definition on_grid (n i : list Z) : Prop := length i = length n /\ forall d a b, nth_error i d = Some a -> nth_error n d = Some b -> (0 <= a < b)%Z.
Fixpoint place (n i : list Z) : Z :=
  match n, i with
  | _ :: n, a :: i => (a * fold_right Z.mul 1%Z n + place n i)%Z
  | _, _ => 0%Z
  end.
