(** Polygons and areas, independently of how they are obtained. *)
From Coq Require Import Reals List.
Import ListNotations.
Local Open Scope R_scope.

(** Signed area of a closed polygon (shoelace formula), given the coordinates of the
    corners, the first of which is repeated at the end; positive if counterclockwise *)
Fixpoint area (xs ys : list R) : R :=
  match xs, ys with
  | x :: ((x' :: _) as xs'), y :: ((y' :: _) as ys') => (x * y' - x' * y) / 2 + area xs' ys'
  | _, _ => 0
  end.

Definition closed (l : list R) : Prop := exists p m, l = p :: m ++ [p].

(** Integral of a piecewise linear function, given at the points x_0, ..., x_{n-1} *)
Fixpoint integral (x f : nat -> R) (n : nat) : R :=
  match n with
  | O => 0
  | S O => 0
  | S (S m as n') => integral x f n' + (x n' - x m) * (f n' + f m) / 2
  end.
