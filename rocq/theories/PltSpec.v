(** Specification vocabulary for images. *)
From Coq Require Import QArith.
From Verif Require Import Common.
Local Open Scope Q_scope.

(** The nearest integer to a number that is not exactly between two integers. *)
Definition nearest (x : Q) (n : Z) : Prop := inject_Z n - (1 # 2) < x < inject_Z n + (1 # 2).

(** Centre of the [j]th of [n] equal parts of the way from [a] to [b]. *)
Definition centre (a b : Q) (n j : nat) : Q := a + (b - a) * (inject_Z (2 * Z.of_nat j + 1) / inject_Z (2 * Z.of_nat n)).

(** Scalar product, dual bases. *)
Definition dot (a b : Q * Q) : Q := fst a * fst b + snd a * snd b.
Definition dual (a1 a2 b1 b2 : Q * Q) : Prop := dot a1 b1 == 1 /\ dot a1 b2 == 0 /\ dot a2 b1 == 0 /\ dot a2 b2 == 1.

(** The point of a quadrangle a fraction [u] of the way from left to right and [v] of the way
    from top to bottom. *)
Definition inside_quadrangle (lt rt lb rb u v : Q) : Q :=
  (1 - u) * (1 - v) * lt + u * (1 - v) * rt + (1 - u) * v * lb + u * v * rb.

(** Position of a value between two others, cut off at zero and one. *)
Definition position (lo hi x p : Q) : Prop :=
  (x <= lo /\ p == 0) \/ (hi <= x /\ p == 1) \/ (lo <= x <= hi /\ lo + p * (hi - lo) == x).

(** The lower or upper end of the range of values: as given or as found in the data. *)
Definition lower_end (given : option Q) (values : Q -> Prop) (m : Q) : Prop :=
  match given with Some x => m = x | None => (exists x, values x /\ x == m) /\ forall x, values x -> m <= x end.
Definition upper_end (given : option Q) (values : Q -> Prop) (m : Q) : Prop :=
  match given with Some x => m = x | None => (exists x, values x /\ x == m) /\ forall x, values x -> x <= m end.
