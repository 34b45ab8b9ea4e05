(** Specification of intersections of isolines on a triangulated periodic mesh. *)
From Coq Require Import QArith Qabs List.
Import ListNotations.
Local Open Scope Q_scope.

(** Corners of the lower and upper triangle of cell (i, j). *)
Definition triangle (i j : nat) (upper : bool) : (nat * nat) * (nat * nat) * (nat * nat) :=
  ((if upper then (i + 1, j + 1) else (i, j)), (i + 1, j), (i, j + 1))%nat.

(** Periodic continuation. *)
Definition per (N : nat) (x : nat -> nat -> Q) (v : nat * nat) : Q := x (fst v mod N)%nat (snd v mod N)%nat.

Definition num (n : nat) : Q := inject_Z (Z.of_nat n).

(** Barycentric combination. *)
Definition bary (U V W a b c : Q) : Q := U * a + V * b + W * c.

(** Jacobian determinant of (x, y) on the triangle. *)
Definition jacobian (N : nat) (x y : nat -> nat -> Q) (t : (nat * nat) * (nat * nat) * (nat * nat)) : Q :=
  let '(P, Q, R) := t in
  (per N x Q - per N x P) * (per N y R - per N y P) - (per N x R - per N x P) * (per N y Q - per N y P).

(** [intersection N x y f z d w]: the isolines x = z and y = z cross at the point
    d = (d1, d2) of a triangle, with weight w: interpolated f over determinant
    and number of mesh points. *)
Definition intersection (N : nat) (x y f : nat -> nat -> Q) (z d1 d2 w : Q) : Prop :=
  exists i j upper U V W, (i < N)%nat /\ (j < N)%nat /\
    0 <= U /\ 0 <= V /\ 0 <= W /\ U + V + W == 1 /\
    let '(P, Q, R) := triangle i j upper in
    ~ jacobian N x y (P, Q, R) == 0 /\
    bary U V W (per N x P) (per N x Q) (per N x R) == z /\
    bary U V W (per N y P) (per N y Q) (per N y R) == z /\
    bary U V W (num (fst P)) (num (fst Q)) (num (fst R)) == d1 /\
    bary U V W (num (snd P)) (num (snd Q)) (num (snd R)) == d2 /\
    bary U V W (per N f P) (per N f Q) (per N f R) / (num N * num N) / Qabs (jacobian N x y (P, Q, R)) == w.
