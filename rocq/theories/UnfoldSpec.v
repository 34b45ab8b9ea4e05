(** Specification of unfolding weights. *)
From Coq Require Import List Arith Reals.
From Verif Require Import Common LatModel Cx.
Local Open Scope C_scope.

(** An integer vector as a list of real numbers. *)
Definition coords (v : vec) : list R := [IZR (vx v); IZR (vy v); IZR (vz v)].

Fixpoint scalar (u v : list R) : R := match u, v with x :: u, y :: v => (x * y + scalar u v)%R | _, _ => 0%R end.
Definition minus (u v : list R) : list R := map (fun x => (fst x - snd x)%R) (combine u v).
Definition turn (x : R) : C := (cos x, sin x).

(** Column n of U is a Bloch state with wave vector q, i.e., the same vector c of
    [orbs] coefficients in all cells except for the phase. *)
Definition bloch (sgn : R) (q : list R) (Rs : list (list R)) (orbs : nat) (U : nat -> nat -> C) (n : nat) : Prop :=
  exists c, forall ir a, (ir < length Rs)%nat -> (a < orbs)%nat ->
    U (ir * orbs + a)%nat n = turn (- sgn * scalar q (nth ir Rs nil)) * c a.

(** The wave vectors are all those which differ by reciprocal lattice vectors of
    the supercell. *)
Definition complete_set (ks Rs : list (list R)) : Prop :=
  forall ir jr, (ir < length Rs)%nat -> (jr < length Rs)%nat ->
  csum (length ks) (fun ik => turn (scalar (nth ik ks nil) (nth ir Rs nil) - scalar (nth ik ks nil) (nth jr Rs nil))) =
  RtoC (if (ir =? jr)%nat then INR (length Rs) else 0%R).

(** All integer vectors of a mesh of n points, in any order. *)
Definition enumerates (n : vec) (l : list vec) : Prop :=
  NoDup l /\ forall m, In m l <-> (0 <= vx m < vx n /\ 0 <= vy m < vy n /\ 0 <= vz m < vz n)%Z.
