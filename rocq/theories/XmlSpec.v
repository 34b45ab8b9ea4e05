(** Specification vocabulary for files with electron-phonon coupling. *)
From Coq Require Import QArith Qabs List ZArith.
Import ListNotations.
Local Open Scope Q_scope.

(** The vectors of moderate length [b1] and [b2] are reciprocal to [a1] and [a2], up to
    the precision of floats. *)
Definition close (x y : Q) : Prop := Qabs (x - y) <= 1 # 1000000000.
Definition moderate (v : Q * Q) : Prop := Qabs (fst v) <= 2 /\ Qabs (snd v) <= 2.
Definition scalar (u v : Q * Q) : Q := fst u * fst v + snd u * snd v.
Definition reciprocal (a1 a2 b1 b2 : Q * Q) : Prop :=
  moderate a1 /\ moderate a2 /\ moderate b1 /\ moderate b2 /\
  close (scalar a1 b1) 1 /\ close (scalar a1 b2) 0 /\ close (scalar a2 b1) 0 /\ close (scalar a2 b2) 1.

(** Two numbers agree in 15 decimal digits after the first one. *)
Definition same_digits (x y : Q) : Prop := Qabs (x - y) <= (1 # 2000000000000000) * Qabs x.

(** Distinct numbers below [n] *)
Definition distinct_below (n : nat) (l : list Z) : Prop := NoDup l /\ forall z, In z l -> (0 <= z < Z.of_nat n)%Z.
