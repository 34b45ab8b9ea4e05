(** Complex numbers (those of Coquelicot, pairs of reals), conjugation and finite sums. *)
From Coq Require Export Reals.
From Coquelicot Require Export Complex.
Local Open Scope C_scope.

Definition conj (z : C) : C := (fst z, - snd z)%R.

(** sum(f(i) for i in range(n)) *)
Fixpoint csum (n : nat) (f : nat -> C) : C := match n with O => RtoC 0 | S n => csum n f + f n end.
Fixpoint rsum (n : nat) (f : nat -> R) : R := match n with O => 0%R | S n => (rsum n f + f n)%R end.

(** Squared absolute value. *)
Definition abs2 (z : C) : R := (fst z * fst z + snd z * snd z)%R.
