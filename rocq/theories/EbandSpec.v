(** Specification of sums over bands. *)
From Coq Require Import Reals.
From Verif Require Import Common.
Local Open Scope R_scope.

(** Sum over [k < nk] and [n < nbnd] *)
Fixpoint add (f : nat -> R) (n : nat) : R := match n with O => 0 | S n => add f n + f n end.
Definition sum_states (nk nbnd : nat) (f : nat -> nat -> R) : R := add (fun k => add (f k) nbnd) nk.

(** Band [n] is in the list, which may have negative numbers that count from the end *)
Definition chosen (nbnd : nat) (l : list Z) (n : nat) : Prop := In (Z.of_nat n) l \/ In (Z.of_nat n - Z.of_nat nbnd)%Z l.
Definition valid (nbnd : nat) (l : list Z) : Prop := forall i, In i l -> (- Z.of_nat nbnd <= i < Z.of_nat nbnd)%Z.
(** The sum over the chosen bands, once each *)
Definition sum_over (P : nat -> Prop) (nk nbnd : nat) (f : nat -> nat -> R) (x : R) : Prop :=
  exists g, (forall k n, (P n -> g k n = f k n) /\ (~ P n -> g k n = 0)) /\ x = sum_states nk nbnd g.

(** One energy is changed. *)
Definition change (e : nat -> nat -> R) (k n : nat) (t : R) : nat -> nat -> R :=
  fun k' n' => if (Nat.eqb k' k && Nat.eqb n' n)%bool then t else e k' n'.
