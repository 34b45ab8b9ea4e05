(** Specification of what ph.sum_rule_correction promises. *)
From Verif Require Import Common LatModel OField.
Local Open Scope nat_scope.

Section Spec.
  Context {K : ofield}.
  Local Open Scope k_scope.

  (** Force constants, by lattice vector, atom and direction, atom and direction. *)
  Notation ifc := (nat * (nat * nat) * (nat * nat) -> K) (only parsing).

  Definition closed_under_negation (R : list vec) : Prop := forall T, In T R -> In (vopp T) R.

  (** C(R, kx, ly) = C(-R, ly, kx) *)
  Definition symmetric (R : list vec) (nat_ : nat) (C : ifc) : Prop :=
    forall n m k x l y, (n < length R)%nat -> (m < length R)%nat -> nth m R vzero = vopp (nth n R vzero) ->
      (k < nat_)%nat -> (x < 3)%nat -> (l < nat_)%nat -> (y < 3)%nat -> C (n, (k, x), (l, y)) = C (m, (l, y), (k, x)).

  (** No force on atom k upon a uniform displacement of the crystal in direction y. *)
  Definition acoustic_rule (nR nat_ : nat) (C : ifc) : Prop :=
    forall k x y, (k < nat_)%nat -> (x < 3)%nat -> (y < 3)%nat ->
      ksum (fun n => ksum (fun l => C (n, (k, x), (l, y))) (seq 0 nat_)) (seq 0 nR) = k0.

  (** Born and Huang's rotation sum rule; [pos n l] is the position of atom l in cell n. *)
  Definition rotation_rule (pos : nat -> nat -> nat -> K) (nR nat_ : nat) (C : ifc) : Prop :=
    forall k x1 x2 y, (k < nat_)%nat -> (x1 < 3)%nat -> (x2 < 3)%nat -> (y < 3)%nat ->
      ksum (fun n => ksum (fun l => C (n, (k, x1), (l, y)) * pos n l x2 - C (n, (k, x2), (l, y)) * pos n l x1) (seq 0 nat_)) (seq 0 nR) = k0.

  Definition rules (pos : nat -> nat -> nat -> K) (R : list vec) (nat_ : nat) (asr rsr : bool) (C : ifc) : Prop :=
    symmetric R nat_ C /\ (asr = true -> acoustic_rule (length R) nat_ C) /\ (rsr = true -> rotation_rule pos (length R) nat_ C).

  (** Sum of the squared differences of all the elements. *)
  Definition deviation (nR nat_ : nat) (C D : ifc) : K :=
    ksum (fun n => ksum (fun k => ksum (fun x => ksum (fun l => ksum (fun y =>
      (C (n, (k, x), (l, y)) - D (n, (k, x), (l, y))) * (C (n, (k, x), (l, y)) - D (n, (k, x), (l, y))))
        (seq 0 3)) (seq 0 nat_)) (seq 0 3)) (seq 0 nat_)) (seq 0 nR).

  (** The stored data are force constants divided by square roots of masses. *)
  Definition physical (divide_mass : bool) (sqM : nat -> K) (data : ifc) : ifc :=
    fun '(n, (k, x), (l, y)) => if divide_mass then sqM k * sqM l * data (n, (k, x), (l, y)) else data (n, (k, x), (l, y)).
End Spec.
