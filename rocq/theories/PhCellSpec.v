(** Specification vocabulary for mass-spring models on a lattice. *)
From Verif Require Import OField Common LatModel Num ElModel PhCellModel.
Local Open Scope nat_scope.

Section Spec.
  Context {F : num} {K : ofield} {L ZQ : Type}.

  (** Three directions per atom, one mass, label and position per atom. *)
  Definition well_formed (h : @heap K) (p : ph F K L ZQ) : Prop :=
    size (base p) = 3 * natoms p /\ length (positions h p) = natoms p /\ length (M p) = natoms p /\
    length (names p) = natoms p /\ match ZQ_ p with Some z => length z = natoms p | None => True end.

  (** Position of an atom. *)
  Definition atom_at (h : @heap K) (p : ph F K L ZQ) (k : nat) : @cart K := nth k (positions h p) czero.

  (** The vector from atom k of the cell at the origin to atom l of cell R. *)
  Definition bond (h : @heap K) (p : ph F K L ZQ) (R : vec) (k l : nat) : @cart K :=
    cadd (cadd (lattice (a_ p) R) (atom_at h p l)) (cmul (kopp k1) (atom_at h p k)).

  (** The two models have the same atom: mass, label and charges agree. *)
  Definition same_atom (p p' : ph F K L ZQ) (k k' : nat) : Prop :=
    nth_error (M p) k = nth_error (M p') k' /\ nth_error (names p) k = nth_error (names p') k' /\
    match ZQ_ p, ZQ_ p' with
    | Some z, Some z' => nth_error z k = nth_error z' k'
    | None, None => True
    | _, _ => False
    end.
End Spec.
