(** Specification vocabulary for tight-binding models. *)
From Verif Require Import Common LatModel LatSpec Num ElModel.

Section ElSpec.
  Context {F : num}.

  (** Total hopping matrix element belonging to a lattice vector (which may be
      stored once, several times or not at all). *)
  Definition hopping (h : list (vec * @mat F)) (R : vec) (a b : nat) : F :=
    nsum (fun x => if veqb (fst x) R then snd x a b else n0) h.

  (** Change of the phase of matrix elements if the orbitals selected by [s] are
      moved by the lattice vector [S]. *)
  Definition shift_phase (e : vec -> F) (s : nat -> bool) (S : vec) (a b : nat) : F :=
    if s a then (if s b then n1 else e S) else (if s b then e (vopp S) else n1).

  (** The models describe Hermitian Hamiltonians. *)
  Definition hermitian (m : @el F) : Prop :=
    forall R a b, a < size m -> b < size m ->
    hopping (hop m) (vopp R) b a = nconj (hopping (hop m) R a b).

  (** Strict lexicographic order. *)
  Definition vlt (u v : vec) : Prop :=
    (vx u < vx v \/ vx u = vx v /\ (vy u < vy v \/ vy u = vy v /\ vz u < vz v))%Z.
End ElSpec.
