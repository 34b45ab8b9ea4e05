(** Specification vocabulary for bravais.stack. *)
From Coq Require Import Permutation Sorting.Sorted.
From Verif Require Import Common StackModel.
Local Open Scope Q_scope.

(** Contract of numpy.argsort: the indices in an order that sorts the values
    (no assumption about ties). *)
Definition sorts (argsort : list Q -> list nat) : Prop :=
  forall l, Permutation (argsort l) (seq 0 (length l)) /\
    StronglySorted (fun i j => nth i l 0 <= nth j l 0) (argsort l).

(** The points agree up to full periods. *)
Definition shifted (p : Q) (x y : list Q) : Prop :=
  Forall2 (fun a b => exists n : Z, b == a + inject_Z n * p) x y.
