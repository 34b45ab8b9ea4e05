(** Model of bravais.stack (elphmod/bravais.py:704-763) for a single column of
    points (the columns of array-valued points are independent); rational
    numbers in place of floats. *)
From Coq Require Export QArith Qround.
From Verif Require Import Common.
Local Open Scope Q_scope.

(** numpy's [%]. *)
Definition qmod (x p : Q) : Q := x - p * inject_Z (Qfloor (x / p)).

Fixpoint qsum (l : list Q) : Q := match l with [] => 0 | x :: l => x + qsum l end.

(** numpy.var; numpy.std is its (monotonic) square root. *)
Definition qlen (l : list Q) : Q := inject_Z (Z.of_nat (length l)).
Definition mean (l : list Q) : Q := qsum l / qlen l.
Definition var (l : list Q) : Q := mean (map (fun x => (x - mean l) * (x - mean l)) l).

(** Line 755: [stackings[n + 1, order[n]] += period]. *)
Fixpoint add_at (i : nat) (c : Q) (l : list Q) : list Q :=
  match l, i with
  | [], _ => []
  | x :: l, O => (x + c) :: l
  | x :: l, S i => x :: add_at i c l
  end.

(** Lines 747-755: the first N - 1 elements of [order] are used. *)
Fixpoint stackings (p : Q) (points : list Q) (order : list nat) : list (list Q) :=
  points :: match order with [] => [] | i :: order => stackings p (add_at i p points) order end.

(** numpy.argmin: the first minimum. *)
Fixpoint first_min (best : list Q) (l : list (list Q)) : list Q :=
  match l with
  | [] => best
  | s :: l => if Qlt_le_dec (var s) (var best) then first_min s l else first_min best l
  end.

(** numpy.argsort is external; its contract is in StackSpec.v. An empty list of
    points cannot be reshaped. *)
Definition stack (argsort : list Q -> list nat) (points : list Q) (period : Q) : res (list Q) :=
  let points := map (fun x => qmod x period) points in
  match points with
  | [] => Raise ValueError
  | _ => let order := argsort points in
         match stackings period points (removelast order) with
         | s :: l => Ok (first_min s l)
         | [] => Raise ValueError
         end
  end.

(** A reference implementation of argsort, for the examples. *)
Fixpoint insert_idx (points : list Q) (i : nat) (l : list nat) : list nat :=
  match l with
  | [] => [i]
  | j :: l => if Qlt_le_dec (nth i points 0) (nth j points 0) then i :: j :: l else j :: insert_idx points i l
  end.
Definition ref_argsort (points : list Q) : list nat :=
  fold_left (fun l i => insert_idx points i l) (seq 0 (length points)) [].
