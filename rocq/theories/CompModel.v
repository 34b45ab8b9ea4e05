(** Model of elphmod/plot.py:474-513 (compline): polygons for the composition along a
    line.

    Simplifications: real numbers in place of floats. Arrays with [nx] rows are functions
    of the index; the composition has already got two axes. [y] is an array: a single
    number is a constant one. *)
From Coq Require Import Reals.
From Verif Require Import Common.
Local Open Scope R_scope.

Definition upd {A} (f : nat -> A) (n : nat) (x : A) : nat -> A := fun m => if (m =? n)%nat then x else f m.

(** plot.py:481-484 *)
Definition stacked (nc : nat) (composition : nat -> nat -> R) : nat -> nat -> R :=
  fold_left (fun lines ic => upd lines (S ic) (fun i => lines ic i + composition i ic)) (seq 0 nc) (fun _ _ => 0).

(** plot.py:486-488 *)
Definition centered (nc : nat) (y : nat -> R) (lines : nat -> nat -> R) : nat -> nat -> R :=
  fold_left (fun lines ic => upd lines ic (fun i => lines ic i + (y i - lines nc i / 2))) (seq 0 (nc + 1)) lines.

(** plot.py:490-500 *)
Definition outline_x (nx : nat) (x : nat -> R) : list R := map x (seq 0 nx) ++ rev (map x (seq 0 nx)) ++ [x 0%nat].
Definition outline_y (nx : nat) (lines : nat -> nat -> R) (ic : nat) : list R :=
  map (lines ic) (seq 0 nx) ++ rev (map (lines (S ic)) (seq 0 nx)) ++ [lines ic 0%nat].

(** a[::sgn] for [sgn] 1 or -1 *)
Definition strided (sgn : Z) (l : list R) : list R := if (sgn =? 1)%Z then l else rev l.

(** plot.py:502-513: one pair of coordinate lists for each component *)
Fixpoint polygons (nx : nat) (x : nat -> R) (lines : nat -> nat -> R) (sgn : Z) (ics : list nat) : list (list R * list R) :=
  match ics with
  | [] => []
  | ic :: ics => (strided sgn (outline_x nx x), strided sgn (outline_y nx lines ic)) :: polygons nx x lines (sgn * -1) ics
  end.

(** plot.py:474-513; an empty line cannot be reshaped. *)
Definition compline (nx nc : nat) (x y : nat -> R) (composition : nat -> nat -> R) (center : bool) : res (list (list R * list R)) :=
  if (nx =? 0)%nat then Raise ValueError else
  let lines := stacked nc composition in
  let lines := if center then centered nc y lines else lines in
  Ok (polygons nx x lines 1 (seq 0 nc)).
