(** Specification vocabulary for the properties of elphmod/misc.py,
    independent of the model. *)
From Coq Require Import QArith Qabs.
From Verif Require Import Common MiscModel.

(** Two points are neighbours if all their coordinates differ by less than eps. *)
Definition neighbours (eps : Q) (p q : list Q) : Prop :=
  Forall2 (fun x y => Qabs (y - x) < eps) p q.

(** Indices of points connected by a chain of neighbours. *)
Inductive linked (eps : Q) (points : list (list Q)) : nat -> nat -> Prop :=
  | linked_refl i p : nth_error points i = Some p -> linked eps points i i
  | linked_step i j k p q :
      linked eps points i j ->
      nth_error points j = Some p -> nth_error points k = Some q ->
      neighbours eps p q -> linked eps points i k.

(** The trapezoidal rule for samples [f] at positions [x]. *)
Fixpoint trapezoid (x f : list Q) : Q :=
  match x, f with
  | x0 :: ((x1 :: _) as x'), f0 :: ((f1 :: _) as f') =>
    (x1 - x0) * (f0 + f1) / 2 + trapezoid x' f'
  | _, _ => 0
  end.

(** Weighted sum. *)
Fixpoint dotQ (w f : list Q) : Q :=
  match w, f with
  | w0 :: w', f0 :: f' => w0 * f0 + dotQ w' f'
  | _, _ => 0
  end.

Local Open Scope Z_scope.

(** Number of updates of bar [b] in a history. *)
Definition updates_of (b : nat) (ops : list bar_op) : Z :=
  fold_right (fun o n => match o with Update c => if (c =? b)%nat then n + 1 else n | New _ _ => n end) 0 ops.

(** Number of columns printed. *)
Definition columns_of (ev : list printed) : Z :=
  fold_right (fun e n => match e with Columns _ k => n + k | _ => n end) 0 ev.

(** The event is the output of at least one column by bar [me]. *)
Definition my_columns (me : nat) (e : printed) : Prop :=
  match e with Columns b k => b = me /\ 0 < k | _ => False end.
