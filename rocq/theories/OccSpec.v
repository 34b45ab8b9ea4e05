(** Specification notions for smearing functions and the Fermi level. *)
From Coq Require Import Reals String List.
Import ListNotations.
Local Open Scope R_scope.

(** [d] is minus the derivative of [f] and [d'] the derivative of [d] at [x]. *)
Definition derivatives_at (f d d' : R -> R) (x : R) : Prop :=
  derivable_pt_lim f x (- d x) /\ derivable_pt_lim d x (d' x).

(** The entropy [S] belongs to the occupation [f] = f(x): dS/dx = x df/dx, so that
    the grand potential kT sum (x f - S) has the derivative f with respect to
    an energy kT x. *)
Definition entropy_at (S d : R -> R) (x : R) : Prop := derivable_pt_lim S x (x * - d x).

(** A proper occupation number: between zero and one, not increasing with the energy. *)
Definition occupation (f : R -> R) : Prop :=
  (forall x, 0 <= f x <= 1) /\ (forall x y, x <= y -> f y <= f x).

(** Particle-hole symmetry. *)
Definition symmetric (f : R -> R) : Prop := forall x, f (- x) = 1 - f x.

(** Full for low and empty for high energies. *)
Definition step (f : R -> R) : Prop :=
  (forall c, 0 < c -> exists X, forall x, X <= x -> Rabs (f x) < c) /\
  (forall c, 0 < c -> exists X, forall x, x <= - X -> Rabs (f x - 1) < c).

(** A smooth step with the slope [- d0] at zero, flattening out on both sides. *)
Definition flattening_step (f : R -> R) (d0 : R) : Prop :=
  0 < d0 /\ symmetric f /\ step f /\ (forall x, continuity_pt f x) /\
  (forall x, 0 < x -> f x < 1 / 2) /\ (forall x y, x <= y -> f y <= f x) /\
  (forall x, 0 < x -> 1 / 2 - f x <= d0 * x) /\
  (forall x y, 0 < x <= y -> (1 / 2 - f y) / y <= (1 / 2 - f x) / x).

(** Number of electrons per unit cell: two per state, [nb] bands, energies for
    a number of k points. *)
Definition electrons (f : R -> R) (kT : R) (e : list R) (nb : nat) (mu : R) : R :=
  2 * fold_right Rplus 0 (map (fun x => f ((x - mu) / kT)) e) / (INR (length e) / INR nb).

(** Two names differ in the case of letters at most. *)
Definition same_letter (c c' : Ascii.ascii) : Prop :=
  c = c' \/ exists i,
    get i "ABCDEFGHIJKLMNOPQRSTUVWXYZ" = Some c /\ get i "abcdefghijklmnopqrstuvwxyz" = Some c' \/
    get i "abcdefghijklmnopqrstuvwxyz" = Some c /\ get i "ABCDEFGHIJKLMNOPQRSTUVWXYZ" = Some c'.
Fixpoint up_to_case (s s' : string) : Prop :=
  match s, s' with
  | EmptyString, EmptyString => True
  | String c s, String c' s' => same_letter c c' /\ up_to_case s s'
  | _, _ => False
  end.
