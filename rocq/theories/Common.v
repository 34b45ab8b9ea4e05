(** Vocabulary shared by all model files: exceptions as values and small list
    helpers. Nothing here models a particular function of elphmod. *)

From Coq Require Export List Arith ZArith Lia Bool.
From Coq Require Export ZifyBool ZifyNat.
Export ListNotations.

(** Python exceptions that the modelled code can raise. *)
Inductive exc :=
  | ZeroDivisionError | ValueError | IndexError | KeyError | AttributeError
  | SystemExit | AssertionError | TypeError | FileNotFoundError | NameError
  | EOFError | OSError | StopIteration | UnboundLocalError
  | NotImplementedError | OverflowError.

(** A Python call either returns or raises. *)
Inductive res (A : Type) := Ok (a : A) | Raise (e : exc).
Arguments Ok {A} a.
Arguments Raise {A} e.

Definition bind {A B} (x : res A) (f : A -> res B) : res B :=
  match x with Ok a => f a | Raise e => Raise e end.

Notation "'do' x <- m ;; f" := (bind m (fun x => f))
  (at level 200, x pattern, m at level 100, f at level 200, right associativity).

(** Sum of a list of integers / naturals. *)
Fixpoint sumZ (l : list Z) : Z :=
  match l with [] => 0%Z | x :: l => (x + sumZ l)%Z end.

Fixpoint sumN (l : list nat) : nat :=
  match l with [] => 0 | x :: l => x + sumN l end.

(** Position of the first element satisfying a test. *)
Fixpoint find_index {A} (f : A -> bool) (l : list A) : option nat :=
  match l with
  | [] => None
  | x :: l => if f x then Some 0 else option_map S (find_index f l)
  end.

#[global] Arguments Nat.ltb : simpl never.
#[global] Arguments Nat.div : simpl never.
#[global] Arguments Nat.modulo : simpl never.
#[global] Arguments Z.add : simpl never.
#[global] Arguments Z.mul : simpl never.
#[global] Arguments Z.sub : simpl never.
#[global] Arguments Z.div : simpl never.
#[global] Arguments Z.modulo : simpl never.
