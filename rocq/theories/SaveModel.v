(** Model of elphmod/md.py, Driver.save and Driver.load (lines 825-880).

    A driver is described by its attributes and those of [driver.elph]. Every attribute that
    is not set is [None]. Simplifications: the file is pickled by the first process, which is
    the one that is described. Values other than communicators and truth values are opaque;
    pickling and unpickling returns equal values; communicators (and open plots) cannot be
    pickled. Writing the file can fail in any way ([trouble]). *)
From Coq Require Export String.
From Verif Require Export Common.

Inductive value := VBool (b : bool) | VComm (id : nat) | VData (x : nat).
Definition attrs := string -> option value.

Record heap := { self : attrs; elph : attrs }.

(** Contents of the file: [Pickle] is a complete pickle, [Broken] anything else *)
Inductive file := Missing | Broken | Pickle (h : heap).

(** Statements may change attributes and the file before raising an exception. *)
Definition state : Type := heap * file.
Definition M (A : Type) : Type := state -> state * res A.
Definition ret {A} (a : A) : M A := fun s => (s, Ok a).
Definition then_ {A B} (m : M A) (f : A -> M B) : M B := fun s => let (s, r) := m s in match r with Ok a => f a s | Raise e => (s, Raise e) end.
Notation "'run' x <- m ;; f" := (then_ m (fun x => f)) (at level 200, x pattern, m at level 100, f at level 200, right associativity).

Definition put (a : attrs) (x : string) (v : option value) : attrs := fun y => if String.eqb y x then v else a y.

(** x = driver.name, driver.name = x, del driver.name, and the same for driver.elph *)
Definition get_attr (x : string) : M value := fun s => (s, match self (fst s) x with Some v => Ok v | None => Raise AttributeError end).
Definition set_attr (x : string) (v : value) : M unit := fun s => (({| self := put (self (fst s)) x (Some v); elph := elph (fst s) |}, snd s), Ok tt).
Definition del_attr (x : string) : M unit := fun s =>
  match self (fst s) x with Some _ => (({| self := put (self (fst s)) x None; elph := elph (fst s) |}, snd s), Ok tt) | None => (s, Raise AttributeError) end.
Definition get_elph (x : string) : M value := fun s => (s, match elph (fst s) x with Some v => Ok v | None => Raise AttributeError end).
Definition set_elph (x : string) (v : value) : M unit := fun s => (({| self := self (fst s); elph := put (elph (fst s)) x (Some v) |}, snd s), Ok tt).
Definition del_elph (x : string) : M unit := fun s =>
  match elph (fst s) x with Some _ => (({| self := self (fst s); elph := put (elph (fst s)) x None |}, snd s), Ok tt) | None => (s, Raise AttributeError) end.

(** Python's truth values *)
Definition truth (v : value) : bool := match v with VBool b => b | VComm _ => true | VData n => negb (Nat.eqb n 0) end.

(** MPI.py, lines 312-324, Buffer.set: the file is opened, which empties it, and the pickle
    is written. [trouble]: exception raised by open ([inl]) or by pickle.dump ([inr]) *)
Definition picklable (h : heap) : Prop := forall x, (forall i, self h x <> Some (VComm i)) /\ (forall i, elph h x <> Some (VComm i)).
Definition store (trouble : option (exc + exc)) : M unit := fun s =>
  match trouble with
  | Some (inl e) => (s, Raise e)
  | Some (inr e) => ((fst s, Broken), Raise e)
  | None => ((fst s, Pickle (fst s)), Ok tt)
  end.

(** md.py, lines 825-854 *)
Definition save (trouble : option (exc + exc)) : M unit :=
  run interactive <- get_attr "interactive" ;;
  run _ <- set_attr "interactive" (VBool false) ;;
  run node <- get_attr "node" ;;
  run images <- get_attr "images" ;;
  run _ <- del_attr "node" ;;
  run _ <- del_attr "images" ;;
  run sparse <- get_attr "sparse" ;;
  run elph_comms <- (if truth sparse then ret None else
    run n <- get_elph "node" ;;
    run i <- get_elph "images" ;;
    run _ <- del_elph "node" ;;
    run _ <- del_elph "images" ;;
    ret (Some (n, i))) ;;
  run _ <- store trouble ;;
  run _ <- set_attr "interactive" interactive ;;
  run _ <- set_attr "node" node ;;
  run _ <- set_attr "images" images ;;
  run sparse <- get_attr "sparse" ;;
  if truth sparse then ret tt else
    match elph_comms with
    | None => fun s => (s, Raise NameError)
    | Some (n, i) => run _ <- set_elph "node" n ;; set_elph "images" i
    end.

(** md.py, lines 856-880; [n] and [i] are the communicators returned by MPI.shm_split. If
    there is no file, Buffer.get returns None, which has no attributes. *)
Definition load (f : file) (n i : nat) : res heap :=
  match f with
  | Missing => Raise AttributeError
  | Broken => Raise EOFError
  | Pickle h =>
      let self' := put (put (self h) "node" (Some (VComm n))) "images" (Some (VComm i)) in
      match self' "sparse"%string with
      | None => Raise AttributeError
      | Some v => Ok {| self := self'; elph := if truth v then elph h else put (put (elph h) "node" (Some (VComm n))) "images" (Some (VComm i)) |}
      end
  end.
