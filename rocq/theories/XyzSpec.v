(** What it means that positions are restored from a trajectory, independently of how
    files are written and read. *)
From Verif Require Import XyzModel.
From Coq Require Import Qabs.

(** Numbers that agree to nine decimals, that is, up to half a billionth *)
Definition near (x y : Q) : Prop := (Qabs (x - y) <= 1 # 2000000000)%Q.
Definition vnear (a b : vec) : Prop := let '(x, y, z) := a in let '(x', y', z') := b in near x x' /\ near y y' /\ near z z'.

(** Vectors without digits beyond the ninth decimal *)
Definition nine_decimals (x : Q) : Prop := exists m : Z, (x == m # 1000000000)%Q.
Definition vnine (a : vec) : Prop := let '(x, y, z) := a in nine_decimals x /\ nine_decimals y /\ nine_decimals z.
Definition veq (a b : vec) : Prop := let '(x, y, z) := a in let '(x', y', z') := b in (x == x' /\ y == y' /\ z == z')%Q.

Definition origin : vec := (0%Q, 0%Q, 0%Q).

(** Names are not empty and contain no white space. *)
Definition proper_name (X : text) : Prop := X <> [] /\ Forall (fun c => is_space c = false) X.

Record proper (d : driver) : Prop := {
  proper_atoms : length (atoms d) = nat_ d;
  proper_r : length (r d) = nat_ d;
  proper_names : Forall proper_name (atoms d)
}.

(** Atom [i], which was at [r d + u] when the file was written: after reading, its position
    with respect to the reader's reference is the same if it has the same name, otherwise
    its displacement [v] has not changed. *)
Definition atom_restored (d : driver) (u : list vec) (d' : driver) (v v' : list vec) (i : nat) : Prop :=
  if list_eq_dec Ascii.ascii_dec (nth i (atoms d) []) (nth i (atoms d') [])
  then vnear (vadd (nth i (r d) origin) (nth i u origin)) (vadd (nth i (r d') origin) (nth i v' origin))
  else nth i v' origin = nth i v origin.
