(** What *_hr.dat and *_tb.dat files describe, independently of how they are written and
    read. *)
From Verif Require Import HrModel.
From Coq Require Import Qabs.
Local Open Scope nat_scope.

(** Data in a file: for each lattice vector the degeneracy and the elements of the matrix as
    they appear in the file *)
Record block := { vector : cell; degeneracy : Q; elements : list (nat * nat * cx) }.

(** A line with the indices (counted from one) and the value of an element at the end *)
Definition element_row (size : nat) (front : list text) (row : list text) (e : nat * nat * cx) : Prop :=
  exists a b re im, row = front ++ [a; b; re; im] /\
    fst (fst e) < size /\ snd (fst e) < size /\
    to_int a = Ok (Z.of_nat (fst (fst e)) + 1)%Z /\ to_int b = Ok (Z.of_nat (snd (fst e)) + 1)%Z /\
    to_float re = Ok (fst (snd e)) /\ to_float im = Ok (snd (snd e)).

Definition vector_words (ws : list text) (R : cell) : Prop := let '(x, y, z) := R in map_res to_int ws = Ok [x; y; z].

(** Lines for one lattice vector: in *_hr.dat files, each line starts with it; in *_tb.dat
    files, it has a line of its own *)
Inductive hr_block (size : nat) (B : block) : list (list text) -> Prop :=
  hr_block_intro front rows : vector_words front (vector B) -> Forall2 (element_row size front) rows (elements B) -> hr_block size B rows.
Inductive tb_block (size : nat) (B : block) : list (list text) -> Prop :=
  tb_block_intro first rows : vector_words first (vector B) -> Forall2 (element_row size []) rows (elements B) -> tb_block size B (first :: rows).

(** All elements of a matrix, each one once *)
Definition complete_block (size : nat) (B : block) : Prop :=
  length (elements B) = size * size /\ (forall a b, a < size -> b < size -> exists x, In (a, b, x) (elements B)) /\
  (forall a b x y, In (a, b, x) (elements B) -> In (a, b, y) (elements B) -> x = y) /\ ~ (degeneracy B == 0)%Q.

(** The data that is returned for a block *)
Definition result_of (divide : bool) (size : nat) (B : block) (r : cell * matrix) : Prop :=
  fst r = vector B /\ forall a b x, In (a, b, x) (elements B) ->
  snd r a b = Some (if divide then (fst x / degeneracy B, snd x / degeneracy B)%Q else (fst x / 1, snd x / 1)%Q).

(** Values that fit into the columns: five characters for integers, twelve for floats, with
    a space in front *)
Definition fits_5d (z : Z) : Prop := (-999 <= z <= 9999)%Z.
Definition fits_12f (x : Q) : Prop := (-(999999999 # 1000000) <= x <= 9999999999 # 1000000)%Q.

(** Agreement to six decimals *)
Definition near6 (x y : Q) : Prop := (Qabs (x - y) <= 1 # 2000000)%Q.

(** Lattice vectors with less than three components are padded with zeros. *)
Definition cell_of (R : list Z) : cell := (nth 0 R 0, nth 1 R 0, nth 2 R 0)%Z.

(** Lexicographic order *)
Definition cell_le (a b : cell) : Prop :=
  let '(x, y, z) := a in let '(x', y', z') := b in (x < x' \/ x = x' /\ (y < y' \/ y = y' /\ z <= z'))%Z.

(** Day and time in the header: not empty and without white space *)
Definition proper_word (t : text) : Prop := t <> [] /\ Forall (fun c => is_space c = false) t.
