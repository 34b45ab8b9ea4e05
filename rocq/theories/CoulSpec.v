(** What files with Coulomb interactions contain, independently of how they are read. *)
From Coq Require Import Qabs.
From Verif Require Import Text.
Local Open Scope nat_scope.

(** A line "i j k l Re Im"; orbitals are counted from one in the file and from zero here. *)
Inductive lists_local : text -> nat -> nat -> nat -> nat -> Q * Q -> Prop :=
  | local_line line w1 w2 w3 w4 w5 w6 i j k l re im : str_split line = [w1; w2; w3; w4; w5; w6] ->
      to_int w1 = Ok (Z.of_nat i + 1)%Z -> to_int w2 = Ok (Z.of_nat j + 1)%Z -> to_int w3 = Ok (Z.of_nat k + 1)%Z -> to_int w4 = Ok (Z.of_nat l + 1)%Z ->
      to_float w5 = Ok re -> to_float w6 = Ok im -> lists_local line i j k l (re, im).

(** The coordinate [x] of a q point belongs to the point [q / n] of the mesh, up to
    reciprocal lattice vectors and deviations of less than half a step. *)
Definition near (lt : Q -> Q -> Prop) (n : nat) (x : Q) (q : nat) : Prop :=
  q < n /\ exists m : Z, lt (Qabs (x * inject_Z (Z.of_nat n) - inject_Z (Z.of_nat q + m * Z.of_nat n))) (1 # 2).

(** A line "q1 q2 q3 i j k l Re Im" *)
Inductive lists_orbital (lt : Q -> Q -> Prop) (n1 n2 n3 : nat) : text -> nat * nat * nat -> nat -> nat -> nat -> nat -> Q * Q -> Prop :=
  | orbital_line line u1 u2 u3 w1 w2 w3 w4 w5 w6 rest x1 x2 x3 q1 q2 q3 i j k l re im : str_split line = u1 :: u2 :: u3 :: w1 :: w2 :: w3 :: w4 :: w5 :: w6 :: rest ->
      to_float u1 = Ok x1 -> to_float u2 = Ok x2 -> to_float u3 = Ok x3 -> near lt n1 x1 q1 -> near lt n2 x2 q2 -> near lt n3 x3 q3 ->
      to_int w1 = Ok (Z.of_nat i + 1)%Z -> to_int w2 = Ok (Z.of_nat j + 1)%Z -> to_int w3 = Ok (Z.of_nat k + 1)%Z -> to_int w4 = Ok (Z.of_nat l + 1)%Z ->
      to_float w5 = Ok re -> to_float w6 = Ok im -> lists_orbital lt n1 n2 n3 line (q1, q2, q3) i j k l (re, im).

(** Orbitals are indeed counted from one: the four columns after the first [c] ones do not
    contain zero or negative numbers. *)
Definition counted (c : nat) (line : text) : Prop :=
  forall w z, In w (firstn 4 (skipn c (str_split line))) -> to_int w = Ok z -> (0 < z)%Z.

(** A line with real and imaginary part *)
Definition two_numbers (line : text) (v : Q * Q) : Prop :=
  exists w1 w2, str_split line = [w1; w2] /\ to_float w1 = Ok (fst v) /\ to_float w2 = Ok (snd v).

Definition close9 (v v' : Q * Q) : Prop := (Qabs (fst v - fst v') <= 1 # 2000000000 /\ Qabs (snd v - snd v') <= 1 # 2000000000)%Q.
