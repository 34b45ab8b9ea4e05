(** What a file with a band structure contains, independently of how it is read or
    written. *)
From Coq Require Import Reals Qreals Qabs.
From Verif Require Import FilbModel.
Local Open Scope nat_scope.

(** A line consisting of numbers, separated and surrounded by white space *)
Definition numbers (line : text) (xs : list Q) : Prop := map_res to_float (str_split line) = Ok xs.

(** Energies of one k point on one or more lines of arbitrary length, none of them empty *)
Inductive energy_lines : list text -> list Q -> Prop :=
  | no_energies : energy_lines [] []
  | more_energies l xs ls es : numbers l xs -> xs <> [] -> energy_lines ls es -> energy_lines (l :: ls) (xs ++ es).

(** A line beginning with the coordinates of a k point, possibly ending with asterisks *)
Inductive point_line : text -> point -> Prop :=
  | coordinates l c stars end_ w1 w2 w3 rest x y z : str_split (l ++ [c]) = w1 :: w2 :: w3 :: rest ->
      to_float w1 = Ok x -> to_float w2 = Ok y -> to_float w3 = Ok z -> c <> "*"%char -> is_space c = false ->
      Forall (eq "*"%char) stars -> Forall (fun c => is_space c = true) end_ -> point_line (l ++ [c] ++ stars ++ end_) (x, y, z).

(** The first line, with the numbers of bands and k points *)
Inductive header_line : text -> Z -> Z -> Prop :=
  | header a n1 b n2 c nbnd nks : Forall (fun x => x <> "="%char) (a ++ n1 ++ b ++ n2 ++ c) -> ~ In ","%char n1 -> ~ In "/"%char n2 ->
      to_int n1 = Ok nbnd -> to_int n2 = Ok nks -> header_line (a ++ "="%char :: n1 ++ ","%char :: b ++ "="%char :: n2 ++ "/"%char :: c) nbnd nks.

Inductive content (nbnd : nat) : list text -> list point -> list (list Q) -> Prop :=
  | nothing : content nbnd [] [] []
  | block l k ls es ls' ks bands : point_line l k -> energy_lines ls es -> length es = nbnd -> content nbnd ls' ks bands ->
      content nbnd (l :: ls ++ ls') (k :: ks) (es :: bands).

(** Two numbers that agree to [d] decimals *)
Definition close (d : nat) (x y : Q) : Prop := (Qabs (x - y) <= 1 # (2 * Z.to_pos (10 ^ Z.of_nat d)))%Q.
Definition decimals (d : nat) (x : Q) : Prop := exists m, (x == m # Z.to_pos (10 ^ Z.of_nat d))%Q.
Definition close_point (k k' : point) : Prop :=
  let '(x, y, z) := k in let '(x', y', z') := k' in close 6 x x' /\ close 6 y y' /\ close 6 z z'.
