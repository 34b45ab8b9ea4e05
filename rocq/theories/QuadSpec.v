(** What files with q points and quadrupole tensors contain, independently of how they
    are read or written. *)
From Coq Require Import Qabs.
From Verif Require Import Text.
Local Open Scope nat_scope.

(** A line consisting of numbers, separated and surrounded by white space *)
Definition integers (line : text) (xs : list Z) : Prop := map_res to_int (str_split line) = Ok xs.
Definition numbers (line : text) (xs : list Q) : Prop := map_res to_float (str_split line) = Ok xs.

(** A symmetric tensor in the notation of Voigt: xx, yy, zz, yz, xz, xy *)
Record voigt := Voigt { xx : Q; yy : Q; zz : Q; yz : Q; xz : Q; xy : Q }.
Inductive component (v : voigt) : nat -> nat -> Q -> Prop :=
  | c_xx : component v 0 0 (xx v)
  | c_yy : component v 1 1 (yy v)
  | c_zz : component v 2 2 (zz v)
  | c_yz : component v 1 2 (yz v)
  | c_xz : component v 0 2 (xz v)
  | c_xy : component v 0 1 (xy v)
  | c_zy : component v 2 1 (yz v)
  | c_zx : component v 2 0 (xz v)
  | c_yx : component v 1 0 (xy v).

(** A line "atom direction Qxx Qyy Qzz Qyz Qxz Qxy"; atoms and directions are counted from
    one in the file and from zero here. *)
Inductive lists_row : text -> nat -> nat -> voigt -> Prop :=
  | row line w1 w2 u1 u2 u3 u4 u5 u6 n i v : str_split line = [w1; w2; u1; u2; u3; u4; u5; u6] ->
      to_int w1 = Ok (Z.of_nat n + 1)%Z -> to_int w2 = Ok (Z.of_nat i + 1)%Z -> i < 3 ->
      to_float u1 = Ok (xx v) -> to_float u2 = Ok (yy v) -> to_float u3 = Ok (zz v) ->
      to_float u4 = Ok (yz v) -> to_float u5 = Ok (xz v) -> to_float u6 = Ok (xy v) -> lists_row line n i v.

Definition blank_line (line : text) : Prop := Forall (fun c => is_space c = true) line.

(** Two numbers that agree to [d] decimals *)
Definition close (d : nat) (x y : Q) : Prop := (Qabs (x - y) <= 1 # (2 * Z.to_pos (10 ^ Z.of_nat d)))%Q.
Definition decimals (d : nat) (x : Q) : Prop := exists m, (x == m # Z.to_pos (10 ^ Z.of_nat d))%Q.
