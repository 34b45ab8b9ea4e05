(** Model of elphmod/misc.py:332-420 (read_xsf) and 422-474 (write_xsf).

    Simplifications: as in Text.v. The process of rank 0 is modelled; others receive its results.
    Symbols of atoms are strings. *)
From Verif Require Import GridModel.
From Verif Require Export Text TextE.
Local Open Scope nat_scope.

(** misc.py:363, 384: [while next(lines).strip() != s: pass] *)
Fixpoint skip_to (s : string) (ls : list text) : res (list text) :=
  match ls with [] => Raise StopIteration | l :: ls => if NmlModel.teqb (strip l) (str s) then Ok ls else skip_to s ls end.
(** misc.py:379-382 *)
Fixpoint xsf_atoms (k : nat) (ls : list text) : res (list (text * vec) * list text) :=
  match k with
  | O => Ok ([], ls)
  | S k =>
    do (l, ls) <- next ls ;;
    let cols := str_split l in
    do X <- first cols ;;
    do xs <- map_all to_float (slice 1 4 cols) ;; do v <- set3 xs ;;
    do (rest, ls) <- xsf_atoms k ls ;;
    Ok ((X, v) :: rest, ls)
  end.
(** misc.py:388, 391 *)
Definition xsf_vector (ls : list text) : res (vec * list text) :=
  do (l, ls) <- next ls ;; do xs <- map_all to_float (str_split l) ;; do v <- set3 xs ;; Ok (v, ls).
(** misc.py:387; a list of one element is repeated *)
Definition set3_int (l : list Z) : res (Z * Z * Z) :=
  match l with [x; y; z] => Ok (x, y, z) | [x] => Ok (x, x, x) | _ => Raise ValueError end.
(** misc.py:407-409: elements from one line, and how many are missing still *)
Fixpoint xsf_line (missing : nat) (ws : list text) {struct ws} : res (list Q * nat) :=
  match ws with
  | [] => Ok ([], missing)
  | w :: ws =>
    do x <- to_float w ;;
    match missing with
    | O => Raise IndexError
    | S missing => do (rest, missing) <- xsf_line missing ws ;; Ok (x :: rest, missing)
    end
  end.
(** misc.py:405-409 *)
Fixpoint xsf_numbers (missing : nat) (ls : list text) {struct ls} : res (list Q) :=
  match missing with
  | O => Ok []
  | _ =>
    match ls with
    | [] => Raise StopIteration
    | l :: ls => do (xs, missing) <- xsf_line missing (str_split l) ;; do rest <- xsf_numbers missing ls ;; Ok (xs ++ rest)
    end
  end.

Record xsf := Xsf { x_r0 : vec; x_a : list vec; x_X : list text; x_tau : list vec; x_n : Z * Z * Z; x_data : nat -> nat -> nat -> Q }.
(** misc.py:411-412: element [i, j, k] of [transpose(reshape(data, n[::-1]))] *)
Definition transposed (n : Z * Z * Z) (data : list Q) (i j k : nat) : Q :=
  let '(n1, n2, n3) := n in nth ((k * Z.to_nat n2 + j) * Z.to_nat n1 + i) data 0%Q.
(** misc.py:360-420 *)
Definition read_xsf (only_header : bool) (file : text) : res xsf :=
  do ls <- skip_to "PRIMCOORD" (lines file) ;;
  do (l, ls) <- next ls ;;
  do c <- first (str_split l) ;; do nat_ <- to_int c ;; do nat_ <- empty nat_ ;;
  do (at_, ls) <- xsf_atoms nat_ ls ;;
  do ls <- skip_to "BEGIN_DATAGRID_3D_UNKNOWN" ls ;;
  do (l, ls) <- next ls ;; do ns <- map_all to_int (str_split l) ;; do n <- set3_int ns ;;
  do (r0, ls) <- xsf_vector ls ;;
  do (a1, ls) <- xsf_vector ls ;; do (a2, ls) <- xsf_vector ls ;; do (a3, ls) <- xsf_vector ls ;;
  if only_header then Ok (Xsf r0 [a1; a2; a3] (map fst at_) (map snd at_) n (fun _ _ _ => 0%Q))
  else
    let '(n1, n2, n3) := n in
    do size <- empty (n1 * n2 * n3) ;;
    do data <- xsf_numbers size ls ;;
    if existsb (fun z => (z <? 0)%Z) [n1; n2; n3] then Raise ValueError
    else Ok (Xsf r0 [a1; a2; a3] (map fst at_) (map snd at_) n (transposed n data)).

(** ** write_xsf

    ['%.5e'] etc.: as [fmt_E], with a small letter *)
Definition fmt_e (d : nat) (x : Q) : text :=
  let '(m, e) := scientific d x in
  (if (Qnum x <? 0)%Z then §"-" else []) ++ nonneg_to_text (m / 10 ^ Z.of_nat d)%Z ++ §"." ++ fraction_digits d m ++ §"e" ++ fmt_exponent e.
(** ['%-5s'] *)
Definition ljust (w : nat) (t : text) : text := t ++ repeat blank (w - length t).
(** Three numbers, for example ['%12.6f %11.6f %11.6f\n'] (misc.py:455, 461, 464) *)
Definition three (w d : nat) (v : vec) : text :=
  pad w (fmt_f d (fst (fst v))) ++ §" " ++ pad 11 (fmt_f d (snd (fst v))) ++ §" " ++ pad 11 (fmt_f d (snd v)) ++ [newline].
(** misc.py:453-455 *)
Definition xsf_atom (a : text * vec) : text := ljust 5 (fst a) ++ §" " ++ three 11 7 (snd a).
(** misc.py:467-471: [i] counts from 1. *)
Fixpoint xsf_values (size i : nat) (data : list Q) : text :=
  match data with
  | [] => []
  | x :: data => pad 13 (fmt_e 5 x) ++ (if (i mod 6 =? 0) || (i =? size) then [newline] else []) ++ xsf_values size (S i) data
  end.
(** [data.flat]: the last index is the fastest. *)
Definition flat (n1 n2 n3 : nat) (data : nat -> nat -> nat -> Q) : list Q :=
  flat_map (fun i => flat_map (fun j => map (data i j) (seq 0 n3)) (seq 0 n2)) (seq 0 n1).
(** misc.py:446-474 *)
Definition write_xsf (only_header : bool) (r0 a1 a2 a3 : vec) (atoms : list (text * vec)) (n1 n2 n3 : nat) (data : nat -> nat -> nat -> Q) : text :=
  §"PRIMCOORD" ++ [newline] ++
  pad 6 (fmt_d (Z.of_nat (length atoms))) ++ §"  1" ++ [newline] ++
  concat (map xsf_atom atoms) ++
  §"BEGIN_BLOCK_DATAGRID_3D" ++ [newline] ++ §"3D_field" ++ [newline] ++ §"BEGIN_DATAGRID_3D_UNKNOWN" ++ [newline] ++
  pad 6 (fmt_d (Z.of_nat n1)) ++ §" " ++ pad 5 (fmt_d (Z.of_nat n2)) ++ §" " ++ pad 5 (fmt_d (Z.of_nat n3)) ++ [newline] ++
  three 12 6 r0 ++ three 12 7 a1 ++ three 12 7 a2 ++ three 12 7 a3 ++
  (if only_header then [] else xsf_values (n1 * (n2 * n3)) 1 (flat n1 n2 n3 data)) ++
  §"END_DATAGRID_3D" ++ [newline] ++ §"END_BLOCK_DATAGRID_3D" ++ [newline].
