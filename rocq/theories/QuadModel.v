(** Model of elphmod/ph.py:1034-1052 and 1561-1630: files with q points and with
    quadrupole tensors, read and written character by character.

    Simplifications: as in Text.v. Files are the text they contain. Quadrupole tensors
    are lists of functions of the direction of the displacement and two further
    directions, one for each atom. *)
From Verif Require Export Text.
From Verif Require Import CoulModel.
Local Open Scope nat_scope.

(** ** read_q, write_q: ph.py:1034-1052 *)
Definition read_q (file : text) : res (list Z * list (list Q)) :=
  match lines file with
  | l1 :: ls =>
      do nq <- map_res to_int (str_split l1) ;;
      match ls with
      | l2 :: ls =>
          do nQ <- to_int l2 ;;
          do q <- map_res (fun line => map_res to_float (str_split line)) ls ;;
          Ok (nq, q)
      | [] => Raise StopIteration
      end
  | [] => Raise StopIteration
  end.

Definition write_q (q : list (Q * Q)) (nq : Z) : text :=
  pad 4 (fmt_d nq) ++ pad 4 (fmt_d nq) ++ pad 4 (fmt_d 1) ++ newline ::
  pad 4 (fmt_d (Z.of_nat (length q))) ++ newline ::
  concat (map (fun qxy => pad 19 (fmt_f 15 (fst qxy)) ++ pad 19 (fmt_f 15 (snd qxy)) ++ pad 19 (fmt_f 15 0) ++ [newline]) q).

(** ** read_quadrupole_fmt: ph.py:1561-1604 *)
Definition atom : Type := nat -> nat -> nat -> Q.
Definition zeros : atom := fun _ _ _ => 0%Q.
Definition six : Type := (Q * Q * Q * Q * Q * Q)%type.

(** ph.py:1592-1600; index [i] counts from the end if negative (NumPy). *)
Definition set_row (A : atom) (i : Z) (v : six) : res atom :=
  do i0 <- position 3 i ;;
  let '(Qxx, Qyy, Qzz, Qyz, Qxz, Qxy) := v in
  Ok (fun i' j k => if i' =? i0 then
      match j, k with
      | 0, 0 => Qxx
      | 1, 1 => Qyy
      | 2, 2 => Qzz
      | 1, 2 => Qyz
      | 2, 1 => Qyz
      | 0, 2 => Qxz
      | 2, 0 => Qxz
      | 0, 1 => Qxy
      | 1, 0 => Qxy
      | _, _ => A i' j k
      end
    else A i' j k).

Fixpoint replace {A} (n : nat) (x : A) (l : list A) : list A :=
  match l, n with [], _ => [] | _ :: l, O => x :: l | y :: l, S n => y :: replace n x l end.

(** ph.py:1585-1600 *)
Definition quadrupole_row (T : list atom) (cols : list text) : res (list atom) :=
  do nai <- map_res (fun col => do z <- to_int col ;; Ok (z - 1)%Z) (firstn 2 cols) ;;
  match nai with
  | [na; i] =>
      do v <- map_res to_float (skipn 2 cols) ;;
      match v with
      | [Qxx; Qyy; Qzz; Qyz; Qxz; Qxy] =>
          let T := T ++ repeat zeros (Z.to_nat (na + 1) - length T) in
          do n <- position (length T) na ;;
          do A <- set_row (nth n T zeros) i (Qxx, Qyy, Qzz, Qyz, Qxz, Qxy) ;;
          Ok (replace n A T)
      | _ => Raise ValueError
      end
  | _ => Raise ValueError
  end.

(** ph.py:1579-1600 *)
Fixpoint quadrupole_rows (T : list atom) (ls : list text) : res (list atom) :=
  match ls with
  | [] => Ok T
  | line :: ls =>
      match str_split line with
      | [] => quadrupole_rows T ls
      | cols => do T <- quadrupole_row T cols ;; quadrupole_rows T ls
      end
  end.

Definition read_quadrupole_fmt (file : text) : res (list atom) :=
  match lines file with [] => Raise StopIteration | _ :: ls => quadrupole_rows [] ls end.

(** ** write_quadrupole_fmt: ph.py:1606-1630 *)
Definition quadrupole_header : text :=
  pad 4 §"atom" ++ blank :: pad 3 §"dir" ++
  concat (map (fun s => blank :: pad 14 s) [§"Qxx"; §"Qyy"; §"Qzz"; §"Qyz"; §"Qxz"; §"Qxy"]) ++ [newline].

Definition quadrupole_line (na : nat) (A : atom) (i : nat) : text :=
  pad 4 (fmt_d (Z.of_nat (na + 1))) ++ blank :: pad 3 (fmt_d (Z.of_nat (i + 1))) ++
  concat (map (fun x => blank :: pad 14 (fmt_f 10 x)) [A i 0 0; A i 1 1; A i 2 2; A i 1 2; A i 0 2; A i 0 1]) ++ [newline].

Fixpoint quadrupole_lines (na : nat) (T : list atom) : text :=
  match T with [] => [] | A :: T => concat (map (quadrupole_line na A) (seq 0 3)) ++ quadrupole_lines (S na) T end.

Definition write_quadrupole_fmt (T : list atom) : text := quadrupole_header ++ quadrupole_lines 0 T.
