(** Model of elphmod/md.py, Driver.to_xyz and Driver.from_xyz (lines 738-798), character by
    character.

    Simplifications: messages and the interactive plot (lines 774-776, 784-787, 793-794) are
    left out. The format '%.10g' of the cell in the comment line is a parameter. Files are
    [None] if they do not exist. *)
From Verif Require Export Text.
Local Open Scope nat_scope.

Definition vec : Type := (Q * Q * Q)%type.
Definition vadd (a b : vec) : vec := let '(x, y, z) := a in let '(x', y', z') := b in ((x + x')%Q, (y + y')%Q, (z + z')%Q).
Definition vsub (a b : vec) : vec := let '(x, y, z) := a in let '(x', y', z') := b in ((x - x')%Q, (y - y')%Q, (z - z')%Q).

(** The parts of a driver which are used here: [elph.ph.nat], [elph.ph.atom_order],
    [elph.ph.r], and the nine components of [elph.ph.a] in Fortran order. *)
Record driver := { nat_ : nat; atoms : list text; r : list vec; cell : list Q }.

(** List assignment *)
Fixpoint set_at {A} (n : nat) (x : A) (l : list A) : list A :=
  match l, n with [], _ => [] | _ :: l, O => x :: l | y :: l, S n => y :: set_at n x l end.

Section Xyz.
Variable fmt_g : Q -> text. (* '%.10g' *)

(** md.py, line 756: '%8s' + ' %15.9f' * 3 + '\n' *)
Definition atom_line (X : text) (p : vec) : text :=
  let '(x, y, z) := p in
  pad 8 X ++ blank :: pad 15 (fmt_f 9 x) ++ blank :: pad 15 (fmt_f 9 y) ++ blank :: pad 15 (fmt_f 9 z) ++ [newline].

(** md.py, lines 750-751 *)
Definition comment_line (d : driver) : text := §"# CELL{H}:" ++ concat (map (fun x => blank :: fmt_g x) (cell d)) ++ [newline].

(** md.py, lines 753-757: positions are added row by row, zip stops at the end of the
    shorter list *)
Definition frame (d : driver) (u : list vec) : text :=
  let pos := map (fun ru => vadd (fst ru) (snd ru)) (combine (r d) u) in
  fmt_d (Z.of_nat (nat_ d)) ++ [newline] ++ comment_line d ++ concat (map (fun Xr => atom_line (fst Xr) (snd Xr)) (combine (atoms d) pos)).

(** md.py, lines 738-758: new contents of the file *)
Definition to_xyz (d : driver) (u : list vec) (append : bool) (file : option text) : option text :=
  if append then Some (match file with Some t => t | None => [] end ++ frame d u) else Some (frame d u).

(** md.py, lines 780-791: one atom *)
Definition read_atom (d : driver) (na : nat) (line : text) (u : list vec) : res (list vec) :=
  match str_split line, nth_error (atoms d) na with
  | [], _ => Raise IndexError
  | _, None => Raise IndexError
  | c :: cols, Some X =>
      if list_eq_dec Ascii.ascii_dec c X then
        do pos <- map_res to_float (firstn 3 cols) ;;
        match pos, nth_error (r d) na with
        | _, None => Raise IndexError
        | [x; y; z], Some r => Ok (set_at na (vsub (x, y, z) r) u)
        | [x], Some r => Ok (set_at na (vsub (x, x, x) r) u)
        | _, _ => Raise ValueError
        end
      else Ok u
  end.

(** md.py, lines 780-791: the loop over atoms [na], ..., [na + n - 1]; displacements are
    changed in place, so the changes remain if an exception is raised *)
Fixpoint read_atoms (d : driver) (na n : nat) (ls : list text) (u : list vec) : list text * list vec * option exc :=
  match n with
  | O => (ls, u, None)
  | S n =>
      match ls with
      | [] => ([], u, Some StopIteration)
      | l :: ls => match read_atom d na l u with Raise e => (ls, u, Some e) | Ok u => read_atoms d (S na) n ls u end
      end
  end.

(** md.py, lines 771-794: the loop over frames; every pass reads a line, hence [fuel] is the
    number of lines *)
Fixpoint read_frames (fuel : nat) (d : driver) (ls : list text) (u : list vec) : list vec * option exc :=
  match fuel, ls with
  | S fuel, l :: ls =>
      match to_int l with
      | Raise e => (u, Some e)
      | Ok n =>
          if (n =? Z.of_nat (nat_ d))%Z then
            match ls with
            | [] => (u, Some StopIteration)
            | _ :: ls =>
                match read_atoms d 0 (nat_ d) ls u with
                | (ls, u, Some e) => (u, Some e)
                | (ls, u, None) => read_frames fuel d ls u
                end
            end
          else (u, None)
      end
  | _, _ => (u, None)
  end.

(** md.py, lines 760-798: [us] are the displacements on all processes; the first one reads
    the file, whose result is broadcast unless an exception has been raised *)
Definition from_xyz (d : driver) (file : option text) (us : list (list vec)) : list (list vec) * option exc :=
  match us with
  | [] => ([], None)
  | u :: others =>
      match file with
      | None => (us, Some FileNotFoundError)
      | Some t =>
          match read_frames (length (lines t)) d (lines t) u with
          | (u, None) => (map (fun _ => u) us, None)
          | (u, Some e) => (u :: others, Some e)
          end
      end
  end.

(** A sequence of calls of to_xyz with the values of [u] and [append] *)
Definition write_history (d : driver) (h : list (list vec * bool)) (file : option text) : option text :=
  fold_left (fun f ua => to_xyz d (fst ua) (snd ua) f) h file.

End Xyz.
