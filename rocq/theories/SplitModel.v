(** Model of elphmod/misc.py, split (lines 693-739).

    Simplifications: the delimiters are single characters, and the generator is replaced by the
    list of its elements (if it raises an exception, elements yielded before are not recorded).
    The recursion takes a bound on its depth and returns [None] if it is reached, which stands
    for a recursion that goes on (Python gives up with RecursionError at some depth). *)
From Verif Require Export Text.
Local Open Scope nat_scope.

Section Delimiters.
Variable sd od cd : ascii.

Definition bracket (c : ascii) : bool := Ascii.eqb c od || Ascii.eqb c cd.

(** line 712: as many characters as possible that are no brackets *)
Fixpoint run (t : text) : text * text :=
  match t with [] => ([], []) | c :: u => if bracket c then ([], t) else let (p, q) := run u in (c :: p, q) end.
(** the pattern of line 712 at the beginning of a text: the group and what follows *)
Definition match_at (t : text) : option (text * text) :=
  match t with
  | c :: u => if Ascii.eqb c od then match run u with (p, d :: q) => if Ascii.eqb d cd then Some (p, q) else None | _ => None end else None
  | [] => None
  end.

(** lines 717-719: '<%d>' % (len(groups) - 1) after groups.append *)
Definition reference (n : nat) : text := §"<" ++ fmt_d (Z.of_nat n) ++ §">".

(** re.subn(group, pack, expr), from left to right; new text and new list of groups *)
Fixpoint subn (fuel : nat) (groups : list text) (t : text) : text * list text :=
  match fuel, t with
  | S fuel, c :: u =>
      match match_at t with
      | Some (p, q) => let (t, groups') := subn fuel (groups ++ [p]) q in (reference (length groups) ++ t, groups')
      | None => let (t, groups') := subn fuel groups u in (c :: t, groups')
      end
  | _, _ => ([], groups)
  end.
Definition replace_groups (groups : list text) (t : text) : text * list text := subn (length t) groups t.

(** lines 723-725: as many times as groups are found; every pass that finds a group makes the
    number of brackets smaller, so that the length of the expression bounds their number *)
Fixpoint pack_all (fuel : nat) (groups : list text) (t : text) : text * list text :=
  match fuel with
  | O => (t, groups)
  | S fuel => let (t', groups') := replace_groups groups t in if length groups' =? length groups then (t', groups') else pack_all fuel groups' t'
  end.

(** line 728: the pattern consists of any text without line breaks (as long as possible), a
    number in angle brackets, and the rest of the line *)
Fixpoint digit_run (t : text) : text * text :=
  match t with c :: u => match digit c with Some _ => let (p, q) := digit_run u in (c :: p, q) | None => ([], t) end | [] => ([], []) end.
Definition ref_at (t : text) : option (text * text) :=
  match t with
  | c :: u => if Ascii.eqb c "<" then match digit_run u with (d :: p, e :: q) => if Ascii.eqb e ">" then Some (d :: p, q) else None | _ => None end else None
  | [] => None
  end.
Fixpoint last_ref (t : text) : option (text * text * text) :=
  match t with
  | [] => None
  | c :: u => match last_ref u with Some (p, n, q) => Some (c :: p, n, q) | None => match ref_at t with Some (n, q) => Some ([], n, q) | None => None end end
  end.
Fixpoint first_line (t : text) : text := match t with [] => [] | c :: u => if Ascii.eqb c newline then [] else c :: first_line u end.

(** line 731: str.split(sd) *)
Fixpoint split_at (t : text) : list text :=
  match t with
  | [] => [[]]
  | c :: u => if Ascii.eqb c sd then [] :: split_at u else match split_at u with p :: l => (c :: p) :: l | [] => [[c]] end
  end.

(** Elements of several generators one after the other *)
Fixpoint chain (f : text -> option (res (list text))) (l : list text) : option (res (list text)) :=
  match l with
  | [] => Some (Ok [])
  | y :: l => match f y with
              | Some (Ok a) => match chain f l with Some (Ok b) => Some (Ok (a ++ b)) | r => r end
              | r => r
              end
  end.

(** lines 727-736 *)
Fixpoint factorize (fuel : nat) (groups : list text) (x : text) : option (res (list text)) :=
  match fuel with
  | O => None
  | S fuel =>
      match last_ref (first_line x) with
      | Some (p, n, q) =>
          match to_int n with
          | Ok n => match nth_error groups (Z.to_nat n) with
                    | Some body => chain (fun y => factorize fuel groups (p ++ strip y ++ q)) (split_at body)
                    | None => Some (Raise IndexError)
                    end
          | Raise e => Some (Raise e)
          end
      | None => Some (Ok [x])
      end
  end.

(** line 721 and the whole function *)
Definition split (fuel : nat) (expr : text) : option (res (list text)) :=
  let expr := od :: expr ++ [cd] in
  let (expr, groups) := pack_all (length expr) [] expr in
  factorize fuel groups expr.
End Delimiters.
