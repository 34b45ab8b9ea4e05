(** Model of elphmod/bravais.py:2012-2222: input files of Wannier90, read and written
    character by character, on the process of rank 0. The others get the result of reading
    from [bcast] (C04) and do not write.

    Simplifications: as in Text.v. Numbers are integers or rational. The input data are a
    dictionary of values of the types below; the writer, which would print values of other
    types than expected in some other way or raise one of several exceptions, raises
    TypeError here. [repr_f]: the representation ['%r'] of floats. *)
From Verif Require Export NmlModel.
From Verif Require XmlModel ProjModel QeModel.
Local Open Scope nat_scope.

Definition row := (Q * Q * Q)%type.
Inductive wval :=
  | WInt (z : Z) | WFloat (x : Q) | WBool (b : bool)
  | WGrid (n1 n2 n3 : Z)            (** mp_grid *)
  | WProj (d : dict text)           (** proj *)
  | WText (t : text)                (** atoms_coords *)
  | WTexts (l : list text)          (** kpoint_path, at *)
  | WRows (l : list row)            (** unit_cell, atoms *)
  | WPoints (l : list (row * Q)).   (** kpoints *)

(** ** read_win *)

(** The blocks in the file. The loops that call [next(lines)] are states of the loop over all
    lines here. A block that is not complete at the end of the file raises StopIteration. *)
Inductive mode :=
  | Top
  | Projections (d : dict text)
  | Kpoint_path (l : list text)
  | Unit_cell (l : list row)
  | Atoms (l : list (list text))
  | Kpoints (n : nat) (l : list (row * Q)).

(** [mp_grid] is a local variable of the function, without value at first. *)
Record state := State { s_mode : mode; s_grid : option (Z * Z * Z); s_struct : dict wval }.

(** Lines 2030-2032 *)
Definition split_words (line : text) : list text :=
  flat_map (fun column => filter (fun w => negb (teqb w [])) (XmlModel.split_at "=" column)) (str_split line).

Definition item {A} (l : list A) (n : nat) : res A := match nth_error l n with Some x => Ok x | None => Raise IndexError end.

(** ['t' in word.lower()] *)
Definition has_t (w : text) : bool := existsb (Ascii.eqb "t") (lower w).

(** Lines 2039-2065 *)
Definition int_keys : list string := ["num_bands"; "num_wann"; "dis_num_iter"; "num_iter"; "search_shells"]%string.
Definition float_keys : list string := ["dis_win_min"; "dis_win_max"; "dis_froz_min"; "dis_froz_max"]%string.
Definition bool_keys : list string := ["write_hr"; "bands_plot"; "wannier_plot"]%string.
Definition among (key : text) (l : list string) : bool := existsb (fun k => teqb key (str k)) l.

(** One row of three numbers *)
Definition read_row (words : list text) : res row :=
  do a <- item words 0 ;; do a <- to_float a ;; do b <- item words 1 ;; do b <- to_float b ;;
  do c <- item words 2 ;; do c <- to_float c ;; Ok (a, b, c).

(** Lines 2121-2130 *)
Definition finish_atoms (tmp : list (list text)) (d : dict wval) : res (dict wval) :=
  do rows <- map_res (fun words => do X <- item words 0 ;; do r <- read_row (tl words) ;; Ok (X, r)) tmp ;;
  Ok (dset (dset d §"at" (WTexts (map fst rows))) §"atoms" (WRows (map snd rows))).

(** Lines 2132-2140: at most four columns, missing ones are zero *)
Definition read_point (words : list text) : res (row * Q) :=
  do xs <- map_res to_float (firstn 5 words) ;;
  if 4 <? length words then Raise IndexError else Ok ((nth 0 xs 0%Q, nth 1 xs 0%Q, nth 2 xs 0%Q), nth 3 xs 0%Q).

(** Lines 2035-2140: a line outside of blocks *)
Definition step_top (line : text) (g : option (Z * Z * Z)) (d : dict wval) : res state :=
  match split_words line with
  | [] => Ok (State Top g d)
  | w0 :: rest =>
    let key := lower w0 in
    let word := item (w0 :: rest) in
    if among key int_keys then do w <- word 1 ;; do z <- to_int w ;; Ok (State Top g (dset d key (WInt z)))
    else if among key float_keys then do w <- word 1 ;; do x <- to_float w ;; Ok (State Top g (dset d key (WFloat x)))
    else if among key bool_keys then do w <- word 1 ;; Ok (State Top g (dset d key (WBool (has_t w))))
    else if teqb key §"mp_grid" then
      do a <- word 1 ;; do a <- to_int a ;; do b <- word 2 ;; do b <- to_int b ;; do c <- word 3 ;; do c <- to_int c ;;
      Ok (State Top (Some (a, b, c)) (dset d key (WGrid a b c)))
    else if teqb key §"begin" then
      do w <- word 1 ;;
      if teqb w §"projections" then
        if existsb (teqb §"end") (w0 :: rest) then Ok (State Top g (dset d §"proj" (WProj [])))
        else Ok (State (Projections []) g d)
      else if teqb w §"kpoint_path" then Ok (State (Kpoint_path []) g d)
      else if teqb w §"unit_cell_cart" then Ok (State (Unit_cell []) g d)
      else if QeModel.prefix §"atoms_" w then Ok (State (Atoms []) g (dset d §"atoms_coords" (WText (skipn 6 w))))
      else if teqb w §"kpoints" then
        match g with
        | None => Raise UnboundLocalError
        | Some (a, b, c) =>
          let nk := (a * b * c)%Z in
          if (nk <? 0)%Z then Raise ValueError
          else if (nk =? 0)%Z then Ok (State Top g (dset d §"kpoints" (WPoints [])))
          else Ok (State (Kpoints (Z.to_nat nk) []) g d)
        end
      else Ok (State Top g d)
    else Ok (State Top g d)
  end.

(** Lines 2067-2140: a line in a block *)
Definition step (s : state) (line : text) : res state :=
  let g := s_grid s in
  let d := s_struct s in
  match s_mode s with
  | Top => step_top line g d
  | Projections p =>
    if ProjModel.contains §"end" line then Ok (State Top g (dset d §"proj" (WProj p)))
    else match XmlModel.partition ":" line with
      | (_, None) => Raise ValueError
      | (a, Some b) => Ok (State (Projections (dset p (strip a) (strip b))) g d)
      end
  | Kpoint_path l =>
    let line := strip line in
    if QeModel.prefix §"end" line then Ok (State Top g (dset d §"kpoint_path" (WTexts l)))
    else Ok (State (Kpoint_path (l ++ [line])) g d)
  | Unit_cell l =>
    do r <- read_row (str_split line) ;;
    let l := l ++ [r] in
    if length l =? 3 then Ok (State Top g (dset d §"unit_cell" (WRows l))) else Ok (State (Unit_cell l) g d)
  | Atoms tmp =>
    let words := str_split line in
    do w <- item words 0 ;;
    if teqb w §"end" then do d <- finish_atoms tmp d ;; Ok (State Top g d) else Ok (State (Atoms (tmp ++ [words])) g d)
  | Kpoints n l =>
    do k <- read_point (str_split line) ;;
    let l := l ++ [k] in
    if length l =? n then Ok (State Top g (dset d §"kpoints" (WPoints l))) else Ok (State (Kpoints n l) g d)
  end.

Fixpoint steps (s : state) (ls : list text) : res state :=
  match ls with [] => Ok s | l :: ls => do s <- step s l ;; steps s ls end.

Definition read_win (file : text) : res (dict wval) :=
  do s <- steps (State Top None []) (lines file) ;;
  match s_mode s with Top => Ok (s_struct s) | _ => Raise StopIteration end.

(** ** write_win *)
Section Write.
  Variable repr_f : Q -> text.

  Definition nl (t : text) : text := t ++ [newline].

  (** ['%r' % value] *)
  Definition repr (v : wval) : res text :=
    match v with
    | WInt z => Ok (fmt_d z)
    | WFloat x => Ok (repr_f x)
    | WBool b => Ok (if b then §"True" else §"False")
    | _ => Raise TypeError
    end.

  (** [for key in [...]: if key in struct: data.write('%s = %r\n' ...)] *)
  Fixpoint params (s : dict wval) (keys : list string) : res (list text) :=
    match keys with
    | [] => Ok []
    | k :: keys =>
      match dget s (str k) with
      | None => params s keys
      | Some v => do r <- repr v ;; do ls <- params s keys ;; Ok (nl (str k ++ §" = " ++ r) :: ls)
      end
    end.

  (** [struct[key]] *)
  Definition need (s : dict wval) (key : string) : res wval :=
    match dget s (str key) with Some v => Ok v | None => Raise KeyError end.

  (** ['%12.9f'] *)
  Definition f12 (x : Q) : text := pad 12 (fmt_f 9 x).
  Definition row_text (r : row) : text := let '(a, b, c) := r in f12 a ++ blank :: f12 b ++ blank :: f12 c.

  Definition proj_lines (v : wval) : res (list text) :=
    match v with
    | WProj [] => Ok []
    | WProj d => Ok (nl §"begin projections" :: map (fun x => nl (fst x ++ §": " ++ snd x)) d ++ [nl §"end projections"])
    | _ => Raise TypeError
    end.

  Definition path_lines (v : wval) : res (list text) :=
    match v with
    | WTexts [] => Ok []
    | WTexts l => Ok (nl §"begin kpoint_path" :: map nl l ++ [nl §"end kpoint_path"])
    | _ => Raise TypeError
    end.

  Definition cell_lines (v : wval) : res (list text) :=
    match v with
    | WRows l => Ok (nl §"begin unit_cell_cart" :: map (fun r => nl (row_text r)) l ++ [nl §"end unit_cell_cart"])
    | _ => Raise TypeError
    end.

  Definition atoms_lines (coords at_ atoms : wval) : res (list text) :=
    match coords, at_, atoms with
    | WText c, WTexts l, WRows r =>
      Ok (nl (§"begin atoms_" ++ c) :: map (fun x => nl (pad 2 (fst x) ++ blank :: row_text (snd x))) (combine l r) ++ [nl (§"end atoms_" ++ c)])
    | _, _, _ => Raise TypeError
    end.

  (** [sep]: the character after [mp_grid] *)
  Definition grid_lines (sep : text) (v : option wval) : res (list text) :=
    match v with
    | None => Ok []
    | Some (WGrid a b c) => Ok [nl (§"mp_grid" ++ sep ++ blank :: fmt_d a ++ blank :: fmt_d b ++ blank :: fmt_d c)]
    | Some _ => Raise TypeError
    end.

  Definition points_lines (v : wval) : res (list text) :=
    match v with
    | WPoints l => Ok (nl §"begin kpoints" :: map (fun k => nl (row_text (fst k) ++ blank :: f12 (snd k))) l ++ [nl §"end kpoints"])
    | _ => Raise TypeError
    end.

  Definition empty : list text := [[newline]].

  Definition write_lines (sep : text) (s : dict wval) : res (list text) :=
    do l1 <- params s ["num_bands"; "num_wann"]%string ;;
    do l2 <- params s ["dis_win_min"; "dis_win_max"; "dis_froz_min"; "dis_froz_max"]%string ;;
    do v <- need s "proj" ;; do l3 <- proj_lines v ;;
    do l4 <- params s ["write_hr"; "bands_plot"]%string ;;
    do l5 <- params s ["dis_num_iter"; "num_iter"; "search_shells"]%string ;;
    do v <- need s "kpoint_path" ;; do l6 <- path_lines v ;;
    do v <- need s "unit_cell" ;; do l7 <- cell_lines v ;;
    do c <- need s "atoms_coords" ;; do a <- need s "at" ;; do r <- need s "atoms" ;; do l8 <- atoms_lines c a r ;;
    do l9 <- grid_lines sep (dget s §"mp_grid") ;;
    do v <- need s "kpoints" ;; do l10 <- points_lines v ;;
    Ok (l1 ++ empty ++ l2 ++ empty ++ l3 ++ empty ++ l4 ++ empty ++ l5 ++ empty ++ l6 ++ empty ++ l7 ++ empty ++ l8 ++ empty ++ l9 ++ empty ++ l10).

  (** The separator is a colon in the code; other ones are used in theorems. *)
  Definition write_win_with (sep : text) (s : dict wval) : res text := do ls <- write_lines sep s ;; Ok (concat ls).
  Definition write_win (s : dict wval) : res text := write_win_with §":" s.
End Write.
