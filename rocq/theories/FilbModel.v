(** Model of elphmod/el.py:817-906: files with band structures, read and written
    character by character.

    Simplifications: as in Text.v. Files are the text they contain. The format for
    energies is '%w.df' for some [w] and [d > 0] (default '%8.3f'). Arrays of band
    energies are lists of columns (all energies of a k point) together with the
    number of bands. Only process 0 reads and writes; the results are broadcast. *)
From Coq Require Import Reals Qreals.
From Verif Require Export Text.
Local Open Scope nat_scope.

(** str.split(c) *)
Fixpoint split_from (c : ascii) (cur t : text) : list text :=
  match t with
  | [] => [cur]
  | d :: t => if Ascii.eqb d c then cur :: split_from c [] t else split_from c (cur ++ [d]) t
  end.
Definition split_at (c : ascii) (t : text) : list text := split_from c [] t.

(** t[:t.index(c)] *)
Fixpoint upto (c : ascii) (t : text) : res text :=
  match t with
  | [] => Raise ValueError
  | d :: t => if Ascii.eqb d c then Ok [] else do s <- upto c t ;; Ok (d :: s)
  end.

(** t.rstrip('*') *)
Fixpoint lstrip_of (c : ascii) (t : text) : text := match t with d :: t' => if Ascii.eqb d c then lstrip_of c t' else t | [] => [] end.
Definition rstrip_of (c : ascii) (t : text) : text := rev (lstrip_of c (rev t)).

Definition point : Type := (Q * Q * Q)%type.

(** el.py:834-839 *)
Definition read_header (line : text) : res (Z * Z) :=
  match split_at "=" line with
  | [_; nbnd; nks] =>
      do nbnd <- upto "," nbnd ;; do nbnd <- to_int nbnd ;;
      do nks <- upto "/" nks ;; do nks <- to_int nks ;;
      Ok (nbnd, nks)
  | _ => Raise ValueError
  end.

(** el.py:852-853; numbers are assigned to a row of length three: a single one is
    assigned to all elements. *)
Definition read_point (line : text) : res point :=
  do x <- map_res to_float (firstn 3 (str_split (rstrip_of "*" (strip line)))) ;;
  match x with
  | [x; y; z] => Ok (x, y, z)
  | [x] => Ok (x, x, x)
  | _ => Raise ValueError
  end.

(** el.py:855-858 *)
Fixpoint read_energies (nbnd : nat) (ls : list text) (energies : list Q) : res (list Q * list text) :=
  if (length energies <? nbnd) then
    match ls with
    | [] => Raise StopIteration
    | l :: ls => do x <- map_res to_float (str_split l) ;; read_energies nbnd ls (energies ++ x)
    end
  else Ok (energies, ls).

(** el.py:851-860; [bands[:, ik] = energies] *)
Fixpoint read_points (nbnd nks : nat) (ls : list text) : res (list point * list (list Q)) :=
  match nks with
  | O => Ok ([], [])
  | S nks =>
      match ls with
      | [] => Raise StopIteration
      | l :: ls =>
          do k <- read_point l ;;
          do (energies, ls) <- read_energies nbnd ls [] ;;
          if length energies =? nbnd then
            do (ks, bands) <- read_points nbnd nks ls ;; Ok (k :: ks, energies :: bands)
          else Raise ValueError
      end
  end.

(** el.py:864-868 *)
Definition dist (k k' : point) : R :=
  let '(x, y, z) := k in let '(x', y', z') := k' in
  sqrt ((Q2R x' - Q2R x) * (Q2R x' - Q2R x) + (Q2R y' - Q2R y) * (Q2R y' - Q2R y) + (Q2R z' - Q2R z) * (Q2R z' - Q2R z)).
Fixpoint path (x : R) (k : point) (ks : list point) : list R :=
  match ks with [] => [x] | k' :: ks => x :: path (x + dist k k') k' ks end.

(** read_bands: el.py:817-874. The arrays cannot be created for negative numbers;
    [x[0] = 0.0] fails for empty arrays. *)
Definition read_bands (file : text) : res (list point * list R * list (list Q)) :=
  match lines file with
  | [] => Raise StopIteration
  | header :: ls =>
      do (nbnd, nks) <- read_header header ;;
      if ((nks <? 0) || (nbnd <? 0))%Z then Raise ValueError else
      do (ks, bands) <- read_points (Z.to_nat nbnd) (Z.to_nat nks) ls ;;
      match ks with
      | [] => Raise IndexError
      | k :: ks' => Ok (ks, path 0 k ks', bands)
      end
  end.

(** el.py:902-906; [n] counts from one *)
Fixpoint write_energies (w d cols nbnd n : nat) (energies : list Q) : text :=
  match energies with
  | [] => []
  | e :: energies => blank :: pad w (fmt_f d e) ++ (if (n mod cols =? 0) || (n =? nbnd) then [newline] else []) ++
      write_energies w d cols nbnd (S n) energies
  end.

(** el.py:899-906 *)
Definition write_point (w d cols nbnd : nat) (k : point) (energies : list Q) : text :=
  let '(x, y, z) := k in
  pad 20 (fmt_f 6 x) ++ blank :: pad 9 (fmt_f 6 y) ++ blank :: pad 9 (fmt_f 6 z) ++ newline :: write_energies w d cols nbnd 1 energies.

(** write_bands: el.py:876-906. [bands]: one column per k point. *)
Definition write_bands (w d cols nbnd : nat) (ks : list point) (bands : list (list Q)) : res text :=
  if ((cols =? 0) && negb (nbnd =? 0) && negb (length ks =? 0)) then Raise ZeroDivisionError else
  Ok (§" &plot nbnd=" ++ pad 4 (fmt_d (Z.of_nat nbnd)) ++ §", nks=" ++ pad 6 (fmt_d (Z.of_nat (length ks))) ++ §" /" ++ newline ::
    concat (map (fun kb => write_point w d cols nbnd (fst kb) (snd kb)) (combine ks bands))).
