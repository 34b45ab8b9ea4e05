(** Model of elphmod/el.py: names of atomic orbitals (read_projwfc_out) and sums
    over selected orbitals (proj_sum). *)
From Verif Require Import Common Text SplitModel NmlModel.
From Verif Require Import Num.
Local Open Scope nat_scope.

(** ** info: el.py:1261-1263

    The regular expression matched against [orbital.strip()] consists of an
    optional element, i.e., a capital letter, possibly a small letter (group 1), and
    possibly digits (group 2); an optional hyphen; possibly digits (group 3); an
    optional shell, i.e., one of the letters spdfx (group 4) and possibly further
    characters that are no spaces (group 5). All parts are optional and
    greedy, so that the first choice of the matcher is never revised. Groups that
    do not take part in the match are [None]. *)
Definition is_shell (c : ascii) : bool := existsb (Ascii.eqb c) §"spdfx".
Record info5 := Info { i_element : option text; i_atom : option text; i_n : option text; i_shell : option text; i_label : option text }.

Definition info (orbital : text) : info5 :=
  let t := strip orbital in
  let '(element, atom, t) :=
    match t with
    | c :: u =>
      if is_upper c then
        let (e, u) := match u with d :: u' => if is_lower d then ([c; d], u') else ([c], u) | [] => ([c], u) end in
        let (a, u) := span is_digit u in (Some e, Some a, u)
      else (None, None, t)
    | [] => (None, None, t)
    end in
  let t := match t with c :: u => if Ascii.eqb c "-" then u else t | [] => t end in
  let (n, t) := span is_digit t in
  match t with
  | c :: u => if is_shell c then Info element atom (Some n) (Some [c]) (Some (fst (span (fun c => negb (is_space c)) u)))
              else Info element atom (Some n) None None
  | [] => Info element atom (Some n) None None
  end.

(** ** [all(A == B for A, B in zip(selection, orbital) if A)]: el.py:1277 *)
Definition oteqb (x y : option text) : bool :=
  match x, y with Some x, Some y => teqb x y | None, None => true | _, _ => false end.
Definition given (A : option text) : bool := match A with Some (_ :: _) => true | _ => false end.
Definition groups5 (i : info5) : list (option text) := [i_element i; i_atom i; i_n i; i_shell i; i_label i].
Definition matches (selection orbital : info5) : bool :=
  forallb (fun AB => negb (given (fst AB)) || oteqb (fst AB) (snd AB)) (combine (groups5 selection) (groups5 orbital)).

(** ** indices: el.py:1273-1278; a set is a list without repetitions. *)
Definition set_add (a : nat) (s : list nat) : list nat := if existsb (Nat.eqb a) s then s else s ++ [a].
Definition indices (selections orbitals : list info5) : list nat :=
  fold_left (fun s selection =>
    fold_left (fun s ao => if matches selection (snd ao) then set_add (fst ao) s else s)
      (combine (seq 0 (length orbitals)) orbitals) s)
    selections [].

(** [sorted] *)
Fixpoint insert (a : nat) (l : list nat) : list nat :=
  match l with [] => [a] | b :: l' => if a <=? b then a :: l else b :: insert a l' end.
Definition sorted (l : list nat) : list nat := fold_right insert [] l.

(** ** proj_sum: el.py:1229-1291

    Projections for one k point and band; both axes are kept by the code. [no]:
    size of the last axis. [fuel] bounds the depth of the recursion of
    [misc.split] (SplitModel.v). The warning for groups without orbitals is not
    modelled. Indices that do not exist raise IndexError. *)
Section Sum.
  Context {F : num}.

  Definition sum_group (fuel : nat) (no : nat) (proj : nat -> F) (orbitals : list info5) (group : text) : option (res F) :=
    match SplitModel.split ","%char "{"%char "}"%char fuel group with
    | None => None
    | Some (Raise e) => Some (Raise e)
    | Some (Ok names) =>
      let s := sorted (indices (map info names) orbitals) in
      if forallb (fun a => a <? no) s then Some (Ok (nsum proj s)) else Some (Raise IndexError)
    end.

  Fixpoint sum_groups (fuel : nat) (no : nat) (proj : nat -> F) (orbitals : list info5) (groups : list text) : option (res (list F)) :=
    match groups with
    | [] => Some (Ok [])
    | group :: groups =>
      match sum_group fuel no proj orbitals group with
      | Some (Ok x) => match sum_groups fuel no proj orbitals groups with Some (Ok l) => Some (Ok (x :: l)) | r => r end
      | Some (Raise e) => Some (Raise e)
      | None => None
      end
    end.

  Definition proj_sum (fuel : nat) (no : nat) (proj : nat -> F) (orbitals groups : list text) (other : bool) : option (res (list F)) :=
    match sum_groups fuel no proj (map info orbitals) groups with
    | Some (Ok l) => Some (Ok (if other then l ++ [nsub n1 (nsum (fun x => x) l)] else l))
    | r => r
    end.
End Sum.

(** ** read_projwfc_out: el.py:1158-1227 *)

(** lines 1180-1186 *)
Definition labels : list (list text) :=
  [[§"s"]; [§"pz"; §"px"; §"py"]; [§"dz2"; §"dxz"; §"dyz"; §"dx2-y2"; §"dxy"];
   [§"fz3"; §"fxz2"; §"fyz2"; §"fz(x2-y2)"; §"fxyz"; §"fx(x2-3y2)"; §"fy(3x2-y2)"]].

(** Python indices: negative ones count from the end. *)
Definition py_nth {A} (l : list A) (i : Z) : res A :=
  let i := if (i <? 0)%Z then (i + Z.of_nat (length l))%Z else i in
  if (i <? 0)%Z then Raise IndexError
  else match nth_error l (Z.to_nat i) with Some x => Ok x | None => Raise IndexError end.
Definition slice {A} (i j : nat) (l : list A) : list A := firstn (j - i) (skipn i l).
Definition rstrip (t : text) : text := rev (lstrip (rev t)).

(** lines 1198-1211 *)
Definition orbital_of_line (info : text) : res text :=
  let X := strip (slice 28 31 info) in
  do n <- to_int (slice 38 40 info) ;;
  do c <- py_nth info 44 ;;
  do l <- to_int [c] ;;
  do c <- py_nth info 46 ;;
  if Ascii.eqb c "m" then
    do m <- to_int (slice 48 50 info) ;;
    do ls <- py_nth labels l ;;
    do label <- py_nth ls (m - 1) ;;
    Ok (X ++ §"-" ++ fmt_d n ++ label)
  else
    do ls <- py_nth labels l ;;
    do label <- py_nth ls 0 ;;
    do c <- py_nth label 0 ;;
    Ok (X ++ §"-" ++ fmt_d n ++ [c]).

(** lines 1194-1213: one line after the other, up to an empty one *)
Fixpoint block (lines : list text) (orbitals : list text) : res (list text * list text) :=
  match lines with
  | [] => Ok ([], orbitals)
  | line :: lines =>
    match rstrip line with
    | [] => Ok (lines, orbitals)
    | info => do orbital <- orbital_of_line info ;; block lines (orbitals ++ [orbital])
    end
  end.

Fixpoint prefix (p t : text) : bool :=
  match p, t with [], _ => true | c :: p, d :: t => Ascii.eqb c d && prefix p t | _, [] => false end.
Fixpoint contains (p t : text) : bool := prefix p t || match t with [] => false | _ :: t => contains p t end.

(** lines 1188-1213; every pass consumes a line. *)
Fixpoint scan_lines (fuel : nat) (lines : list text) (orbitals : list text) : res (list text) :=
  match fuel, lines with
  | S fuel, line :: lines =>
    if contains §"Atomic states used for projection" line then
      match lines with
      | _ :: _ :: lines => do (lines, orbitals) <- block lines orbitals ;; scan_lines fuel lines orbitals
      | _ => Raise StopIteration
      end
    else scan_lines fuel lines orbitals
  | _, _ => Ok orbitals
  end.

(** lines 1216-1221 for one element of the set *)
Definition count (orbital : text) (orbitals : list text) : nat := length (filter (teqb orbital) orbitals).
(** [orbital.replace('-', '%d-' % m, 1)] *)
Fixpoint replace_dash (m : nat) (t : text) : text :=
  match t with [] => [] | c :: u => if Ascii.eqb c "-" then fmt_d (Z.of_nat m) ++ c :: u else c :: replace_dash m u end.
(** [enumerate(duplicates, 1)] *)
Fixpoint number_from (m : nat) (orbital : text) (orbitals : list text) : list text :=
  match orbitals with
  | [] => []
  | o :: orbitals => if teqb orbital o then replace_dash m o :: number_from (S m) orbital orbitals else o :: number_from m orbital orbitals
  end.
Definition number_duplicates (orbitals : list text) (orbital : text) : list text :=
  if 1 <? count orbital orbitals then number_from 1 orbital orbitals else orbitals.

(** [order]: the elements of [set(orbitals)] in the order in which Python happens
    to iterate over the set. *)
Definition read_projwfc_out (order : list text -> list text) (other : bool) (file : text) : res (list text) :=
  let ls := lines file in
  do orbitals <- scan_lines (length ls) ls [] ;;
  let orbitals := fold_left number_duplicates (order orbitals) orbitals in
  Ok (if other then orbitals ++ [§"X-x"] else orbitals).
