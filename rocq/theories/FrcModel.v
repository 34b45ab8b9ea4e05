(** Model of elphmod/ph.py, write_flfrc (lines 1277-1431) and read_flfrc (lines 1088-1275),
    character by character.

    Simplifications: arrays that are written are functions of their indices, arrays that are
    read are lists of rows or of elements with their indices, in the order of assignment.
    Numbers are rational. The length of the first lattice vector, [alat], and [2 * pi] are
    parameters, as are the formats '%g' and '%19.11E' and the function bravais.primitives for
    input with [ibrav] other than zero. Rows of tables that do not have three columns are
    rejected with ValueError (numpy would broadcast single values). Division by a lattice
    constant of zero, for which numpy returns infinity, is not described. *)
From Verif Require Export Text.
Local Open Scope nat_scope.

(** [X in line], [line.lower()], [' '.join(words)], [x[1:3]] *)
Fixpoint prefix_of (p t : text) : bool :=
  match p, t with [], _ => true | c :: p, d :: t => Ascii.eqb c d && prefix_of p t | _, [] => false end.
Fixpoint contains (p t : text) : bool := prefix_of p t || match t with [] => false | _ :: t => contains p t end.
Definition lower_char (c : ascii) : ascii := let n := nat_of_ascii c in if (65 <=? n) && (n <=? 90) then ascii_of_nat (n + 32) else c.
Definition lower (t : text) : text := map lower_char t.
Fixpoint join (ws : list text) : text := match ws with [] => [] | [w] => w | w :: ws => w ++ blank :: join ws end.
Definition text_dec : forall a b : text, {a = b} + {a <> b} := list_eq_dec Ascii.ascii_dec.

(** x[i] for lists *)
Definition item {A} (l : list A) (n : nat) : res A := match nth_error l n with Some x => Ok x | None => Raise IndexError end.
Definition item_z {A} (l : list A) (z : Z) : res A :=
  if (z <? 0)%Z then (if (z <? - Z.of_nat (length l))%Z then Raise IndexError else item l (Z.to_nat (z + Z.of_nat (length l)))) else item l (Z.to_nat z).

(** ** Writing *)
Section Write.
Variable alat twopi : Q.
Variable fmt_g fmt_e : Q -> text. (* '%g' and '%19.11E' without padding *)

(** ' %10.7f' etc. for several numbers *)
Definition field (w : nat) (t : text) : text := blank :: pad w t.
Definition fields (w d : nat) (l : list Q) : text := concat (map (fun x => field w (fmt_f d x)) l).

(** ph.py, lines 1311-1312: pairs of symbols and masses, without duplicates, sorted by the
    first occurrence of the symbol. The order of pairs with the same symbol, which is
    arbitrary in Python, is the one of their first occurrence. *)
Definition pair_dec : forall a b : text * Q, {a = b} + {a <> b}.
Proof. decide equality; [decide equality; [apply Pos.eq_dec|apply Z.eq_dec]|apply text_dec]. Defined.
Fixpoint distinct (seen l : list (text * Q)) : list (text * Q) :=
  match l with [] => [] | x :: l => if in_dec pair_dec x seen then distinct seen l else x :: distinct (x :: seen) l end.
Fixpoint index_of (X : text) (l : list text) : nat := match l with [] => 0 | Y :: l => if text_dec X Y then 0 else S (index_of X l) end.
Fixpoint insert_pair (key : text -> nat) (x : text * Q) (l : list (text * Q)) : list (text * Q) :=
  match l with [] => [x] | y :: l => if key (fst x) <=? key (fst y) then x :: y :: l else y :: insert_pair key x l end.
Definition palette (atom_order : list text) (amass : list Q) : list (text * Q) :=
  fold_right (insert_pair (fun X => index_of X atom_order)) [] (distinct [] (combine atom_order amass)).

(** ph.py, lines 1319-1327: '%3d %4d %2d' and ' %10.7f' for six values *)
Definition structure_line (ntyp nat_ : nat) : text :=
  pad 3 (fmt_d (Z.of_nat ntyp)) ++ field 4 (fmt_d (Z.of_nat nat_)) ++ field 2 (fmt_d 0) ++ fields 10 7 [alat; 0; 0; 0; 0; 0]%Q ++ [newline].
(** lines 1332-1338 *)
Definition cell_line (at_ : nat -> nat -> Q) (x : nat) : text := [blank] ++ fields 14 9 (map (fun y => at_ x y / alat)%Q (seq 0 3)) ++ [newline].
(** lines 1342-1343: "%12d  '%-3s' %19.10f" *)
Definition species_line (nt : nat) (X : text) (m : Q) : text :=
  pad 12 (fmt_d (Z.of_nat (nt + 1))) ++ [blank; blank] ++ §"'" ++ X ++ repeat blank (3 - length X) ++ §"'" ++ field 19 (fmt_f 10 m) ++ [newline].
Fixpoint species_lines (nt : nat) (l : list (text * Q)) : text := match l with [] => [] | (X, m) :: l => species_line nt X m ++ species_lines (S nt) l end.
(** lines 1347-1353; atm.index cannot fail *)
Definition atom_line (tau : nat -> nat -> Q) (na ityp : nat) : text :=
  pad 5 (fmt_d (Z.of_nat (na + 1))) ++ field 4 (fmt_d (Z.of_nat (ityp + 1))) ++ fields 17 10 (map (fun x => tau na x / alat)%Q (seq 0 3)) ++ [newline].

(** lines 1318-1353 *)
Definition structure (dyn : bool) (amass : list Q) (at_ tau : nat -> nat -> Q) (atom_order : list text) : text :=
  let pal := palette atom_order amass in
  structure_line (length pal) (length atom_order) ++ (if dyn then §"Basis vectors" ++ [newline] else []) ++
  concat (map (cell_line at_) (seq 0 3)) ++ species_lines 0 pal ++
  concat (map (fun na => atom_line tau na (index_of (nth na atom_order []) (map fst pal))) (seq 0 (length atom_order))).

(** lines 1391-1406: tables of three rows *)
Definition table_lines (w d : nat) (T : nat -> nat -> Q) : text := concat (map (fun x => fields w d (map (T x) (seq 0 3)) ++ [newline]) (seq 0 3)).

(** Indices of force constants in the order of the file (lines 1413-1428):
    [(na1, na2, (m1, m2, m3), (j1, j2))] *)
Definition frc_index : Type := (nat * nat * (nat * nat * nat) * (nat * nat))%type.
Definition frc_pairs (nat_ : nat) : list (nat * nat * (nat * nat)) :=
  flat_map (fun j1 => flat_map (fun j2 => flat_map (fun na1 => map (fun na2 => (na1, na2, (j1, j2))) (seq 0 nat_)) (seq 0 nat_)) (seq 0 3)) (seq 0 3).
Definition frc_cells (nr1 nr2 nr3 : nat) : list (nat * nat * nat) :=
  flat_map (fun m3 => flat_map (fun m2 => map (fun m1 => (m1, m2, m3)) (seq 0 nr1)) (seq 0 nr2)) (seq 0 nr3).

(** lines 1418-1428 *)
Definition pair_line (p : nat * nat * (nat * nat)) : text :=
  let '(na1, na2, (j1, j2)) := p in
  pad 4 (fmt_d (Z.of_nat (j1 + 1))) ++ field 3 (fmt_d (Z.of_nat (j2 + 1))) ++ field 3 (fmt_d (Z.of_nat (na1 + 1))) ++ field 3 (fmt_d (Z.of_nat (na2 + 1))) ++ [newline].
Definition constant_line (m : nat * nat * nat) (x : Q) : text :=
  let '(m1, m2, m3) := m in
  pad 4 (fmt_d (Z.of_nat (m1 + 1))) ++ field 3 (fmt_d (Z.of_nat (m2 + 1))) ++ field 3 (fmt_d (Z.of_nat (m3 + 1))) ++ field 19 (fmt_e x) ++ [newline].
Definition pair_block (cells : list (nat * nat * nat)) (phid : frc_index -> Q) (p : nat * nat * (nat * nat)) : text :=
  pair_line p ++ concat (map (fun m => constant_line m (phid (fst p, m, snd p))) cells).

(** A force-constants file, lines 1309-1431 with dyn = False *)
Definition write_frc (nr : nat * nat * nat) (phid : frc_index -> Q) (amass : list Q) (at_ tau : nat -> nat -> Q) (atom_order : list text)
    (alph : option Q) (epsil : option (nat -> nat -> Q)) (zeu : option (nat -> nat -> nat -> Q)) : res text :=
  let '(nr1, nr2, nr3) := nr in
  match palette atom_order amass with
  | [] => Raise ValueError (* nothing to unpack *)
  | _ => Ok (
      structure false amass at_ tau atom_order ++
      match epsil, zeu with
      | Some epsil, Some zeu =>
          pad 2 §"T" ++ match alph with Some a => blank :: fmt_g a | None => [] end ++ [newline] ++ table_lines 23 12 epsil ++
          concat (map (fun na => pad 5 (fmt_d (Z.of_nat (na + 1))) ++ [newline] ++ table_lines 14 7 (zeu na)) (seq 0 (length atom_order)))
      | _, _ => pad 2 §"F" ++ [newline]
      end ++
      pad 4 (fmt_d (Z.of_nat nr1)) ++ field 3 (fmt_d (Z.of_nat nr2)) ++ field 3 (fmt_d (Z.of_nat nr3)) ++ [newline] ++
      concat (map (pair_block (frc_cells nr1 nr2 nr3) phid) (frc_pairs (length atom_order))))
  end.

(** lines 1356-1379: one dynamical matrix *)
Definition complex_row (l : list (Q * Q)) : text :=
  match map (fun z => pad 12 (fmt_f 8 (fst z)) ++ pad 12 (fmt_f 8 (snd z))) l with
  | [] => []
  | t :: ts => t ++ concat (map (fun t => [blank; blank] ++ t) ts)
  end ++ [newline].
Definition dyn_pairs (nat_ : nat) : list (nat * nat) := flat_map (fun na1 => map (fun na2 => (na1, na2)) (seq 0 nat_)) (seq 0 nat_).
Definition dyn_block (D : nat -> nat -> Q * Q) (p : nat * nat) : text :=
  pad 5 (fmt_d (Z.of_nat (fst p + 1))) ++ pad 5 (fmt_d (Z.of_nat (snd p + 1))) ++ [newline] ++
  concat (map (fun j => complex_row (map (fun k => D (3 * fst p + j) (3 * snd p + k)) (seq 0 3))) (seq 0 3)).
Definition dyn_matrix (nat_ : nat) (q : nat -> Q) (D : nat -> nat -> Q * Q) : text :=
  [newline] ++ §"     Dynamical matrix in Cartesian axes" ++ [newline] ++ [newline] ++ §"     q = ( " ++
  concat (map (fun i => pad 14 (fmt_f 9 (q i * alat / twopi)%Q)) (seq 0 3)) ++ §" )" ++ [newline] ++ [newline] ++
  concat (map (dyn_block D) (dyn_pairs nat_)).

(** A dynamical-matrix file, lines 1309-1431 with dyn = True *)
Definition write_dyn (qD : list ((nat -> Q) * (nat -> nat -> Q * Q))) (amass : list Q) (at_ tau : nat -> nat -> Q) (atom_order : list text)
    (epsil : option (nat -> nat -> Q)) (zeu : option (nat -> nat -> nat -> Q)) : res text :=
  match palette atom_order amass with
  | [] => Raise ValueError
  | _ => Ok (
      §"Dynamical matrix file" ++ [newline] ++ [newline] ++ structure true amass at_ tau atom_order ++
      concat (map (fun x => dyn_matrix (length atom_order) (fst x) (snd x)) qD) ++
      match epsil, zeu with
      | Some epsil, Some zeu =>
          [newline] ++ §"     Dielectric tensor" ++ [newline] ++ table_lines 23 12 epsil ++
          [newline] ++ §"     Effective charges" ++ [newline] ++
          concat (map (fun na => §"     atom #" ++ pad 5 (fmt_d (Z.of_nat (na + 1))) ++ [newline] ++ table_lines 14 7 (zeu na)) (seq 0 (length atom_order)))
      | _, _ => []
      end)
  end.
End Write.

(** ** Reading *)

(** The file is a list of lines, each a list of words. *)
Definition words_of (t : text) : list (list text) := map str_split (lines t).

(** ph.py, lines 1118-1123: cells() skips empty lines and returns None at the end *)
Fixpoint cells (f : list (list text)) : res (list text * list (list text)) :=
  match f with [] => Raise TypeError | [] :: f => cells f | ws :: f => Ok (ws, f) end.
(** next(data) *)
Definition skip (f : list (list text)) : res (list (list text)) := match f with [] => Raise StopIteration | _ :: f => Ok f end.

(** lines 1127-1128 *)
Definition row3 (ws : list text) : res (list Q) := do l <- map_res to_float ws ;; if length l =? 3 then Ok l else Raise ValueError.
Fixpoint table (rows : nat) (f : list (list text)) : res (list (list Q) * list (list text)) :=
  match rows with
  | O => Ok ([], f)
  | S rows => do (ws, f) <- cells f ;; do l <- row3 ws ;; do (T, f) <- table rows f ;; Ok (l :: T, f)
  end.

(** lines 1157-1161 *)
Fixpoint read_species (n : nat) (f : list (list text)) : res (list (text * Q) * list (list text)) :=
  match n with
  | O => Ok ([], f)
  | S n =>
      do (tmp, f) <- cells f ;;
      do X <- item tmp 1 ;;
      do m <- item (rev tmp) 0 ;; do m <- to_float m ;;
      do (l, f) <- read_species n f ;; Ok ((firstn 2 (skipn 1 X), m) :: l, f)
  end.
(** lines 1168-1172 *)
Fixpoint read_atoms (n : nat) (f : list (list text)) : res (list (Z * list Q) * list (list text)) :=
  match n with
  | O => Ok ([], f)
  | S n =>
      do (tmp, f) <- cells f ;;
      do t <- item tmp 1 ;; do ityp <- to_int t ;;
      do tau <- row3 (firstn 3 (skipn 2 tmp)) ;;
      do (l, f) <- read_atoms n f ;; Ok (((ityp - 1)%Z, tau) :: l, f)
  end.

Record geometry := { g_amass : list Q; g_at : list (list Q); g_tau : list (list Q); g_order : list text }.

Section Read.
Variable primitives : Z -> list Q -> res (list (list Q)).
Variable twopi : Q.

Definition scale (a : Q) (T : list (list Q)) : list (list Q) := map (map (fun x => x * a)%Q) T.

(** lines 1142-1183; [tmp] is the line with the dimensions *)
Definition read_structure (dyn : bool) (tmp : list text) (f : list (list text)) : res (geometry * nat * Q * list (list text)) :=
  do dims <- map_res to_int (firstn 3 tmp) ;;
  match dims with
  | [ntyp; nat_; ibrav] =>
      do celldm <- map_res to_float (skipn 3 tmp) ;;
      do (at_, f) <- (if (ibrav =? 0)%Z then
          do f <- (if dyn then skip f else Ok f) ;;
          do (T, f) <- table 3 f ;; do a <- item celldm 0 ;; Ok (scale a T, f)
        else do at_ <- primitives ibrav celldm ;; Ok (at_, f)) ;;
      if ((ntyp <? 0) || (nat_ <? 0))%Z then Raise ValueError else
      do (species, f) <- read_species (Z.to_nat ntyp) f ;;
      do (atoms, f) <- read_atoms (Z.to_nat nat_) f ;;
      do a <- item celldm 0 ;;
      do chosen <- map_res (fun x => item_z species (fst x)) atoms ;;
      Ok ({| g_amass := map snd chosen; g_at := at_; g_tau := scale a (map snd atoms); g_order := map (fun x => strip (fst x)) chosen |}, Z.to_nat nat_, a, f)
  | _ => Raise ValueError
  end.

(** lines 1242-1244 and 1223-1225: charges of [n] atoms, the index is the first or the last
    word of the line in front of the table *)
Fixpoint read_charges (last : bool) (nat_ n : nat) (f : list (list text)) : res (list (nat * list (list Q)) * list (list text)) :=
  match n with
  | O => Ok ([], f)
  | S n =>
      do (tmp, f) <- cells f ;;
      do w <- item (if last then rev tmp else tmp) 0 ;; do na <- to_int w ;;
      do na <- item_z (seq 0 nat_) (na - 1) ;;
      do (T, f) <- table 3 f ;;
      do (l, f) <- read_charges last nat_ n f ;; Ok ((na, T) :: l, f)
  end.

(** lines 1253-1268 *)
Fixpoint read_constants (idx : list frc_index) (f : list (list text)) : res (list (frc_index * Q) * list (list text)) :=
  match idx with
  | [] => Ok ([], f)
  | i :: idx =>
      do (tmp, f) <- cells f ;; do w <- item tmp 3 ;; do x <- to_float w ;;
      do (l, f) <- read_constants idx f ;; Ok ((i, x) :: l, f)
  end.
Fixpoint read_pairs (cs : list (nat * nat * nat)) (pairs : list (nat * nat * (nat * nat))) (f : list (list text)) : res (list (frc_index * Q) * list (list text)) :=
  match pairs with
  | [] => Ok ([], f)
  | p :: pairs =>
      (* cells() is not used here, so that it does not matter if it returns None *)
      let f := match cells f with Ok (_, f) => f | Raise _ => [] end in
      do (l, f) <- read_constants (map (fun m => (fst p, m, snd p)) cs) f ;;
      do (l', f) <- read_pairs cs pairs f ;; Ok (l ++ l', f)
  end.

Record frc_file := { f_phid : list (frc_index * Q); f_shape : nat * nat * nat; f_geometry : geometry; f_alph : option Q; f_epsil : option (list (list Q)); f_zeu : option (list (nat * list (list Q))) }.

(** lines 1229-1268 *)
Definition read_frc (tmp : list text) (f : list (list text)) : res frc_file :=
  do (g, nat_, a, f) <- read_structure false tmp f ;;
  do (tmp, f) <- cells f ;;
  do flag <- item tmp 0 ;;
  do (alph, epsil, zeu, f) <- (if text_dec flag §"T" then
      do alph <- match tmp with _ :: w :: _ => do x <- to_float w ;; Ok (Some x) | _ => Ok None end ;;
      do (epsil, f) <- table 3 f ;;
      do (zeu, f) <- read_charges false nat_ nat_ f ;; Ok (alph, Some epsil, Some zeu, f)
    else Ok (None, None, None, f)) ;;
  do (tmp, f) <- cells f ;;
  do dims <- map_res to_int tmp ;;
  match dims with
  | [nr1; nr2; nr3] =>
      if ((nr1 <? 0) || (nr2 <? 0) || (nr3 <? 0))%Z then Raise ValueError else
      do (phid, _) <- read_pairs (frc_cells (Z.to_nat nr1) (Z.to_nat nr2) (Z.to_nat nr3)) (frc_pairs nat_) f ;;
      Ok {| f_phid := phid; f_shape := (Z.to_nat nr1, Z.to_nat nr2, Z.to_nat nr3); f_geometry := g; f_alph := alph; f_epsil := epsil; f_zeu := zeu |}
  | _ => Raise ValueError
  end.

(** lines 1199-1211: the elements of a row are pairs of numbers; complex() accepts one or two
    arguments or none *)
Definition complex_of (l : list Q) : res (Q * Q) := match l with [x; y] => Ok (x, y) | [x] => Ok (x, 0%Q) | [] => Ok (0%Q, 0%Q) | _ => Raise TypeError end.
Definition dyn_index : Type := (nat * nat)%type.
Fixpoint read_rows (rows : list nat) (col : nat) (f : list (list text)) : res (list (dyn_index * (Q * Q)) * list (list text)) :=
  match rows with
  | [] => Ok ([], f)
  | i :: rows =>
      do (ws, f) <- cells f ;;
      do v <- map_res to_float ws ;;
      do x0 <- complex_of (firstn 2 v) ;; do x1 <- complex_of (firstn 2 (skipn 2 v)) ;; do x2 <- complex_of (firstn 2 (skipn 4 v)) ;;
      do (l, f) <- read_rows rows col f ;;
      Ok (((i, col), x0) :: ((i, col + 1), x1) :: ((i, col + 2), x2) :: l, f)
  end.
Fixpoint read_blocks (pairs : list (nat * nat)) (f : list (list text)) : res (list (dyn_index * (Q * Q)) * list (list text)) :=
  match pairs with
  | [] => Ok ([], f)
  | (na1, na2) :: pairs =>
      let f := match cells f with Ok (_, f) => f | Raise _ => [] end in
      do (l, f) <- read_rows (map (fun j => 3 * na1 + j) (seq 0 3)) (3 * na2) f ;;
      do (l', f) <- read_blocks pairs f ;; Ok (l ++ l', f)
  end.

Record dyn_file := { d_q : list (list Q); d_D : list (list (dyn_index * (Q * Q))); d_geometry : geometry; d_epsil : option (list (list Q)); d_zeu : option (list (nat * list (list Q))) }.

(** lines 1192-1228: the loop over sections; each of them reads a line *)
Fixpoint read_sections (fuel : nat) (nat_ : nat) (a : Q) (g : geometry) (acc : dyn_file) (f : list (list text)) : res dyn_file :=
  match fuel with
  | O => Ok acc
  | S fuel =>
      let (ws, f) := match cells f with Ok (ws, f) => (ws, f) | Raise _ => ([], []) end in
      let line := lower (join ws) in
      if contains §"dynamical matrix in cartesian axes" line then
        do (tmp, f) <- cells f ;;
        do q <- map_res to_float (firstn 3 (skipn 3 tmp)) ;;
        do (D, f) <- read_blocks (dyn_pairs nat_) f ;;
        read_sections fuel nat_ a g {| d_q := d_q acc ++ [map (fun x => x * twopi / a)%Q q]; d_D := d_D acc ++ [D]; d_geometry := g; d_epsil := d_epsil acc; d_zeu := d_zeu acc |} f
      else if contains §"dielectric tensor" line then
        do (T, f) <- table 3 f ;;
        read_sections fuel nat_ a g {| d_q := d_q acc; d_D := d_D acc; d_geometry := g; d_epsil := Some T; d_zeu := d_zeu acc |} f
      else if contains §"effective charges e-u" line then
        do (Z, f) <- read_charges true nat_ nat_ f ;;
        read_sections fuel nat_ a g {| d_q := d_q acc; d_D := d_D acc; d_geometry := g; d_epsil := d_epsil acc; d_zeu := Some Z |} f
      else Ok acc
  end.

Definition read_dyn (f : list (list text)) : res dyn_file :=
  do f <- skip f ;;
  do (tmp, f) <- cells f ;;
  do (g, nat_, a, f) <- read_structure true tmp f ;;
  read_sections (S (length f)) nat_ a g {| d_q := []; d_D := []; d_geometry := g; d_epsil := None; d_zeu := None |} f.

(** lines 1132-1140: the file type *)
Definition read_flfrc (t : text) : res (frc_file + dyn_file) :=
  do (tmp, f) <- cells (words_of t) ;;
  do w <- item tmp 0 ;;
  if text_dec w §"Dynamical" then do d <- read_dyn f ;; Ok (inr d) else do d <- read_frc tmp f ;; Ok (inl d).
End Read.
