(** Model of elphmod/elph.py:1428-1573: electron-phonon coupling in XML files, read and
    written character by character.

    Simplifications: as in Text.v and TextE.v. Numbers are rational (floats are), complex
    numbers are pairs of them. The lattice vectors from bravais.translations and
    bravais.reciprocals are parameters. Arrays to be written are square in the k points
    and in the bands. Messages are left out. *)
From Verif Require Export Text TextE.
From Verif Require Import MPIModel CoulModel.
From Verif Require ProjModel.
Local Open Scope nat_scope.

Definition cx : Type := (Q * Q)%type.
Definition matrices : Type := nat -> nat -> nat -> nat -> cx.

(** ** read_xml_files: elph.py:1428-1493 *)

(** goto (1468-1471): the line with the pattern, if any, and the remaining lines *)
Fixpoint goto (pattern : text) (ls : list text) : option text * list text :=
  match ls with
  | [] => (None, [])
  | l :: ls => if ProjModel.contains pattern l then (Some l, ls) else goto pattern ls
  end.

(** next(data) *)
Definition next (ls : list text) : res (text * list text) :=
  match ls with [] => Raise StopIteration | l :: ls => Ok (l, ls) end.

(** t.split(c, 1): the text before and, if there is one, after the separator *)
Fixpoint partition (c : ascii) (t : text) : text * option text :=
  match t with
  | [] => ([], None)
  | d :: t => if Ascii.eqb d c then ([], Some t) else let (a, b) := partition c t in (d :: a, b)
  end.

(** t.split(c) *)
Fixpoint split_from (c : ascii) (cur t : text) : list text :=
  match t with
  | [] => [cur]
  | d :: t => if Ascii.eqb d c then cur :: split_from c [] t else split_from c (cur ++ [d]) t
  end.
Definition split_at (c : ascii) (t : text) : list text := split_from c [] t.

(** intag (1473-1474) *)
Definition intag (tag : option text) : res text :=
  match tag with
  | None => Raise AttributeError
  | Some t => match snd (partition ">" t) with Some t => Ok (fst (partition "<" t)) | None => Raise IndexError end
  end.

(** int(next(data) if old else intag(tmp)) *)
Definition number (old : bool) (tag : option text) (ls : list text) : res (Z * list text) :=
  if old then do (l, ls) <- next ls ;; do z <- to_int l ;; Ok (z, ls)
  else do t <- intag tag ;; do z <- to_int t ;; Ok (z, ls).

(** int(round(np.dot(k, a) * nk)) % nk; [np.dot] requires vectors of equal lengths. *)
Definition component (nk : nat) (k : list Q) (a : Q * Q) : res nat :=
  match k with
  | [kx; ky] =>
      let y := ((kx * fst a + ky * snd a) * inject_Z (Z.of_nat nk))%Q in
      Ok (Z.to_nat (round_div (Qnum y) (Zpos (Qden y)) mod Z.of_nat nk))
  | _ => Raise ValueError
  end.

(** complex( *list(map(float, line.split(','))) ), without the comma for the new format *)
Definition complex_of (old : bool) (line : text) : res cx :=
  do v <- map_res to_float (if old then split_at "," line else str_split line) ;;
  match v with
  | [] => Ok (0, 0)%Q
  | [x] => Ok (x, 0%Q)
  | [x; y] => Ok (x, y)
  | _ => Raise TypeError
  end.

Definition set (acc : matrices) (k1 k2 m n : nat) (v : cx) : matrices := fun k1' k2' m' n' =>
  if ((k1' =? k1) && (k2' =? k2) && (m' =? m) && (n' =? n))%bool then v else acc k1' k2' m' n'.

(** Lines 1495-1502, where [pairs] are the values of [n] and [m] (None: -1) *)
Fixpoint elements (old : bool) (k1 k2 : nat) (pairs : list (option nat * option nat)) (acc : matrices) (ls : list text) : res (matrices * list text) :=
  match pairs with
  | [] => Ok (acc, ls)
  | (n, m) :: pairs =>
      do (l, ls) <- next ls ;;
      match n, m with
      | Some n, Some m => do v <- complex_of old l ;; elements old k1 k2 pairs (set acc k1 k2 m n v) ls
      | _, _ => elements old k1 k2 pairs acc ls
      end
  end.

(** Lines 1486-1502 for [count] k points *)
Fixpoint k_points (old : bool) (a1 a2 : Q * Q) (nk : nat) (pairs : list (option nat * option nat)) (count : nat) (acc : matrices) (ls : list text) : res matrices :=
  match count with
  | O => Ok acc
  | S count =>
      do (l, ls) <- next (snd (goto §"<COORDINATES_XK" ls)) ;;
      do k <- map_res to_float (str_split l) ;;
      do k1 <- component nk (firstn 2 k) a1 ;;
      do k2 <- component nk (firstn 2 k) a2 ;;
      do (acc, ls) <- elements old k1 k2 pairs acc (snd (goto §"<PARTIAL_ELPH" ls)) ;;
      k_points old a1 a2 nk pairs count acc ls
  end.

(** Lines 1467-1502: one file. [int(np.sqrt(x))] is an error for negative [x]. *)
Definition read_file (old : bool) (a1 a2 : Q * Q) (nk : nat) (select : list (option nat)) (acc : matrices) (file : text) : res matrices :=
  let (tag, ls) := goto §"<NUMBER_OF_K" (lines file) in
  do (z, ls) <- number old tag ls ;;
  if (z <? 0)%Z then Raise ValueError else
  let (tag, ls) := goto §"<NUMBER_OF_BANDS" ls in
  do (_, ls) <- number old tag ls ;;
  k_points old a1 a2 nk (list_prod select select) (nk * nk) acc ls.

(** Lines 1450-1454: band_select[m] = n *)
Fixpoint band_select (nbands : nat) (n : nat) (bands : list Z) (select : nat -> option nat) : res (nat -> option nat) :=
  match bands with
  | [] => Ok select
  | m :: bands => do p <- position nbands m ;; band_select nbands (n + 1) bands (fun b => if b =? p then Some n else select b)
  end.

(** [open] yields the content of the file for given numbers, [garbage] the initial content
    of arrays. The result tells if the last two axes have been removed. *)
Definition read_xml_files (a1 a2 : Q * Q) (open : Z -> Z -> res text) (garbage : matrices) (nproc : Z) (q rep bands : list Z) (nbands nk : nat) (squeeze old : bool)
    : res (bool * (nat -> nat -> matrices)) :=
  do select <- band_select nbands 0 bands (fun _ => None) ;;
  do parts <- scatter_compute_gather (fun iq => map_res (fun irep =>
      do file <- open (iq + 1)%Z (irep + 1)%Z ;;
      read_file old a1 a2 nk (map select (seq 0 nbands)) garbage file) rep) nproc q ;;
  do elph <- map_res (fun r => r) parts ;;
  Ok ((length bands =? 1) && squeeze, fun iq irep => nth irep (nth iq elph []) garbage)%bool.

(** ** write_xml_files: elph.py:1495-1573 *)

(** Arrays with six and with four axes *)
Inductive coupling :=
| Six (nQ nmodes nk nbands : nat) (g : nat -> nat -> matrices)
| Four (nQ nmodes n : nat) (g : nat -> nat -> nat -> nat -> cx).

Definition k_point (b1 b2 : Q * Q) (nk k1 k2 : nat) : Q * Q :=
  let c b1 b2 := ((inject_Z (Z.of_nat k1) * b1 + inject_Z (Z.of_nat k2) * b2) / inject_Z (Z.of_nat nk))%Q in
  (c (fst b1) (fst b2), c (snd b1) (snd b2)).

Definition fmt_E23 (x : Q) : text := pad 23 (fmt_E 15 x).

(** Lines 1527-1543 *)
Definition header (nk nbands : nat) : list text :=
  [§"<?xml version=""1.0""?>";
   §"<?iotk version=""1.2.0""?>";
   §"<?iotk file_version=""1.0""?>";
   §"<?iotk binary=""F""?>";
   §"<?iotk qe_syntax=""F""?>";
   §"<Root>";
   §"  <EL_PHON_HEADER>";
   §"    <DONE_ELPH type=""logical"" size=""1"">";
   §"      T";
   §"    </DONE_ELPH>";
   §"  </EL_PHON_HEADER>";
   §"  <PARTIAL_EL_PHON>";
   §"    <NUMBER_OF_K type=""integer"" size=""1"">";
   §"      " ++ fmt_d (Z.of_nat (nk * nk));
   §"    </NUMBER_OF_K>";
   §"    <NUMBER_OF_BANDS type=""integer"" size=""1"">";
   §"      " ++ fmt_d (Z.of_nat nbands);
   §"    </NUMBER_OF_BANDS>"].

Definition element_line (g : cx) : text := fmt_E23 (fst g) ++ §"," ++ fmt_E23 (snd g).

(** Lines 1545-1569; [ik] is the number of the k point. *)
Definition k_block (b1 b2 : Q * Q) (nk nbands : nat) (g : matrices) (ik k1 k2 : nat) : list text :=
  let k := k_point b1 b2 nk k1 k2 in
  [§"    <K_POINT." ++ fmt_d (Z.of_nat ik) ++ §">";
   §"      <COORDINATES_XK type=""real"" size=""3"" columns=""3"">";
   fmt_E23 (fst k) ++ §" " ++ fmt_E23 (snd k) ++ §" " ++ fmt_E23 0;
   §"      </COORDINATES_XK>";
   §"      <PARTIAL_ELPH type=""complex"" size=""" ++ fmt_d (Z.of_nat (nbands * nbands)) ++ §""">"] ++
  flat_map (fun j => map (fun i => element_line (g k1 k2 i j)) (seq 0 nbands)) (seq 0 nbands) ++
  [§"      </PARTIAL_ELPH>";
   §"    </K_POINT." ++ fmt_d (Z.of_nat ik) ++ §">"].

Definition unlines (ls : list text) : text := concat (map (fun l => l ++ [newline]) ls).

Definition file_text (b1 b2 : Q * Q) (nk nbands : nat) (g : matrices) : text :=
  unlines (header nk nbands ++
    flat_map (fun k1 => flat_map (fun k2 => k_block b1 b2 nk nbands g (k1 * nk + k2 + 1) k1 k2) (seq 0 nk)) (seq 0 nk) ++
    [§"  </PARTIAL_EL_PHON>"; §"</Root>"]).

(** The contents of the files, numbered from one; None if a file is not written *)
Definition write_xml_files (b1 b2 : Q * Q) (data : coupling) (nq nrep : Z) : option text :=
  let '(nQ, nmodes, nk, nbands, g) :=
    match data with
    | Six nQ nmodes nk nbands g => (nQ, nmodes, nk, nbands, g)
    | Four nQ nmodes n g => (nQ, nmodes, 1, n, fun iq irep k1 k2 i j => g iq irep i j)
    end in
  if ((1 <=? nq) && (nq <=? Z.of_nat nQ) && (1 <=? nrep) && (nrep <=? Z.of_nat nmodes))%Z
  then Some (file_text b1 b2 nk nbands (g (Z.to_nat (nq - 1)) (Z.to_nat (nrep - 1))))
  else None.
