(** Model of readers and writers of input files of Quantum ESPRESSO
    (bravais.py:1796-2010, 2224-2518), on the process of rank 0. The others get the
    result of reading from [bcast] (C04) and do not write.

    Simplifications: values of parameters are those of NmlModel.v; booleans are not
    accepted as numbers of atoms etc.; coordinates are rational (Text.v). A file is its
    text. [fmt_g]: ['%.12g']. *)
From Verif Require Export NmlModel.
Local Open Scope nat_scope.

Definition row := (Q * Q * Q)%type.
Inductive positions := Cart (r : list row) | Wyckoff (r : list text).
Inductive kpoints := Grid (n : list Z) | Points (k : list (row * Q)).

(** The part of [struct] that does not stem from namelists. *)
Record geometry := Geometry {
  at_species : option (list text);
  amass : option (list Q);
  pp : option (list text);
  coords : option text;
  at_ : option (list text);
  r_ : option positions;
  ktyp : option text;
  nks : option Z;
  k_points : option kpoints;
  cell_units : option text;
  r_cell : option (list row)
}.
Definition nothing : geometry := Geometry None None None None None None None None None None None.

(** [struct[key]] *)
Definition need {A} (x : option A) : res A := match x with Some x => Ok x | None => Raise KeyError end.
Definition need_int (s : dict value) (key : string) : res Z :=
  match dget s (str key) with None => Raise KeyError | Some (VInt z) => Ok z | Some _ => Raise TypeError end.
(** [l[i]] *)
Definition at_index {A} (l : list A) (i : nat) : res A := match nth_error l i with Some x => Ok x | None => Raise IndexError end.

(** [s in t] for strings *)
Fixpoint prefix (s t : text) : bool :=
  match s, t with [], _ => true | c :: s, d :: t => Ascii.eqb c d && prefix s t | _ :: _, [] => false end.
Fixpoint contains (s t : text) : bool := prefix s t || match t with [] => false | _ :: t => contains s t end.

Section Write.
  Variable repr_f fmt_g : Q -> text.
  Let put := put repr_f.
  Let put_indexed := put_indexed repr_f.

  Definition fmt_12_9 (x : Q) : text := pad 12 (fmt_f 9 x).
  Definition fmt_row (r : row) : text := let '(x, y, z) := r in fmt_12_9 x ++ §" " ++ fmt_12_9 y ++ §" " ++ fmt_12_9 z.
  Definition line (t : text) : text := t ++ [newline].

  (** write_ph: bravais.py:2239-2278 *)
  Definition write_ph (s : dict value) : text :=
    line (§"&INPUTPH") ++ put s ["prefix"; "outdir"]%string ++ line [] ++ put s ["fildyn"; "fildvscf"]%string ++ line [] ++
    put s ["ldisp"; "nq1"; "nq2"; "nq3"]%string ++ line [] ++
    put s ["tr2_ph"; "alpha_mix"; "cdfpt"; "subspace"; "cdfpt_bnd"; "cdfpt_orb"]%string ++ line (§"/").

  (** write_q2r: bravais.py:2295-2315 *)
  Definition write_q2r (s : dict value) : text :=
    line (§"&INPUT") ++ put s ["fildyn"; "flfrc"; "zasr"]%string ++ line (§"/").

  (** write_matdyn: bravais.py:2354-2379. [nq] and [q] are the keys of that name. *)
  Definition write_matdyn (s : dict value) (nq : option Z) (q : option (list (list Q))) : res text :=
    do nq <- need nq ;;
    do q <- need q ;;
    Ok (line (§"&INPUT") ++ put s ["flfrc"; "flfrq"; "fldos"; "fleig"; "flvec"; "asr"; "loto_2d"; "q_in_band_form"; "q_in_cryst_coord"]%string ++
      line (§"/") ++ line (fmt_d nq) ++
      flat_map (fun point => line ((fix join (l : list Q) : text := match l with [] => [] | [x] => fmt_12_9 x | x :: l => fmt_12_9 x ++ §" " ++ join l end) point)) q).

  (** write_epw: bravais.py:2425-2513 *)
  Definition write_epw (s : dict value) : res text :=
    do proj <- put_indexed s "proj" ;;
    do wdata <- put_indexed s "wdata" ;;
    Ok (line (§"&INPUTEPW") ++ put s ["prefix"; "outdir"; "dvscf_dir"]%string ++ line [] ++ put s ["wannierize"; "elph"]%string ++ line [] ++
      put s ["epbwrite"; "epwwrite"]%string ++ line [] ++ put s ["epbread"; "epwread"]%string ++ line [] ++
      put s ["use_ws"; "nbndsub"; "bands_skipped"]%string ++ line [] ++
      put s ["dis_win_min"; "dis_win_max"; "dis_froz_min"; "dis_froz_max"]%string ++ line [] ++
      proj ++ line [] ++ put s ["num_iter"]%string ++ wdata ++ line [] ++
      put s ["nk1"; "nk2"; "nk3"]%string ++ line [] ++ put s ["nq1"; "nq2"; "nq3"]%string ++ line [] ++
      put s ["nkf1"; "nkf2"; "nkf3"]%string ++ line [] ++ put s ["nqf1"; "nqf2"; "nqf3"]%string ++ line (§"/")).

  (** write_pwi: bravais.py:1897-2010 *)
  Definition write_control (s : dict value) : text :=
    line (§"&CONTROL") ++
    put s ["title"; "prefix"; "outdir"; "pseudo_dir"; "calculation"; "tprnfor"; "tstress"; "nstep"; "forc_conv_thr"]%string ++ line (§"/").
  Definition write_system (s : dict value) : res text :=
    do celldm <- put_indexed s "celldm" ;;
    Ok (line (§"&SYSTEM") ++ celldm ++
      put s ["ibrav"; "ntyp"; "nat"; "a"; "b"; "c"; "cosbc"; "cosac"; "cosab"; "ecutwfc"; "ecutrho"; "nbnd"; "occupations"; "smearing"; "degauss";
        "nosym"; "noinv"; "tot_charge"; "assume_isolated"; "nspin"; "noncolin"; "lspinorb"; "tot_magnetization"; "starting_magnetization";
        "space_group"; "uniqueb"; "origin_choice"; "rhombohedral"]%string ++ line (§"/")).
  Definition write_electrons (s : dict value) : text :=
    line (§"&ELECTRONS") ++
    put s ["electron_maxstep"; "conv_thr"; "diagonalization"; "diago_full_acc"; "mixing_beta"; "startingpot"; "startingwfc"; "scf_must_converge"]%string ++ line (§"/").
  Definition calculation_in (s : dict value) (l : list string) : bool :=
    match dget s (§"calculation") with Some (VStr t) => existsb (fun x => teqb t (str x)) l | _ => false end.
  Definition write_ions (s : dict value) : text :=
    if calculation_in s ["relax"; "md"; "vc-relax"; "vc-md"]%string then
      line (§"&IONS") ++ put s ["ion_dynamics"; "upscale"]%string ++ line (§"/") ++
      if calculation_in s ["vc-relax"; "vc-md"]%string then
        line (§"&CELL") ++ put s ["cell_dynamics"; "cell_dofree"; "press"; "press_conv_thr"]%string ++ line (§"/")
      else []
    else [].

  Definition species_line (g : geometry) (i : nat) : res text :=
    do X <- need (at_species g) ;; do X <- at_index X i ;;
    do m <- need (amass g) ;; do m <- at_index m i ;;
    do p <- need (pp g) ;; do p <- at_index p i ;;
    Ok (line (X ++ §" " ++ fmt_g m ++ §" " ++ p)).
  Definition write_species (s : dict value) (g : geometry) : res text :=
    do ntyp <- need_int s "ntyp" ;;
    do l <- map_res (species_line g) (seq 0 (Z.to_nat ntyp)) ;;
    Ok (line (§"ATOMIC_SPECIES") ++ concat l ++ line []).

  (** The two variants differ in the type of [r]; for others, see above. *)
  Definition write_positions (g : geometry) : res text :=
    do c <- need (coords g) ;;
    do X <- need (at_ g) ;;
    do r <- need (r_ g) ;;
    do l <- match contains (§"crystal_sg") (lower c), r with
      | true, Wyckoff r => Ok (map (fun Xr => line (pad 2 (fst Xr) ++ §" " ++ snd Xr)) (combine X r))
      | false, Cart r => Ok (map (fun Xr => line (pad 2 (fst Xr) ++ §" " ++ fmt_row (snd Xr))) (combine X r))
      | _, _ => Raise TypeError
      end ;;
    Ok (line (§"ATOMIC_POSITIONS " ++ c) ++ concat l).

  (** [wk == int(wk)] *)
  Definition is_integer (x : Q) : bool := (Qnum x mod Zpos (Qden x) =? 0)%Z.
  Definition fmt_weight (w : Q) : text := if is_integer w then fmt_d (Qnum w / Zpos (Qden w)) else fmt_12_9 w.
  Definition write_k_points (g : geometry) : res text :=
    match ktyp g with
    | None => Ok []
    | Some typ =>
      do l <- (if contains (§"automatic") typ then
          do k <- need (k_points g) ;;
          match k with
          | Grid [a; b; c; d; e; f] => Ok (line (fmt_d a ++ §" " ++ fmt_d b ++ §" " ++ fmt_d c ++ §" " ++ fmt_d d ++ §" " ++ fmt_d e ++ §" " ++ fmt_d f))
          | _ => Raise TypeError
          end
        else if negb (contains (§"gamma") typ) then
          do n <- need (nks g) ;;
          do k <- need (k_points g) ;;
          match k with
          | Points k => Ok (line (fmt_d n) ++ flat_map (fun kw => line (fmt_row (fst kw) ++ §" " ++ fmt_weight (snd kw))) k)
          | Grid _ => Raise TypeError
          end
        else Ok []) ;;
      Ok (line [] ++ line (§"K_POINTS " ++ typ) ++ l)
    end.

  Definition write_cell (g : geometry) : res text :=
    match r_cell g with
    | None => Ok []
    | Some r => do u <- need (cell_units g) ;; Ok (line [] ++ line (§"CELL_PARAMETERS " ++ u) ++ flat_map (fun x => line (fmt_row x)) r)
    end.

  Definition write_pwi (s : dict value) (g : geometry) : res text :=
    do system <- write_system s ;;
    do species <- write_species s g ;;
    do pos <- write_positions g ;;
    do k <- write_k_points g ;;
    do cell <- write_cell g ;;
    Ok (write_control s ++ system ++ write_electrons s ++ write_ions s ++ species ++ pos ++ k ++ cell).
End Write.

(** ** Readers *)

(** [next(lines)] *)
Definition next (ls : list text) : res (text * list text) := match ls with l :: ls => Ok (l, ls) | [] => Raise StopIteration end.

(** [for n in range(n): words = next(lines).split(); ...] *)
Fixpoint read_rows {A} (f : list text -> res A) (n : nat) (ls : list text) : res (list A * list text) :=
  match n with
  | O => Ok ([], ls)
  | S n =>
    do (l, ls) <- next ls ;;
    do x <- f (str_split l) ;;
    do (xs, ls) <- read_rows f n ls ;;
    Ok (x :: xs, ls)
  end.

Definition read_row (words : list text) (i : nat) : res row :=
  do a <- at_index words i ;; do x <- to_float a ;;
  do b <- at_index words (i + 1) ;; do y <- to_float b ;;
  do c <- at_index words (i + 2) ;; do z <- to_float c ;;
  Ok (x, y, z).

Definition read_specie (words : list text) : res (text * Q * text) :=
  do X <- at_index words 0 ;;
  do m <- at_index words 1 ;; do m <- to_float m ;;
  do p <- at_index words 2 ;; Ok (X, m, p).

Definition read_position (words : list text) : res (text * row) :=
  do X <- at_index words 0 ;; do r <- read_row words 1 ;; Ok (X, r).
Definition read_wyckoff (words : list text) : res (text * text) :=
  do X <- at_index words 0 ;; do r <- at_index words 1 ;; Ok (X, r).

(** [struct[key][n] = list(map(float, next(lines).split()[:4]))]; a single number is
    assigned to all four. *)
Definition read_kpoint (words : list text) : res (row * Q) :=
  do l <- map_res to_float (firstn 4 words) ;;
  match l with
  | [x; y; z; w] => Ok ((x, y, z), w)
  | [x] => Ok ((x, x, x), x)
  | _ => Raise ValueError
  end.

Definition no_brace (c : ascii) : bool := negb (existsb (Ascii.eqb c) (§"{ }")).

(** [np.empty((n, ...))] *)
Definition dimension (n : Z) : res nat := if (n <? 0)%Z then Raise ValueError else Ok (Z.to_nat n).

(** One iteration of the loop in read_pwi: bravais.py:1815-1893 *)
Definition card (s : dict value) (words : list text) (ls : list text) (g : geometry) : res (geometry * list text) :=
  match words with
  | [] => Ok (g, ls)
  | w :: _ =>
    let key := lower w in
    if teqb key (§"atomic_species") then
      do ntyp <- need_int s "ntyp" ;;
      do (l, ls) <- read_rows read_specie (Z.to_nat ntyp) ls ;;
      Ok (Geometry (Some (map (fun x => fst (fst x)) l)) (Some (map (fun x => snd (fst x)) l)) (Some (map snd l)) (coords g) (at_ g) (r_ g)
        (ktyp g) (nks g) (k_points g) (cell_units g) (r_cell g), ls)
    else if teqb key (§"atomic_positions") then
      let c := match words with _ :: w :: _ => filter no_brace (lower w) | _ => §"alat" end in
      do nat_ <- need_int s "nat" ;;
      if contains (§"crystal_sg") c then
        do (l, ls) <- read_rows read_wyckoff (Z.to_nat nat_) ls ;;
        Ok (Geometry (at_species g) (amass g) (pp g) (Some c) (Some (map fst l)) (Some (Wyckoff (map snd l)))
          (ktyp g) (nks g) (k_points g) (cell_units g) (r_cell g), ls)
      else
        do n <- dimension nat_ ;;
        do (l, ls) <- read_rows read_position n ls ;;
        Ok (Geometry (at_species g) (amass g) (pp g) (Some c) (Some (map fst l)) (Some (Cart (map snd l)))
          (ktyp g) (nks g) (k_points g) (cell_units g) (r_cell g), ls)
    else if teqb key (§"k_points") then
      do typ <- at_index words 1 ;;
      let typ := lower typ in
      if contains (§"automatic") typ then
        do (l, ls) <- next ls ;;
        do n <- map_res to_int (firstn 6 (str_split l)) ;;
        Ok (Geometry (at_species g) (amass g) (pp g) (coords g) (at_ g) (r_ g)
          (Some typ) (nks g) (Some (Grid n)) (cell_units g) (r_cell g), ls)
      else if negb (contains (§"gamma") typ) then
        do (l, ls) <- next ls ;;
        do n <- to_int l ;;
        do d <- dimension n ;;
        do (k, ls) <- read_rows read_kpoint d ls ;;
        Ok (Geometry (at_species g) (amass g) (pp g) (coords g) (at_ g) (r_ g)
          (Some typ) (Some n) (Some (Points k)) (cell_units g) (r_cell g), ls)
      else
        Ok (Geometry (at_species g) (amass g) (pp g) (coords g) (at_ g) (r_ g)
          (Some typ) (nks g) (k_points g) (cell_units g) (r_cell g), ls)
    else if teqb key (§"cell_parameters") then
      let u := match words with _ :: w :: _ => w | _ => §"bohr" end in
      do (r, ls) <- read_rows (fun words => read_row words 0) 3 ls ;;
      Ok (Geometry (at_species g) (amass g) (pp g) (coords g) (at_ g) (r_ g)
        (ktyp g) (nks g) (k_points g) (Some u) (Some r), ls)
    else Ok (g, ls)
  end.

Fixpoint cards (fuel : nat) (s : dict value) (ls : list text) (g : geometry) : res geometry :=
  match ls, fuel with
  | [], _ | _, O => Ok g
  | l :: ls, S fuel => do (g, ls) <- card s (str_split l) ls g ;; cards fuel s ls g
  end.

(** Lines 1811-1813 and 2396-2398 *)
Definition wrap (s : dict value) (key : string) : dict value :=
  match dget s (str key) with
  | None | Some (VList _) => s
  | Some v => dset s (str key) (VList [v])
  end.

Definition read_pwi (t : text) : res (dict value * geometry) :=
  do s <- read_input_data t ;;
  let s := wrap s "celldm" in
  do g <- cards (length (lines t)) s (lines t) nothing ;;
  Ok (s, g).

(** read_ph: 2237, read_q2r: 2293, read_epw: 2392-2400 *)
Definition read_ph : text -> res (dict value) := read_input_data.
Definition read_q2r : text -> res (dict value) := read_input_data.
Definition read_epw (t : text) : res (dict value) :=
  do s <- read_input_data t ;; Ok (wrap (wrap s "proj") "wdata").

(** read_matdyn: bravais.py:2330-2352. If no line with words follows a slash, [words]
    belongs to the last line or, without such a line, is undefined. *)
Fixpoint first_words (words : option (list text)) (ls : list text) : option (list text) * list text :=
  match ls with
  | [] => (words, [])
  | l :: ls => match str_split l with [] => first_words (Some []) ls | w => (Some w, ls) end
  end.
Definition read_q (words : list text) : res (list Q) :=
  do a <- at_index words 0 ;; do a <- to_float a ;;
  do b <- at_index words 1 ;; do b <- to_float b ;;
  do c <- at_index words 2 ;; do c <- to_float c ;;
  do d <- at_index words 3 ;; do d <- to_float d ;;
  Ok [a; b; c; d].
(** [words]: the variable of that name, from the last line that was split *)
Fixpoint matdyn_points (fuel : nat) (words : option (list text)) (ls : list text) (q : option (Z * list (list Q))) : res (option (Z * list (list Q))) :=
  match ls, fuel with
  | [], _ | _, O => Ok q
  | l :: ls, S fuel =>
    if contains (§"/") l then
      let (words, ls) := first_words words ls in
      match words with
      | None => Raise UnboundLocalError
      | Some words =>
        do w <- at_index words 0 ;;
        do nq <- to_int w ;;
        do d <- dimension nq ;;
        let rows := ls in
        do (k, ls) <- read_rows read_q d ls ;;
        let words := match d with O => words | S d => match nth_error rows d with Some l => str_split l | None => words end end in
        matdyn_points fuel (Some words) ls (Some (nq, k))
      end
    else matdyn_points fuel words ls q
  end.
Definition read_matdyn (t : text) : res (dict value * option (Z * list (list Q))) :=
  do s <- read_input_data t ;;
  do q <- matdyn_points (length (lines t)) None (lines t) None ;;
  Ok (s, q).
