(** Model of further functions of elphmod/el.py that read output of Quantum ESPRESSO, Wannier90
    and EPW: 908-932, 934-954, 1382-1413, 1614-1648, 1694-1748.

    Simplifications: as in Text.v. The process of rank 0 is modelled. *)
From Verif Require Export Text NmlModel.
From Verif Require ProjModel XmlModel.
Local Open Scope nat_scope.

(** [l[n]] *)
Definition item {A} (l : list A) (n : nat) : res A := match nth_error l n with Some x => Ok x | None => Raise IndexError end.
(** [s in t] *)
Definition inside (s t : text) : bool := ProjModel.contains s t.

(** ** read_energy_contributions_scf_out: el.py:1694-1748 *)

(** Lines 1711-1713 *)
Definition split_words (line : text) : list text :=
  flat_map (fun column => filter (fun w => negb (teqb w [])) (XmlModel.split_at "=" column)) (str_split line).

(** Lines 1715-1741 *)
Definition contribution (energies : dict text) (line : text) : res (dict text) :=
  let words := split_words line in
  match words with
  | [] => Ok energies
  | w0 :: _ =>
    let key := lower w0 in
    let store (word name : text) (n : nat) : res (dict text) :=
      if teqb w0 word then do v <- item words n ;; Ok (dset energies name v) else Ok energies in
    if inside key §"sum bands" then store §"sum" §"sum bands" 2
    else if inside key §"one-electron contribution" then store §"one-electron" key 2
    else if inside key §"hartree contribution" then store §"hartree" key 2
    else if inside key §"xc contribution" then store §"xc" key 2
    else if inside key §"ewald contribution" then store §"ewald" key 2
    else if inside key §"smearing contrib." then store §"smearing" key 3
    else if inside key §"!" then store §"!" §"total" 3
    else Ok energies
  end.
Fixpoint contributions (energies : dict text) (ls : list text) : res (dict text) :=
  match ls with [] => Ok energies | l :: ls => do d <- contribution energies l ;; contributions d ls end.
Definition read_energy_contributions (file : text) : res (dict text) := contributions [] (lines file).

(** ** read_symmetry_points: el.py:934-954 *)
Fixpoint symmetry_points (points : list Q) (ls : list text) : res (list Q) :=
  match ls with
  | [] => Ok points
  | line :: ls =>
    if inside §"x coordinate" line then
      do w <- item (rev (str_split line)) 0 ;; do x <- to_float w ;; symmetry_points (points ++ [x]) ls
    else symmetry_points points ls
  end.
Definition read_symmetry_points (file : text) : res (list Q) := symmetry_points [] (lines file).

(** ** read_decayH: el.py:1614-1648 *)
Fixpoint decay_lines (R H : list Q) (ls : list text) : res (list Q * list Q) :=
  match ls with
  | [] => Ok (R, H)
  | line :: ls =>
    match str_split line with
    | [r; h] => do r <- to_float r ;; do h <- to_float h ;; decay_lines (R ++ [r]) (H ++ [h]) ls
    | _ => decay_lines R H ls
    end
  end.
Definition read_decayH (file : text) : res (list Q * list Q) := decay_lines [] [] (lines file).

(** ** read_wannier90_eig_file: el.py:1382-1413

    [None]: not initialized ([np.empty]). Indices may be negative. *)
Definition index (n : nat) (i : Z) : res nat :=
  if (0 <=? i)%Z && (i <? Z.of_nat n)%Z then Ok (Z.to_nat i)
  else if (- Z.of_nat n <=? i)%Z && (i <? 0)%Z then Ok (Z.to_nat (i + Z.of_nat n))
  else Raise IndexError.
Fixpoint eig_lines (nb nk : nat) (eig : nat -> nat -> option Q) (ls : list text) : res (nat -> nat -> option Q) :=
  match ls with
  | [] => Ok eig
  | line :: ls =>
    match str_split line with
    | [b; k; e] =>
      do b <- to_int b ;; do k <- to_int k ;;
      do i <- index nb (b - 1)%Z ;; do j <- index nk (k - 1)%Z ;;
      do x <- to_float e ;;
      eig_lines nb nk (fun i' j' => if (i' =? i) && (j' =? j) then Some x else eig i' j') ls
    | _ => Raise ValueError
    end
  end.
Definition read_eig (nb nk : nat) (file : text) : res (nat -> nat -> option Q) := eig_lines nb nk (fun _ _ => None) (lines file).

(** ** read_bands_plot: el.py:908-932 *)

(** [np.loadtxt]: rows of numbers without empty lines and comments *)
Definition uncommented (line : text) : text := fst (XmlModel.partition "#" line).
Fixpoint table (ls : list text) : res (list (list Q)) :=
  match ls with
  | [] => Ok []
  | l :: ls =>
    match str_split (uncommented l) with
    | [] => table ls
    | ws => do row <- map_res to_float ws ;; do rows <- table ls ;; Ok (row :: rows)
    end
  end.
(** [k, e = np.loadtxt(...).T]: arrays with a single row or column lose a dimension.
    [None]: [k] and [e] are single numbers. *)
Definition two_columns (rows : list (list Q)) : res (option (list Q * list Q)) :=
  match rows with
  | [] => Raise ValueError
  | [[_]] => Raise TypeError
  | [[_; _]] | [[_]; [_]] => Ok None
  | _ =>
    do kes <- map_res (fun r => match r with [k; e] => Ok (k, e) | _ => Raise ValueError end) rows ;;
    Ok (Some (map fst kes, map snd kes))
  end.
Definition read_bands_plot (file : text) (bands : nat) : res (list Q * list (list Q)) :=
  do rows <- table (lines file) ;;
  do columns <- two_columns rows ;;
  if bands =? 0 then Raise ZeroDivisionError
  else match columns with
  | None => Raise IndexError   (** a number cannot be sliced (line 929) *)
  | Some (k, e) =>
    let points := length k / bands in
    if bands * points =? length e then
      Ok (firstn points k, map (fun ik => map (fun n => nth (n * points + ik) e 0%Q) (seq 0 bands)) (seq 0 points))
    else Raise ValueError
  end.
