(** Model of elphmod/elph.py:1094-1182 (coupling): electron-phonon matrix elements read from
    one file per q point and completed by symmetry.

    Simplifications: as in Text.v. Numbers are rational (floats are), complex numbers pairs
    of them; [None] is NaN. Messages are left out. Symmetries are those of SymModel.v. *)
From Verif Require Export Text.
From Verif Require Import MPIModel CoulModel SymModel.
Local Open Scope nat_scope.

Definition value : Type := (Q * Q)%type.
(** Mode, k point, bands *)
Definition elements : Type := nat -> nat -> nat -> nat -> nat -> option value.

(** Floats are equal if the reduced fractions are. *)
Definition veqb (x y : value) : bool :=
  ((Qnum (fst x) =? Qnum (fst y))%Z && Pos.eqb (Qden (fst x)) (Qden (fst y)) && (Qnum (snd x) =? Qnum (snd y))%Z && Pos.eqb (Qden (snd x)) (Qden (snd y)))%bool.

Definition float (t : text) : res Q := do x <- to_float t ;; Ok (Qred x).

(** t.startswith('#') *)
Definition hash (t : text) : bool := match t with c :: _ => Ascii.eqb c "#" | [] => false end.

(** columns[-a:-b] *)
Definition from_end {A} (a b : nat) (l : list A) : list A := firstn (length l - b - (length l - a)) (skipn (length l - a) l).

(** columns[-a] *)
Definition at_end (a : nat) (l : list text) : res text :=
  if a <=? length l then match nth_error l (length l - a) with Some t => Ok t | None => Raise IndexError end else Raise IndexError.

Definition store (d : elements) (nu k1 k2 i j : nat) (v : value) : elements := fun nu' k1' k2' i' j' =>
  if ((nu' =? nu) && (k1' =? k1) && (k2' =? k2) && (i' =? i) && (j' =? j))%bool then Some v else d nu' k1' k2' i' j'.

(** int(i) - 1 *)
Definition index (t : text) : res Z := do z <- to_int t ;; Ok (z - 1)%Z.

(** Lines 1130-1150: one line of a file *)
Definition read_line (phase : bool) (offset : Z) (nmodes nk bands : nat) (d : elements) (line : text) : res elements :=
  let columns := str_split line in
  match columns with
  | [] => Raise IndexError
  | c :: _ =>
    if hash c then Ok d else
    do k <- map_res index (firstn 2 columns) ;;
    match k with
    | [k1; k2] =>
      do b <- map_res index (if phase then from_end 5 2 columns else from_end 4 1 columns) ;;
      match b with
      | [jbnd; ibnd; nu] =>
        let ibnd := (ibnd - offset)%Z in
        let jbnd := (jbnd - offset)%Z in
        if ((Z.of_nat bands <=? ibnd) || (Z.of_nat bands <=? jbnd))%Z%bool then Ok d else
        do v <- (if phase then
          do re <- at_end 2 columns ;; do re <- float re ;; do im <- at_end 1 columns ;; do im <- float im ;; Ok (re, im)
        else do re <- at_end 1 columns ;; do re <- float re ;; Ok (re, 0%Q)) ;;
        do nu <- position nmodes nu ;; do k1 <- position nk k1 ;; do k2 <- position nk k2 ;;
        do i <- position bands ibnd ;; do j <- position bands jbnd ;;
        Ok (store d nu k1 k2 i j v)
      | _ => Raise ValueError
      end
    | _ => Raise ValueError
    end
  end.

Definition read_lines phase offset nmodes nk bands (ls : list text) : res elements :=
  fold_left (fun d l => do d <- d ;; read_line phase offset nmodes nk bands d l) ls (Ok (fun _ _ _ _ _ => None)).

(** Lines 1152-1161: completion of one array (in place) *)
Definition completed (nk : nat) (d : elements) : elements := fun nu k1 k2 i j =>
  SymModel.complete veqb 60 (Z.of_nat nk) (fun k => d nu (Z.to_nat (fst k)) (Z.to_nat (snd k)) i j) (Z.of_nat k1, Z.of_nat k2).

(** Elements for the list of q points or for the q mesh (None: not assigned) *)
Inductive couplings :=
| Listed (g : nat -> elements)
| Meshed (g : nat -> nat -> nat -> nat -> nat -> nat -> nat -> option (option value)).

(** Lines 1163-1182 with [complete_k]; q points of the wedge without data: IndexError *)
Definition on_mesh (nq nmodes nk bands nQ : nat) (elph : nat -> elements) : res couplings :=
  do irr <- irreducibles (Z.of_nat nq) 60 ;;
  if ((0 <? nmodes) && (0 <? nk) && (0 <? bands) && (nQ <? length irr))%bool then Raise IndexError else
  Ok (Meshed (fun q1 q2 nu k1 k2 i j =>
    match SymModel.complete_k (Z.of_nat nq) (Z.of_nat nk) (fun iq k => elph iq nu (Z.to_nat (fst k)) (Z.to_nat (snd k)) i j) with
    | Ok m => m (Z.of_nat q1, Z.of_nat q2) (Z.of_nat k1, Z.of_nat k2)
    | Raise _ => None
    end)).

(** [open] yields the content of the file with given number. Without list of points [qs],
    the first [nQ] files are read. The result tells if the last two axes are removed. *)
Definition coupling (open : Z -> res text) (nproc : Z) (nQ nmodes nk bands : nat) (qs : option (list Z)) (nq : option nat) (offset : Z)
    (completion complete_k squeeze phase : bool) : res (bool * couplings) :=
  let qs := match qs with Some qs => qs | None => map (fun n => Z.of_nat n + 1)%Z (seq 0 nQ) end in
  do parts <- scatter_compute_gather (fun iq =>
      do file <- open iq ;;
      do d <- read_lines phase offset nmodes nk bands (lines file) ;;
      Ok (if completion then completed nk d else d)) nproc qs ;;
  do elph <- map_res (fun r => r) parts ;;
  let elph := fun n => nth n elph (fun _ _ _ _ _ => None) in
  do g <- (match nq with
    | Some (S m) => if complete_k then on_mesh (S m) nmodes nk bands (length qs) elph else Ok (Listed elph)
    | _ => Ok (Listed elph)
    end) ;;
  Ok ((bands =? 1) && squeeze, g)%bool.
