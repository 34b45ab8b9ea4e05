(** Model of elphmod/el.py:1293-1380 and 1415-1512: energies in the output of pw.x, read
    character by character.

    Simplifications: as in Text.v. Numbers are rational in place of floats. The process of
    rank 0 is modelled; the others get the results from [bcast] (C04). [Ry]: one rydberg in
    electronvolts (misc.py). *)
From Verif Require Export Text NmlModel.
From Verif Require ProjModel QeModel.
Local Open Scope nat_scope.

(** [l[n]] and [l[-1 - n]] *)
Definition item {A} (l : list A) (n : nat) : res A := match nth_error l n with Some x => Ok x | None => Raise IndexError end.
Definition back {A} (l : list A) (n : nat) : res A := item (rev l) n.

(** [s in line], [line.startswith(s)] *)
Definition has (s : string) (line : text) : bool := ProjModel.contains (str s) line.
Definition starts (s : string) (line : text) : bool := QeModel.prefix (str s) line.

(** ** read_Fermi_level: el.py:1293-1316 *)
Fixpoint fermi_level (eF : option Q) (ls : list text) : res (option Q) :=
  match ls with
  | [] => Ok eF
  | line :: ls =>
    if has "the Fermi energy is" line then do w <- back (str_split line) 1 ;; do x <- to_float w ;; fermi_level (Some x) ls
    else if has "highest occupied level" line then do w <- back (str_split line) 0 ;; do x <- to_float w ;; fermi_level (Some x) ls
    else fermi_level eF ls
  end.
Definition read_Fermi_level (file : text) : res (option Q) := fermi_level None (lines file).

(** ** read_pwo: el.py:1318-1380 *)
Section Pwo.
  Variable Ry : Q.

  (** The local variables; [p_eF] is without value (not even [None]) at first. *)
  Record pwo := Pwo { p_Ne : option Q; p_Ns : option Z; p_Nk : option Z; p_eF : option Q; p_E : option Q; p_e : option (list (list Q)); p_given : bool }.

  (** [next(lines)] in the [try] block: what has been read so far if ValueError is caught
      (here or below), and the lines left *)
  Inductive outcome A := Done (x : A) (ls : list text) | Caught (x : A) (ls : list text) | Failed (e : exc).
  Arguments Done {A}. Arguments Caught {A}. Arguments Failed {A}.

  (** Lines 1352-1354 *)
  Fixpoint fill (Ns : Z) (row : list Q) (ls : list text) : outcome (list Q) :=
    if (Ns <=? Z.of_nat (length row))%Z then Done row ls
    else match ls with
      | [] => Failed StopIteration
      | l :: ls => match map_res to_float (str_split l) with Ok xs => fill Ns (row ++ xs) ls | Raise _ => Caught row ls end
      end.

  (** Lines 1345-1354 *)
  Fixpoint blocks (Nk : nat) (Ns : option Z) (e : list (list Q)) (ls : list text) : outcome (list (list Q)) :=
    match Nk with
    | O => Done e ls
    | S Nk =>
      match ls with
      | _ :: _ :: _ :: ls =>
        match Ns with
        | None => Failed TypeError
        | Some Ns' =>
          match fill Ns' [] ls with
          | Done row ls => blocks Nk Ns (e ++ [row]) ls
          | Caught row ls => Caught (e ++ [row]) ls
          | Failed x => Failed x
          end
        end
      | _ => Failed StopIteration
      end
    end.

  (** Lines 1324-1359. [fuel]: at least the number of lines *)
  Fixpoint pwo_lines (fuel : nat) (p : pwo) (ls : list text) : res pwo :=
    match fuel, ls with
    | O, _ => Ok p
    | _, [] => Ok p
    | S fuel, line :: ls =>
      let words := str_split line in
      let '(Pwo Ne Ns Nk eF E e given) := p in
      if has "number of electrons" line then
        do w <- back words 0 ;; do x <- to_float w ;; pwo_lines fuel (Pwo (Some x) Ns Nk eF E e given) ls
      else if has "number of Kohn-Sham states" line then
        do w <- back words 0 ;; do n <- to_int w ;; pwo_lines fuel (Pwo Ne (Some n) Nk eF E e given) ls
      else if has "number of k points" line then
        do w <- item words 4 ;; do n <- to_int w ;; pwo_lines fuel (Pwo Ne Ns (Some n) eF E e given) ls
      else if has "the Fermi energy is" line then
        do w <- back words 1 ;; do x <- to_float w ;; pwo_lines fuel (Pwo Ne Ns Nk (Some x) E e given) ls
      else if has "highest occupied, lowest unoccupied level" line then
        do xs <- map_res to_float (rev (firstn 2 (rev words))) ;;
        pwo_lines fuel (Pwo Ne Ns Nk (Some (fold_right Qplus 0 xs / 2)%Q) E e given) ls
      else if starts "!" line then
        do w <- back words 1 ;; do x <- to_float w ;; pwo_lines fuel (Pwo Ne Ns Nk eF (Some (x * Ry)%Q) e given) ls
      else if has "End of self-consistent calculation" line then
        match Nk with
        | None => Raise TypeError
        | Some n =>
          match blocks (Z.to_nat n) Ns [] ls with
          | Done e ls => pwo_lines fuel (Pwo Ne Ns Nk eF E (Some e) true) ls
          | Caught e ls => pwo_lines fuel (Pwo Ne Ns Nk eF E (Some e) given) ls
          | Failed x => Raise x
          end
        end
      else pwo_lines fuel p ls
    end.

  (** [np.array(e)] of lists of different lengths: ValueError *)
  Definition rectangular (e : list (list Q)) : bool :=
    match e with [] => true | r :: e => forallb (fun r' => length r' =? length r) e end.

  (** The result [e, Ne, E] *)
  Definition read_pwo (file : text) : res (option (list (list Q)) * option Q * option Q) :=
    do p <- pwo_lines (length (lines file)) (Pwo None None None None None None false) (lines file) ;;
    if p_given p then
      match p_eF p, p_e p with
      | Some eF, Some e =>
        if rectangular e then Ok (Some (map (map (fun x => x - eF)%Q) e), p_Ne p, p_E p) else Raise ValueError
      | _, _ => Raise UnboundLocalError
      end
    else Ok (None, p_Ne p, p_E p).

  (** ** read_eps_nk_from_qe_pwo: el.py:1415-1512

      The occupations are computed by the function [f] selected via the name of the smearing
      (OccModel.v), which is [None] for an unknown name; calling [None] raises TypeError. *)

  (** The last of the lines that start like this *)
  Fixpoint last_index (s : string) (n : nat) (found : option nat) (ls : list text) : option nat :=
    match ls with [] => found | l :: ls => last_index s (S n) (if starts s l then Some n else found) ls end.
  Definition bound {A} (x : option A) : res A := match x with Some x => Ok x | None => Raise UnboundLocalError end.

  (** [kz[:-2]] *)
  Definition drop2 (t : text) : text := firstn (length t - 2) t.

  (** Lines 1456-1470: exactly ten words *)
  Definition k_point (line : text) : res (Q * Q * Q * Q) :=
    match str_split line with
    | [_; _; _; _; kx; ky; kz; _; _; wk] =>
      do kx <- to_float kx ;; do ky <- to_float ky ;; do kz <- to_float (drop2 kz) ;; do wk <- to_float wk ;; Ok (kx, ky, kz, wk)
    | _ => Raise ValueError
    end.

  (** [energies[ik] = np.array(energies_per_k)]: a single number fills the row. *)
  Definition assign_row (nbnd : nat) (words : list text) : res (list Q) :=
    do xs <- map_res to_float words ;;
    if length xs =? nbnd then Ok xs
    else match xs with [x] => Ok (repeat x nbnd) | _ => Raise ValueError end.

  (** Lines 1497-1503 *)
  Definition k_energies (ls : list text) (start state_lines nbnd ik : nat) : res (list Q) :=
    do rows <- map_res (fun istate => item ls (start + istate + (state_lines + 3) * ik)) (seq 0 state_lines) ;;
    assign_row nbnd (flat_map str_split rows).

  (** The result [energies, k_Points, smearing_type, mu, kT]; [known]: the function selected
      is not [None]. *)
  Definition read_eps (known : text -> bool) (file : text) : res (list (list Q) * list (Q * Q * Q * Q) * text * Q * Q) :=
    let ls := lines file in
    do i <- bound (last_index "     number of k points=" 0 None ls) ;;
    do line <- item ls i ;;
    let words := str_split line in
    do w <- item words 4 ;; do nk <- to_int w ;;
    do smearing <- item words 5 ;;
    do w <- item words 9 ;; do kT <- to_float w ;;
    if (nk <? 0)%Z then Raise ValueError else
    let nk := Z.to_nat nk in
    do points <- map_res (fun ik => do l <- item ls (i + 2 + ik) ;; k_point l) (seq 0 nk) ;;
    do j <- bound (last_index "     number of Kohn-Sham" 0 None ls) ;;
    do line <- item ls j ;;
    do w <- item (str_split line) 4 ;; do nbnd <- to_int w ;;
    (** [start] has no value if there is no such line, which matters in the loop only. *)
    let start := last_index "     End of" 0 None ls in
    if (nbnd <? 0)%Z then Raise ValueError else
    let nbnd := Z.to_nat nbnd in
    let state_lines := nbnd / 8 + (if nbnd mod 8 =? 0 then 0 else 1) in
    do energies <- map_res (fun ik =>
      if state_lines =? 0 then assign_row nbnd []
      else do s <- bound start ;; k_energies ls (s + 4) state_lines nbnd ik) (seq 0 nk) ;;
    do mu <- read_Fermi_level file ;;
    match mu with
    | None => Raise TypeError
    | Some mu => if known smearing then Ok (energies, points, smearing, mu, (kT * Ry)%Q) else Raise TypeError
    end.
End Pwo.
Arguments Done {A}. Arguments Caught {A}. Arguments Failed {A}.
