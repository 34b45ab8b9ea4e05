(** Model of elphmod/elel.py:284-343 and 380-433: files with Coulomb interactions, read
    and written character by character.

    Simplifications: as in Text.v; in particular, q points times the number of q points
    are not rounded before they are rounded to integers. Files are the text they contain;
    binary files are left out. Complex numbers are pairs of rational numbers. Arrays are
    functions of the list of indices; elements of np.empty that have not been assigned
    are [None]. Only process 0 reads and writes; the results are broadcast or shared. *)
From Verif Require Export Text.
Local Open Scope nat_scope.

Definition tensor : Type := list nat -> option (Q * Q).
Definition empty : tensor := fun _ => None.

Definition store (U : tensor) (p : list nat) (v : Q * Q) : tensor :=
  fun p' => if list_eq_dec Nat.eq_dec p' p then Some v else U p'.

(** NumPy's indices: negative ones count from the end. *)
Definition position (n : nat) (z : Z) : res nat :=
  if ((0 <=? z) && (z <? Z.of_nat n))%Z then Ok (Z.to_nat z)
  else if ((- Z.of_nat n <=? z) && (z <? 0))%Z then Ok (Z.to_nat (z + Z.of_nat n)) else Raise IndexError.

(** U[zs] = v *)
Definition assign (shape : list nat) (U : tensor) (zs : list Z) (v : Q * Q) : res tensor :=
  do p <- map_res (fun nz => position (fst nz) (snd nz)) (combine shape zs) ;; Ok (store U p v).

(** try: ... except (ValueError, IndexError): continue *)
Definition attempt (U : tensor) (r : res tensor) : res tensor :=
  match r with Raise ValueError => Ok U | Raise IndexError => Ok U | r => r end.

(** for line in data: ... *)
Fixpoint each_line (step : tensor -> text -> res tensor) (U : tensor) (ls : list text) : res tensor :=
  match ls with [] => Ok U | l :: ls => do U <- step U l ;; each_line step U ls end.

Definition minus_one (w : text) : res Z := do z <- to_int w ;; Ok (z - 1)%Z.

(** elel.py:296-299 *)
Definition local_entry (line : text) : res (Z * Z * Z * Z * (Q * Q)) :=
  let columns := str_split line in
  do ijkl <- map_res minus_one (firstn 4 columns) ;;
  match ijkl with
  | [i; j; k; l] =>
      do reim <- map_res to_float (skipn 4 columns) ;;
      match reim with [re; im] => Ok (i, j, k, l, (re, im)) | _ => Raise ValueError end
  | _ => Raise ValueError
  end.

(** elel.py:295-306 *)
Definition read_local_line (no : nat) (dd : bool) (U : tensor) (line : text) : res tensor :=
  attempt U (
    do (ijkl, v) <- local_entry line ;;
    let '(i, j, k, l) := ijkl in
    if negb dd then assign [no; no; no; no] U [i; j; k; l] v
    else if ((i =? j) && (k =? l))%Z then assign [no; no] U [i; k] v
    else Ok U).

(** read_local_Coulomb_tensor: elel.py:284-309 *)
Definition read_local (file : text) (no : nat) (dd : bool) : res tensor := each_line (read_local_line no dd) empty (lines file).

Definition column (columns : list text) (c : nat) : res text :=
  match nth_error columns c with Some w => Ok w | None => Raise IndexError end.

(** round(x), half to even *)
Definition round_half_even (x : Q) : Z := round_div (Qnum x) (Zpos (Qden x)).

(** elel.py:325: int(round(float(columns[c]) * nq[c])) % nq[c] *)
Definition mesh_point (columns : list text) (nq c : nat) : res Z :=
  do w <- column columns c ;;
  do x <- to_float w ;;
  if nq =? 0 then Raise ZeroDivisionError
  else Ok (round_half_even (x * inject_Z (Z.of_nat nq)) mod Z.of_nat nq)%Z.

(** elel.py:322-338 *)
Definition read_orbital_line (nq1 nq2 nq3 no : nat) (dd : bool) (U : tensor) (line : text) : res tensor :=
  attempt U (
    let columns := str_split line in
    do q1 <- mesh_point columns nq1 0 ;;
    do q2 <- mesh_point columns nq2 1 ;;
    do q3 <- mesh_point columns nq3 2 ;;
    do ijkl <- map_res minus_one (firstn 4 (skipn 3 columns)) ;;
    match ijkl with
    | [i; j; k; l] =>
        if (negb dd || (i =? j)%Z && (k =? l)%Z)%bool then
          do w <- column columns 7 ;; do re <- to_float w ;;
          do w <- column columns 8 ;; do im <- to_float w ;;
          if negb dd then assign [nq1; nq2; nq3; no; no; no; no] U [q1; q2; q3; j; i; l; k] (re, im)
          else assign [nq1; nq2; nq3; no; no] U [q1; q2; q3; i; k] (re, im)
        else Ok U
    | _ => Raise ValueError
    end).

(** read_orbital_Coulomb_interaction: elel.py:311-343 *)
Definition read_orbital (file : text) (nq1 nq2 nq3 no : nat) (dd : bool) : res tensor :=
  each_line (read_orbital_line nq1 nq2 nq3 no dd) empty (lines file).

(** Nested loops, the last index running fastest: elel.py:402-406, 426-430 *)
Fixpoint indices (shape : list nat) : list (list nat) :=
  match shape with [] => [[]] | n :: shape => flat_map (fun i => map (cons i) (indices shape)) (seq 0 n) end.

(** elel.py:407-408 *)
Fixpoint read_entries (ps : list (list nat)) (ls : list text) (U : tensor) : res tensor :=
  match ps with
  | [] => Ok U
  | p :: ps =>
      match ls with
      | [] => Raise StopIteration
      | l :: ls =>
          do ab <- map_res to_float (str_split l) ;;
          match ab with [a; b] => read_entries ps ls (store U p (a, b)) | _ => Raise ValueError end
      end
  end.

(** read_band_Coulomb_interaction: elel.py:380-416 *)
Definition read_band (file : text) (nQ nk : nat) : res tensor := read_entries (indices [nQ; nk; nk; nk; nk]) (lines file) empty.

(** write_band_Coulomb_interaction: elel.py:418-433 *)
Definition write_band (U : list nat -> Q * Q) (nQ nk : nat) : text :=
  concat (map (fun p => pad 14 (fmt_f 9 (fst (U p))) ++ blank :: pad 14 (fmt_f 9 (snd (U p))) ++ [newline]) (indices [nQ; nk; nk; nk; nk])).
