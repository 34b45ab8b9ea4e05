(** Model of elphmod/bravais.py: primitives, with real numbers in place of floats
    (square roots of negative numbers are NaN there and zero here; the theorems
    exclude them). The caller's list [celldm] is an argument that is passed by
    reference, hence its value after the call is part of the result. *)
From Verif Require Import Common GeoModel.
Local Open Scope R_scope.

(** misc.py:63 *)
Definition a0 : R := 529177210903 / 1000000000000.

Definition item (l : list R) (n : nat) : res R := match nth_error l n with Some x => Ok x | None => Raise IndexError end.

Definition mat := (r3 * r3 * r3)%type.
Definition scale_mat (c : R) (A : mat) : mat := (scale3 c (fst (fst A)), scale3 c (snd (fst A)), scale3 c (snd A)).

(** What [cell_units.lower()] contains, in the order of the tests. *)
Inductive units := alat | angstrom | bohr_ | other_units.

(** [celldm[0] *= c] *)
Definition scale_first (c : R) (l : list R) : res (list R) := match l with [] => Raise IndexError | x :: l => Ok (x * c :: l) end.

(** bravais.py:79-95 *)
Definition default_celldm (ibrav : Z) (a b c cosbc cosac cosab : R) : list R :=
  let '(c3, c4, c5) :=
    if (ibrav =? 0)%Z || (ibrav =? 14)%Z then (cosbc, cosac, cosab)
    else if (ibrav =? -13)%Z || (ibrav =? -12)%Z then (0, cosac, 0)
    else if (ibrav =? -5)%Z || (ibrav =? 5)%Z || (ibrav =? 12)%Z || (ibrav =? 13)%Z then (cosab, 0, 0)
    else (0, 0, 0) in
  [a / a0; b / a; c / a; c3; c4; c5].

(** bravais.py:100-280 *)
Definition lattice_vectors (ibrav : Z) (d : list R) (bohr : bool) (r_cell : option mat) (cell_units : option units) : res mat :=
  do d0 <- item d 0 ;;
  match ibrav with
  | 0%Z =>
    match r_cell, cell_units with
    | Some A, Some u =>
      Ok (match u with
          | alat => scale_mat d0 A
          | angstrom => if bohr then scale_mat (/ a0) A else A
          | bohr_ => if bohr then A else scale_mat a0 A
          | other_units => A
          end)
    | _, _ => Raise SystemExit
    end
  | 1%Z => Ok (scale_mat d0 (R3 1 0 0, R3 0 1 0, R3 0 0 1))
  | 2%Z => Ok (scale_mat (d0 / 2) (R3 (-1) 0 1, R3 0 1 1, R3 (-1) 1 0))
  | 3%Z => Ok (scale_mat (d0 / 2) (R3 1 1 1, R3 (-1) 1 1, R3 (-1) (-1) 1))
  | (-3)%Z => Ok (scale_mat (d0 / 2) (R3 (-1) 1 1, R3 1 (-1) 1, R3 1 1 (-1)))
  | 4%Z => do d2 <- item d 2 ;; Ok (scale_mat d0 (R3 1 0 0, R3 (- 1 / 2) (1 / 2 * sqrt 3) 0, R3 0 0 d2))
  | 5%Z =>
    do d3 <- item d 3 ;;
    let tx := sqrt ((1 - d3) / 2) in
    let ty := sqrt ((1 - d3) / 6) in
    let tz := sqrt ((1 + 2 * d3) / 3) in
    Ok (scale_mat d0 (R3 tx (- ty) tz, R3 0 (2 * ty) tz, R3 (- tx) (- ty) tz))
  | (-5)%Z =>
    do d3 <- item d 3 ;;
    let ty := sqrt ((1 - d3) / 6) in
    let tz := sqrt ((1 + 2 * d3) / 3) in
    let u := tz - 2 * sqrt 2 * ty in
    let v := tz + sqrt 2 * ty in
    Ok (scale_mat (d0 / sqrt 3) (R3 u v v, R3 v u v, R3 v v u))
  | 6%Z => do d2 <- item d 2 ;; Ok (scale_mat d0 (R3 1 0 0, R3 0 1 0, R3 0 0 d2))
  | 7%Z => do d2 <- item d 2 ;; Ok (scale_mat (d0 / 2) (R3 1 (-1) d2, R3 1 1 d2, R3 (-1) (-1) d2))
  | 8%Z => do d1 <- item d 1 ;; do d2 <- item d 2 ;; Ok (scale_mat d0 (R3 1 0 0, R3 0 d1 0, R3 0 0 d2))
  | 9%Z => do d1 <- item d 1 ;; do d2 <- item d 2 ;; Ok (scale_mat d0 (R3 (1 / 2) (1 / 2 * d1) 0, R3 (- 1 / 2) (1 / 2 * d1) 0, R3 0 0 d2))
  | (-9)%Z => do d1 <- item d 1 ;; do d2 <- item d 2 ;; Ok (scale_mat d0 (R3 (1 / 2) (- 1 / 2 * d1) 0, R3 (1 / 2) (1 / 2 * d1) 0, R3 0 0 d2))
  | 91%Z => do d1 <- item d 1 ;; do d2 <- item d 2 ;; Ok (scale_mat d0 (R3 1 0 0, R3 0 (1 / 2 * d1) (- 1 / 2 * d2), R3 0 (1 / 2 * d1) (1 / 2 * d2)))
  | 10%Z => do d1 <- item d 1 ;; do d2 <- item d 2 ;; Ok (scale_mat (d0 / 2) (R3 1 0 d2, R3 1 d1 0, R3 0 d1 d2))
  | 11%Z => do d1 <- item d 1 ;; do d2 <- item d 2 ;; Ok (scale_mat (d0 / 2) (R3 1 d1 d2, R3 (-1) d1 d2, R3 (-1) (- d1) d2))
  | 12%Z =>
    do cos <- item d 3 ;; do d1 <- item d 1 ;; do d2 <- item d 2 ;;
    let sin := sqrt (1 - cos * cos) in
    Ok (scale_mat d0 (R3 1 0 0, R3 (d1 * cos) (d1 * sin) 0, R3 0 0 d2))
  | (-12)%Z =>
    do cos <- item d 4 ;; do d1 <- item d 1 ;; do d2 <- item d 2 ;;
    let sin := sqrt (1 - cos * cos) in
    Ok (scale_mat d0 (R3 1 0 0, R3 0 d1 0, R3 (d2 * cos) 0 (d2 * sin)))
  | 13%Z =>
    do cos <- item d 3 ;; do d1 <- item d 1 ;; do d2 <- item d 2 ;;
    let sin := sqrt (1 - cos * cos) in
    Ok (scale_mat d0 (R3 (1 / 2) 0 (- 1 / 2 * d2), R3 (d1 * cos) (d1 * sin) 0, R3 (1 / 2) 0 (1 / 2 * d2)))
  | (-13)%Z =>
    do cos <- item d 4 ;; do d1 <- item d 1 ;; do d2 <- item d 2 ;;
    let sin := sqrt (1 - cos * cos) in
    Ok (scale_mat d0 (R3 (1 / 2) (1 / 2 * d1) 0, R3 (- 1 / 2) (1 / 2 * d1) 0, R3 (d2 * cos) 0 (d2 * sin)))
  | 14%Z =>
    do cosc <- item d 5 ;;
    let sinc := sqrt (1 - cosc * cosc) in
    do cosa <- item d 3 ;; do cosb <- item d 4 ;;
    let ex1 := (cosa - cosb * cosc) / sinc in
    let ex2 := sqrt (1 + 2 * cosa * cosb * cosc - cosa * cosa - cosb * cosb - cosc * cosc) / sinc in
    do d1 <- item d 1 ;; do d2 <- item d 2 ;;
    Ok (scale_mat d0 (R3 1 0 0, R3 (d1 * cosc) (d1 * sinc) 0, R3 (d2 * cosb) (d2 * ex1) (d2 * ex2)))
  | _ => Raise SystemExit
  end.

(** bravais.py:50-280; second component: the caller's [celldm] afterwards. *)
Definition primitives (ibrav : Z) (a b c cosbc cosac cosab : R) (celldm : option (list R)) (bohr : bool)
    (r_cell : option mat) (cell_units : option units) : res mat * option (list R) :=
  let d := match celldm with Some d => d | None => default_celldm ibrav a b c cosbc cosac cosab end in
  let d' := if bohr then Ok d else scale_first a0 d in
  (do d'' <- d' ;; lattice_vectors ibrav d'' bohr r_cell cell_units,
   match celldm, d' with Some _, Ok d' => Some d' | _, _ => celldm end).
