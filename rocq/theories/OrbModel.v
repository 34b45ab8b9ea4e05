(** Model of elel.orbital2band and elel.hartree_energy: elel.py:435-600.

    Simplifications: floats are real (complex) numbers. The eigenvectors of the
    Hamiltonian on the mesh of k points (line 446, see FullModel.v) are given as
    [psi k1 k2 a] for the selected band. Status messages are left out; the result is
    that of the root process, the broadcast to other nodes (lines 549-553) is that of
    MPIModel.v. *)
From Coq Require Import Reals.
From Verif Require Import Common LatModel MPIModel SymModel Cx.
Local Open Scope Z_scope.

(** Line 463: elements of [dtype=np.uint8] (as of NumPy 2, too large numbers
    raise an exception instead of being wrapped). *)
Definition uint8 (x : Z) : Z := x mod 256.

(** One row of the array [points], line 487 *)
Record row := Row { r_q : pt; r_k : pt; r_K : pt; r_kq : pt; r_Kq : pt }.

Definition uint8_pt (x : pt) : pt := (uint8 (fst x), uint8 (snd x)).
Definition uint8_row (r : row) : row :=
  Row (uint8_pt (r_q r)) (uint8_pt (r_k r)) (uint8_pt (r_K r)) (uint8_pt (r_kq r)) (uint8_pt (r_Kq r)).

(** Lines 462-490 *)
Definition row_of (nq nqC : Z) (nk : nat) (q : pt) (k1 k2 K1 K2 : nat) : row :=
  let Q1 := (fst q * Z.of_nat nk) / nq in
  let Q2 := (snd q * Z.of_nat nk) / nq in
  let q1 := fst q * (nqC / nq) in
  let q2 := snd q * (nqC / nq) in
  let plus k Q := (Z.of_nat k + Q) mod Z.of_nat nk in
  uint8_row (Row (q1, q2) (Z.of_nat k1, Z.of_nat k2) (Z.of_nat K1, Z.of_nat K2) (plus k1 Q1, plus k2 Q2) (plus K1 Q1, plus K2 Q2)).
Definition rows (nq nqC : Z) (nk : nat) (Q : list pt) : list row :=
  flat_map (fun q => flat_map (fun k1 => flat_map (fun k2 => flat_map (fun K1 => map (fun K2 =>
    row_of nq nqC nk q k1 k2 K1 K2) (seq 0 nk)) (seq 0 nk)) (seq 0 nk)) (seq 0 nk)) Q.

(** Lines 517-535 for one row *)
Definition at_pt {A} (f : Z -> Z -> A) (x : pt) : A := f (fst x) (snd x).
Definition band_element (no : nat) (dd : bool) (U : Z -> Z -> nat -> nat -> nat -> nat -> C) (psi : Z -> Z -> nat -> C) (r : row) : C :=
  if dd then csum no (fun a => csum no (fun b =>
    at_pt U (r_q r) a a b b * conj (at_pt psi (r_Kq r) b) * conj (at_pt psi (r_k r) a) * at_pt psi (r_kq r) a * at_pt psi (r_K r) b))%C
  else csum no (fun a => csum no (fun b => csum no (fun c => csum no (fun d =>
    at_pt U (r_q r) a b c d * conj (at_pt psi (r_Kq r) d) * conj (at_pt psi (r_k r) b) * at_pt psi (r_kq r) a * at_pt psi (r_K r) c))))%C.

(** Lines 435-555; [None] is returned if the meshes do not match (lines 440-442).
    The array of shape (nQ, nk, nk, nk, nk) is given as a list in C order. *)
Definition orbital2band (nproc : Z) (no : nat) (nqC : Z) (U : Z -> Z -> nat -> nat -> nat -> nat -> C) (psi : Z -> Z -> nat -> C)
    (nq : Z) (nk : nat) (dd : bool) : res (option (list C)) :=
  if nq =? 0 then Raise ZeroDivisionError
  else if negb (nqC mod nq =? 0) then Ok None
  else
    do irr <- irreducibles nq 60 ;;
    do V <- scatter_compute_gather (band_element no dd U psi) nproc (rows nq nqC nk (sorted_points nq irr)) ;;
    Ok (Some V).

(** ** hartree_energy: lines 586-600

    [g ig] and [rho ig] are the reciprocal lattice vectors and the density. The
    constant [a0] is [misc.a0]. *)
Local Open Scope R_scope.
Definition norm3 (g : R * R * R) : R := let '(x, y, z) := g in sqrt (x * x + y * y + z * z).
Definition hartree_energy (a0 : R) (rho : nat -> C) (g : nat -> R * R * R) (ngm_g : nat) (uc_volume a : R) : R :=
  let ehart := rsum (ngm_g - 1) (fun i => (fst (rho (S i)) ^ 2 + snd (rho (S i)) ^ 2) * (1 / norm3 (g (S i)) ^ 2)) in
  let tpiba2 := (2 * PI / (a / a0)) ^ 2 in
  let fac := 2 * (4 * PI) / tpiba2 in
  ehart * fac * (1 / 2) * uc_volume.
