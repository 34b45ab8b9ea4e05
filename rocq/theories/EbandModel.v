(** Model of elphmod/el.py:1509-1612: band energy and entropy contribution.

    Simplifications: real numbers in place of floats. The data that
    [read_eps_nk_from_qe_pwo] (PwoModel.v) gets from the file are arguments: numbers of k
    points and bands, energies, weights, smearing, chemical potential [mu] and width [kT], which
    are both in eV. [kT] is not zero (otherwise, NumPy returns infinities). *)
From Coq Require Import Reals Lra.
From Verif Require Import Common Text OccModel.
Local Open Scope nat_scope.

(** A function of occupations.py with its attribute [entropy], which may raise
    NotImplementedError *)
Record smear := Smear { occ : R -> R; entropy : R -> res R }.

(** The argument [subset]: [None], a list, or an array. [array == None] is an array of truth
    values. As a condition, it raises ValueError if there are several of them. *)
Inductive subset := All | List (l : list Z) | Array (l : list Z).
Definition band_range (nbnd : nat) (s : subset) : res (list Z) :=
  match s with
  | All => Ok (map Z.of_nat (seq 0 nbnd))
  | List l => Ok l
  | Array l => if 2 <=? Datatypes.length l then Raise ValueError else Ok l
  end.

(** [a[ik, iband]]: negative indices count from the end *)
Definition py_index (n : nat) (i : Z) : res nat :=
  if (0 <=? i)%Z && (i <? Z.of_nat n)%Z then Ok (Z.to_nat i)
  else if (- Z.of_nat n <=? i)%Z && (i <? 0)%Z then Ok (Z.to_nat (i + Z.of_nat n))
  else Raise IndexError.

(** [for iband in ...: a[ik, iband] = g(iband)] *)
Fixpoint fill_row (nbnd : nat) (g : nat -> res R) (l : list Z) (row : nat -> R) : res (nat -> R) :=
  match l with
  | [] => Ok row
  | i :: l =>
    do n <- py_index nbnd i ;;
    do v <- g n ;;
    fill_row nbnd g l (fun m => if m =? n then v else row m)
  end.

(** The loops, the sum of the array, which is zero at first, and the conversion to Ry *)
Definition band_sum (Ry : R) (nk nbnd : nat) (g : nat -> nat -> res R) (s : subset) : res R :=
  do l <- band_range nbnd s ;;
  do rows <- map_res (fun ik => fill_row nbnd (g ik) l (fun _ => 0%R)) (seq 0 nk) ;;
  Ok (fold_right Rplus 0%R (map (fun row => sumR row nbnd) rows) / Ry)%R.

(** ** eband: el.py:1514-1570, with the occupations from line 1510 *)
Definition eband (Ry : R) (nk nbnd : nat) (e : nat -> nat -> R) (wk : nat -> R) (f : smear) (mu kT : R) (s : subset) : res R :=
  let f_occ ik n := occ f ((e ik n - mu) / kT)%R in
  band_sum Ry nk nbnd (fun ik n => Ok (e ik n * wk ik * f_occ ik n)%R) s.

(** ** demet_from_qe_pwo: el.py:1572-1612 *)
Definition demet (Ry : R) (nk nbnd : nat) (e : nat -> nat -> R) (wk : nat -> R) (f : smear) (mu kT : R) (s : subset) : res R :=
  band_sum Ry nk nbnd (fun ik n => do s0 <- entropy f ((e ik n - mu) / kT)%R ;; Ok (wk ik * kT * - s0)%R) s.

(** Smearings of pw.x: occupations.py:25-63, 65-87, 89-120 *)
Definition fd := Smear fermi_dirac (fun x => Ok (fermi_dirac_entropy x)).
Definition gs := Smear gauss (fun x => Ok (gauss_entropy x)).
Definition mv := Smear marzari_vanderbilt (fun x => Ok (marzari_vanderbilt_entropy x)).
