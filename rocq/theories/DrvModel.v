(** Model of elphmod/md.py:444-511: tight-binding and mass-spring models for the
    distorted structure, set up by the driver of molecular dynamics.

    Simplifications: floats are real (complex) numbers. k points of the driver are
    numbered by a single index as in MdModel.v. Writing a file (parameter
    [seedname]) is left out; see C41. The positions of the orbitals, which only
    matter for bond lengths, are replaced by the latter ([len], as in KrModel.v). *)
From Coq Require Import Reals QArith.
From Verif Require Import MdModel.
From Verif Require Import Common LatModel VorModel Num NumC ElModel WSModel WSSpec KrModel PhModel PhLRModel PhUpdModel.
Local Open Scope Z_scope.

(** Index of mesh point [k] in an array with axes of lengths [nk] (C order). *)
Definition flat (nk k : vec) : nat := Z.to_nat ((vx k * vy nk + vy k) * vz nk + vz k).

(** md.py:464: [self.U * self.e[..., np.newaxis, :] @ self.U.conj().swapaxes(-2, -1)] *)
Definition backtransformed (dr : driver) (st : state) (k a b : nat) : Complex.C :=
  Cx.csum (norb dr) (fun m => Complex.Cmult (Complex.Cmult (U st k a m) (Complex.RtoC (e st k m))) (Cx.conj (U st k b m))).

(** Python: length and elements of [x[::d]] for [d <> 0], [x] being of length [n]. *)
Definition slice_length (n d : Z) : Z := (n + Z.abs d - 1) / Z.abs d.
Definition slice_item (n d j : Z) : Z := if 0 <? d then j * d else n - 1 + j * d.

(** el.py:535-536: the test in [standardize] for [eps] *)
Definition max_abs (N : nat) (h : list (vec * (nat -> nat -> C))) : R :=
  fold_right Rmax 0%R (map (fun x => fold_right Rmax 0%R (map (fun ab => Complex.Cmod (snd x (fst ab) (snd ab))) (list_prod (seq 0 N) (seq 0 N)))) h).
Definition below (eps : R) (m : @el C) (z : C) : bool :=
  if Rlt_dec (Complex.Cmod z) (eps * max_abs (ElModel.size m) (hop m)) then true else false.

Definition set_rydberg (m : @el C) (b : bool) : @el C :=
  {| ElModel.size := ElModel.size m; hop := hop m; flatR := flatR m; cells := cells m; Nsc := Nsc m; divide_ndegen := divide_ndegen m; rydberg := b |}.

(** md.py:444-487. [el] is [self.elph.el]; [has_cells] tells whether it has the
    attribute [cells], [ph_cells] is [self.elph.ph.cells]. A step of zero raises
    ValueError. *)
Definition electrons (dr : driver) (st : state) (nk : vec) (sparse : bool) (el_ : @el C) (has_cells : bool) (ph_cells : list vec)
    (len : vec -> nat -> nat -> Q) (dk : vec) (rydberg_out : bool) (nproc : nat) : res (@el C) :=
  let H : vec -> nat -> nat -> C := fun k => backtransformed dr st (flat nk k) in
  do (shape, H) <- (
    if (1 <? vx dk) || (1 <? vy dk) || (1 <? vz dk) then
      if sparse then Ok ([], H)
      else if (vx dk =? 0) || (vy dk =? 0) || (vz dk =? 0) then Raise ValueError
      else Ok ([slice_length (vx nk) (vx dk); slice_length (vy nk) (vy dk); slice_length (vz nk) (vz dk)],
        fun j => H (V3 (slice_item (vx nk) (vx dk) (vx j)) (slice_item (vy nk) (vy dk) (vy j)) (slice_item (vz nk) (vz dk) (vz j))))
    else Ok (if sparse then [] else [vx nk; vy nk; vz nk], H)) ;;
  let m := set_rydberg el_ rydberg_out in
  if has_cells && negb (if list_eq_dec vec_eq_dec (cells el_) ph_cells then true else false) then Raise AssertionError else
  do m <- k2r m shape (norb dr) H len true true nproc ;;
  Ok (standardize (fun x => x) (Some (below (/ 10000000000) m)) false m).

(** md.py:489-511. [s] is [self.elph.ph], [r] its positions, [hess] the result of
    [self.hessian(gamma_only=False)] by mesh points, [nq] the mesh of the driver.
    The result is the model and its positions. The attributes of the long-range
    terms, if any, are those of [self.elph.ph]. *)
Definition phonons (s : ph) (r u : nat -> R) (nq : vec) (hess : matrices) (divide_mass_ apply_asr_simple : bool) (nproc : nat) : res (ph * (nat -> R)) :=
  do data' <- ph_q2r [vx nq; vy nq; vz nq] (atoms s) (mass s) hess false apply_asr_simple true divide_mass_ (PhUpdModel.len s) nproc ;;
  Ok (Ph (atoms s) (mass s) divide_mass_ [vx nq; vy nq; vz nq] (PhUpdModel.len s) data' (polar_ s) (D0 s), fun x => (r x + u x)%R).
