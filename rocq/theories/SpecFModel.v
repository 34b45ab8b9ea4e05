(** Model of elphmod/ph.py:2098-2140: phonon spectral functions.

    Simplifications: floats are real (complex) numbers; the leading axes of the
    dynamical matrix (q points) are independent of each other, so that only one of
    them is considered; status messages are left out. The matrix inverse of LAPACK is
    a function argument [inv]. *)
From Coq Require Import Reals List.
From Verif Require Import Common Cx MPIModel DiagModel.
Local Open Scope R_scope.

(** ph.py:2129: [D[..., w] - (omega[w] + 1j * eta) ** 2 * np.eye(D.shape[-2])]. *)
Definition G_inv (D : nat -> nat -> C) (omega eta : R) : nat -> nat -> C :=
  let z : C := (omega, eta) in
  fun i j => (D i j - (z * z) * (if Nat.eqb i j then RtoC 1 else RtoC 0))%C.

(** ph.py:2131-2132. *)
Definition spectral_one (inv : (nat -> nat -> C) -> nat -> nat -> C) (N : nat) (D : nat -> nat -> C) (omega eta : R) : R :=
  2 * omega / PI * rsum N (fun i => snd (inv (G_inv D omega eta) i i)).

(** ph.py:2119-2140; [D] depends on the index of the frequency. *)
Definition spectral_function (inv : (nat -> nat -> C) -> nat -> nat -> C) (nproc : Z) (N : nat) (D : nat -> nat -> nat -> C)
    (omega : list R) (eta : R) : res (list R) :=
  distributed nproc (length omega) (fun w => spectral_one inv N (D w) (nth w omega 0) eta).
