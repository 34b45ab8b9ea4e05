(** Model of elphmod/md.py:513-595: effective couplings and phonon frequencies of the
    structure of a driver (without sparse matrices).

    Simplifications: floats are real (complex) numbers; arrays are functions on
    indices. The force constants [D] are those of [hessian(gamma_only=False)]. The
    array of couplings [d] (which is overwritten by the function) belongs to the
    displacements. The list of q points is given by their number and a function.
    Each process works on its own q points of the couplings in shared memory
    (md.py:565-566), which is what a map over q does. *)
From Coq Require Import Reals List.
From Verif Require PhModel.
From Verif Require Import Common Cx MdModel DiagModel.
Local Open Scope R_scope.

(** [a.sum()] and [a.min()] for an array with [n] rows and [m] columns. *)
Definition asum (n m : nat) (a : nat -> nat -> R) : R := rsum n (fun i => rsum m (fun j => a i j)).
Fixpoint minimum (n : nat) (f : nat -> R) : R :=
  match n with O => f O | S n => Rmin (minimum n f) (f (S n)) end.
Definition amin (n m : nat) (a : nat -> nat -> R) : R := minimum (n - 1) (fun i => minimum (m - 1) (a i)).

Section Superconductivity.
  Variables (nk : pt) (nbnd : nat) (e : pt -> nat -> R) (kT : R) (s : smearing).
  Variables (M : nat -> R) (nq nm : nat) (q : nat -> R * R * R).

  (** md.py:545: [1 / np.sqrt(self.elph.ph.M).repeat(3)]. *)
  Definition mm12 (x : nat) : R := / sqrt (M (x / 3)).

  (** md.py:552-553. *)
  Definition mass_weighted (D : nat -> nat -> nat -> C) (iq x y : nat) : C := (D iq x y * RtoC (mm12 y) * RtoC (mm12 x))%C.

  (** md.py:567-575: divided by masses, transformed to the modes, squared modulus. *)
  Definition mode_coupling (u : nat -> nat -> nat -> C) (d : nat -> nat -> pt -> nat -> nat -> C)
      (iq nu : nat) (k : pt) (m n : nat) : C :=
    csum nm (fun x => (d iq x k m n * RtoC (mm12 x)) * u iq x nu)%C.
  Definition mode_squared u d iq nu k m n : C := (mode_coupling u d iq nu k m n * conj (mode_coupling u d iq nu k m n))%C.

  (** md.py:579-582. *)
  Definition g2dd u d (iq nu : nat) : R :=
    fst (fs_enum nk nbnd e kT s (q iq) (mode_squared u d iq) nu) / rsum nq (fun iq => fst (fs_deno nk nbnd e kT s (q iq))).

  (** md.py:588: number of states per energy, spin and unit cell at the Fermi level. *)
  Definition N0 : R := fst (ksum nk (fun k => csum nbnd (fun n => RtoC (delta s (e k n / kT))))) / kT / INR (prod nk).

  (** md.py:555, 557, 584-596; [eigh n A] is what [np.linalg.eigh] returns for the matrix [A] of order [n]. *)
  Definition superconductivity (eigh : nat -> (nat -> nat -> C) -> (nat -> R) * (nat -> nat -> C)) (eps : R)
      (D : nat -> nat -> nat -> C) (d : nat -> nat -> pt -> nat -> nat -> C) : R * R * R * R :=
    let w2 iq := fst (eigh nm (mass_weighted D iq)) in
    let u iq := snd (eigh nm (mass_weighted D iq)) in
    let wmin := PhModel.sgnsqrt (amin nq nm w2) in
    let g2dd iq nu := if Rlt_dec (w2 iq nu) eps then 0 else g2dd u d iq nu in
    let w2 iq nu := if Rlt_dec (w2 iq nu) eps then eps else w2 iq nu in
    let V iq nu := g2dd iq nu / w2 iq nu in
    let lamda := N0 * asum nq nm V in
    let wlog := exp (asum nq nm (fun iq nu => V iq nu * ln (w2 iq nu) / 2) / asum nq nm V) in
    let w2nd := sqrt (asum nq nm (fun iq nu => V iq nu * w2 iq nu) / asum nq nm V) in
    (lamda, wlog, w2nd, wmin).
End Superconductivity.
