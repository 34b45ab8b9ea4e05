(** Specification notions for the driver of molecular dynamics. *)
From Coq Require Import Reals.
From Verif Require Import Cx HermSpec MdModel.
Local Open Scope R_scope.

(** Conditions on a smearing function for |x| < X: [occ] is decreasing with slope
    [- delta], [delta] is positive and Lipschitz continuous, and the entropy belongs
    to the occupation: dS/dx = x df/dx. Elsewhere it only has to be decreasing and
    Lipschitz continuous. *)
Record smooth (X : R) (s : smearing) : Prop := mk_smooth {
  sm_decreasing : forall x y, x <= y -> occ s y <= occ s x;
  sm_lipschitz : exists L, 0 <= L /\ forall x y, Rabs (occ s x - occ s y) <= L * Rabs (x - y);
  sm_slope : forall x, Rabs x < X -> derivable_pt_lim (occ s) x (- delta s x);
  sm_entropy : forall x, Rabs x < X -> derivable_pt_lim (entropy s) x (x * - delta s x);
  sm_positive : forall x, Rabs x < X -> 0 < delta s x;
  sm_delta : exists K, 0 <= K /\ forall x y, Rabs x < X -> Rabs y < X -> Rabs (delta s x - delta s y) <= K * Rabs (x - y) }.

(** A meaningful driver: at least one orbital and k point, positive temperature,
    Hermitian Hamiltonian and coupling, symmetric (real part of) force constants. *)
Record physical (dr : driver) : Prop := mk_physical {
  ph_nat : (0 < nat_ dr)%nat;
  ph_norb : (0 < norb dr)%nat;
  ph_nk : (0 < nk dr)%nat;
  ph_kT : 0 < kT dr;
  ph_H0 : forall k, (k < nk dr)%nat -> hermitian (norb dr) (H0 dr k);
  ph_d0 : forall x k, (x < size dr)%nat -> (k < nk dr)%nat -> hermitian (norb dr) (d0 dr x k);
  ph_C0 : forall x y, (x < size dr)%nat -> (y < size dr)%nat -> fst (C0 dr x y) = fst (C0 dr y x) }.

(** What numpy.linalg.eigh promises for matrices of order N. *)
Definition eigh_contract (N : nat) (eigh : nat -> (nat -> nat -> C) -> (nat -> R) * (nat -> nat -> C)) : Prop :=
  forall A, hermitian N A -> eigensystem N A (fst (eigh N A)) (snd (eigh N A)).

(** What is asked of the search for the Fermi level of driver [dr]: the number of
    electrons is exact, two per state and averaged over k (C45 states what the
    search does; its tolerance is neglected here). *)
Definition fermi_contract (find_Fermi_level : R -> nat * nat -> (nat -> nat -> R) -> R -> smearing -> option R -> R) (dr : driver) : Prop :=
  forall e mu0, 2 / INR (nk dr) * rsum (nk dr) (fun k => rsum (norb dr) (fun n =>
    occ (f dr) ((e k n - find_Fermi_level (MdModel.n dr) (nk dr, norb dr) e (kT dr) (f dr) mu0) / kT dr))) = n dr.

(** No displacement of the centre of mass (all masses equal). *)
Definition centred (nat_ : nat) (v : nat -> R) : Prop :=
  forall c, (c < 3)%nat -> rsum nat_ (fun a => v (3 * a + c)%nat) = 0.

(** Energies relative to the chemical potential within the range of smoothness *)
Definition in_range (X : R) (dr : driver) (st : state) : Prop :=
  forall k m, (k < nk dr)%nat -> (m < norb dr)%nat -> Rabs (e st k m / kT dr) < X.

(** Energies are either degenerate or differ by more than [eps]. *)
Definition well_separated (eps : R) (dr : driver) (st : state) : Prop :=
  forall k m m', (k < nk dr)%nat -> (m < norb dr)%nat -> (m' < norb dr)%nat ->
    Rabs (e st k m - e st k m') <= eps -> e st k m = e st k m'.

Definition dot (n : nat) (a b : nat -> R) : R := rsum n (fun x => a x * b x).
Definition along (u v : nat -> R) (t : R) : nat -> R := fun x => u x + t * v x.

(** Acoustic sum rule: a translation of all atoms neither changes the Hamiltonian nor
    causes forces. *)
Record acoustic (dr : driver) : Prop := mk_acoustic {
  ac_d0 : forall c k a b, (c < 3)%nat -> (k < nk dr)%nat -> (a < norb dr)%nat -> (b < norb dr)%nat ->
    csum (nat_ dr) (fun i => d0 dr (3 * i + c)%nat k a b) = RtoC 0;
  ac_C0 : forall c y, (c < 3)%nat -> (y < size dr)%nat -> rsum (nat_ dr) (fun i => fst (C0 dr (3 * i + c)%nat y)) = 0;
  ac_F0 : forall c, (c < 3)%nat -> rsum (nat_ dr) (fun i => F0 dr (3 * i + c)%nat) = 0 }.

(** A displacement of a single atom in one direction *)
Definition unit_vector (x : nat) : nat -> R := fun y => if Nat.eqb x y then 1 else 0.

(** A driver with sparse matrices as a driver with a single k point *)
Definition embed (dr : sparse_driver) : driver :=
  mk_driver (s_nat dr) (s_norb dr) 1 (s_kT dr) (s_f dr) (s_n dr)
    (fun _ a b => RtoC (s_H0 dr a b)) (fun x _ a b => RtoC (s_d0 dr x a b)) (fun x y => RtoC (s_C0 dr x y)) (s_F0 dr).
Definition embed_state (st : sparse_state) (mu : option R) : state :=
  mk_state (s_u st) mu (fun _ => s_e st) (fun _ a m => RtoC (s_U st a m)).
