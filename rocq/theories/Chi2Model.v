(** Model of the functions of elphmod/diagrams.py that use Green's functions explicitly:
    [susceptibility2] (lines 73-145) and [phonon_self_energy2] (lines 534-611).

    Simplifications: floats are real numbers; arrays are functions on indices, of which
    only those in range matter. *)
From Coq Require Export Reals List.
From Verif Require Export Common Cx MPIModel DiagModel.
Import ListNotations.
Local Open Scope R_scope.

(** Line 119 (and 584): Matsubara frequencies. *)
Definition mats (kT : R) (n : nat) : R := (2 * INR n + 1) * PI * kT.

(** Line 121 (and 586): [-2j * hyb_height * np.arctan(2 * hyb_width / nu)]. *)
Definition hybridization (width height nu : R) : C := (0, - 2 * height * atan (2 * width / nu)).

(** Lines 123-126 (and 588-591): [1 / (1j * nu - e - Delta)]. *)
Definition green (e nu : R) (D : C) : C := (/ ((0, nu) - RtoC e - D))%C.

(** [np.tile(F, (2, 2))] *)
Definition tile2 {A} (nk : nat) (F : nat -> nat -> A) (i j : nat) : A := F (i mod nk)%nat (j mod nk)%nat.

Section Green.
  Variables (nk : nat) (e : nat -> nat -> R) (kT : R) (nmats : nat) (width height : R).

  (** [G], on the mesh that has been doubled *)
  Definition G_ (n i j : nat) : C :=
    green (tile2 nk e i j) (mats kT n) (hybridization width height (mats kT n)).

  (** ** susceptibility2: lines 73-145 *)
  Definition susceptibility2 (q1 q2 : R) : C :=
    let prefactor := 4 * kT / INR nk ^ 2 in
    let tail := - 2 / (4 * kT) + prefactor * INR nk ^ 2 * rsum nmats (fun n => 1 / mats kT n ^ 2) in
    let q1 := q_index nk q1 in
    let q2 := q_index nk q2 in
    let Gk n i j := G_ n i j in
    let Gkq n i j := G_ n (q1 + i)%nat (q2 + j)%nat in
    (RtoC prefactor * csum nmats (fun n => csum nk (fun i => csum nk (fun j => Gk n i j * Gkq n i j))) + RtoC tail)%C.

  (** ** phonon_self_energy2: lines 534-611 *)

  (** [chi]: lines 599-605 *)
  Definition chi2 (q1 q2 : R) (i j : nat) : R :=
    let prefactor := kT * 4 / INR nk ^ 2 in
    let tail := - 2 / (4 * kT) / INR nk ^ 2 + prefactor * rsum nmats (fun n => 1 / mats kT n ^ 2) in
    let q1 := q_index nk q1 in
    let q2 := q_index nk q2 in
    prefactor * fst (csum nmats (fun n => G_ n i j * G_ n (q1 + i)%nat (q2 + j)%nat)%C) + tail.

  (** [info(..., error=True)] ends the program. Sixteen bytes are the size of a complex
      number. *)
  Definition phonon_self_energy2 (nproc : Z) (nQ nmodes : nat) (q : nat -> R * R)
      (g2 : nat -> nat -> nat -> nat -> C) (GB : R) : res (list (list C)) :=
    if Rlt_dec (GB * 1000000000) (INR nmats * (2 * INR nk) ^ 2 * 16 * IZR nproc) then Raise SystemExit
    else
      distributed nproc nQ (fun iq =>
        let '(q1, q2) := q iq in
        map (fun mode => csum nk (fun i => csum nk (fun j => g2 iq mode i j * RtoC (chi2 q1 q2 i j))%C)) (seq 0 nmodes)).
End Green.
