(** Notions for the Coulomb interaction in the band basis and the Hartree energy. *)
From Coq Require Import Reals ZArith List.
From Verif Require Import Cx.
Local Open Scope R_scope.

(** Element of an array of shape (nQ, nk, nk, nk, nk) in C order *)
Definition element5 (nk : nat) (V : list C) (iq k1 k2 K1 K2 : nat) : C :=
  nth ((((iq * nk + k1) * nk + k2) * nk + K1) * nk + K2)%nat V (RtoC 0).

(** Wave vectors in units of the reciprocal lattice vectors *)
Definition wavevector : Type := (R * R)%type.
Definition on_mesh (n : Z) (i j : Z) : wavevector := (IZR i / IZR n, IZR j / IZR n).
Definition wplus (k q : wavevector) : wavevector := (fst k + fst q, snd k + snd q).
Definition periodic {A} (f : wavevector -> A) : Prop := forall x y i j, f (x + IZR i, y + IZR j) = f (x, y).

(** Interaction of two electrons that go from K + q to K and from k to k + q, in
    terms of the interaction [U q a b c d] of orbitals and their weights [psi k a] *)
Definition band_interaction (no : nat) (U : wavevector -> nat -> nat -> nat -> nat -> C) (psi : wavevector -> nat -> C)
    (q k K : wavevector) : C :=
  csum no (fun a => csum no (fun b => csum no (fun c => csum no (fun d =>
    U q a b c d * psi (wplus k q) a * conj (psi k b) * psi K c * conj (psi (wplus K q) d)))))%C.

(** Hermitian interaction; interaction of densities only *)
Definition hermitian_interaction (no : nat) (U : wavevector -> nat -> nat -> nat -> nat -> C) : Prop :=
  forall q a b c d, (a < no)%nat -> (b < no)%nat -> (c < no)%nat -> (d < no)%nat -> U q d c b a = conj (U q a b c d).
Definition density_density (no : nat) (U : wavevector -> nat -> nat -> nat -> nat -> C) : Prop :=
  forall q a b c d, (a < no)%nat -> (b < no)%nat -> (c < no)%nat -> (d < no)%nat -> a <> b \/ c <> d -> U q a b c d = RtoC 0.

(** Hartree energy in Rydberg atomic units (e^2 = 2), reciprocal lattice vectors [G] in
    units of the inverse Bohr radius, [ng] of them without the first one, which is zero *)
Definition dot3 (u v : R * R * R) : R := let '(a, b, c) := u in let '(x, y, z) := v in a * x + b * y + c * z.
Definition scale3 (s : R) (u : R * R * R) : R * R * R := let '(a, b, c) := u in (s * a, s * b, s * c).
Definition hartree (ng : nat) (rho : nat -> C) (G : nat -> R * R * R) (volume : R) : R :=
  volume / 2 * rsum ng (fun i => 8 * PI * abs2 (rho (S i)) / dot3 (G (S i)) (G (S i))).
