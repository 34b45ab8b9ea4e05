(** Model of the driver in elphmod/md.py and of the diagrams in elphmod/diagrams.py
    it is made of.

    Simplifications: floats are real (complex) numbers. The axes of the k mesh are
    flattened to a single index. Only q = 0 is considered in [phonon_self_energy],
    so that no mesh is rolled. Arrays are functions on indices; only indices in
    range matter. Eigenvalues and eigenvectors (numpy.linalg.eigh) and the search
    of the Fermi level (see OccModel.v) are parameters. *)
From Coq Require Export Reals List.
From Verif Require Export Cx.
Local Open Scope R_scope.

(** A smearing function with attributes [delta] and [entropy] (occupations.py). *)
Record smearing := mk_smearing { occ : R -> R; delta : R -> R; entropy : R -> R }.

(** Attributes of the driver that do not change (md.py lines 60-92):
    number of atoms, orbitals, k points, smearing temperature and function, number of
    electrons, Hamiltonian, coupling, force constants and forces. *)
Record driver := mk_driver {
  nat_ : nat; norb : nat; nk : nat; kT : R; f : smearing; n : R;
  H0 : nat -> nat -> nat -> C;
  d0 : nat -> nat -> nat -> nat -> C;
  C0 : nat -> nat -> C;
  F0 : nat -> R }.

(** Attributes that do change: displacements, chemical potential (initially None),
    energies relative to it, and eigenvectors. *)
Record state := mk_state { u : nat -> R; mu : option R; e : nat -> nat -> R; U : nat -> nat -> nat -> C }.

Definition size (dr : driver) : nat := 3 * nat_ dr.

(** Lines 188-192: np.tile(np.average(u.reshape((-1, 3)), axis=0), nat). *)
Definition average (nat_ : nat) (u : nat -> R) (c : nat) : R := rsum nat_ (fun a => u (3 * a + c)%nat) / INR nat_.
Definition center_mass (nat_ : nat) (u : nat -> R) : nat -> R := fun x => u x - average nat_ u (x mod 3).

(** Line 231: np.einsum('xijkmn,x->ijkmn', d0[0], u) added to H0. *)
Definition hamiltonian (dr : driver) (u : nat -> R) (k : nat) : nat -> nat -> C :=
  fun a b => (H0 dr k a b + csum (size dr) (fun x => d0 dr x k a b * RtoC (u x)))%C.

Section Linalg.
  (** numpy.linalg.eigh for one matrix: eigenvalues and columns of eigenvectors. *)
  Variable eigh : nat -> (nat -> nat -> C) -> (nat -> R) * (nat -> nat -> C).
  (** occupations.find_Fermi_level for given number of electrons, shape of the array
      of energies and the latter itself, temperature, smearing and initial guess. *)
  Variable find_Fermi_level : R -> nat * nat -> (nat -> nat -> R) -> R -> smearing -> option R -> R.

  (** Lines 223-235 (and 194-221 for all but [two_fermi_dirac]), first without the
      call of [center_mass]. *)
  Definition solve (dr : driver) (u : nat -> R) (mu : option R) : state :=
    let eig k := eigh (norb dr) (hamiltonian dr u k) in
    let e k := fst (eig k) in
    let mu := find_Fermi_level (n dr) (nk dr, norb dr) e (kT dr) (f dr) mu in
    mk_state u (Some mu) (fun k n => e k n - mu) (fun k => snd (eig k)).
  Definition diagonalize (dr : driver) (st : state) : state :=
    solve dr (center_mass (nat_ dr) (u st)) (mu st).

  (** Lines 237-276: E - mu N, mu N, - T S, lattice energy, external forces. *)
  Definition prefactor (dr : driver) : R := 2 / INR (nk dr).
  Definition sum_kn (dr : driver) (g : nat -> nat -> R) : R := rsum (nk dr) (fun k => rsum (norb dr) (fun n => g k n)).
  Definition quadratic_form (dr : driver) (u : nat -> R) : R :=
    rsum (size dr) (fun y => rsum (size dr) (fun x => u x * fst (C0 dr x y)) * u y).
  Definition total_energy (dr : driver) (st : state) : R :=
    let mu := match mu st with Some mu => mu | None => 0 end in
    let E := prefactor dr * sum_kn dr (fun k n => occ (f dr) (e st k n / kT dr) * e st k n) in
    let E := E + mu * n dr in
    let E := E - prefactor dr * kT dr * sum_kn dr (fun k n => entropy (f dr) (e st k n / kT dr)) in
    let E := E + 0.5 * quadratic_form dr (u st) in
    E + rsum (size dr) (fun x => F0 dr x * u st x).
  Definition free_energy (dr : driver) (st : state) (u' : nat -> R) : R * state :=
    let st := diagonalize dr (mk_state u' (mu st) (e st) (U st)) in
    (total_energy dr st, st).
End Linalg.

(** ** Aliasing
    Arrays live at addresses of a heap; the attribute [u] of the driver is such an
    address. Line 254, [self.u = u], copies the address of the argument, and the
    update in place of line 191 writes to it. *)
Definition heap := nat -> nat -> R.
Definition write (h : heap) (a : nat) (v : nat -> R) : heap := fun b => if Nat.eqb a b then v else h b.
Record heap_state := mk_heap_state { hp : heap; h_u : nat; h_mu : option R; h_e : nat -> nat -> R; h_U : nat -> nat -> nat -> C }.
Definition view (hs : heap_state) : state := mk_state (hp hs (h_u hs)) (h_mu hs) (h_e hs) (h_U hs).
Definition heap_center_mass (dr : driver) (hs : heap_state) : heap_state :=
  mk_heap_state (write (hp hs) (h_u hs) (center_mass (nat_ dr) (hp hs (h_u hs)))) (h_u hs) (h_mu hs) (h_e hs) (h_U hs).
Definition heap_free_energy eigh find_Fermi_level (dr : driver) (hs : heap_state) (arg : option nat) : R * heap_state :=
  let hs := match arg with Some a => mk_heap_state (hp hs) a (h_mu hs) (h_e hs) (h_U hs) | None => hs end in
  let hs := heap_center_mass dr hs in
  let st := solve eigh find_Fermi_level dr (u (view hs)) (mu (view hs)) in
  (total_energy dr st, mk_heap_state (hp hs) (h_u hs) (mu st) (e st) (U st)).

(** diagrams.py lines 1094-1144, with [U] given:
    einsum('ijkam,ijkm,ijkbm->ijkab', U, f, U.conj()), einsum('ijkab,xijkba->x', f, g). *)
Definition first_order (dr : driver) (st : state) (g : nat -> nat -> nat -> nat -> C) (x : nat) : C :=
  let f k a b := csum (norb dr) (fun m => U st k a m * RtoC (occ (f dr) (e st k m / kT dr)) * conj (U st k b m))%C in
  (RtoC (2 / INR (nk dr)) * csum (nk dr) (fun k => csum (norb dr) (fun a => csum (norb dr) (fun b => f k a b * g x k b a))))%C.

(** Lines 278-313. *)
Definition jacobian (dr : driver) (st : state) (x : nat) : R :=
  fst (first_order dr st (d0 dr) x) + rsum (size dr) (fun y => fst (C0 dr x y) * u st y) + F0 dr x.

(** Line 396: V @ d0 @ U with V = U.conj().swapaxes(-2, -1), q = 0. *)
Definition coupling (dr : driver) (st : state) (x k m n : nat) : C :=
  csum (norb dr) (fun b => csum (norb dr) (fun a => conj (U st k a m) * d0 dr x k a b) * U st k b n)%C.

(** diagrams.py lines 262-492 with [g] but without [G], [Delta] and [U], for zero
    frequency and q = 0. *)
Definition dfde (dr : driver) (st : state) (eps : R) (k m n : nat) : R :=
  let f n := occ (f dr) (e st k n / kT dr) in
  let de := e st k n - e st k m in
  if Rlt_dec eps (Rabs de) then (f n - f m) / de else delta (MdModel.f dr) (e st k n / kT dr) / - kT dr.
Definition phonon_self_energy (dr : driver) (st : state) (g : nat -> nat -> nat -> nat -> C) (eps : R) (x y : nat) : C :=
  (RtoC (2 / INR (nk dr)) * csum (nk dr) (fun k => csum (norb dr) (fun m => csum (norb dr) (fun n =>
    conj (g x k m n) * g y k m n * RtoC (dfde dr st eps k m n)))))%C.

(** diagrams.py lines 494-532. *)
Definition fermi_shift (dr : driver) (st : state) (g : nat -> nat -> nat -> nat -> C) (x y : nat) : C :=
  let d k n := delta (f dr) (e st k n / kT dr) / kT dr in
  let dos := rsum (nk dr) (fun k => rsum (norb dr) (fun n => d k n)) in
  let avg x := (csum (nk dr) (fun k => csum (norb dr) (fun n => RtoC (d k n) * g x k n n)) / RtoC dos)%C in
  (RtoC (2 / INR (nk dr) * dos) * (avg x * avg y))%C.

(** Lines 315-442, not sparse, Gamma only: before and after taking the real part. *)
Definition force_constants (dr : driver) (st : state) (eps : R) (x y : nat) : C :=
  (phonon_self_energy dr st (coupling dr st) eps x y + fermi_shift dr st (coupling dr st) x y + C0 dr x y)%C.
Definition hessian (dr : driver) (st : state) (eps : R) (x y : nat) : R := fst (force_constants dr st eps x y).

(** Lines 146-156 of __init__, q = 0: the driver and its state. [eps] defaults to 1e-10. *)
Definition set_C0 (dr : driver) C0 := mk_driver (nat_ dr) (norb dr) (nk dr) (kT dr) (f dr) (n dr) (H0 dr) (d0 dr) C0 (F0 dr).
Definition set_F0 (dr : driver) F0 := mk_driver (nat_ dr) (norb dr) (nk dr) (kT dr) (f dr) (n dr) (H0 dr) (d0 dr) (C0 dr) F0.
Definition initialize eigh find_Fermi_level (dr : driver) (unscreen : bool) (eps : R) : driver * state :=
  let st := diagonalize eigh find_Fermi_level dr (mk_state (fun _ => 0) None (fun _ _ => 0) (fun _ _ _ => RtoC 0)) in
  let dr := if unscreen then set_C0 dr (fun x y => C0 dr x y - (force_constants dr st eps x y - C0 dr x y))%C else dr in
  let dr := set_F0 dr (fun _ => 0) in
  let dr := set_F0 dr (fun x => - jacobian dr st x) in
  (dr, st).

(** ** The variant for sparse matrices (k = q = 0, real matrices) *)
Record sparse_driver := mk_sparse {
  s_nat : nat; s_norb : nat; s_kT : R; s_f : smearing; s_n : R;
  s_H0 : nat -> nat -> R; s_d0 : nat -> nat -> nat -> R; s_C0 : nat -> nat -> R; s_F0 : nat -> R }.
Record sparse_state := mk_sparse_state { s_u : nat -> R; s_e : nat -> R; s_U : nat -> nat -> R }.

Definition s_size (dr : sparse_driver) : nat := 3 * s_nat dr.

(** Line 229. *)
Definition sparse_hamiltonian (dr : sparse_driver) (u : nat -> R) : nat -> nat -> R :=
  fun a b => s_H0 dr a b + rsum (s_size dr) (fun x => u x * s_d0 dr x a b).

(** self.d0[x].multiply(M).sum() *)
Definition multiply_sum (N : nat) (A M : nat -> nat -> R) : R := rsum N (fun a => rsum N (fun b => A a b * M a b)).

(** Lines 296-300, 305-307: U * f[np.newaxis] @ U.T. *)
Definition sparse_jacobian (dr : sparse_driver) (st : sparse_state) (x : nat) : R :=
  let f a b := rsum (s_norb dr) (fun m => s_U st a m * occ (s_f dr) (s_e st m / s_kT dr) * s_U st b m) in
  2 * multiply_sum (s_norb dr) (s_d0 dr x) f + rsum (s_size dr) (fun y => s_C0 dr x y * s_u st y) + s_F0 dr x.

(** Lines 351-388. *)
Definition sparse_hessian (dr : sparse_driver) (st : sparse_state) (eps : R) (x y : nat) : R :=
  let N := s_norb dr in
  let f m := 2 * occ (s_f dr) (s_e st m / s_kT dr) in
  let d m := 2 * delta (s_f dr) (s_e st m / s_kT dr) / - s_kT dr in
  let dfde m n := let de := s_e st m - s_e st n in if Rlt_dec eps (Rabs de) then (f m - f n) / de else d n in
  let dos := - rsum N d in
  let d_orb a b := rsum N (fun m => s_U st a m * d m * s_U st b m) in
  let avg x := multiply_sum N (s_d0 dr x) d_orb / sqrt dos in
  let pair x y :=
    let gx m n := rsum N (fun a => s_U st a m * rsum N (fun b => s_d0 dr x a b * s_U st b n)) in
    let gx' a b := rsum N (fun n => rsum N (fun m => s_U st a m * (gx m n * dfde m n)) * s_U st b n) in
    multiply_sum N (s_d0 dr y) gx' + avg x * avg y in
  (* only x <= y is calculated, the rest is copied *)
  (if Nat.leb x y then pair x y else pair y x) + s_C0 dr x y.

(** ** Electron density: lines 597-625 *)
Definition density (dr : driver) (st : state) (a : nat) : R :=
  2 * rsum (norb dr) (fun m => rsum (nk dr) (fun k => abs2 (U st k a m) * occ (f dr) (e st k m / kT dr)) / INR (nk dr)).

(** The elements of an array starting from [o], every [step]; numpy refuses to add
    arrays of different lengths (unless one has length one). *)
Definition strided (step o : nat) (len : nat) : list nat := map (fun i => (o + i * step)%nat) (seq 0 ((len - o + step - 1) / step)).

(** rho_at[na::nat] += rho_orb[no::norb], for number [ph_nat] of atoms in the cell,
    [nat_] of atoms and [norb_] of orbitals per primitive cell. Index errors do not
    occur for slices. None: the shapes do not match. *)
Definition add_orbital (ph_nat size nat_ norb_ na no : nat) (rho_orb : nat -> R) (rho_at : nat -> R) : option (nat -> R) :=
  let target := strided nat_ na ph_nat in
  let source := strided norb_ no size in
  if Nat.eqb (length target) (length source) then
    Some (fun a => match find (fun p => Nat.eqb (fst p) a) (combine target source) with
                   | Some (_, o) => rho_at a + rho_orb o
                   | None => rho_at a
                   end)
  else if Nat.eqb (length source) 1 then
    Some (fun a => if existsb (Nat.eqb a) target then rho_at a + rho_orb no else rho_at a)
  else None.

Fixpoint add_orbitals (ph_nat size nat_ norb_ na : nat) (orbitals : list nat) (rho_orb rho_at : nat -> R) : option (nat -> R) :=
  match orbitals with
  | nil => Some rho_at
  | no :: rest =>
    match add_orbital ph_nat size nat_ norb_ na no rho_orb rho_at with
    | Some rho_at => add_orbitals ph_nat size nat_ norb_ na rest rho_orb rho_at
    | None => None
    end
  end.
Fixpoint add_atoms (ph_nat size nat_ norb_ na : nat) (basis : list (list nat)) (rho_orb rho_at : nat -> R) : option (nat -> R) :=
  match basis with
  | nil => Some rho_at
  | orbitals :: rest =>
    match add_orbitals ph_nat size nat_ norb_ na orbitals rho_orb rho_at with
    | Some rho_at => add_atoms ph_nat size nat_ norb_ (S na) rest rho_orb rho_at
    | None => None
    end
  end.
Definition density_per_atom (ph_nat size : nat) (basis : list (list nat)) (rho_orb : nat -> R) : option (nat -> R) :=
  let nat_ := length basis in
  let norb_ := (size * nat_ / ph_nat)%nat in
  add_atoms ph_nat size nat_ norb_ 0 basis rho_orb (fun _ => 0).
