(** Model of elphmod/diagrams.py: susceptibilities, self-energies etc.

    Simplifications: floats are real (complex) numbers. Arrays are functions on
    indices; only indices in range matter, and the shape of arguments is taken to be
    right. Energies of one- and two-dimensional meshes have been given trailing axes
    of length one already ([np.reshape(e, ( *nk, nbnd))]). Arrays are always tiled,
    also where all q points vanish. Status messages, memory limits and the integrand
    for fluctuation diagnostics are left out. *)
From Coq Require Export Reals List.
From Verif Require Export Common Cx MPIModel.
From Verif Require Import OccModel.
From Verif Require Export MdModel.
Local Open Scope R_scope.

(** ** Meshes *)

Definition pt := (nat * nat * nat)%type.

(** [range(n1)] x [range(n2)] x [range(n3)]: .sum() or einsum with indices ijk. *)
Definition ksum (nk : pt) (F : pt -> C) : C :=
  let '(n1, n2, n3) := nk in csum n1 (fun i => csum n2 (fun j => csum n3 (fun l => F (i, j, l)))).
Definition prod (nk : pt) : nat := let '(n1, n2, n3) := nk in (n1 * n2 * n3)%nat.

(** [np.round]: to the nearest integer, half to even. *)
Definition np_round (x : R) : Z :=
  let z := Int_part x in
  let r := x - IZR z in
  if Rlt_dec r (1 / 2) then z
  else if Rlt_dec (1 / 2) r then (z + 1)%Z
  else if Z.even z then z else (z + 1)%Z.

(** [np.round(q * scale).astype(int) % nk], [scale = nk / (2 * np.pi)]. *)
Definition q_index (n : nat) (q : R) : nat := Z.to_nat (np_round (q * (INR n / (2 * PI))) mod Z.of_nat n).
Definition q_indices (nk : pt) (q : R * R * R) : pt :=
  let '(n1, n2, n3) := nk in let '(x, y, z) := q in (q_index n1 x, q_index n2 y, q_index n3 z).

(** [np.tile(F, (2, 2, 2, ...))], as a function that is not restricted to the shape. *)
Definition tile {A} (nk : pt) (F : pt -> A) : pt -> A :=
  fun k => let '(n1, n2, n3) := nk in let '(i, j, l) := k in F (i mod n1, j mod n2, l mod n3)%nat.
(** [[q1:q1 + nk[0], q2:q2 + nk[1], q3:q3 + nk[2]]]. *)
Definition shift {A} (q : pt) (F : pt -> A) : pt -> A :=
  fun k => let '(q1, q2, q3) := q in let '(i, j, l) := k in F (q1 + i, q2 + j, q3 + l)%nat.

(** Values at k + q. *)
Definition at_kq {A} (nk q : pt) (F : pt -> A) : pt -> A := shift q (tile nk F).

(** The loop over the local q points and the collection of results: lines 353,
    382 (and 704-732 etc., 440-442). *)
Fixpoint local_ranges (bounds : list Z) : list (list nat) :=
  match bounds with
  | lo :: bounds =>
    match bounds with
    | hi :: _ => seq (Z.to_nat lo) (Z.to_nat (hi - lo)) :: local_ranges bounds
    | [] => []
    end
  | [] => []
  end.
Definition distributed {A} (nproc : Z) (nQ : nat) (f : nat -> A) : res (list A) :=
  do (sizes, bounds) <- distribute (Z.of_nat nQ) nproc ;;
  let mine := map (map f) (local_ranges bounds) in
  Gatherv (map (@length A) mine) mine.

(** ** susceptibility: lines 15-71 *)
Definition susceptibility (nk : nat) (e : nat -> nat -> R) (kT eta : R) (s : smearing) (q1 q2 : R) : R :=
  let f i j := occ s (e i j / kT) in
  let d := rsum nk (fun i => rsum nk (fun j => delta s (e i j / kT))) / kT in
  let tile (F : nat -> nat -> R) i j := F (i mod nk)%nat (j mod nk)%nat in
  let prefactor := 2 / INR nk ^ 2 in
  let q1 := q_index nk q1 in
  let q2 := q_index nk q2 in
  if (Nat.eqb q1 q2 && Nat.eqb q2 0)%bool then prefactor * - d
  else
    let df i j := tile f (q1 + i)%nat (q2 + j)%nat - tile f i j in
    let de i j := tile e (q1 + i)%nat (q2 + j)%nat - tile e i j in
    prefactor * rsum nk (fun i => rsum nk (fun j => df i j * de i j / (de i j * de i j + eta ^ 2))).

Section Bubble.
  Variables (nk : pt) (nbnd : nat) (e : pt -> nat -> R) (kT eps : R) (s : smearing).

  (** [f], [d] and [prefactor] *)
  Definition f_ (k : pt) (n : nat) : R := occ s (e k n / kT).
  Definition d_ (k : pt) (n : nat) : R := delta s (e k n / kT) / - kT.
  Definition pref : R := 2 / INR (prod nk).

  (** Lines 238-244 (and 711-717, 917-923): quotient of differences between k + q and k. *)
  Definition quotient_kq (q k : pt) (m n : nat) : R :=
    let df := at_kq nk q f_ k m - f_ k n in
    let de := at_kq nk q e k m - e k n in
    if Rlt_dec eps (Rabs de) then df / de else d_ k n.

  (** *** polarization: lines 147-260 *)
  Section Polarization.
    Variables (norb : nat) (U : pt -> nat -> nat -> C) (subspace : option (pt -> nat -> bool)).

    Definition excluded (q k : pt) (m n : nat) : bool :=
      match subspace with Some sub => andb (at_kq nk q sub k m) (sub k n) | None => false end.
    Definition UU (q k : pt) (m n a : nat) : C := (conj (at_kq nk q U k a m) * U k a n)%C.
    Definition polarization_at (q : pt) (a b : nat) : C :=
      (RtoC pref * csum nbnd (fun m => csum nbnd (fun n => ksum nk (fun k =>
        conj (UU q k m n a) * RtoC (if excluded q k m n then 0 else quotient_kq q k m n) * UU q k m n b))))%C.
    Definition polarization (q : R * R * R) (a b : nat) : C := polarization_at (q_indices nk q) a b.
  End Polarization.

  (** *** phonon_self_energy: lines 262-492, for one frequency [omega] *)
  Section SelfEnergy.
    Variables (omega : C)
      (* Delta, Delta_diff, Delta_occupations and Delta_kT *)
      (window : option (R * bool * smearing * R)).

    (** Lines 342-351: Theta and delta. *)
    Definition Theta (D : R) (sD : smearing) (kTD : R) (k : pt) (n : nat) : R :=
      2 - occ sD ((e k n - D) / kTD) - occ sD ((- e k n - D) / kTD).
    Definition Theta' (D : R) (sD : smearing) (kTD : R) (k : pt) (n : nat) : R :=
      (delta sD ((e k n - D) / kTD) + delta sD ((- e k n - D) / kTD)) / - kTD.

    Definition envelope (q k : pt) (m n : nat) : R :=
      match window with
      | Some (D, diff, sD, kTD) =>
        let T := Theta D sD kTD in
        let T' := Theta' D sD kTD in
        if diff : bool then at_kq nk q T k m * T' k n + at_kq nk q T' k m * T k n
        else at_kq nk q T k m * T k n
      | None => 1
      end.

    (** Lines 398-421. *)
    Definition dfde_ (q k : pt) (m n : nat) : C :=
      let df := f_ k n - at_kq nk q f_ k m in
      let de := e k n - at_kq nk q e k m in
      let dfde := if Ceq_dec omega (RtoC 0)
        then RtoC (if Rlt_dec eps (Rabs de) then df / de else d_ k n)
        else (RtoC df / (omega + RtoC de))%C in
      (dfde * RtoC (envelope q k m n))%C.

    (** Lines 423-441: sum over k, m and n of the coupling and the quotient. *)
    Definition bubble (q : pt) (c : pt -> nat -> nat -> C) : C :=
      (RtoC pref * ksum nk (fun k => csum nbnd (fun m => csum nbnd (fun n => c k m n * dfde_ q k m n))))%C.

    (** With [g2] (an array of ones if None). *)
    Definition self_energy_g2 (q : R * R * R) (g2 : option (nat -> pt -> nat -> nat -> C)) (nu : nat) : C :=
      bubble (q_indices nk q) (fun k m n => match g2 with Some g2 => g2 nu k m n | None => RtoC 1 end).

    (** With [g] and possibly [G]; [contact] is the matrix [U]. *)
    Definition vertices (g : nat -> pt -> nat -> nat -> C) (G : option (nat -> pt -> nat -> nat -> C)) (symmetrize : bool)
        (mu nu : nat) (k : pt) (m n : nat) : C :=
      match G with
      | None => (conj (g mu k m n) * g nu k m n)%C
      | Some G =>
        if symmetrize then ((conj (g mu k m n) * G nu k m n + conj (G mu k m n) * g nu k m n) / RtoC 2)%C
        else (conj (g mu k m n) * G nu k m n)%C
      end.

    (** Lines 446-460. *)
    Definition contact_term (q : pt) (g G : nat -> pt -> nat -> nat -> C) (contact : nat -> nat -> C) (mu nu : nat) : C :=
      let chi0 m n := (RtoC pref * ksum nk (fun k => dfde_ q k m n))%C in
      let W m n := (contact m n / (RtoC 1 - chi0 m n * contact m n))%C in
      let PiL mu m n := (RtoC pref * ksum nk (fun k => conj (g mu k m n) * dfde_ q k m n))%C in
      let PiR nu m n := (RtoC pref * ksum nk (fun k => dfde_ q k m n * G nu k m n))%C in
      csum nbnd (fun m => csum nbnd (fun n => PiL mu m n * W m n * PiR nu m n)%C).

    Definition self_energy_g (q : R * R * R) g G (symmetrize diagonal : bool) (contact : option (nat -> nat -> C)) (mu nu : nat) : C :=
      let q := q_indices nk q in
      let Pi := if (diagonal && negb (Nat.eqb mu nu))%bool then bubble q (fun _ _ _ => RtoC 0)
        else bubble q (vertices g G symmetrize mu nu) in
      match contact with
      | Some U => (Pi + contact_term q g (match G with Some G => G | None => g end) U mu nu)%C
      | None => Pi
      end.
  End SelfEnergy.

  (** *** renormalize_coupling_band: lines 613-763, general (not [dd]) and [dd] case, for one
      q point; [W a b c d] or [W a c] *)
  Section Renormalize.
    Variables (norb : nat) (U : pt -> nat -> nat -> C) (q : pt).

    Definition band_Pig (nsub : nat) (g : nat -> pt -> nat -> nat -> C) (x c d : nat) : C :=
      (RtoC pref * ksum nk (fun k => csum nsub (fun M => csum nsub (fun N =>
        at_kq nk q U k c M * conj (U k d N) * RtoC (quotient_kq q k M N) * g x k M N))))%C.
    Definition renormalize_band (nsub : nat) (g : nat -> pt -> nat -> nat -> C) (W : nat -> nat -> nat -> nat -> C) (x : nat) (k : pt) (m n : nat) : C :=
      (g x k m n + csum norb (fun a => csum norb (fun b => csum norb (fun c => csum norb (fun d =>
        conj (at_kq nk q U k a m) * U k b n * W a b c d * band_Pig nsub g x c d)))))%C.
    Definition renormalize_band_dd (nsub : nat) (g : nat -> pt -> nat -> nat -> C) (W : nat -> nat -> C) (x : nat) (k : pt) (m n : nat) : C :=
      (g x k m n + csum norb (fun a => csum norb (fun c =>
        conj (at_kq nk q U k a m) * U k a n * W a c * band_Pig nsub g x c c)))%C.

    (** *** Pi_g: lines 836-956 *)
    Definition Pi_g (g : nat -> pt -> nat -> nat -> C) (x c d : nat) : C :=
      (RtoC pref * ksum nk (fun k => csum nbnd (fun m => csum nbnd (fun n => csum norb (fun a => csum norb (fun b =>
        at_kq nk q U k c m * conj (U k d n) * RtoC (quotient_kq q k m n) * conj (at_kq nk q U k a m) * U k b n * g x k a b))))))%C.

    (** *** renormalize_coupling_orbital: lines 765-834.
        Line 825, [while dg.ndim < g.ndim - 1 if dd else g.ndim], reads
        [while (dg.ndim < g.ndim - 1 if dd else g.ndim)]: for [dd] the number of
        axes is raised to the right one, otherwise the condition is always true,
        and NumPy refuses to add the 33rd axis. *)
    Fixpoint add_axes (fuel : nat) (dd : bool) (dg_ndim g_ndim : nat) : res nat :=
      let condition := if dd then Nat.ltb dg_ndim (g_ndim - 1) else negb (Nat.eqb g_ndim 0) in
      if condition then
        match fuel with
        | O => Raise IndexError
        | S fuel => add_axes fuel dd (S dg_ndim) g_ndim
        end
      else Ok dg_ndim.
    (** [ndim] is the number of axes of [g]: q, x, k (1 to 3), a and b. *)
    Definition renormalize_orbital_dd (ndim : nat) (g : nat -> pt -> nat -> nat -> C) (W : nat -> nat -> C) (x : nat) (k : pt) (a b : nat) : res C :=
      do _ <- add_axes (32 - 3) true 3 ndim ;;
      let dg a := csum norb (fun c => W a c * Pi_g g x c c)%C in
      Ok (if Nat.eqb a b then g x k a b + dg a else g x k a b)%C.
    Definition renormalize_orbital (ndim : nat) (g : nat -> pt -> nat -> nat -> C) (W : nat -> nat -> nat -> nat -> C) (x : nat) (k : pt) (a b : nat) : res C :=
      do _ <- add_axes (32 - 4) false 4 ndim ;;
      let dg a b := csum norb (fun c => csum norb (fun d => W a b c d * Pi_g g x c d))%C in
      Ok (g x k a b + dg a b)%C.
  End Renormalize.

  (** *** double_fermi_surface_average: lines 958-1063, for one q point *)
  Definition fsd (k : pt) (n : nat) : R := delta s (e k n / kT) / kT.
  Definition fs_weight (q k : pt) (m n : nat) : R := at_kq nk q fsd k m * fsd k n.
  Definition fs_enum (q : R * R * R) (g2 : nat -> pt -> nat -> nat -> C) (nu : nat) : C :=
    ksum nk (fun k => csum nbnd (fun m => csum nbnd (fun n => g2 nu k m n * RtoC (fs_weight (q_indices nk q) k m n))))%C.
  Definition fs_deno (q : R * R * R) : C :=
    ksum nk (fun k => csum nbnd (fun m => csum nbnd (fun n => RtoC (fs_weight (q_indices nk q) k m n)))).

  (** *** grand_potential: lines 1065-1092; [fd] means [occupations is fermi_dirac] *)
  Definition ksum_n (g : pt -> nat -> R) : R := fst (ksum nk (fun k => csum nbnd (fun n => RtoC (g k n)))).
  Definition grand_potential (fd : bool) : R :=
    let prefactor := 2 * kT / INR (prod nk) in
    if fd then prefactor * ksum_n (fun k n => ln (occ s (- (e k n / kT))))
    else prefactor * (ksum_n (fun k n => occ s (e k n / kT) * (e k n / kT)) - ksum_n (fun k n => entropy s (e k n / kT))).

  (** *** first_order without [U]: lines 1094-1144 *)
  Definition first_order_diagonal (g : nat -> pt -> nat -> nat -> C) (x : nat) : C :=
    (RtoC (2 / INR (prod nk)) * ksum nk (fun k => csum nbnd (fun m => RtoC (f_ k m) * g x k m m)))%C.

  (** With [U]: the coupling is given in the orbital basis. *)
  Definition density_matrix (U : pt -> nat -> nat -> C) (k : pt) (a b : nat) : C :=
    csum nbnd (fun m => U k a m * RtoC (f_ k m) * conj (U k b m))%C.
  Definition first_order_orbital (norb : nat) (U : pt -> nat -> nat -> C) (g : nat -> pt -> nat -> nat -> C) (x : nat) : C :=
    (RtoC (2 / INR (prod nk)) * ksum nk (fun k => csum norb (fun a => csum norb (fun b => density_matrix U k a b * g x k b a))))%C.

  (** *** triangle: lines 1146-1315; [delta_prime] belongs to [s] *)
  Section Triangle.
    Variable delta_prime : R -> R.
    Definition dT (k : pt) (n : nat) : R := delta s (e k n / kT) / kT.
    Definition pT (k : pt) (n : nat) : R := delta_prime (e k n / kT) / kT ^ 2.

    (** Lines 1268-1304 for a single element of the arrays. *)
    Definition gtb (x y : R) : bool := if Rlt_dec y x then true else false.
    Definition chi3 (ea eb ec fa fb fc da db dc pa : R) : R :=
      let dea := eb - ec in
      let deb := ec - ea in
      let dec := ea - eb in
      let dfa := fb - fc in
      let dfb := fc - fa in
      let dfc := fa - fb in
      let la := gtb (Rabs dea) eps in
      let lb := gtb (Rabs deb) eps in
      let lc := gtb (Rabs dec) eps in
      let case0 := (la && lb && lc)%bool in
      let case1 := (negb la && lb && lc)%bool in
      let case2 := (la && negb lb && lc)%bool in
      let case3 := (la && lb && negb lc)%bool in
      if case0 then (ea * dfa + eb * dfb + ec * dfc) / (dea * deb * dec)
      else if case1 then (db + dfc / dec) / dec
      else if case2 then (dc + dfa / dea) / dea
      else if case3 then (da + dfb / deb) / deb
      else - (5 / 10) * pa.
    Definition triangle_chi (q Q k : pt) (a b c : nat) : R :=
      chi3 (e k a) (at_kq nk q e k b) (at_kq nk Q e k c)
        (f_ k a) (at_kq nk q f_ k b) (at_kq nk Q f_ k c)
        (dT k a) (at_kq nk q dT k b) (at_kq nk Q dT k c) (pT k a).
    (** np.roll with shift -Q: [gqQ] at k + Q. *)
    Definition triangle (q Q : R * R * R) (gq gQ gqQ : pt -> nat -> nat -> C) : C :=
      let iq := q_indices nk q in
      let iQ := q_indices nk Q in
      (RtoC (4 / INR (prod nk)) * ksum nk (fun k => csum nbnd (fun a => csum nbnd (fun b => csum nbnd (fun c =>
        RtoC (triangle_chi iq iQ k a b c) * conj (gq k b a) * gQ k c a * at_kq nk iQ gqQ k b c)))))%C.
  End Triangle.

  (** *** fan_migdal_self_energy: lines 1317-1403, for one k point and frequency;
      [nk] and [pt] stand for the mesh of q points. *)
  Definition fan_migdal (nmodes : nat) (w : pt -> nat -> R) (g2 : pt -> nat -> nat -> nat -> R) (omega : C) (k : R * R * R) (n : nat) : C :=
    let ik := q_indices nk k in
    (RtoC (1 / INR (prod nk)) * ksum nk (fun q => csum nmodes (fun nu => csum nbnd (fun m =>
      let N := bose_einstein (w q nu / kT) in
      let fkq := at_kq nk ik f_ q m in
      let domega := (omega - RtoC (at_kq nk ik e q m))%C in
      RtoC (g2 q nu m n) * (RtoC (fkq + N) / (domega + RtoC (w q nu)) + RtoC (1 - fkq + N) / (domega - RtoC (w q nu)))))))%C.
End Bubble.

(** ** green_kubo_conductivity: lines 1405-1492
    [nkn] is the number of combinations of k points and bands, [nq] that of k points. *)
Section Conductivity.
  Variables (nkn nq nw : nat) (v : nat -> nat -> R) (A : nat -> nat -> R) (omega : nat -> R) (kT eps : R) (s : smearing).

  Definition vA (i iw x : nat) : R := v i x * A i iw.
  Definition gk_d (iw : nat) : R := delta s (omega iw / kT) / kT.
  Definition gk_f (iw : nat) : R := occ s (omega iw / kT).
  Definition gk_prefactor : R := 4 * PI / INR nq.

  (** misc.py lines 222-243, for at least two points. *)
  Definition differential (iw : nat) : R :=
    (if Nat.eqb iw 0 then omega 1%nat - omega 0%nat
     else if Nat.eqb iw (nw - 1) then omega (nw - 1)%nat - omega (nw - 2)%nat
     else omega (iw + 1)%nat - omega (iw - 1)%nat) / 2.

  Definition gk_dc (x y : nat) : R :=
    gk_prefactor * rsum nw (fun iw => differential iw * gk_d iw * rsum nkn (fun i => vA i iw x * vA i iw y)).

  (** np.argmin(abs(omega)): first minimum. *)
  Fixpoint argmin_from (h : nat -> R) (n : nat) : nat :=
    match n with O => O | S n => let m := argmin_from h n in if Nat.eqb n 0 then O else if Rlt_dec (h n) (h m) then n else m end.

  (** Lines 1456-1464: [info(..., error=True)] exits. *)
  Definition gk_domega : R := omega 1%nat - omega 0%nat.
  Definition gk_checks : res nat :=
    if existsb (fun i => if Rlt_dec eps (Rabs (omega (i + 1)%nat - omega i - gk_domega)) then true else false) (seq 0 (nw - 1)) then Raise SystemExit
    else
      let iw0 := argmin_from (fun i => Rabs (omega i)) nw in
      if Rlt_dec eps (Rabs (omega iw0)) then Raise SystemExit else Ok iw0.

  (** Lines 1476-1486 for frequency [iw]. *)
  Definition gk_sigma (iw0 iw x y : nat) : R :=
    let diwm := (iw0 - iw)%nat in (* max(0, -diw) *)
    let diwp := (iw - iw0)%nat in
    let len := (nw - diwp - diwm)%nat in
    let a j := if Nat.eqb iw iw0 then gk_d j else (gk_f (diwm + j)%nat - gk_f (diwp + j)%nat) / omega iw in
    let b j := rsum nkn (fun i => vA i (diwm + j)%nat x * vA i (diwp + j)%nat y) in
    gk_prefactor * gk_domega * rsum len (fun j => a j * b j).
  Definition green_kubo (dc_only : bool) (iw x y : nat) : res R :=
    if dc_only then Ok (gk_dc x y)
    else do iw0 <- gk_checks ;; Ok (gk_sigma iw0 iw x y).
End Conductivity.
