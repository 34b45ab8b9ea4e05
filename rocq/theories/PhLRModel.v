(** Model of elphmod/ph.py: long-range terms and polarization of modes. *)
From Coq Require Import Reals.
From Verif Require Import Common LatModel Num NumC.
Local Open Scope R_scope.

Definition sum3 (f : nat -> R) : R := f 0%nat + f 1%nat + f 2%nat.
Definition sum2 (f : nat -> R) : R := f 0%nat + f 1%nat.

(** What the long-range terms depend on. The numbers [prefactor], [scale], the
    half widths [nr] of the box of reciprocal vectors (nonnegative integers or
    not), the reciprocal basis [b] and [r_eff] are those that
    [prepare_long_range] (ph.py:356-382) derives from the lattice vectors, the
    dielectric tensor and [alpha]; here they are arbitrary. [quad = None] if
    there are no quadrupoles, [len_L = None] if [L] is None. *)
Record polar := Polar {
  nat_ : nat;
  b_ : nat -> nat -> R;
  eps_ : nat -> nat -> R;
  r_eff : nat -> nat -> R;
  prefactor : R;
  scale : R;
  G_max : R;
  nr_ : vec;
  lr2d : bool;
  len_L : option R;
  perp_ : bool;
  pos_ : nat -> nat -> R;
  Z_ : nat -> nat -> nat -> R;
  quad : option (nat -> nat -> nat -> nat -> R);
  M_ : nat -> R;
  divide_mass : bool
}.

Section LR.
  Variable p : polar.

  (** Lines 397-398 of [prepare_long_range], 442-445 of [generate_long_range] *)
  Definition quadratic (K : nat -> R) : R :=
    if lr2d p then sum3 (fun x => K x ^ 2) else sum3 (fun x => sum3 (fun y => K x * eps_ p x y * K y)).

  (** [range(-n, n + 1)] *)
  Definition zrange (n : Z) : list Z := map (fun i => (Z.of_nat i - n)%Z) (seq 0 (Z.to_nat (2 * n + 1))).

  Definition box : list vec :=
    flat_map (fun m1 => flat_map (fun m2 => map (fun m3 => V3 m1 m2 m3) (zrange (vz (nr_ p)))) (zrange (vy (nr_ p)))) (zrange (vx (nr_ p))).

  Definition Gvec (m : vec) : nat -> R :=
    fun x => 2 * PI * (IZR (vx m) * b_ p 0 x + IZR (vy m) * b_ p 1 x + IZR (vz m) * b_ p 2 x).

  (** [self.G]: ph.py:384-399 *)
  Definition Gs : list (nat -> R) :=
    filter (fun G => if Rlt_dec (quadratic G) (scale p * G_max p) then true else false) (map Gvec box).

  (** [K]: ph.py:440, with [use]: 447-450 *)
  Definition shift (q : kpoint) (G : nat -> R) : nat -> R :=
    fun x => G x + kx q * b_ p 0 x + ky q * b_ p 1 x + kz q * b_ p 2 x.

  Definition Ks (q : kpoint) (eps : R) : list (nat -> R) :=
    filter (fun K => if Rlt_dec eps (quadratic K) then true else false) (map (shift q) Gs).

  Definition KrK (K : nat -> R) : R := sum2 (fun x => sum2 (fun y => K x * r_eff p x y * K y)).
  Definition K_norm (K : nat -> R) : R := sqrt (quadratic K).

  (** Lines 456-475 *)
  Definition factor (K : nat -> R) : R :=
    match lr2d p, len_L p with
    | true, Some L =>
      let f := 1 - tanh (K_norm K * L / 2) in prefactor p * f / K_norm K / (1 + f / K_norm K * KrK K)
    | true, None => prefactor p * exp (- quadratic K / scale p) / (sqrt (quadratic K) + KrK K)
    | false, _ => prefactor p * exp (- quadratic K / scale p) / quadratic K
    end.

  (** Lines 463-467 *)
  Definition factor_perp (L : R) (K : nat -> R) : R :=
    let f := 1 - tanh (K_norm K * L / 2) in - prefactor p * f / K_norm K / (1 - f * K_norm K * r_eff p 2 2).

  (** Lines 477-478 *)
  Definition expKr (K : nat -> R) (na : nat) : C := expi (- sum3 (fun x => K x * pos_ p na x)).

  (** Lines 480-487; [z] and [qd] are the attributes [z] and [q]. *)
  Definition vector (z : nat -> nat -> nat -> R) (qd : option (nat -> nat -> nat -> nat -> R)) (K : nat -> R) (na u : nat) : C :=
    let dot : C := nmul Ci (RtoC (sum3 (fun e => K e * z na e u))) in
    let dot := match qd with
      | Some qd =>
        let dot := nadd dot (RtoC (/ 2 * sum3 (fun x => sum3 (fun y => K x * qd na u x y * K y)))) in
        match lr2d p, len_L p with
        | true, Some _ => nsub dot (RtoC (/ 2 * (K_norm K ^ 2 * qd na u 2%nat 2%nat)))
        | _, _ => dot
        end
      | None => dot
      end in
    nmul dot (expKr K na).

  (** Lines 491-498 *)
  Definition vector_perp (z : nat -> nat -> nat -> R) (qd : option (nat -> nat -> nat -> nat -> R)) (K : nat -> R) (na u : nat) : C :=
    let dot : C := nmul Ci (RtoC (K_norm K * z na 2%nat u)) in
    let dot := match qd with
      | Some qd => nadd dot (RtoC (sum2 (fun y => K_norm K * qd na u 2%nat y * K y)))
      | None => dot
      end in
    nmul dot (expKr K na).

  (** generate_long_range: ph.py:419-503. Pairs of factor and vector. *)
  Definition generate_long_range (z : nat -> nat -> nat -> R) (qd : option (nat -> nat -> nat -> nat -> R)) (q : kpoint) (eps : R)
      : list (R * (nat -> nat -> C)) :=
    let K := Ks q eps in
    map (fun K => (factor K, vector z qd K)) K ++
    match lr2d p, len_L p, perp_ p with
    | true, Some L, true => map (fun K => (factor_perp L K, vector_perp z qd K)) K
    | _, _, _ => []
    end.

  (** The einsum in D_lr (ph.py:174-180), where rows and columns are numbered by
      atom and direction. *)
  Definition einsum_lr (t : list (R * (nat -> nat -> C))) (na x nb y : nat) : C :=
    nsum (fun fv => nmul (RtoC (fst fv)) (nmul (nconj (snd fv na x)) (snd fv nb y))) t.

  Definition tol : R := / 10000000000.

  (** prepare_long_range: ph.py:401-417. First with the undivided charges and
      quadrupoles, without the matrix [D0_lr]. *)
  Definition D0_lr (na x nb y : nat) : C :=
    if (na =? nb)%nat then
      let s := nopp (nsum (fun n => einsum_lr (generate_long_range (Z_ p) (quad p) (K3 0 0 0) tol) na x n y) (seq 0 (nat_ p))) in
      if divide_mass p then nmul s (RtoC (/ M_ p na)) else s
    else n0.

  Definition z_ : nat -> nat -> nat -> R := fun na e u => if divide_mass p then Z_ p na e u / sqrt (M_ p na) else Z_ p na e u.
  Definition q_ : option (nat -> nat -> nat -> nat -> R) :=
    match quad p with
    | Some qd => Some (fun na u x y => if divide_mass p then qd na u x y / sqrt (M_ p na) else qd na u x y)
    | None => None
    end.

  (** D_lr: ph.py:174-180 *)
  Definition D_lr (q : kpoint) (na x nb y : nat) : C :=
    nadd (D0_lr na x nb y) (einsum_lr (generate_long_range z_ q_ q tol) na x nb y).
End LR.

(** ** polarization: ph.py:1788-1825

    For one q point and band of a crystal with [nat_] atoms, [e] being the
    displacement pattern [e[n, :, band]]. The reciprocal basis [b1], [b2],
    which lines 1801-1802 determine from the angle, is arbitrary here. *)
Definition norm2 (z : C) : R := (Re z ^ 2 + Im z ^ 2).
Definition Rsum (f : nat -> R) (n : nat) : R := fold_right Rplus 0 (map f (seq 0 n)).

Definition polarization (nat_ : nat) (b1 b2 : R * R) (q : R * R) (e : nat -> C) : R * R * R :=
  let q := (fst q * fst b1 + snd q * fst b2, fst q * snd b1 + snd q * snd b2) in
  let Q := sqrt (fst q * fst q + snd q * snd q) in
  let centered := if Rlt_dec Q (/ 10000000000) then true else false in
  let q := if centered then (1, 0) else (fst q / Q, snd q / Q) in
  let L := Rsum (fun na => norm2 (nadd (nmul (e (3 * na)%nat) (RtoC (fst q))) (nmul (e (3 * na + 1)%nat) (RtoC (snd q))))) nat_ in
  let T := Rsum (fun na => norm2 (nsub (nmul (e (3 * na)%nat) (RtoC (snd q))) (nmul (e (3 * na + 1)%nat) (RtoC (fst q))))) nat_ in
  let Z := Rsum (fun na => norm2 (e (3 * na + 2)%nat)) nat_ in
  if centered then ((L + T) / 2, (L + T) / 2, Z) else (L, T, Z).
