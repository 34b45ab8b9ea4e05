(** Model of elphmod/occupations.py: step and delta smearing functions, with real
    numbers in place of floats. Complex arguments, which Fermi and Bose functions
    also accept, are not modelled. *)
From Coq Require Export Reals String.
From Coquelicot Require RInt.
From Verif Require Import Common.
Local Open Scope R_scope.

(** Line 15. *)
Definition xmax : R := 709.

(** numpy.sign *)
Definition sgn (x : R) : R := if Rlt_dec x 0 then -1 else if Rlt_dec 0 x then 1 else 0.

(** The error function of SciPy or Python's math module. *)
Definition erf (x : R) : R := 2 / sqrt PI * RInt.RInt (V := Hierarchy.R_CompleteNormedModule) (fun t => exp (- (t * t))) 0 x.

(** Lines 17-23. *)
Definition bose_einstein (x : R) : R := 1 / (exp (Rmin x xmax) - 1).

(** Lines 25-59. *)
Definition fermi_dirac (x : R) : R := 1 / (exp (Rmin x xmax) + 1).
Definition fermi_dirac_delta (x : R) : R := 1 / (2 * cosh (Rmin (Rabs x) xmax) + 2).
Definition fermi_dirac_delta_prime (x : R) : R :=
  let x := sgn x * Rmin (Rabs x) xmax in - sinh x / (2 * (cosh x + 1) ^ 2).
Definition fermi_dirac_entropy (x : R) : R :=
  let x := sgn x * Rmin (Rabs x) xmax in
  let f := fermi_dirac x in x * (f - 1) - ln f.

(** Lines 65-83. *)
Definition gauss (x : R) : R := (1 - erf x) / 2.
Definition gauss_delta (x : R) : R := exp (- x * x) / sqrt PI.
Definition gauss_delta_prime (x : R) : R := - 2 * x * exp (- x * x) / sqrt PI.
Definition gauss_entropy (x : R) : R := gauss_delta x / 2.

(** Lines 89-116. *)
Definition marzari_vanderbilt (x : R) : R :=
  let y := x + 1 / sqrt 2 in (1 - erf y) / 2 + exp (- y * y) / sqrt (2 * PI).
Definition marzari_vanderbilt_delta (x : R) : R :=
  let y := x + 1 / sqrt 2 in (sqrt 2 * y + 1) * exp (- y * y) / sqrt PI.
Definition marzari_vanderbilt_delta_prime (x : R) : R :=
  let y := x + 1 / sqrt 2 in (sqrt 2 - 2 * y * (sqrt 2 * y + 1)) * exp (- y * y) / sqrt PI.
Definition marzari_vanderbilt_entropy (x : R) : R :=
  let y := x + 1 / sqrt 2 in y * exp (- y * y) / sqrt (2 * PI).

(** Lines 122-137: the values that the generator yields. *)
Fixpoint hermite_from (N n : nat) (x h H : R) : list R :=
  match N with
  | O => []
  | S N => h :: hermite_from N (S n) x (2 * x * h - 2 * INR n * H) h
  end.
Definition hermite_polynomials (x : R) (N : nat) : list R := hermite_from N 0 x 1 0.

(** Lines 139-170. [next] of an exhausted generator raises StopIteration. *)
Fixpoint mp_skip (diff : nat) (a : R) (h : list R) : res (R * list R) :=
  match diff with
  | O => Ok (a, h)
  | S diff => match h with [] => Raise StopIteration | _ :: h => mp_skip diff (a * -1) h end
  end.
Fixpoint mp_loop (k n : nat) (a s : R) (h : list R) : res R :=
  match k with
  | O => Ok s
  | S k =>
    let a := a / (-4 * INR n) in
    match h with _ :: v :: h => mp_loop k (S n) a (s + a * v) h | _ => Raise StopIteration end
  end.
Definition methfessel_paxton_term (x : R) (order diff : nat) : res R :=
  do (a, h) <- mp_skip diff 1 (hermite_polynomials x 100) ;;
  do s <- mp_loop order 1 a 0 h ;;
  Ok (s * gauss_delta x).

(** Lines 172-197; the attribute [order] is an argument here. *)
Definition methfessel_paxton (order : nat) (x : R) : res R :=
  do t <- methfessel_paxton_term x order 0 ;; Ok (gauss x + t).
Definition methfessel_paxton_delta (order : nat) (x : R) : res R :=
  do t <- methfessel_paxton_term x order 1 ;; Ok (gauss_delta x - t).
Definition methfessel_paxton_delta_prime (order : nat) (x : R) : res R :=
  do t <- methfessel_paxton_term x order 2 ;; Ok (gauss_delta_prime x - t).
Definition methfessel_paxton_entropy (order : nat) (x : R) : res R :=
  if negb (order =? 1)%nat then Raise NotImplementedError
  else do t <- methfessel_paxton_term x order 1 ;; Ok (- (1 / 2) * t).

(** Lines 204-228; the attribute [d] is an argument here. *)
Definition double_fermi_dirac (d x : R) : R := (fermi_dirac (x - d) + fermi_dirac (x + d)) / 2.
Definition double_fermi_dirac_delta (d x : R) : R := (fermi_dirac_delta (x - d) + fermi_dirac_delta (x + d)) / 2.
Definition double_fermi_dirac_delta_prime (d x : R) : R :=
  (fermi_dirac_delta_prime (x - d) + fermi_dirac_delta_prime (x + d)) / 2.
Definition double_fermi_dirac_entropy (d x : R) : R :=
  (fermi_dirac_entropy (x - d) + fermi_dirac_entropy (x + d) + d * (fermi_dirac (x - d) - fermi_dirac (x + d))) / 2.

(** Lines 235-265. *)
Definition two_dy (d x : R) : R := (if Rlt_dec x 0 then 1 else 0) * d.
Definition two_dx (d x : R) : R := 2 * two_dy d x - d.
Definition two_fermi_dirac (d x : R) : R := fermi_dirac (x + two_dx d x).
Definition two_fermi_dirac_delta (d x : R) : R := fermi_dirac_delta (x + two_dx d x).
Definition two_fermi_dirac_delta_prime (d x : R) : R := fermi_dirac_delta_prime (x + two_dx d x).
Definition two_fermi_dirac_entropy (d x : R) : R :=
  fermi_dirac_entropy (x + two_dx d x) - two_dx d x * fermi_dirac (x + two_dx d x) + two_dy d x.

(** Lines 272-286. *)
Definition lorentz (x : R) : R := 1 / 2 - atan (x / PI) / PI.
Definition lorentz_delta (x : R) : R := 1 / (x * x + PI * PI).
Definition lorentz_delta_prime (x : R) : R := - 2 * x / (x * x + PI * PI) ^ 2.

(** Lines 296-328. None stands for (plus or minus) infinity. *)
Definition heaviside (x : R) : R := 1 / 2 - 1 / 2 * sgn x.
Definition heaviside_delta (x : R) : option R := if Req_EM_T x 0 then None else Some 0.
Definition heaviside_delta_prime (x : R) : option R := if Req_EM_T x 0 then None else Some 0.
Definition heaviside_entropy (x : R) : R := 0.

(** Lines 334-353. Real parts of powers of 1 / (i nu - x), as real expressions:
    1 / (i nu - x) = (- x - i nu) / (x^2 + nu^2). *)
Definition nu (n : nat) : R := (2 * INR n + 1) * PI.
Definition sumR (f : nat -> R) (n : nat) : R := fold_right Rplus 0 (map f (seq 0 n)).
Definition inv_re (x nu : R) : R := - x / (x * x + nu * nu).
Definition inv_im (x nu : R) : R := - nu / (x * x + nu * nu).
(** Real parts of the square and the cube of a complex number. *)
Definition re2 (u v : R) : R := u * u - v * v.
Definition re3 (u v : R) : R := u * u * u - 3 * u * v * v.
Definition fermi_dirac_matsubara (nmats : nat) (x : R) : R :=
  1 / 2 + 2 * sumR (fun n => inv_re x (nu n)) nmats.
Definition fermi_dirac_matsubara_delta (nmats : nat) (x : R) : R :=
  - 2 * sumR (fun n => re2 (inv_re x (nu n)) (inv_im x (nu n))) nmats.
Definition fermi_dirac_matsubara_delta_prime (nmats : nat) (x : R) : R :=
  - 4 * sumR (fun n => re3 (inv_re x (nu n)) (inv_im x (nu n))) nmats.

(** ** smearing: lines 358-391
    Only names are modelled; anything else is returned as is. *)
Inductive kind := Gauss | MP | MV | FD | Lorentz | Heaviside.

(** [str.lower] (ASCII letters). *)
Definition lower_char (c : Ascii.ascii) : Ascii.ascii :=
  let n := Ascii.nat_of_ascii c in
  if ((65 <=? n) && (n <=? 90))%nat then Ascii.ascii_of_nat (n + 32) else c.
Fixpoint lower (s : string) : string :=
  match s with EmptyString => EmptyString | String c s => String (lower_char c) (lower s) end.

Definition among (name : string) (l : list string) : bool := existsb (String.eqb name) l.
Definition smearing (name : string) : option kind :=
  let name := lower name in
  if among name ["gaussian"; "gauss"]%string then Some Gauss
  else if among name ["methfessel-paxton"; "m-p"; "mp"]%string then Some MP
  else if among name ["marzari-vanderbilt"; "cold"; "m-v"; "mv"]%string then Some MV
  else if among name ["fermi-dirac"; "f-d"; "fd"]%string then Some FD
  else if among name ["lorentzian"; "lorentz"]%string then Some Lorentz
  else if among name ["heaviside"]%string then Some Heaviside
  else None.

(** ** find_Fermi_level: lines 393-449
    [e]: all energies ([e.ravel()]); [nb] is [e.shape[-1]]; [f] and [delta0] are
    the smearing function and [f.delta(0.0)]. The loop need not end; it is
    limited to [fuel] iterations here, None meaning that it goes on. *)
Definition Rsum (l : list R) : R := fold_right Rplus 0 l.
Definition Rlist_min (l : list R) : R := match l with [] => 0 | x :: l => fold_left Rmin l x end.
Definition Rlist_max (l : list R) : R := match l with [] => 0 | x :: l => fold_left Rmax l x end.

Definition scale_ (e : list R) (nb : nat) : R := 1 / 2 * INR (length e) / INR nb.

(** Line 432; [n] is already scaled. *)
Definition initial_mu (n : R) (e : list R) : R :=
  (Rlist_min e * (INR (length e) - n) + Rlist_max e * n) / INR (length e).

(** Lines 437-444: the weight for one energy. *)
Definition weight (f : R -> R) (delta0 kT eps mu e : R) : R :=
  let xi := e - mu in
  if Rlt_dec eps (Rabs xi) then (f 0 - f (xi / kT)) / xi else delta0 / kT.

(** Line 449. *)
Definition next_mu (f : R -> R) (delta0 kT eps n : R) (e : list R) (mu : R) : R :=
  (n - INR (length e) * f 0 + Rsum (map (fun x => x * weight f delta0 kT eps mu x) e)) /
  Rsum (map (weight f delta0 kT eps mu) e).

Fixpoint fermi_loop (fuel : nat) (f : R -> R) (delta0 kT eps tol n : R) (e : list R) (mu : R) : option R :=
  match fuel with
  | O => None
  | S fuel =>
    if Rlt_dec (Rabs (Rsum (map (fun x => f ((x - mu) / kT)) e) - n)) tol then Some mu
    else fermi_loop fuel f delta0 kT eps tol n e (next_mu f delta0 kT eps n e mu)
  end.

(** An empty array has no minimum (ValueError). *)
Definition find_Fermi_level (fuel : nat) (n : R) (e : list R) (nb : nat) (kT : R) (f : R -> R) (delta0 : R)
    (mu : option R) (tol eps : R) : res (option R) :=
  if (nb =? 0)%nat then Raise ZeroDivisionError else
  let scale := scale_ e nb in
  let n := n * scale in
  let tol := tol * scale in
  match e, mu with
  | [], None => Raise ValueError
  | _, _ =>
    let mu := match mu with Some mu => mu | None => initial_mu n e end in
    Ok (fermi_loop fuel f delta0 kT eps tol n e mu)
  end.

(** ** find_Fermi_level_simple: lines 451-500 *)
Fixpoint simple_loop (fuel : nat) (f : R -> R) (kT damp tol n : R) (e : list R) (mu : R) : option R :=
  match fuel with
  | O => None
  | S fuel =>
    let N := Rsum (map (fun x => f ((x - mu) / kT)) e) in
    if Rlt_dec (Rabs (N - n)) tol then Some mu
    else simple_loop fuel f kT damp tol n e (mu + (n / N - 1) * damp)
  end.

Definition find_Fermi_level_simple (fuel : nat) (n : R) (e : list R) (nb : nat) (kT : R) (f : R -> R)
    (mu : option R) (tol damp : R) : res (option R) :=
  if (nb =? 0)%nat then Raise ZeroDivisionError else
  let scale := scale_ e nb in
  let n := n * scale in
  let tol := tol * scale in
  match e, mu with
  | [], None => Raise ValueError
  | _, _ =>
    let mu := match mu with Some mu => mu | None => initial_mu n e end in
    Ok (simple_loop fuel f kT damp tol n e mu)
  end.
