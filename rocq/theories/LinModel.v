(** Model of bravais.linear_interpolation (elphmod/bravais.py:767-935) and
    bravais.resize (937-1005); rational numbers in place of floats. The data has
    only the one or two axes along which to interpolate: further axes and the
    transposition (811-822) act element by element. Interpolation in polar
    coordinates (803-810) only combines the interpolants for modulus and phase;
    see [interpolant_polar]. numpy.vectorize calls the function for each point. *)
From Verif Require Import Common StackModel.
Local Open Scope Q_scope.

(** Lines 826-830. *)
Definition split (n : Q) (N : Z) : res (Z * Q) :=
  let n0 := Qfloor n in
  let dn := n - inject_Z n0 in
  if (N =? 0)%Z then Raise ZeroDivisionError else Ok ((n0 mod N)%Z, dn).

(** [data[i]], [data[i, j]] for nonnegative indices. *)
Definition item {A} (data : list A) (i : Z) : res A :=
  match nth_error data (Z.to_nat i) with Some x => Ok x | None => Raise IndexError end.
Definition item2 (data : list (list Q)) (i j : Z) : res Q := do row <- item data i ;; item row j.

(** [data.shape]; an array without rows is given the shape (0, 0). *)
Definition shape0 {A} (data : list A) : Z := Z.of_nat (length data).
Definition shape1 (data : list (list Q)) : Z := Z.of_nat (length (hd [] data)).

(** Lines 849-850, 875-876, 898-899, 923-924: zero counts as no period. *)
Definition restack argsort (period : option Q) (l : list Q) : res (list Q) :=
  match period with
  | Some p => if Qeq_bool p 0 then Ok l else stack argsort l p
  | None => Ok l
  end.

(** Lines 839-852. *)
Definition interpolant1 argsort (period : option Q) (data : list Q) (n : Q) : res Q :=
  let N := shape0 data in
  do (n0, dn) <- split n N ;;
  do A <- item data n0 ;;
  do B <- item data ((n0 + 1) mod N)%Z ;;
  do s <- restack argsort period [A; B] ;;
  match s with [A; B] => Ok ((1 - dn) * A + dn * B) | _ => Raise ValueError end.

(** Lines 862-881. *)
Definition interpolant60 argsort (period : option Q) (data : list (list Q)) (n m : Q) : res Q :=
  let N := shape0 data in let M := shape1 data in
  do (n0, dn) <- split n N ;;
  do (m0, dm) <- split m M ;;
  do A <- item2 data ((n0 + 1) mod N)%Z m0 ;;
  do B <- item2 data n0 ((m0 + 1) mod M)%Z ;;
  let prime := if Qlt_le_dec 1 (dn + dm) then true else false in
  do C <- (if prime then item2 data ((n0 + 1) mod N)%Z ((m0 + 1) mod M)%Z else item2 data n0 m0) ;;
  do s <- restack argsort period [A; B; C] ;;
  match s with
  | [A; B; C] =>
      Ok (if prime then (1 - dm) * A + (1 - dn) * B + (dn + dm - 1) * C
          else dn * A + dm * B + (1 - dn - dm) * C)
  | _ => Raise ValueError
  end.

(** Lines 891-904. *)
Definition interpolant90 argsort (period : option Q) (data : list (list Q)) (n m : Q) : res Q :=
  let N := shape0 data in let M := shape1 data in
  do (n0, dn) <- split n N ;;
  do (m0, dm) <- split m M ;;
  do A <- item2 data n0 m0 ;;
  do B <- item2 data ((n0 + 1) mod N)%Z m0 ;;
  do C <- item2 data ((n0 + 1) mod N)%Z ((m0 + 1) mod M)%Z ;;
  do D <- item2 data n0 ((m0 + 1) mod M)%Z ;;
  do s <- restack argsort period [A; B; C; D] ;;
  match s with
  | [A; B; C; D] =>
      Ok ((1 - dn) * (1 - dm) * A + dn * (1 - dm) * B + dn * dm * C + (1 - dn) * dm * D)
  | _ => Raise ValueError
  end.

(** Lines 914-931. *)
Definition interpolant120 argsort (period : option Q) (data : list (list Q)) (n m : Q) : res Q :=
  let N := shape0 data in let M := shape1 data in
  do (n0, dn) <- split n N ;;
  do (m0, dm) <- split m M ;;
  do A <- item2 data n0 m0 ;;
  do B <- item2 data ((n0 + 1) mod N)%Z ((m0 + 1) mod M)%Z ;;
  let prime := if Qlt_le_dec dm dn then true else false in
  do C <- (if prime then item2 data ((n0 + 1) mod N)%Z m0 else item2 data n0 ((m0 + 1) mod M)%Z) ;;
  do s <- restack argsort period [A; B; C] ;;
  match s with
  | [A; B; C] =>
      Ok (if prime then (1 - dn) * A + dm * B + (dn - dm) * C
          else (1 - dm) * A + dn * B + (dm - dn) * C)
  | _ => Raise ValueError
  end.

(** Lines 834-935: for other angles, [interpolant] is not defined. *)
Definition interpolant2 argsort (angle : Z) (period : option Q) (data : list (list Q)) (n m : Q) : res Q :=
  if (angle =? 60)%Z then interpolant60 argsort period data n m
  else if (angle =? 90)%Z then interpolant90 argsort period data n m
  else if (angle =? 120)%Z then interpolant120 argsort period data n m
  else Raise UnboundLocalError.

(** Lines 803-810: modulus and phase of the interpolated value, given modulus and
    phase of the data; [tau] stands for [2 * np.pi]. *)
Definition interpolant_polar argsort (tau : Q) (angle : Z) (period : option Q)
    (modulus phase : list (list Q)) (n m : Q) : res (Q * Q) :=
  do r <- interpolant2 argsort angle period modulus n m ;;
  do p <- interpolant2 argsort angle (Some tau) phase n m ;;
  Ok (r, p).

(** Collect the results of a loop; the first exception aborts it. *)
Fixpoint collect {A B} (f : A -> res B) (l : list A) : res (list B) :=
  match l with [] => Ok [] | x :: l => do y <- f x ;; do ys <- collect f l ;; Ok (y :: ys) end.

(** Lines 984-987: numpy division by zero yields infinity or NaN, which makes
    [int] in [split] raise an exception (OverflowError or ValueError). *)
Definition resize_scale (periodic : bool) (N n : Z) : res Q :=
  if periodic then
    if (n =? 0)%Z then Raise ZeroDivisionError else Ok (inject_Z N / inject_Z n)
  else if (n =? 1)%Z then Raise ValueError else Ok (inject_Z (N - 1) / inject_Z (n - 1)).

(** Lines 937-1005 for one axis (without distribution over processes, see C01,
    C02). *)
Definition resize1 argsort (period : option Q) (periodic : bool) (data : list Q) (n : nat) : res (list Q) :=
  do scale <- resize_scale periodic (shape0 data) (Z.of_nat n) ;;
  collect (fun i => interpolant1 argsort period data (inject_Z (Z.of_nat i) * scale)) (seq 0 n).

(** The same for two axes: a flat list of n * m elements, [m // shape[1]] and
    [m % shape[1]] (990). *)
Definition resize2 argsort (angle : Z) (period : option Q) (periodic : bool) (data : list (list Q)) (n m : nat) : res (list Q) :=
  do scale0 <- resize_scale periodic (shape0 data) (Z.of_nat n) ;;
  do scale1 <- resize_scale periodic (shape1 data) (Z.of_nat m) ;;
  collect (fun i => interpolant2 argsort angle period data
      (inject_Z (Z.of_nat (i / m)) * scale0) (inject_Z (Z.of_nat (i mod m)) * scale1))
    (seq 0 (n * m)).
