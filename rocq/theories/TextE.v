(** Python's formatting of floats in scientific notation, '%.15E' etc.

    Simplifications: as in Text.v. Numbers are rounded correctly (half to even). *)
From Verif Require Export Text.
Local Open Scope Z_scope.

(** The integer part of the decimal logarithm of a positive integer *)
Fixpoint log10_from (fuel : nat) (n : Z) : Z :=
  match fuel with O => 0 | S fuel => if n <? 10 then 0 else 1 + log10_from fuel (n / 10) end.
Definition log10 (n : Z) : Z := log10_from (fuel_of n) n.

(** The exponent [e] with 10 ^ e <= |x| < 10 ^ (e + 1) *)
Definition ten (e : Z) : Z := 10 ^ Z.max 0 e.
Definition exponent (x : Q) : Z :=
  let n := Z.abs (Qnum x) in
  let e := log10 n - log10 (Zpos (Qden x)) in
  if n * ten (- e) <? Zpos (Qden x) * ten e then e - 1 else e.

(** |x| / 10 ^ (e - d), rounded *)
Definition mantissa (d : nat) (x : Q) (e : Z) : Z :=
  round_div (Z.abs (Qnum x) * ten (Z.of_nat d - e)) (Zpos (Qden x) * ten (e - Z.of_nat d)).

(** Mantissa and exponent; rounding may result in another digit. *)
Definition scientific (d : nat) (x : Q) : Z * Z :=
  if Qnum x =? 0 then (0, 0)
  else
    let e := exponent x in
    let m := mantissa d x e in
    if m <? 10 ^ (Z.of_nat d + 1) then (m, e) else (10 ^ Z.of_nat d, e + 1).

(** At least two digits of the exponent *)
Definition fmt_exponent (e : Z) : text :=
  (if e <? 0 then §"-" else §"+") ++ (if Z.abs e <? 10 then §"0" else []) ++ nonneg_to_text (Z.abs e).

(** '%.15E' etc. *)
Definition fmt_E (d : nat) (x : Q) : text :=
  let '(m, e) := scientific d x in
  (if Qnum x <? 0 then §"-" else []) ++ nonneg_to_text (m / 10 ^ Z.of_nat d) ++ §"." ++ fraction_digits d m ++ §"E" ++ fmt_exponent e.
