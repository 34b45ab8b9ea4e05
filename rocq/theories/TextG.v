(** Python's formatting of floats with a given number of significant digits, '%.10g' etc.

    Simplifications: as in Text.v and TextE.v. *)
From Verif Require Export TextE.
Local Open Scope Z_scope.

(** Without zeros at the end of the [d] decimals *)
Fixpoint trim_zeros (d : nat) (m : Z) : nat * Z :=
  match d with
  | O => (O, m)
  | S d' => if m mod 10 =? 0 then trim_zeros d' (m / 10) else (d, m)
  end.

(** m / 10 ^ d *)
Definition decimals (d : nat) (m : Z) : text :=
  nonneg_to_text (m / 10 ^ Z.of_nat d) ++ match d with O => [] | S _ => §"." ++ fraction_digits d m end.

(** '%.10g' etc.; '%g' has six digits. *)
Definition format_g (p : nat) (x : Q) : text :=
  let '(m, e) := scientific (p - 1) x in
  (if Qnum x <? 0 then §"-" else []) ++
  if (-4 <=? e) && (e <? Z.of_nat p)
  then let '(d, m) := trim_zeros (Z.to_nat (Z.of_nat (p - 1) - e)) m in decimals d m
  else let '(d, m) := trim_zeros (p - 1) m in decimals d m ++ §"e" ++ fmt_exponent e.
