(** Python's text formatting and parsing, as far as it is used for reading and writing files.

    Simplifications: characters are bytes. Real numbers are rational; floats printed with
    a fixed number of decimals are rounded correctly (half to even), floats that are read
    are not rounded to the next double. Underscores in numbers, "inf", "nan" and the sign
    of zero are left out. End-of-line conventions other than "\n" are not translated. *)
From Coq Require Export String Ascii QArith.
From Verif Require Export Common.
Local Open Scope Z_scope.

Definition text := list ascii.
Definition str (s : string) : text := list_ascii_of_string s.
Notation "'§' s" := (str s) (at level 1, format "'§' s").

Definition newline : ascii := ascii_of_nat 10.
Definition blank : ascii := ascii_of_nat 32.

(** str.isspace *)
Definition is_space (c : ascii) : bool :=
  let n := nat_of_ascii c in ((9 <=? n) && (n <=? 13) || (28 <=? n) && (n <=? 32) || (n =? 133) || (n =? 160))%nat.

(** ** Formatting *)

(** Decimal digits of a nonnegative number; [fuel] is the number of binary digits. *)
Definition chr (d : Z) : ascii := ascii_of_nat (Z.to_nat (48 + d)).
Fixpoint digits (fuel : nat) (n : Z) : text :=
  match fuel with
  | O => [chr n]
  | S fuel => if n <? 10 then [chr n] else digits fuel (n / 10) ++ [chr (n mod 10)]
  end.
Definition fuel_of (n : Z) : nat := Z.to_nat (Z.log2 n + 1).
Definition nonneg_to_text (n : Z) : text := digits (fuel_of n) n.

(** '%d' *)
Definition fmt_d (z : Z) : text := if z <? 0 then §"-" ++ nonneg_to_text (- z) else nonneg_to_text z.

(** '%5d', '%8s' etc.: at least [w] characters. *)
Definition pad (w : nat) (t : text) : text := repeat blank (w - length t) ++ t.

(** Rounding a / b to the next integer, half to even *)
Definition round_div (a b : Z) : Z :=
  let f := a / b in
  let r := a mod b in
  if 2 * r <? b then f else if b <? 2 * r then f + 1 else if Z.even f then f else f + 1.

(** '%.9f' etc.; [d > 0] decimals *)
Definition scaled (d : nat) (x : Q) : Z := round_div (Z.abs (Qnum x) * 10 ^ Z.of_nat d) (Zpos (Qden x)).
Fixpoint fraction_digits (d : nat) (n : Z) : text :=
  match d with O => [] | S d => fraction_digits d (n / 10) ++ [chr (n mod 10)] end.
Definition fmt_f (d : nat) (x : Q) : text :=
  let n := scaled d x in
  (if Qnum x <? 0 then §"-" else []) ++ nonneg_to_text (n / 10 ^ Z.of_nat d) ++ §"." ++ fraction_digits d n.

(** ** Parsing *)

(** str.split() *)
Definition emit (cur : text) : list text := match cur with [] => [] | _ => [cur] end.
Fixpoint words_from (cur t : text) : list text :=
  match t with
  | [] => emit cur
  | c :: t => if is_space c then emit cur ++ words_from [] t else words_from (cur ++ [c]) t
  end.
Definition str_split (t : text) : list text := words_from [] t.

(** Lines of a file, including the character for the end of the line *)
Fixpoint lines_from (cur t : text) : list text :=
  match t with
  | [] => emit cur
  | c :: t => if Ascii.eqb c newline then (cur ++ [c]) :: lines_from [] t else lines_from (cur ++ [c]) t
  end.
Definition lines (t : text) : list text := lines_from [] t.

(** str.strip(), also done by int() and float() *)
Fixpoint lstrip (t : text) : text := match t with c :: t' => if is_space c then lstrip t' else t | [] => [] end.
Definition strip (t : text) : text := rev (lstrip (rev (lstrip t))).

Definition digit (c : ascii) : option Z :=
  let n := Z.of_nat (nat_of_ascii c) in if (48 <=? n) && (n <=? 57) then Some (n - 48) else None.
(** Leading digits: value, number and rest *)
Fixpoint scan (v : Z) (k : nat) (t : text) : Z * nat * text :=
  match t with
  | c :: t' => match digit c with Some d => scan (10 * v + d) (S k) t' | None => (v, k, t) end
  | [] => (v, k, [])
  end.
Definition sign (t : text) : Z * text :=
  match t with
  | c :: t' => if Ascii.eqb c "-" then (-1, t') else if Ascii.eqb c "+" then (1, t') else (1, t)
  | [] => (1, [])
  end.

(** int(t) *)
Definition to_int (t : text) : res Z :=
  let '(s, t) := sign (strip t) in
  let '(v, k, t) := scan 0 0 t in
  match k, t with S _, [] => Ok (s * v) | _, _ => Raise ValueError end.

(** float(t): integer, decimals and exponent *)
Definition power_of_ten (x : Z) (e : Z) : Q :=
  if e <? 0 then Qmake x (Z.to_pos (10 ^ (- e))) else Qmake (x * 10 ^ e) 1.
Definition to_float (t : text) : res Q :=
  let '(s, t) := sign (strip t) in
  let '(v, k, t) := scan 0 0 t in
  let '(v, k, d, t) := match t with
    | c :: t' => if Ascii.eqb c "." then let '(v, k', t) := scan v 0 t' in (v, (k + k')%nat, k', t) else (v, k, O, t)
    | [] => (v, k, O, [])
    end in
  match k with
  | O => Raise ValueError
  | S _ =>
    match t with
    | [] => Ok (power_of_ten (s * v) (- Z.of_nat d))
    | c :: t =>
      if Ascii.eqb c "e" || Ascii.eqb c "E" then
        let '(se, t) := sign t in
        let '(e, ke, t) := scan 0 0 t in
        match ke, t with S _, [] => Ok (power_of_ten (s * v) (se * e - Z.of_nat d)) | _, _ => Raise ValueError end
      else Raise ValueError
    end
  end.

(** map with a function that may raise *)
Fixpoint map_res {A B} (f : A -> res B) (l : list A) : res (list B) :=
  match l with [] => Ok [] | x :: l => do y <- f x ;; do ys <- map_res f l ;; Ok (y :: ys) end.
