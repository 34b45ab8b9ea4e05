(** Specification of the output of pw.x: which lines it has, in which order, with which
    formats of numbers, and what the other lines must not look like. Nothing here refers to
    the functions that read the output. *)
From Coq Require Import Qabs.
From Verif Require Import Text.
Local Open Scope nat_scope.

(** ** Lines

    Formats in PW/src of Quantum ESPRESSO: [F12.2], [I12], … print numbers as ['%12.2f'],
    ['%12d'], … do in Python. *)
Definition F (w d : nat) (x : Q) : text := pad w (fmt_f d x).
Definition I (w : nat) (z : Z) : text := pad w (fmt_d z).

Definition electrons_line (n : Q) : text := §"     number of electrons       = " ++ F 12 2 n.
Definition states_line (n : nat) : text := §"     number of Kohn-Sham states= " ++ I 12 (Z.of_nat n).
(** Name and width of the smearing, if any *)
Definition points_line (n : nat) (smearing : option (string * Q)) : text :=
  §"     number of k points=" ++ I 6 (Z.of_nat n) ++
  match smearing with Some (name, width) => §"  " ++ str name ++ §" smearing, width (Ry)=" ++ F 8 4 width | None => [] end.
Definition point_line (n : nat) (k : Q * Q * Q * Q) : text :=
  let '(x, y, z, w) := k in
  §"        k(" ++ I 5 (Z.of_nat n) ++ §") = (" ++ F 12 7 x ++ F 12 7 y ++ F 12 7 z ++ §"), wk =" ++ F 12 7 w.
Definition end_line : text := §"     End of self-consistent calculation".
Definition energy_line (e : list Q) : text := §"  " ++ concat (map (F 9 4) e).
Definition total_line (e : Q) : text := §"!    total energy              =" ++ F 17 8 e ++ §" Ry".

(** Metals; insulators without and with empty bands *)
Inductive level := Fermi (e : Q) | Highest (e : Q) | Highest_lowest (e e' : Q).
Definition level_line (l : level) : text :=
  match l with
  | Fermi e => §"     the Fermi energy is " ++ F 10 4 e ++ §" ev"
  | Highest e => §"     highest occupied level (ev): " ++ F 10 4 e
  | Highest_lowest e e' => §"     highest occupied, lowest unoccupied level (ev): " ++ F 10 4 e ++ F 10 4 e'
  end.

(** Eight energies in each line *)
Definition chunks {A} (l : list A) : list (list A) :=
  map (fun i => firstn 8 (skipn (8 * i) l)) (seq 0 ((length l + 7) / 8)).
Definition band_lines (e : list Q) : list text := map energy_line (chunks e).
(** [title]: the line with the k point *)
Definition block (title : text) (e : list Q) : list text := [[]; title; []] ++ band_lines e.

(** ** The output of a run *)
Record run := Run {
  electrons : Q; nbnd : nat; smearing : option (string * Q);
  points : list (Q * Q * Q * Q);
  bands : list (text * list Q);   (** titles and energies *)
  fermi : level; total : Q;
  (** Other lines in between *)
  o0 : list text; o1 : list text; o2 : list text; header : text; o3 : list text; o4 : list text; o5 : list text; o6 : list text
}.

Definition output (r : run) : list text :=
  o0 r ++ [electrons_line (electrons r)] ++ o1 r ++ [states_line (nbnd r)] ++ o2 r ++
  [points_line (length (points r)) (smearing r); header r] ++ map (fun x => point_line (fst x) (snd x)) (combine (seq 1 (length (points r))) (points r)) ++
  o3 r ++ [end_line] ++ flat_map (fun b => block (fst b) (snd b)) (bands r) ++
  o4 r ++ [level_line (fermi r)] ++ o5 r ++ [total_line (total r)] ++ o6 r.
Definition output_file (r : run) : text := concat (map (fun l => l ++ [newline]) (output r)).

(** ** What is required *)
Definition occurs (p t : text) : Prop := exists a b, t = a ++ p ++ b.
(** Other lines do not have these words in them. *)
Definition keywords : list string :=
  ["number of electrons"; "number of Kohn-Sham"; "number of k points"; "the Fermi energy is"; "highest occupied"; "End of"; "!"]%string.
Definition quiet (t : text) : Prop := ~ In newline t /\ forall k, In k keywords -> ~ occurs (str k) t.

Definition names : list string := ["gaussian"; "Methfessel-Paxton"; "Marzari-Vanderbilt"; "Fermi-Dirac"]%string.

(** The number does not fill all of its columns. *)
Definition fits (w d : nat) (x : Q) : Prop := length (fmt_f d x) < w.

Record good (r : run) : Prop := {
  good_others : forall t, In t (o0 r ++ o1 r ++ o2 r ++ header r :: o3 r ++ map fst (bands r) ++ o4 r ++ o5 r ++ o6 r) -> quiet t;
  good_smearing : forall name width, smearing r = Some (name, width) -> In name names /\ fits 8 4 width;
  good_number : length (bands r) = length (points r);
  good_count : (Z.of_nat (length (points r)) < 10 ^ 5)%Z;
  good_bands : forall t e, In (t, e) (bands r) -> length e = nbnd r /\ forall x, In x e -> fits 9 4 x;
  good_points : forall x y z w, In (x, y, z, w) (points r) -> fits 12 7 x /\ fits 12 7 y /\ fits 12 7 z /\ fits 12 7 w;
  good_level : match fermi r with Fermi _ => True | Highest _ => True | Highest_lowest _ e => fits 10 4 e end;
  good_total : fits 17 8 (total r)
}.

(** A number as printed with [d] decimals *)
Definition printed (d : nat) (x y : Q) : Prop := (Qabs (y - x) <= 1 # (2 * Z.to_pos (10 ^ Z.of_nat d)))%Q.
Definition printed_point (k k' : Q * Q * Q * Q) : Prop :=
  let '(x, y, z, w) := k in let '(x', y', z', w') := k' in printed 7 x x' /\ printed 7 y y' /\ printed 7 z z' /\ printed 7 w w'.
