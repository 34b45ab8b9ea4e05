(** What it means that a file with force constants or dynamical matrices is restored. *)
From Verif Require Import FrcModel.
From Coq Require Import Qabs.
Local Open Scope nat_scope.

(** Agreement to [d] decimals *)
Definition near (d : nat) (x y : Q) : Prop := (Qabs (x - y) <= 1 # (2 * Z.to_pos (10 ^ Z.of_nat d)))%Q.

(** Symbols of chemical elements: one or two characters, no white space *)
Definition symbol (X : text) : Prop := 1 <= length X <= 2 /\ Forall (fun c => is_space c = false) X.

(** Atoms of the same kind have the same mass. *)
Definition one_mass (order : list text) (amass : list Q) : Prop :=
  forall i j, i < length order -> j < length order -> nth i order [] = nth j order [] -> nth i amass 0%Q = nth j amass 0%Q.

(** Lengths are written as multiples of the lattice constant with [d] decimals; the lattice
    constant has seven decimals. *)
Definition length_restored (d : nat) (alat x y : Q) : Prop :=
  exists u v, near d u (x / alat) /\ near 7 v alat /\ (y == u * v)%Q.

Definition table_restored (P : Q -> Q -> Prop) (T : nat -> nat -> Q) (T' : list (list Q)) : Prop :=
  length T' = 3 /\ forall x, x < 3 -> length (nth x T' []) = 3 /\ forall y, y < 3 -> P (T x y) (nth y (nth x T' []) 0%Q).

Record geometry_restored (alat : Q) (amass : list Q) (at_ tau : nat -> nat -> Q) (order : list text) (g : geometry) : Prop := {
  order_restored : g_order g = order;
  amass_restored : length (g_amass g) = length order /\ forall i, i < length order -> near 10 (nth i (g_amass g) 0%Q) (nth i amass 0%Q);
  at_restored : table_restored (fun x y => length_restored 9 alat x y) at_ (g_at g);
  tau_restored : length (g_tau g) = length order /\ forall i, i < length order -> length (nth i (g_tau g) []) = 3 /\
    forall x, x < 3 -> length_restored 10 alat (tau i x) (nth x (nth i (g_tau g) []) 0%Q)
}.

(** Dielectric tensor and Born effective charges *)
Definition near_table (d : nat) : (nat -> nat -> Q) -> list (list Q) -> Prop := table_restored (fun x y => near d y x).
Definition epsil_restored (epsil : nat -> nat -> Q) (e : option (list (list Q))) : Prop := exists T, e = Some T /\ near_table 12 epsil T.
Definition zeu_restored (n : nat) (zeu : nat -> nat -> nat -> Q) (z : option (list (nat * list (list Q)))) : Prop :=
  exists l, z = Some l /\ map fst l = seq 0 n /\ forall i T, In (i, T) l -> near_table 7 (zeu i) T.

(** Indices of force constants *)
Definition in_range (n : nat) (nr : nat * nat * nat) (i : frc_index) : Prop :=
  let '(na1, na2, (m1, m2, m3), (j1, j2)) := i in let '(nr1, nr2, nr3) := nr in
  na1 < n /\ na2 < n /\ m1 < nr1 /\ m2 < nr2 /\ m3 < nr3 /\ j1 < 3 /\ j2 < 3.

(** Contract of a format: the result is a word that is read as some number close to the
    original one *)
Definition format_ok (fmt : Q -> text) (round : Q -> Q) : Prop := forall x, fmt x <> [] /\ Forall (fun c => is_space c = false) (fmt x) /\ to_float (fmt x) = Ok (round x).
