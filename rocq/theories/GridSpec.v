(** Specification of files with data on grids and crystal structures: which lines they have.
    Nothing here refers to the functions that read them. *)
From Coq Require Import Qabs.
From Verif Require Import Text TextProofs.
From Verif Require Export TabSpec.
Local Open Scope nat_scope.

(** Words separated by white space *)
Definition gap (t : text) : Prop := Forall (fun c => is_space c = true /\ c <> newline) t.
Inductive spaced : list text -> text -> Prop :=
| Spaced_end s : gap s -> spaced [] s
| Spaced_word s w ws t : gap s -> word w -> starts_space t -> spaced ws t -> spaced (w :: ws) (s ++ w ++ t).

(** Words that Python understands as numbers *)
Definition real (w : text) (x : Q) : Prop := to_float w = Ok x.
Definition integer (w : text) (z : Z) : Prop := to_int w = Ok z.
Definition reals (ws : list text) (v : Q * Q * Q) : Prop :=
  exists a b c, ws = [a; b; c] /\ real a (fst (fst v)) /\ real b (snd (fst v)) /\ real c (snd v).

(** ** Cube files: two comments, number of atoms and origin, three lines with number of points and
    step, number, charge and position of atoms, and the data, with the third index as the
    fastest. There may be more words after the origin, and any number of values per line. *)
Record content := Content {
  c_origin : Q * Q * Q; c_axes : list (nat * (Q * Q * Q)); c_atoms : list (Z * Q * (Q * Q * Q)); c_data : list Q
}.
Definition axis_line (a : nat * (Q * Q * Q)) (l : text) : Prop :=
  exists w ws, spaced (w :: ws) l /\ integer w (Z.of_nat (fst a)) /\ reals ws (snd a).
Definition atom_line (a : Z * Q * (Q * Q * Q)) (l : text) : Prop :=
  exists w u ws, spaced (w :: u :: ws) l /\ integer w (fst (fst a)) /\ real u (snd (fst a)) /\ reals ws (snd a).
Definition cube_file (c : content) (f : text) : Prop :=
  exists t1 t2 head la lb ld wss, f = file_of (t1 :: t2 :: head :: la ++ lb ++ ld) /\ single t1 /\ single t2 /\
    (exists w ws more, spaced (w :: ws ++ more) head /\ integer w (Z.of_nat (length (c_atoms c))) /\ reals ws (c_origin c)) /\
    length la = 3 /\ Forall2 axis_line (c_axes c) la /\ Forall2 atom_line (c_atoms c) lb /\
    Forall2 spaced wss ld /\ Forall2 real (concat wss) (c_data c).

(** Values at the points of a grid in this order *)
Definition in_order (n1 n2 n3 : nat) (g : nat -> nat -> nat -> Q) : list Q :=
  flat_map (fun i => flat_map (fun j => map (g i j) (seq 0 n3)) (seq 0 n2)) (seq 0 n1).

(** ** Vectors *)
Definition vadd (a b : Q * Q * Q) : Q * Q * Q := ((fst (fst a) + fst (fst b))%Q, (snd (fst a) + snd (fst b))%Q, (snd a + snd b)%Q).
Definition vscale (s : Q) (a : Q * Q * Q) : Q * Q * Q := ((s * fst (fst a))%Q, (s * snd (fst a))%Q, (s * snd a)%Q).
Definition veq (a b : Q * Q * Q) : Prop := (fst (fst a) == fst (fst b) /\ snd (fst a) == snd (fst b) /\ snd a == snd b)%Q.
Definition determinant (a b c : Q * Q * Q) : Q :=
  let '(ax, ay, az) := a in let '(bx, by_, bz) := b in let '(cx, cy, cz) := c in
  (ax * (by_ * cz - bz * cy) - ay * (bx * cz - bz * cx) + az * (bx * cy - by_ * cx))%Q.

(** ** POSCAR files: title, scale, lattice vectors, elements, numbers of atoms, possibly a
    line [Selective dynamics], type of coordinates, and positions, possibly followed by flags *)
Record crystal := Crystal { p_scale : Q; p_t1 : Q * Q * Q; p_t2 : Q * Q * Q; p_t3 : Q * Q * Q; p_atoms : list (text * list (Q * Q * Q)) }.
Definition vector_line (v : Q * Q * Q) (l : text) : Prop := exists ws, spaced ws l /\ reals ws v.
Definition position_line (v : Q * Q * Q) (l : text) : Prop := exists ws flags, spaced (ws ++ flags) l /\ reals ws v.
Definition poscar_file (selective : option text) (p : crystal) (rest : list text) (f : text) : Prop :=
  exists title scale l1 l2 l3 names counts mode la w ws,
    f = file_of (title :: scale :: l1 :: l2 :: l3 :: names :: counts :: (match selective with Some l => [l] | None => [] end) ++ mode :: la ++ rest) /\
    Forall single (title :: mode :: (match selective with Some l => [l] | None => [] end) ++ rest) /\
    spaced [w] scale /\ real w (p_scale p) /\ vector_line (p_t1 p) l1 /\ vector_line (p_t2 p) l2 /\ vector_line (p_t3 p) l3 /\
    spaced (map fst (p_atoms p)) names /\ spaced ws counts /\ Forall2 (fun w n => integer w (Z.of_nat n)) ws (map (fun x => length (snd x)) (p_atoms p)) /\
    Forall2 position_line (flat_map snd (p_atoms p)) la.
