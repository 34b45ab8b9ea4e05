(** Specification of files in XCrySDen format. Nothing here refers to the functions that read or
    write them. *)
From Verif Require Import Text TextProofs.
From Verif Require Export GridSpec.
Local Open Scope nat_scope.

Record field := Field {
  f_origin : Q * Q * Q; f_a1 : Q * Q * Q; f_a2 : Q * Q * Q; f_a3 : Q * Q * Q; f_atoms : list (text * (Q * Q * Q));
  f_n : nat * nat * nat; f_values : list Q
}.
Definition triple_line (v : Q * Q * Q) (l : text) : Prop := exists ws, spaced ws l /\ reals ws v.
Definition species_line (a : text * (Q * Q * Q)) (l : text) : Prop := exists ws more, spaced (fst a :: ws ++ more) l /\ reals ws (snd a).
Definition shape_line (n : nat * nat * nat) (l : text) : Prop :=
  exists a b c, spaced [a; b; c] l /\ integer a (Z.of_nat (fst (fst n))) /\ integer b (Z.of_nat (snd (fst n))) /\ integer c (Z.of_nat (snd n)).
(** A line with nothing but a keyword, and any other line *)
Definition keyword (s : string) (l : text) : Prop := spaced [str s] l.
Definition other (s : string) (l : text) : Prop := single l /\ ~ keyword s l.
(** Anything, PRIMCOORD, number of atoms, atoms, anything, BEGIN_DATAGRID_3D_UNKNOWN, numbers of points,
    origin, spanning vectors, values, any number of them per line, anything *)
Definition xsf_parts (c : field) (wss : list (list text)) (ld post : list text) (f : text) : Prop :=
  exists pre key count la mid key' ln lo l1 l2 l3,
    f = file_of (pre ++ key :: count :: la ++ mid ++ key' :: ln :: lo :: l1 :: l2 :: l3 :: ld ++ post) /\
    Forall (other "PRIMCOORD") pre /\ keyword "PRIMCOORD" key /\
    (exists w more, spaced (w :: more) count /\ integer w (Z.of_nat (length (f_atoms c)))) /\ Forall2 species_line (f_atoms c) la /\
    Forall (other "BEGIN_DATAGRID_3D_UNKNOWN") mid /\ keyword "BEGIN_DATAGRID_3D_UNKNOWN" key' /\
    shape_line (f_n c) ln /\ triple_line (f_origin c) lo /\ triple_line (f_a1 c) l1 /\ triple_line (f_a2 c) l2 /\ triple_line (f_a3 c) l3 /\
    Forall2 spaced wss ld /\ Forall2 real (concat wss) (f_values c) /\ Forall single post.
Definition xsf_file (c : field) (f : text) : Prop := exists wss ld post, xsf_parts c wss ld post f.

(** In this format, the values are in the following order: the first index is the fastest. *)
Definition first_fastest (n1 n2 n3 : nat) (g : nat -> nat -> nat -> Q) : list Q :=
  flat_map (fun k => flat_map (fun j => map (fun i => g i j k) (seq 0 n1)) (seq 0 n2)) (seq 0 n3).
