(** Specification of output of EPW with coordinates of q and k points. Nothing here refers to the
    functions that read it. *)
From Coq Require Import Qabs.
From Verif Require Import Text TextProofs.
From Verif Require Export GridSpec.
From Verif Require Import EpwoSpec.
Local Open Scope nat_scope.

(** The coordinate [x] (in units of a reciprocal lattice vector) is that of point [m] of a mesh of [n]
    points, up to a deviation of [eps / n] and periodicity. *)
Definition near (n : nat) (eps x : Q) (m : Z) : Prop :=
  (0 <= m < Z.of_nat n)%Z /\ exists z, (Qabs (x * inject_Z (Z.of_nat n) - inject_Z (m + z * Z.of_nat n)) <= eps)%Q.
(** It is not on the mesh. *)
Definition off (n : nat) (eps x : Q) : Prop := forall z, (eps < Qabs (x * inject_Z (Z.of_nat n) - inject_Z z))%Q.
Definition at_point (n : nat) (eps a b : Q) (p : Z * Z) : Prop := near n eps a (fst p) /\ near n eps b (snd p).
Definition off_mesh (n : nat) (eps a b : Q) : Prop := off n eps a \/ off n eps b.

(** Parts of the output *)
Inductive item := Other (t : text) | Qpoint (t : text) (a b : Q) | Kpoint (t : text) (a b : Q) (h1 h2 : text) (table : list text).
Definition item_lines (p : item) : list text := match p with Other t => [t] | Qpoint t _ _ => [t] | Kpoint t _ _ h1 h2 table => t :: h1 :: h2 :: table end.
(** A line that announces a point: the last three words are its coordinates. *)
Definition point_line (p : string) (a b : Q) (t : text) : Prop :=
  single t /\ begins p t /\ exists ws u v c, spaced (ws ++ [u; v; c]) t /\ real u a /\ real v b.
Definition quiet (t : text) : Prop := single t /\ ~ begins "     iq = " t /\ ~ begins "     ik = " t.

Section Output.
Context {V : Type}.
(** [row v l]: the line [l] of a table contains the value [v]. *)
Variables (row : V -> text -> Prop) (nq nk nmodes bands : nat) (eps : Q) (G : Z * Z -> nat -> Z * Z -> nat -> nat -> V).

Definition values_of (F : nat -> nat -> nat -> V) (table : list text) : Prop :=
  length table = bands * bands * nmodes /\
  forall j i nu, j < bands -> i < bands -> nu < nmodes -> row (F j i nu) (nth ((j * bands + i) * nmodes + nu) table []).
(** [output cur l]: [cur] is the last q point, if it is on the mesh. Tables belong to the q point and
    the k point above them. Those of points that are not on the mesh are arbitrary. *)
Inductive output : option (Z * Z) -> list item -> Prop :=
| Output_end cur : output cur []
| Output_other cur t l : quiet t -> output cur l -> output cur (Other t :: l)
| Output_q cur t a b p l : point_line "     iq = " a b t -> at_point nq eps a b p -> output (Some p) l -> output cur (Qpoint t a b :: l)
| Output_q_off cur t a b l : point_line "     iq = " a b t -> off_mesh nq eps a b -> output None l -> output cur (Qpoint t a b :: l)
| Output_k p t a b k h1 h2 table l : point_line "     ik = " a b t -> at_point nk eps a b k -> quiet h1 -> quiet h2 -> Forall quiet table ->
    values_of (fun j i nu => G p nu k i j) table -> output (Some p) l -> output (Some p) (Kpoint t a b h1 h2 table :: l)
| Output_k_off cur t a b h1 h2 table l : point_line "     ik = " a b t -> cur = None \/ off_mesh nk eps a b -> quiet h1 -> quiet h2 -> Forall quiet table ->
    output cur l -> output cur (Kpoint t a b h1 h2 table :: l).

(** There is a table for the k point [k] before the next q point. *)
Fixpoint in_section (k : Z * Z) (l : list item) : Prop :=
  match l with
  | [] => False
  | Other _ :: l => in_section k l
  | Qpoint _ _ _ :: l => False
  | Kpoint _ a b _ _ _ :: l => at_point nk eps a b k \/ in_section k l
  end.
(** There is a table for the k point [k] below the first appearance of the q point [p]. *)
Fixpoint given (p k : Z * Z) (l : list item) : Prop :=
  match l with
  | [] => False
  | Qpoint _ a b :: l => (at_point nq eps a b p /\ in_section k l) \/ (~ at_point nq eps a b p /\ given p k l)
  | _ :: l => given p k l
  end.
End Output.
Definition file_with (l : list item) : text := file_of (flat_map item_lines l).

(** Lines of tables: the last word is the coupling, or the last two words are its real and imaginary part. *)
Definition row_real (g : Q) (l : text) : Prop := exists ws b, spaced (ws ++ [b]) l /\ real b g.
Definition row_complex (g : Q * Q) (l : text) : Prop := exists ws a b, spaced (ws ++ [a; b]) l /\ real a (fst g) /\ real b (snd g).
