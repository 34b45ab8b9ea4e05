(** Specification of the output of EPW with [prtgkk]. Nothing here refers to the functions that read
    it. *)
From Verif Require Import Text TextProofs.
From Verif Require Export GridSpec.
Local Open Scope nat_scope.

Definition begins (p : string) (t : text) : Prop := exists u, t = str p ++ u.

(** Parts of the output: other lines, lines that announce a q point, and lines that announce a k
    point, followed by two lines and a table *)
Inductive part := Line (t : text) | Qline (t : text) | Kblock (t h1 h2 : text) (table : list text).
Definition part_lines (p : part) : list text := match p with Line t => [t] | Qline t => [t] | Kblock t h1 h2 table => t :: h1 :: h2 :: table end.
Definition output_of (l : list part) : text := file_of (flat_map part_lines l).

(** The last two words in a line of the table are the frequency and the coupling. *)
Definition table_line (w g : Q) (l : text) : Prop := exists ws a b, spaced (ws ++ [a; b]) l /\ real a w /\ real b g.
(** The first band index is the slowest, the mode is the fastest. *)
Definition table_of (nbnd nmodes : nat) (w : nat -> Q) (g : nat -> nat -> nat -> Q) (table : list text) : Prop :=
  length table = nbnd * nbnd * nmodes /\
  forall j i nu, j < nbnd -> i < nbnd -> nu < nmodes -> table_line (w nu) (g j i nu) (nth ((j * nbnd + i) * nmodes + nu) table []).

(** [progress … iq ik l iq' ik']: before [l], [iq] q points and, for the last of them, [ik] k points have
    been written, after [l], [iq'] q points and, for the last of them, [ik'] k points. *)
Inductive progress (nq nmodes nk nbnd : nat) (w : nat -> nat -> Q) (g : nat -> nat -> nat -> nat -> nat -> Q) : nat -> nat -> list part -> nat -> nat -> Prop :=
| Progress_none iq ik : progress nq nmodes nk nbnd w g iq ik [] iq ik
| Progress_line iq ik t l iq' ik' : single t -> ~ begins "     iq = " t -> ~ begins "     ik = " t ->
    progress nq nmodes nk nbnd w g iq ik l iq' ik' -> progress nq nmodes nk nbnd w g iq ik (Line t :: l) iq' ik'
| Progress_q iq ik t l iq' ik' : single t -> begins "     iq = " t -> iq = 0 \/ ik = nk ->
    progress nq nmodes nk nbnd w g (S iq) 0 l iq' ik' -> progress nq nmodes nk nbnd w g iq ik (Qline t :: l) iq' ik'
| Progress_k iq ik t h1 h2 table l iq' ik' : single t -> single h1 -> single h2 -> begins "     ik = " t -> iq < nq -> ik < nk ->
    table_of nbnd nmodes (w iq) (fun j i nu => g iq nu ik i j) table ->
    progress nq nmodes nk nbnd w g (S iq) (S ik) l iq' ik' -> progress nq nmodes nk nbnd w g (S iq) ik (Kblock t h1 h2 table :: l) iq' ik'.
(** The complete output: for each of the [nq] q points, a line and one table for each of the [nk] k points *)
Definition complete (nq nmodes nk nbnd : nat) (w : nat -> nat -> Q) (g : nat -> nat -> nat -> nat -> nat -> Q) (l : list part) : Prop :=
  exists ik, progress nq nmodes nk nbnd w g 0 0 l nq ik /\ (nq = 0 \/ ik = nk).

(** Range-separation parameter: lines whose first word is L *)
Inductive remark := Note (ws : list text) (t : text) | Lvalue (d : text) (more : list text) (t : text).
Definition remark_line (r : remark) : text := match r with Note _ t => t | Lvalue _ _ t => t end.
Definition good_remark (r : remark) : Prop :=
  match r with
  | Note ws t => spaced ws t /\ (forall ws', ws <> str "L" :: ws')
  | Lvalue d more t => spaced (str "L" :: d :: more) t /\ exists x, real d x
  end.
