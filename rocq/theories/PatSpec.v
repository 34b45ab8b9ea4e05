(** Specification of XML files with displacement patterns. Nothing here refers to the function that
    reads them. *)
From Verif Require Import Text TextProofs.
From Verif Require Export GridSpec.
Local Open Scope nat_scope.

(** Does a text occur in a line? *)
Definition occurs (s : string) (l : text) : Prop := exists a b, l = a ++ str s ++ b.
Definition silent (s : string) (l : text) : Prop := single l /\ ~ occurs s l.
(** A line with real and, after a comma, imaginary part *)
Definition complex_line (x : Q) (l : text) : Prop :=
  single l /\ exists g w g' more, l = g ++ w ++ g' ++ more /\ gap g /\ word w /\ ~ In ","%char w /\ gap g' /\ real w x /\ (more = [] \/ exists t, more = ","%char :: t).
(** Anything, the opening tag and one line for each element *)
Definition pattern_lines (row : list Q) (ls : list text) : Prop :=
  exists pre tag lx, ls = pre ++ tag :: lx /\ Forall (silent "<DISPLACEMENT_PATTERN ") pre /\ single tag /\ occurs "<DISPLACEMENT_PATTERN " tag /\ Forall2 complex_line row lx.
(** Anything, the number of representations, the patterns, anything *)
Definition patterns_file (count : Z) (rows : list (list Q)) (rest : list text) (f : text) : Prop :=
  exists pre tag l w lss, f = file_of (pre ++ tag :: l :: concat lss ++ rest) /\ Forall (silent "<NUMBER_IRR_REP ") pre /\ single tag /\ occurs "<NUMBER_IRR_REP " tag /\
    spaced [w] l /\ integer w count /\ Forall2 pattern_lines rows lss /\ Forall single rest.
