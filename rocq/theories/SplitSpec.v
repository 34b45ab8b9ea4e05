(** Expressions with brackets and what they stand for. *)
From Verif Require Import Text.
Local Open Scope nat_scope.

(** A sequence of literal text and groups in brackets; a group consists of alternatives, which
    may be surrounded by white space. *)
Inductive tree := Lit (t : text) | Alt (alts : list (text * list tree * text)).
Definition alternative : Type := (text * list tree * text)%type.

(** How expressions are written *)
Section Write.
Variable sd od cd : ascii.
Fixpoint join_with (l : list text) : text := match l with [] => [] | [t] => t | t :: l => t ++ sd :: join_with l end.
Fixpoint write (x : tree) : text :=
  match x with
  | Lit t => t
  | Alt alts => od :: join_with (map (fun alt => match alt with (a, l, b) => a ++ concat (map write l) ++ b end) alts) ++ [cd]
  end.
Definition write_alternatives (alts : list alternative) : text := join_with (map (fun alt => match alt with (a, l, b) => a ++ concat (map write l) ++ b end) alts).

(** Literal text has none of the special characters, white space is not the separator. *)
Definition literal (t : text) : Prop := Forall (fun c => c <> sd /\ c <> od /\ c <> cd /\ c <> "<"%char /\ c <> ">"%char /\ c <> newline) t.
Definition padding (t : text) : Prop := Forall (fun c => is_space c = true /\ c <> sd) t.
(** White space at the ends of an alternative belongs to the padding. *)
Definition trimmed (l : list tree) : Prop :=
  match l with Lit t :: _ => exists c u, t = c :: u /\ is_space c = false | _ => True end /\
  match rev l with Lit t :: _ => exists u c, t = u ++ [c] /\ is_space c = false | _ => True end.
Inductive good : list tree -> Prop :=
| good_nil : good []
| good_lit t l : literal t -> good l -> good (Lit t :: l)
| good_alt alts l : alts <> [] -> goods alts -> good l -> good (Alt alts :: l)
with goods : list alternative -> Prop :=
| goods_nil : goods []
| goods_cons a l b alts : padding a -> padding b -> trimmed l -> good l -> goods alts -> goods ((a, l, b) :: alts).
(** The delimiters are different from each other and cannot be confused with references. *)
Definition delimiters : Prop := sd <> od /\ sd <> cd /\ od <> cd /\
  Forall (fun c => is_space c = false /\ digit c = None /\ c <> "<"%char /\ c <> ">"%char /\ c <> newline) [od; cd] /\ digit sd = None /\ sd <> "<"%char /\ sd <> ">"%char.
End Write.

(** The language of an expression: for each group, one alternative is chosen. *)
Inductive instance : list tree -> text -> Prop :=
| instance_nil : instance [] []
| instance_lit t l w : instance l w -> instance (Lit t :: l) (t ++ w)
| instance_alt alts a l' b l v w : In (a, l', b) alts -> instance l' v -> instance l w -> instance (Alt alts :: l) (v ++ w).

(** The elements in order: the last group varies most slowly, alternatives come in the order in
    which they are written. *)
Fixpoint expand (x : tree) : list text :=
  match x with
  | Lit t => [t]
  | Alt alts => flat_map (fun alt => match alt with (_, l, _) => fold_right (fun x r => flat_map (fun w => map (fun v => v ++ w) (expand x)) r) [[]] l end) alts
  end.
Definition expand_list (l : list tree) : list text := fold_right (fun x r => flat_map (fun w => map (fun v => v ++ w) (expand x)) r) [[]] l.
Definition expand_alternatives (alts : list alternative) : list text := flat_map (fun alt => expand_list (snd (fst alt))) alts.
