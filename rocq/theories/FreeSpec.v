(** Fortran namelists in free layout and what they mean. *)
From Verif Require Import Text NmlModel QeSpec.
Import ListNotations.
Local Open Scope nat_scope.

(** A value as it stands in the file *)
Inductive written := Word (t : text) | Quoted (q : ascii) (s : text).
Definition raw (v : written) : text := match v with Word t => t | Quoted q s => q :: s ++ [q] end.
Definition value (v : written) : value := match v with Word t => convert t | Quoted _ s => VStr s end.

(** An assignment: [lead], a name, possibly followed by white space and an index in
    parentheses, [before], the equality sign, and values, each of them after [sep]. *)
Record assignment := Assignment {
  lead : text;
  name : text;
  index : option (text * nat);
  before : text;
  values : list (text * written)
}.
Definition write_index (i : option (text * nat)) : text :=
  match i with None => [] | Some (b, i) => b ++ §"(" ++ fmt_d (Z.of_nat i) ++ §")" end.
Definition write_assignment (a : assignment) : text :=
  lead a ++ name a ++ write_index (index a) ++ before a ++ §"=" ++ flat_map (fun v => fst v ++ raw (snd v)) (values a).

(** A namelist, preceded by other [text] *)
Record namelist := Namelist {
  other : text;
  title : text;
  assignments : list assignment;
  final : text
}.
Definition write_namelist (n : namelist) : text :=
  other n ++ §"&" ++ title n ++ flat_map write_assignment (assignments n) ++ final n ++ §"/".

(** White space, commas and semicolons separate names and values. They are not
    necessary around the equality sign. *)
Definition separator (t : text) : Prop := Forall (fun c => is_sep c = true) t.
Definition opening (t : text) : bool := match t with c :: _ => Ascii.eqb c "(" | [] => false end.
(** Words do not begin with a parenthesis, strings do not contain quotation marks. *)
Definition good_written (v : written) : Prop :=
  match v with
  | Word t => token_ok t /\ opening t = false /\ has_bars t = false
  | Quoted q s => is_quote q = true /\ has_bars s = false /\ Forall (fun c => is_quote c = false /\ c <> "!"%char /\ c <> newline) s
  end.
Definition good_values (vs : list (text * written)) : Prop :=
  Forall (fun v => separator (fst v) /\ good_written (snd v)) vs /\ Forall (fun v => fst v <> []) (tl vs).
Record good_assignment (a : assignment) : Prop := {
  lead_ok : separator (lead a) /\ lead a <> [];
  name_ok : token_ok (name a) /\ Forall (fun c => c <> "("%char) (name a);
  index_ok : forall b i, index a = Some (b, i) -> Forall (fun c => is_space c = true) b /\ 1 <= i;
  before_ok : separator (before a);
  values_ok : good_values (values a)
}.
(** Text outside namelists *)
Definition outside (t : text) : Prop := Forall (fun c => is_quote c = false /\ c <> "!"%char /\ c <> "&"%char) t.
Record good_namelist (n : namelist) : Prop := {
  other_ok : outside (other n);
  title_ok : title n <> [] /\ Forall (fun c => is_word c = true) (title n);
  assignments_ok : Forall good_assignment (assignments n);
  final_ok : separator (final n) /\ (assignments n <> [] \/ final n <> [])
}.

(** The meaning: The same name may be used several times. Each assignment sets the
    elements of a list beginning with the given index, the first one by default. In the
    end, a single value stands for itself, others form a list. *)
Definition first (i : option (text * nat)) : nat := match i with Some (_, i) => i | None => 1 end.
Definition values_of (a : assignment) : list NmlModel.value := map (fun v => value (snd v)) (values a).
Definition overwrite (l : list NmlModel.value) (i : nat) (vs : list NmlModel.value) : list NmlModel.value :=
  firstn i (l ++ repeat VNone (i - length l)) ++ vs ++ skipn (i + length vs) l.
Definition about (k : text) (a : assignment) : bool := if list_eq_dec ascii_dec (lower (name a)) k then true else false.
Definition list_of (l : list assignment) (k : text) : list NmlModel.value :=
  fold_left (fun l a => overwrite l (first (index a) - 1) (values_of a)) (filter (about k) l) [].
Definition result (l : list NmlModel.value) : NmlModel.value := match l with [v] => v | l => VList l end.
(** Names in the order of their first occurrence *)
Definition names (l : list assignment) : list text := rev (nodup (list_eq_dec ascii_dec) (rev (map (fun a => lower (name a)) l))).
Definition meaning (n : namelist) : text * dict NmlModel.value :=
  (lower (title n), map (fun k => (k, result (list_of (assignments n) k))) (names (assignments n))).

(** [a] is an assignment to element [i] (counted from zero) of the list [k]. *)
Definition sets (k : text) (i : nat) (a : assignment) : Prop :=
  lower (name a) = k /\ first (index a) - 1 <= i < first (index a) - 1 + length (values a).

(** ** Values *)
Definition logical_true : list string := [".true."; ".t."; "true"; "t"]%string.
Definition logical_false : list string := [".false."; ".f."; "false"; "f"]%string.
(** Digits, signs and points *)
Definition numeric (t : text) : Prop := Forall (fun c => digit c <> None \/ In c (§"+-.")) t.
