(** Specification vocabulary: input data for Wannier90 that can be written and read back. *)
From Coq Require Import Qabs.
From Verif Require Import WinModel TextProofs.
Local Open Scope nat_scope.

(** Keys that are written *)
Definition optional_ints := ["num_bands"; "num_wann"; "dis_num_iter"; "num_iter"; "search_shells"]%string.
Definition optional_floats := ["dis_win_min"; "dis_win_max"; "dis_froz_min"; "dis_froz_max"]%string.
Definition optional_bools := ["write_hr"; "bands_plot"]%string.
Definition blocks := ["proj"; "kpoint_path"; "unit_cell"; "atoms_coords"; "at"; "atoms"; "mp_grid"; "kpoints"]%string.
Definition written (k : text) : Prop := In k (map str (optional_ints ++ optional_floats ++ optional_bools ++ blocks)).

Definition without (c : ascii) (t : text) : Prop := Forall (fun d => d <> c) t.
(** A single line without blanks at its ends *)
Definition stripped_line (t : text) : Prop := no_newline t /\ strip t = t.
Definition occurs (p t : text) : Prop := exists x y, t = x ++ p ++ y.

Record good (s : dict wval) : Prop := {
  g_int : forall k v, In k optional_ints -> dget s (str k) = Some v -> exists z, v = WInt z;
  g_float : forall k v, In k optional_floats -> dget s (str k) = Some v -> exists x, v = WFloat x;
  g_bool : forall k v, In k optional_bools -> dget s (str k) = Some v -> exists b, v = WBool b;
  g_proj : exists d, dget s §"proj" = Some (WProj d) /\ d <> [] /\ NoDup (map fst d) /\
    forall a b, In (a, b) d -> stripped_line a /\ stripped_line b /\ without ":" a /\ ~ occurs §"end" (a ++ §": " ++ b);
  g_path : exists l, dget s §"kpoint_path" = Some (WTexts l) /\ l <> [] /\
    forall t, In t l -> stripped_line t /\ ~ (exists u, t = §"end" ++ u);
  g_cell : exists r1 r2 r3, dget s §"unit_cell" = Some (WRows [r1; r2; r3]);
  g_coords : exists c, dget s §"atoms_coords" = Some (WText c) /\ solid c /\ without "=" c;
  g_atoms : exists l r, dget s §"at" = Some (WTexts l) /\ dget s §"atoms" = Some (WRows r) /\ length l = length r /\
    forall X, In X l -> word X /\ X <> §"end";
  g_grid : forall v, dget s §"mp_grid" = Some v -> exists a b c, v = WGrid a b c;
  g_points : exists l, dget s §"kpoints" = Some (WPoints l)
}.

(** The mesh belongs to the k points. *)
Definition good_mesh (s : dict wval) : Prop := exists a b c l,
  dget s §"mp_grid" = Some (WGrid a b c) /\ dget s §"kpoints" = Some (WPoints l) /\ l <> [] /\ (a * b * c = Z.of_nat (length l))%Z.

(** The representation of the floats among the parameters is a word that is read as the same number. *)
Definition good_repr (repr_f : Q -> text) (s : dict wval) : Prop := forall k x, In k optional_floats -> dget s (str k) = Some (WFloat x) ->
  word (repr_f x) /\ without "=" (repr_f x) /\ exists y, to_float (repr_f x) = Ok y /\ (y == x)%Q.

(** Equal up to nine decimals *)
Definition near (x y : Q) : Prop := (Qabs (x - y) <= 1 # 2000000000)%Q.
Definition near_row (r r' : row) : Prop :=
  near (fst (fst r)) (fst (fst r')) /\ near (snd (fst r)) (snd (fst r')) /\ near (snd r) (snd r').
Definition near_value (v v' : wval) : Prop :=
  match v, v' with
  | WFloat x, WFloat x' => (x == x')%Q
  | WRows l, WRows l' => Forall2 near_row l l'
  | WPoints l, WPoints l' => Forall2 (fun k k' => near_row (fst k) (fst k') /\ near (snd k) (snd k')) l l'
  | WFloat _, _ | _, WFloat _ | WRows _, _ | _, WRows _ | WPoints _, _ | _, WPoints _ => False
  | _, _ => v = v'
  end.
