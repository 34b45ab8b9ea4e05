(** Specification vocabulary: names of atomic orbitals. *)
From Verif Require Import Common Text SplitSpec TextProofs NmlModel.
Local Open Scope nat_scope.

(** Components of a name, empty if omitted: element, number of the atom,
    principal quantum number, shell (s, p, d, f, x), further label. *)
Record orbital := Orbital { element : text; atom : text; principal : text; shell : text; label : text }.
Definition components (o : orbital) : list text := [element o; atom o; principal o; shell o; label o].

(** "Ta1-5dz2", "S-p", "Ta", "5d", ... *)
Definition written (o : orbital) : text :=
  element o ++ atom o ++
  (match element o, principal o ++ shell o with _ :: _, _ :: _ => §"-" | _, _ => [] end) ++
  principal o ++ shell o ++ label o.

(** Elements have one or two letters; only atoms of a given element are numbered;
    there are labels of given shells only. *)
Definition proper (o : orbital) : Prop :=
  (element o = [] /\ atom o = [] \/
   exists c, is_upper c = true /\ (element o = [c] \/ exists d, is_lower d = true /\ element o = [c; d])) /\
  Forall (fun c => is_digit c = true) (atom o) /\
  Forall (fun c => is_digit c = true) (principal o) /\
  (shell o = [] /\ label o = [] \/ In (shell o) [§"s"; §"p"; §"d"; §"f"; §"x"]) /\
  Forall (fun c => is_space c = false) (label o).

(** A selection stands for all orbitals that have the given components. *)
Definition selects (s o : orbital) : Prop :=
  forall i x, nth_error (components s) i = Some x -> x <> [] -> nth_error (components o) i = Some x.

(** A group, e.g., "S-p, Ta-d{z2, x2-y2, xy}", selects the orbitals that any of
    the names it stands for selects. White space around names does not matter. *)
Definition names (t : text) (o : orbital) : Prop := exists a b, spaces a /\ spaces b /\ t = a ++ written o ++ b.
Definition group_selects (group : list alternative) (o : orbital) : Prop :=
  exists a l b w s, In (a, l, b) group /\ instance l w /\ proper s /\ names w s /\ selects s o.

(** Groups that stand for proper names *)
Definition group_ok (group : list alternative) : Prop :=
  group <> [] /\ goods "," "{" "}" group /\
  forall a l b w, In (a, l, b) group -> instance l w -> exists s, proper s /\ names w s.

(** ** Output of projwfc.x *)

(** A state: index of atom, species, number of radial function, angular momentum,
    and either index of spherical harmonic or, with spin-orbit coupling, the text
    with the total angular momentum. *)
Record state := State { at_index : Z; species : text; wfc : Z; ang : nat; mag : nat + text }.
Definition harmonics (l : nat) : list text :=
  nth l [[§"s"]; [§"pz"; §"px"; §"py"]; [§"dz2"; §"dxz"; §"dyz"; §"dx2-y2"; §"dxy"];
         [§"fz3"; §"fxz2"; §"fyz2"; §"fz(x2-y2)"; §"fxyz"; §"fx(x2-3y2)"; §"fy(3x2-y2)"]] [].
Definition right (w : nat) (t : text) : text := t ++ repeat blank (w - length t).

(** "     state #   1: atom   1 (Ta ), wfc  3 (l=2 m= 1)" or
    "     state #   1: atom   1 (Ta ), wfc  3 (l=2 j=1.5 m_j=-1.5)" *)
Definition state_line (i : nat) (s : state) : text :=
  §"     state #" ++ pad 4 (fmt_d (Z.of_nat i)) ++ §": atom " ++ pad 3 (fmt_d (at_index s)) ++ §" (" ++ right 3 (species s) ++
  §"), wfc " ++ pad 2 (fmt_d (wfc s)) ++ §" (l=" ++ fmt_d (Z.of_nat (ang s)) ++
  (match mag s with inl m => §" m=" ++ pad 2 (fmt_d (Z.of_nat m)) | inr t => §" j=" ++ t end) ++ §")".

(** Species are named after elements; numbers fit into the columns. *)
Definition state_ok (s : state) : Prop :=
  (exists c, is_upper c = true /\ (species s = [c] \/ exists d, is_lower d = true /\ species s = [c; d])) /\
  (0 <= at_index s < 1000)%Z /\ (0 <= wfc s < 100)%Z /\ ang s < 4 /\
  match mag s with inl m => 1 <= m <= 2 * ang s + 1 | inr t => Forall (fun c => c <> newline) t end.

(** The whole output: text before the list of states, the list, text after it. *)
Fixpoint state_lines (i : nat) (l : list state) : list text :=
  match l with [] => [] | s :: l => state_line i s :: state_lines (S i) l end.
Definition output (before : list text) (heading gap1 gap2 : text) (l : list state) (after : list text) : text :=
  concat (map (fun t => t ++ [newline]) (before ++ [heading; gap1; gap2] ++ state_lines 1 l ++ [[]] ++ after)).
Definition has_title (t : text) : Prop := exists a b, t = a ++ §"Atomic states used for projection" ++ b.

(** A state is called after species, radial function and spherical harmonic (only
    the shell with spin-orbit coupling); several states of the same name are
    numbered. *)
Definition base (s : state) : orbital :=
  match mag s with
  | inl m => let h := nth (m - 1) (harmonics (ang s)) [] in Orbital (species s) [] (fmt_d (wfc s)) (firstn 1 h) (skipn 1 h)
  | inr _ => Orbital (species s) [] (fmt_d (wfc s)) (nth (ang s) [§"s"; §"p"; §"d"; §"f"] []) []
  end.
Definition same (s s' : state) : bool :=
  teqb (species s) (species s') && (wfc s =? wfc s')%Z && (ang s =? ang s') &&
  match mag s, mag s' with inl m, inl m' => m =? m' | inr _, inr _ => true | _, _ => false end.
Definition occurrences (s : state) (l : list state) : nat := length (filter (same s) l).
Definition named (l : list state) (i : nat) (s : state) : orbital :=
  if occurrences s l <=? 1 then base s
  else Orbital (element (base s)) (fmt_d (Z.of_nat (occurrences s (firstn (S i) l)))) (principal (base s)) (shell (base s)) (label (base s)).
(** There is spin-orbit coupling or not. *)
Definition uniform (l : list state) : Prop :=
  (forall s, In s l -> exists m, mag s = inl m) \/ (forall s, In s l -> exists t, mag s = inr t).
