(** Proofs about files with force constants: lines. *)
From Verif Require Import TextProofs FrcModel FrcSpec.
From Coq Require Import Qabs Lqa.
Local Open Scope nat_scope.

(** ** Lines and their words *)
Definition is_line (t : text) (ws : list text) : Prop := (exists l, t = l ++ [newline] /\ no_newline l) /\ str_split t = ws.
Definition tail_line (t : text) (ws : list text) : Prop := is_line t ws /\ starts_space t.

Lemma line_end : tail_line [newline] [].
Proof. split; [|reflexivity]. split; [|reflexivity]. exists []. split; [reflexivity|constructor]. Qed.

Lemma line_app u t ws ws' : no_newline u -> is_line t ws -> str_split (u ++ t) = ws' -> is_line (u ++ t) ws'.
Proof. intros Hu [(l & -> & Hl) _] E. split; [|exact E]. exists (u ++ l). rewrite app_assoc. split; [reflexivity|apply no_newline_app; assumption]. Qed.

Lemma line_pad n w t ws : word w -> tail_line t ws -> is_line (pad n w ++ t) (w :: ws).
Proof.
  intros Hw [Ht St]. apply (line_app _ _ ws); [apply no_newline_pad, no_newline_solid, Hw|exact Ht|]. rewrite split_pad by assumption. f_equal. apply Ht.
Qed.

Lemma line_word w t ws : word w -> tail_line t ws -> is_line (w ++ t) (w :: ws).
Proof. intros Hw Ht. exact (line_pad 0 w t ws Hw Ht). Qed.

Lemma line_blanks s t ws : s <> [] -> Forall (fun c => c = blank) s -> is_line t ws -> tail_line (s ++ t) ws.
Proof.
  intros NE Hs Ht. assert (Sp : spaces s) by (revert Hs; apply Forall_impl; intros c ->; reflexivity). split.
  - apply (line_app _ _ ws); [revert Hs; apply Forall_impl; intros c ->; discriminate|exact Ht|]. rewrite words_spaces by exact Sp. apply Ht.
  - destruct s as [|c s]; [congruence|]. inversion Hs; subst. reflexivity.
Qed.

Lemma line_field n w t ws : word w -> tail_line t ws -> tail_line (field n w ++ t) (w :: ws).
Proof. intros Hw Ht. apply (line_blanks [blank] (pad n w ++ t)); [discriminate|repeat constructor|apply line_pad; assumption]. Qed.

Lemma line_fields n d l t ws : tail_line t ws -> tail_line (fields n d l ++ t) (map (fmt_f d) l ++ ws).
Proof.
  intros Ht. unfold fields. induction l as [|x l IH]; [exact Ht|]. cbn [map concat app]. rewrite <- app_assoc. apply line_field; [apply word_fmt_f|exact IH].
Qed.

(** ** Several lines *)
Definition are_lines (t : text) (rows : list (list text)) : Prop := forall rest, words_of (t ++ rest) = rows ++ words_of rest.

Lemma lines_nil : are_lines [] [].
Proof. intros rest. reflexivity. Qed.
Lemma lines_one t ws : is_line t ws -> are_lines t [ws].
Proof. intros [(l & -> & Hl) E] rest. unfold words_of. rewrite <- app_assoc. cbn [app]. rewrite lines_app by exact Hl. cbn [map]. rewrite E. reflexivity. Qed.
Lemma lines_two t t' rows rows' : are_lines t rows -> are_lines t' rows' -> are_lines (t ++ t') (rows ++ rows').
Proof. intros H H' rest. rewrite <- !app_assoc, H, H'. reflexivity. Qed.
Lemma lines_concat {A} (f : A -> text) (g : A -> list (list text)) l : (forall x, In x l -> are_lines (f x) (g x)) -> are_lines (concat (map f l)) (flat_map g l).
Proof. induction l as [|x l IH]; intros H; [apply lines_nil|]. cbn. apply lines_two; [apply H; left; reflexivity|apply IH; intros y Hy; apply H; right; exact Hy]. Qed.
Lemma lines_empty : are_lines [newline] [[]].
Proof. apply lines_one. apply line_end. Qed.

(** ** Tables *)
Definition table_rows (d : nat) (T : nat -> nat -> Q) : list (list text) := map (fun x => map (fmt_f d) (map (T x) (seq 0 3))) (seq 0 3).

Lemma lines_table w d T : are_lines (table_lines w d T) (table_rows d T).
Proof.
  unfold table_lines, table_rows. assert (E : map (fun x => map (fmt_f d) (map (T x) (seq 0 3))) (seq 0 3) = flat_map (fun x => [map (fmt_f d) (map (T x) (seq 0 3))]) (seq 0 3)) by reflexivity. rewrite E.
  apply lines_concat. intros x _. apply lines_one. rewrite <- (app_nil_r (map (fmt_f d) _)). apply line_fields, line_end.
Qed.

Lemma row3_ok d a b c : (0 < d)%nat -> row3 [fmt_f d a; fmt_f d b; fmt_f d c] = Ok [rounded d a; rounded d b; rounded d c].
Proof. intros H. unfold row3. cbn [map_res]. rewrite !to_float_fmt by exact H. reflexivity. Qed.

Lemma fmt_f_cons d x : exists c t, fmt_f d x = c :: t.
Proof. destruct (word_fmt_f d x) as [NE _]. destruct (fmt_f d x); [congruence|eauto]. Qed.

Definition table_values (d : nat) (T : nat -> nat -> Q) : list (list Q) := map (fun x => map (fun y => rounded d (T x y)) (seq 0 3)) (seq 0 3).
Lemma table_ok d T f : (0 < d)%nat -> table 3 (table_rows d T ++ f) = Ok (table_values d T, f).
Proof.
  intros H. unfold table_rows, table_values. cbn [map seq app table]. cbn [cells bind]. rewrite row3_ok by exact H. cbn [bind cells]. rewrite row3_ok by exact H. cbn [bind cells]. rewrite row3_ok by exact H. reflexivity.
Qed.

Lemma near_rounded d x : near d (rounded d x) x.
Proof. unfold near. rewrite Qabs_Qminus. apply rounded_near. Qed.

Lemma lt3 x : x < 3 -> x = 0 \/ x = 1 \/ x = 2.
Proof. lia. Qed.

Lemma table_values_near d T : near_table d T (table_values d T).
Proof.
  split; [reflexivity|]. intros x Hx. apply lt3 in Hx as [->|[->| ->]]; (split; [reflexivity|]; intros y Hy; apply lt3 in Hy as [->|[->| ->]]; cbn; apply near_rounded).
Qed.

(** ** Species *)
Lemma in_distinct x : forall l seen, In x (distinct seen l) <-> In x l /\ ~ In x seen.
Proof.
  induction l as [|y l IH]; intros seen; cbn [distinct]; [cbn; tauto|]. destruct (in_dec pair_dec y seen) as [I|NI].
  - rewrite IH. cbn. split; [tauto|]. intros [[->|H] N]; [contradiction|tauto].
  - cbn. rewrite IH. cbn. split; [intros [->|[H N]]; [tauto|]; tauto|]. intros [[->|H] N]; [tauto|]. destruct (pair_dec y x) as [->|NE]; [tauto|]. right. split; [exact H|]. intros [E|E]; [congruence|contradiction].
Qed.

Lemma in_insert key x y l : In x (insert_pair key y l) <-> x = y \/ In x l.
Proof. induction l as [|z l IH]; cbn; [intuition congruence|]. destruct (key (fst y) <=? key (fst z)); cbn; [intuition congruence|]. rewrite IH. tauto. Qed.

Lemma in_palette x order amass : In x (palette order amass) <-> In x (combine order amass).
Proof.
  unfold palette. assert (G : forall l, In x (fold_right (insert_pair (fun X => index_of X order)) [] l) <-> In x l) by (induction l as [|y l IH]; [reflexivity|]; cbn [fold_right]; rewrite in_insert, IH; cbn; intuition congruence).
  rewrite G, in_distinct. cbn. tauto.
Qed.

Lemma index_of_nth X : forall l, In X l -> nth_error l (index_of X l) = Some X.
Proof. induction l as [|Y l IH]; intros H; [contradiction|]. cbn [index_of]. destruct (text_dec X Y) as [->|N]; [reflexivity|]. destruct H as [H|H]; [congruence|]. exact (IH H). Qed.

Lemma palette_lookup order amass i : length amass = length order -> one_mass order amass -> i < length order ->
  nth_error (palette order amass) (index_of (nth i order []) (map fst (palette order amass))) = Some (nth i order [], nth i amass 0%Q).
Proof.
  intros L U Hi. set (X := nth i order []).
  assert (I : In (X, nth i amass 0%Q) (palette order amass)).
  { rewrite in_palette. unfold X. rewrite <- combine_nth by (symmetry; exact L). apply nth_In. rewrite combine_length. lia. }
  assert (J : In X (map fst (palette order amass))) by (apply in_map_iff; exists (X, nth i amass 0%Q); auto).
  pose proof (index_of_nth X _ J) as E. rewrite nth_error_map in E. destruct (nth_error (palette order amass) _) as [[Y m]|] eqn:En; [|discriminate]. cbn in E. injection E as ->. f_equal. f_equal.
  apply nth_error_In in En. rewrite in_palette in En. apply (In_nth _ _ ([], 0%Q)) in En as (j & Hj & Ej). rewrite combine_length in Hj. rewrite combine_nth in Ej by (symmetry; exact L). injection Ej as E1 E2. subst m.
  symmetry. apply U; [exact Hi|lia|]. unfold X in E1. symmetry. exact E1.
Qed.

Definition species_words (nt : nat) (X : text) (m : Q) : list text := [fmt_d (Z.of_nat (nt + 1)); §"'" ++ X; §"'"; fmt_f 10 m].
Fixpoint species_rows (nt : nat) (l : list (text * Q)) : list (list text) := match l with [] => [] | (X, m) :: l => species_words nt X m :: species_rows (S nt) l end.

Lemma line_species nt X m : symbol X -> is_line (species_line nt X m) (species_words nt X m).
Proof.
  intros [L S]. unfold species_line, species_words. apply line_pad; [apply word_fmt_d|]. apply line_blanks; [discriminate|repeat constructor|].
  rewrite (app_assoc §"'" X). apply line_word; [split; [discriminate|constructor; [reflexivity|exact S]]|]. apply line_blanks; [destruct (3 - length X) eqn:E; [lia|discriminate]|apply Forall_forall; intros c Hc; apply repeat_spec in Hc; exact Hc|].
  apply line_word; [split; [discriminate|repeat constructor]|]. apply line_field; [apply word_fmt_f|apply line_end].
Qed.

Lemma lines_species : forall l nt, Forall (fun Xm => symbol (fst Xm)) l -> are_lines (species_lines nt l) (species_rows nt l).
Proof. induction l as [|[X m] l IH]; intros nt H; [apply lines_nil|]. apply Forall_cons_iff in H as [HX H]. apply (lines_two _ _ [species_words nt X m]); [apply lines_one, line_species, HX|apply IH, H]. Qed.

Lemma read_species_ok : forall l nt f, Forall (fun Xm => symbol (fst Xm)) l -> read_species (length l) (species_rows nt l ++ f) = Ok (map (fun Xm => (fst Xm, rounded 10 (snd Xm))) l, f).
Proof.
  induction l as [|[X m] l IH]; intros nt f H; [reflexivity|]. apply Forall_cons_iff in H as [[L S] H]. cbn [length read_species species_rows app]. unfold species_words. cbn [cells bind item nth_error rev app]. rewrite to_float_fmt by lia. cbn [bind]. rewrite IH by exact H. cbn [bind map fst snd].
  f_equal. f_equal. f_equal. f_equal. cbn [fst] in L. change (skipn 1 (§"'" ++ X)) with X. apply firstn_all2. lia.
Qed.

(** ** Atoms *)
Section Structure.
Variable alat : Q.

Definition atom_words (tau : nat -> nat -> Q) (na ityp : nat) : list text :=
  fmt_d (Z.of_nat (na + 1)) :: fmt_d (Z.of_nat (ityp + 1)) :: map (fmt_f 10) (map (fun x => tau na x / alat)%Q (seq 0 3)).

Lemma line_atom tau na ityp : is_line (atom_line alat tau na ityp) (atom_words tau na ityp).
Proof.
  unfold atom_line, atom_words. apply line_pad; [apply word_fmt_d|]. apply line_field; [apply word_fmt_d|]. rewrite <- (app_nil_r (map (fmt_f 10) _)). apply line_fields, line_end.
Qed.

Definition tau_values (tau : nat -> nat -> Q) (na : nat) : list Q := map (fun x => rounded 10 (tau na x / alat)%Q) (seq 0 3).

Lemma read_atoms_ok tau (ityp : nat -> nat) f : forall l, read_atoms (length l) (map (fun na => atom_words tau na (ityp na)) l ++ f) = Ok (map (fun na => (Z.of_nat (ityp na), tau_values tau na)) l, f).
Proof.
  induction l as [|na l IH]; [reflexivity|]. cbn [length read_atoms map app]. unfold atom_words at 1. cbn [map seq cells bind item nth_error]. rewrite to_int_word. cbn [bind skipn firstn]. rewrite row3_ok by lia. cbn [bind]. rewrite IH. cbn [bind].
  f_equal. f_equal. f_equal. f_equal. lia.
Qed.

Definition structure_words (ntyp nat_ : nat) : list text :=
  fmt_d (Z.of_nat ntyp) :: fmt_d (Z.of_nat nat_) :: fmt_d 0 :: map (fmt_f 7) [alat; 0; 0; 0; 0; 0]%Q.
Lemma line_structure ntyp nat_ : is_line (structure_line alat ntyp nat_) (structure_words ntyp nat_).
Proof.
  unfold structure_line, structure_words. apply line_pad; [apply word_fmt_d|]. apply line_field; [apply word_fmt_d|]. apply line_field; [apply word_fmt_d|]. rewrite <- (app_nil_r (map (fmt_f 7) _)). apply line_fields, line_end.
Qed.

Definition cell_rows (at_ : nat -> nat -> Q) : list (list text) := table_rows 9 (fun x y => at_ x y / alat)%Q.
Lemma lines_cell at_ : are_lines (concat (map (cell_line alat at_) (seq 0 3))) (cell_rows at_).
Proof.
  unfold cell_rows, table_rows. assert (E : map (fun x => map (fmt_f 9) (map (fun y => at_ x y / alat)%Q (seq 0 3))) (seq 0 3) = flat_map (fun x => [map (fmt_f 9) (map (fun y => at_ x y / alat)%Q (seq 0 3))]) (seq 0 3)) by reflexivity. rewrite E.
  apply lines_concat. intros x _. apply lines_one. unfold cell_line. apply line_blanks; [discriminate|repeat constructor|]. rewrite <- (app_nil_r (map (fmt_f 9) _)). apply line_fields, line_end.
Qed.

Definition structure_rows (dyn : bool) (amass : list Q) (at_ tau : nat -> nat -> Q) (order : list text) : list (list text) :=
  let pal := palette order amass in
  (if dyn then [[§"Basis"; §"vectors"]] else []) ++ cell_rows at_ ++ species_rows 0 pal ++
  map (fun na => atom_words tau na (index_of (nth na order []) (map fst pal))) (seq 0 (length order)).

Lemma palette_symbols order amass : Forall symbol order -> Forall (fun Xm => symbol (fst Xm)) (palette order amass).
Proof using Type.
  intros H. apply Forall_forall. intros [X m] I. apply in_palette, in_combine_l in I. rewrite Forall_forall in H. exact (H X I).
Qed.

Lemma lines_structure dyn amass at_ tau order : Forall symbol order ->
  are_lines (structure alat dyn amass at_ tau order) (structure_words (length (palette order amass)) (length order) :: structure_rows dyn amass at_ tau order).
Proof.
  intros HS. unfold structure, structure_rows. apply (lines_two _ _ [structure_words (length (palette order amass)) (length order)]); [apply lines_one, line_structure|].
  apply lines_two. { destruct dyn; [|apply lines_nil]. apply lines_one. apply (line_word §"Basis" (§" vectors" ++ [newline])); [split; [discriminate|repeat constructor]|]. apply (line_blanks [blank] (§"vectors" ++ [newline])); [discriminate|repeat constructor|]. apply line_word; [split; [discriminate|repeat constructor]|apply line_end]. }
  apply lines_two; [apply lines_cell|]. apply lines_two; [apply lines_species, palette_symbols, HS|].
  generalize (seq 0 (length order)). induction l as [|na l IH]; [apply lines_nil|]. cbn [map concat]. apply (lines_two _ _ [_]); [apply lines_one, line_atom|exact IH].
Qed.

Definition geometry_values (amass : list Q) (at_ tau : nat -> nat -> Q) (order : list text) : geometry :=
  {| g_amass := map (fun i => rounded 10 (nth i amass 0%Q)) (seq 0 (length order));
     g_at := scale (rounded 7 alat) (table_values 9 (fun x y => at_ x y / alat)%Q);
     g_tau := scale (rounded 7 alat) (map (tau_values tau) (seq 0 (length order)));
     g_order := order |}.

Lemma strip_symbol X : symbol X -> strip X = X.
Proof using Type.
  intros [L S]. pose proof (strip_word [] X [] ltac:(constructor) ltac:(split; [intros ->; cbn in L; lia|exact S]) ltac:(constructor)) as E. cbn [app] in E. rewrite app_nil_r in E. exact E.
Qed.

Lemma read_structure_ok primitives dyn amass at_ tau order f :
  Forall symbol order -> length amass = length order -> one_mass order amass ->
  read_structure primitives dyn (structure_words (length (palette order amass)) (length order)) (structure_rows dyn amass at_ tau order ++ f)
  = Ok (geometry_values amass at_ tau order, length order, rounded 7 alat, f).
Proof.
  intros HS L U. unfold read_structure, structure_words. cbn [firstn skipn map_res]. rewrite !to_int_word. cbn [bind map map_res]. rewrite !to_float_fmt by lia. cbn [bind]. change (0 =? 0)%Z with true. cbv iota.
  unfold structure_rows. cbv zeta. rewrite <- !app_assoc.
  assert (Sk : (do f <- (if dyn then skip ((if dyn then [[§"Basis"; §"vectors"]] else []) ++ cell_rows at_ ++ species_rows 0 (palette order amass) ++ map (fun na => atom_words tau na (index_of (nth na order []) (map fst (palette order amass)))) (seq 0 (length order)) ++ f) else Ok ((if dyn then [[§"Basis"; §"vectors"]] else []) ++ cell_rows at_ ++ species_rows 0 (palette order amass) ++ map (fun na => atom_words tau na (index_of (nth na order []) (map fst (palette order amass)))) (seq 0 (length order)) ++ f)) ;;
     do (T, f) <- table 3 f ;; do a <- item [rounded 7 alat; rounded 7 0; rounded 7 0; rounded 7 0; rounded 7 0; rounded 7 0] 0 ;; Ok (scale a T, f))
     = Ok (scale (rounded 7 alat) (table_values 9 (fun x y => at_ x y / alat)%Q), species_rows 0 (palette order amass) ++ map (fun na => atom_words tau na (index_of (nth na order []) (map fst (palette order amass)))) (seq 0 (length order)) ++ f)).
  { assert (E : (if dyn then skip ((if dyn then [[§"Basis"; §"vectors"]] else []) ++ cell_rows at_ ++ species_rows 0 (palette order amass) ++ map (fun na => atom_words tau na (index_of (nth na order []) (map fst (palette order amass)))) (seq 0 (length order)) ++ f) else Ok ((if dyn then [[§"Basis"; §"vectors"]] else []) ++ cell_rows at_ ++ species_rows 0 (palette order amass) ++ map (fun na => atom_words tau na (index_of (nth na order []) (map fst (palette order amass)))) (seq 0 (length order)) ++ f)) = Ok (cell_rows at_ ++ species_rows 0 (palette order amass) ++ map (fun na => atom_words tau na (index_of (nth na order []) (map fst (palette order amass)))) (seq 0 (length order)) ++ f)) by (destruct dyn; reflexivity).
    rewrite E. cbn [bind]. unfold cell_rows. rewrite table_ok by lia. reflexivity. }
  rewrite Sk. cbn [bind]. destruct (Z.ltb_spec (Z.of_nat (length (palette order amass))) 0); [lia|]. destruct (Z.ltb_spec (Z.of_nat (length order)) 0); [lia|]. cbn [orb]. rewrite !Nat2Z.id.
  rewrite read_species_ok by (apply palette_symbols; exact HS). cbn [bind]. pose proof (read_atoms_ok tau (fun na => index_of (nth na order []) (map fst (palette order amass))) f (seq 0 (length order))) as RA. rewrite seq_length in RA. rewrite RA. clear RA. cbn [bind item nth_error].
  assert (C : map_res (fun x : Z * list Q => item_z (map (fun Xm => (fst Xm, rounded 10 (snd Xm))) (palette order amass)) (fst x)) (map (fun na => (Z.of_nat (index_of (nth na order []) (map fst (palette order amass))), tau_values tau na)) (seq 0 (length order)))
    = Ok (map (fun i => (nth i order [], rounded 10 (nth i amass 0%Q))) (seq 0 (length order)))).
  { assert (B : forall i, In i (seq 0 (length order)) -> i < length order) by (intros i Hi; apply in_seq in Hi; lia).
    revert B. generalize (seq 0 (length order)). induction l as [|i l IH]; intros B; [reflexivity|]. cbn [map map_res fst]. rewrite IH by (intros j Hj; apply B; right; exact Hj).
    unfold item_z, item. destruct (Z.ltb_spec (Z.of_nat (index_of (nth i order []) (map fst (palette order amass)))) 0); [lia|]. rewrite Nat2Z.id, nth_error_map, palette_lookup by (auto; apply B; left; reflexivity). reflexivity. }
  rewrite C. cbn [bind]. f_equal. unfold geometry_values. rewrite !map_map. cbn [fst snd]. f_equal. f_equal. f_equal. f_equal.
  - assert (B : forall i, In i (seq 0 (length order)) -> symbol (nth i order [])) by (intros i Hi; apply in_seq in Hi; rewrite Forall_forall in HS; apply HS, nth_In; lia).
    transitivity (map (fun i => nth i order []) (seq 0 (length order))); [apply map_ext_in; intros i Hi; apply strip_symbol, B, Hi|].
    clear. induction order as [|X order IH]; [reflexivity|]. cbn [length seq map nth]. f_equal. rewrite <- seq_shift, map_map. exact IH.
Qed.

Lemma length_ok d x : length_restored d alat x (rounded d (x / alat) * rounded 7 alat)%Q.
Proof. exists (rounded d (x / alat)%Q), (rounded 7 alat). split; [apply near_rounded|]. split; [apply near_rounded|reflexivity]. Qed.

Lemma geometry_ok amass at_ tau order : length amass = length order -> geometry_restored alat amass at_ tau order (geometry_values amass at_ tau order).
Proof.
  intros L. split; cbn [geometry_values g_order g_amass g_at g_tau].
  - reflexivity.
  - rewrite map_length, seq_length. split; [reflexivity|]. intros i Hi. rewrite (nth_indep _ _ (rounded 10 (nth 0 amass 0%Q))) by (rewrite map_length, seq_length; exact Hi). rewrite (map_nth (fun i => rounded 10 (nth i amass 0%Q))), seq_nth by exact Hi. apply near_rounded.
  - split; [reflexivity|]. intros x Hx. apply lt3 in Hx as [->|[->| ->]]; (split; [reflexivity|]; intros y Hy; apply lt3 in Hy as [->|[->| ->]]; cbn; apply length_ok).
  - unfold scale. rewrite !map_length, seq_length. split; [reflexivity|]. intros i Hi. rewrite map_map. rewrite (nth_indep _ _ (map (fun x => x * rounded 7 alat)%Q (tau_values tau 0))) by (rewrite map_length, seq_length; exact Hi).
    rewrite (map_nth (fun i => map (fun x => x * rounded 7 alat)%Q (tau_values tau i))), seq_nth by exact Hi. cbn [Nat.add]. split; [reflexivity|]. intros x Hx. apply lt3 in Hx as [->|[->| ->]]; cbn; apply length_ok.
Qed.
End Structure.
