(** Proofs about files with force constants: force constants and dynamical matrices. *)
From Verif Require Import TextProofs HrProofs FrcModel FrcSpec FrcProofs.
From Coq Require Import Qabs Lqa.
Local Open Scope nat_scope.

Lemma word_of fmt round x : format_ok fmt round -> word (fmt x).
Proof. intros H. destruct (H x) as (N & S & _). split; assumption. Qed.

Section Frc.
Variable alat twopi : Q.
Variable fmt_g fmt_e : Q -> text.
Variable g_round e_round : Q -> Q.
Hypothesis g_ok : format_ok fmt_g g_round.
Hypothesis e_ok : format_ok fmt_e e_round.

(** ** Charges *)
Definition charge_rows (zeu : nat -> nat -> nat -> Q) (na : nat) : list (list text) := [fmt_d (Z.of_nat (na + 1))] :: table_rows 7 (zeu na).
Definition charge_values (zeu : nat -> nat -> nat -> Q) (na : nat) : nat * list (list Q) := (na, table_values 7 (zeu na)).

Lemma lines_charges zeu l : are_lines (concat (map (fun na => pad 5 (fmt_d (Z.of_nat (na + 1))) ++ [newline] ++ table_lines 14 7 (zeu na)) l)) (flat_map (charge_rows zeu) l).
Proof using Type.
  clear. apply lines_concat. intros na _. unfold charge_rows. rewrite app_assoc. apply (lines_two _ _ [[_]]); [|apply lines_table]. apply lines_one, line_pad; [apply word_fmt_d|apply line_end].
Qed.

Lemma read_charges_ok zeu n f : forall l, (forall na, In na l -> na < n) -> read_charges false n (length l) (flat_map (charge_rows zeu) l ++ f) = Ok (map (charge_values zeu) l, f).
Proof using Type.
  clear. induction l as [|na l IH]; intros B; [reflexivity|]. cbn [length read_charges flat_map]. rewrite <- app_assoc. unfold charge_rows at 1. cbn [app cells bind item nth_error]. rewrite to_int_word. cbn [bind].
  assert (I : item_z (seq 0 n) (Z.of_nat (na + 1) - 1) = Ok na).
  { pose proof (B na (or_introl eq_refl)). unfold item_z, item. destruct (Z.ltb_spec (Z.of_nat (na + 1) - 1) 0); [lia|]. replace (Z.to_nat (Z.of_nat (na + 1) - 1)) with na by lia. rewrite (nth_error_nth' _ 0) by (rewrite seq_length; lia). rewrite seq_nth by lia. reflexivity. }
  rewrite I. cbn [bind]. rewrite table_ok by lia. cbn [bind]. rewrite IH by (intros m Hm; apply B; right; exact Hm). reflexivity.
Qed.

(** ** Force constants *)
Definition pair_words (p : nat * nat * (nat * nat)) : list text :=
  let '(na1, na2, (j1, j2)) := p in [fmt_d (Z.of_nat (j1 + 1)); fmt_d (Z.of_nat (j2 + 1)); fmt_d (Z.of_nat (na1 + 1)); fmt_d (Z.of_nat (na2 + 1))].
Definition constant_words (m : nat * nat * nat) (x : Q) : list text :=
  let '(m1, m2, m3) := m in [fmt_d (Z.of_nat (m1 + 1)); fmt_d (Z.of_nat (m2 + 1)); fmt_d (Z.of_nat (m3 + 1)); fmt_e x].
Definition pair_rows (cs : list (nat * nat * nat)) (phid : frc_index -> Q) (p : nat * nat * (nat * nat)) : list (list text) :=
  pair_words p :: map (fun m => constant_words m (phid (fst p, m, snd p))) cs.

Lemma lines_pair cs phid p : are_lines (pair_block fmt_e cs phid p) (pair_rows cs phid p).
Proof using e_ok.
  unfold pair_block, pair_rows. apply (lines_two _ _ [pair_words p]).
  - destruct p as [[na1 na2] [j1 j2]]. apply lines_one. unfold pair_line, pair_words. apply line_pad; [apply word_fmt_d|]. do 3 (apply line_field; [apply word_fmt_d|]). apply line_end.
  - generalize cs. clear cs. intros l. induction l as [|m l IH]; [apply lines_nil|]. cbn [map concat]. apply (lines_two _ _ [_]); [|exact IH]. apply lines_one. destruct m as [[m1 m2] m3]. unfold constant_line, constant_words. apply line_pad; [apply word_fmt_d|]. do 2 (apply line_field; [apply word_fmt_d|]). apply line_field; [exact (word_of _ _ _ e_ok)|apply line_end].
Qed.

Lemma read_constants_ok phid p f : forall cs, read_constants (map (fun m => (fst p, m, snd p)) cs) (map (fun m => constant_words m (phid (fst p, m, snd p))) cs ++ f)
  = Ok (map (fun m => ((fst p, m, snd p), e_round (phid (fst p, m, snd p)))) cs, f).
Proof using e_ok.
  induction cs as [|m cs IH]; [reflexivity|]. cbn [map app read_constants]. destruct m as [[m1 m2] m3]. cbn [constant_words cells bind item nth_error]. destruct (e_ok (phid (fst p, (m1, m2, m3), snd p))) as (_ & _ & E). rewrite E. cbn [bind]. rewrite IH. reflexivity.
Qed.

Definition all_indices (n : nat) (nr : nat * nat * nat) : list frc_index :=
  let '(nr1, nr2, nr3) := nr in flat_map (fun p => map (fun m => (fst p, m, snd p)) (frc_cells nr1 nr2 nr3)) (frc_pairs n).

Lemma read_pairs_ok cs phid f : forall pairs, read_pairs cs pairs (flat_map (pair_rows cs phid) pairs ++ f)
  = Ok (map (fun i => (i, e_round (phid i))) (flat_map (fun p => map (fun m => (fst p, m, snd p)) cs) pairs), f).
Proof using e_ok.
  induction pairs as [|p pairs IH]; [reflexivity|]. cbn [flat_map read_pairs]. rewrite <- app_assoc. unfold pair_rows at 1. cbn [app].
  assert (C : forall F, cells (pair_words p :: F) = Ok (pair_words p, F)) by (intros F; destruct p as [[na1 na2] [j1 j2]]; reflexivity).
  rewrite C. cbv zeta. rewrite read_constants_ok. cbn [bind]. rewrite IH. cbn [bind]. rewrite map_app, map_map. reflexivity.
Qed.

Lemma in_indices n nr i : In i (all_indices n nr) <-> in_range n nr i.
Proof using Type.
  clear. destruct i as [[[na1 na2] [[m1 m2] m3]] [j1 j2]], nr as [[nr1 nr2] nr3]. unfold all_indices, in_range. rewrite in_flat_map. split.
  - intros ([[a1 a2] [b1 b2]] & Hp & Hm). unfold frc_pairs in Hp. rewrite in_flat_map in Hp. destruct Hp as (c1 & Hc1 & Hp). rewrite in_flat_map in Hp. destruct Hp as (c2 & Hc2 & Hp). rewrite in_flat_map in Hp. destruct Hp as (c3 & Hc3 & Hp). apply in_map_iff in Hp as (c4 & E & Hc4). injection E as -> -> -> ->.
    apply in_map_iff in Hm as (m & E & Hm). cbn [fst snd] in E. injection E as -> -> -> -> ->. unfold frc_cells in Hm. rewrite in_flat_map in Hm. destruct Hm as (k3 & Hk3 & Hm). rewrite in_flat_map in Hm. destruct Hm as (k2 & Hk2 & Hm). apply in_map_iff in Hm as (k1 & E & Hk1). injection E as -> -> ->.
    rewrite in_seq in *. lia.
  - intros H. exists (na1, na2, (j1, j2)). split.
    + unfold frc_pairs. apply in_flat_map. exists j1. split; [apply in_seq; lia|]. apply in_flat_map. exists j2. split; [apply in_seq; lia|]. apply in_flat_map. exists na1. split; [apply in_seq; lia|]. apply in_map_iff. exists na2. split; [reflexivity|apply in_seq; lia].
    + apply in_map_iff. exists (m1, m2, m3). split; [reflexivity|]. unfold frc_cells. apply in_flat_map. exists m3. split; [apply in_seq; lia|]. apply in_flat_map. exists m2. split; [apply in_seq; lia|]. apply in_map_iff. exists m1. split; [reflexivity|apply in_seq; lia].
Qed.

(** ** The whole file *)
Definition flag_words (lrigid : bool) (alph : option Q) : list text := if lrigid then §"T" :: match alph with Some a => [fmt_g a] | None => [] end else [§"F"].
Definition shape_words (nr : nat * nat * nat) : list text := let '(nr1, nr2, nr3) := nr in [fmt_d (Z.of_nat nr1); fmt_d (Z.of_nat nr2); fmt_d (Z.of_nat nr3)].

Definition charge_part (n : nat) (alph : option Q) (epsil : option (nat -> nat -> Q)) (zeu : option (nat -> nat -> nat -> Q)) : list (list text) :=
  match epsil, zeu with
  | Some epsil, Some zeu => flag_words true alph :: table_rows 12 epsil ++ flat_map (charge_rows zeu) (seq 0 n)
  | _, _ => [flag_words false alph]
  end.

Lemma palette_nonempty order amass : order <> [] -> length amass = length order -> palette order amass <> [].
Proof using Type.
  clear. intros NE L E. destruct order as [|X order]; [congruence|]. destruct amass as [|m amass]; [discriminate|]. assert (I : In (X, m) (palette (X :: order) (m :: amass))) by (rewrite in_palette; left; reflexivity). rewrite E in I. contradiction.
Qed.

Lemma write_frc_ok nr phid amass at_ tau order alph epsil zeu : order <> [] -> length amass = length order -> Forall symbol order ->
  exists t, write_frc alat fmt_g fmt_e nr phid amass at_ tau order alph epsil zeu = Ok t /\
    words_of t = structure_words alat (length (palette order amass)) (length order) :: structure_rows alat false amass at_ tau order ++
      charge_part (length order) alph epsil zeu ++ shape_words nr :: flat_map (pair_rows (let '(nr1, nr2, nr3) := nr in frc_cells nr1 nr2 nr3) phid) (frc_pairs (length order)).
Proof using g_ok e_ok.
  intros NE L HS. unfold write_frc. destruct nr as [[nr1 nr2] nr3]. pose proof (palette_nonempty order amass NE L) as NP. destruct (palette order amass) as [|x pal] eqn:Ep; [congruence|]. rewrite <- Ep. clear NP. eexists. split; [reflexivity|].
  match goal with |- words_of ?t = ?r => assert (A : are_lines t r) end.
  2: { specialize (A []). rewrite !app_nil_r in A. rewrite A. reflexivity. }
  change (structure_words alat (length (palette order amass)) (length order) :: structure_rows alat false amass at_ tau order ++ charge_part (length order) alph epsil zeu ++ shape_words (nr1, nr2, nr3) :: flat_map (pair_rows (frc_cells nr1 nr2 nr3) phid) (frc_pairs (length order)))
    with ((structure_words alat (length (palette order amass)) (length order) :: structure_rows alat false amass at_ tau order) ++ charge_part (length order) alph epsil zeu ++ [shape_words (nr1, nr2, nr3)] ++ flat_map (pair_rows (frc_cells nr1 nr2 nr3) phid) (frc_pairs (length order))).
  apply lines_two; [apply lines_structure; exact HS|]. apply lines_two; [|match goal with |- are_lines (?a ++ ?b ++ ?c ++ ?d ++ ?e) _ => replace (a ++ b ++ c ++ d ++ e) with ((a ++ b ++ c ++ d) ++ e) by (rewrite <- !app_assoc; reflexivity) end; apply lines_two].
  - assert (F : is_line (pad 2 §"F" ++ [newline]) [§"F"]) by (apply line_pad; [split; [discriminate|repeat constructor]|apply line_end]).
    unfold charge_part. destruct epsil as [epsil|]; [|apply lines_one; exact F]. destruct zeu as [zeu|]; [|apply lines_one; exact F].
    change (flag_words true alph :: table_rows 12 epsil ++ flat_map (charge_rows zeu) (seq 0 (length order))) with ([flag_words true alph] ++ table_rows 12 epsil ++ flat_map (charge_rows zeu) (seq 0 (length order))).
    match goal with |- are_lines (?a ++ ?b ++ ?c ++ ?d) _ => replace (a ++ b ++ c ++ d) with ((a ++ b ++ c) ++ d) by (rewrite <- !app_assoc; reflexivity) end.
    apply lines_two; [|apply lines_two; [apply lines_table|apply lines_charges]]. apply lines_one. unfold flag_words. apply line_pad; [split; [discriminate|repeat constructor]|]. destruct alph as [a|]; [|apply line_end]. apply (line_field 0); [exact (word_of _ _ _ g_ok)|apply line_end].
  - apply lines_one. apply line_pad; [apply word_fmt_d|]. do 2 (apply line_field; [apply word_fmt_d|]). apply line_end.
  - apply lines_concat. intros p _. apply lines_pair.
Qed.

Definition charges_read (n : nat) (alph : option Q) (epsil : option (nat -> nat -> Q)) (zeu : option (nat -> nat -> nat -> Q)) : option Q * option (list (list Q)) * option (list (nat * list (list Q))) :=
  match epsil, zeu with
  | Some epsil, Some zeu => (option_map g_round alph, Some (table_values 12 epsil), Some (map (charge_values zeu) (seq 0 n)))
  | _, _ => (None, None, None)
  end.

Lemma read_frc_ok primitives nr phid amass at_ tau order alph epsil zeu t : length amass = length order -> Forall symbol order -> one_mass order amass ->
  words_of t = structure_words alat (length (palette order amass)) (length order) :: structure_rows alat false amass at_ tau order ++
      charge_part (length order) alph epsil zeu ++ shape_words nr :: flat_map (pair_rows (let '(nr1, nr2, nr3) := nr in frc_cells nr1 nr2 nr3) phid) (frc_pairs (length order)) ->
  read_flfrc primitives twopi t = Ok (inl {| f_phid := map (fun i => (i, e_round (phid i))) (all_indices (length order) nr); f_shape := nr; f_geometry := geometry_values alat amass at_ tau order;
    f_alph := fst (fst (charges_read (length order) alph epsil zeu)); f_epsil := snd (fst (charges_read (length order) alph epsil zeu)); f_zeu := snd (charges_read (length order) alph epsil zeu) |}).
Proof using g_ok e_ok.
  intros L HS U Et. unfold read_flfrc. rewrite Et. unfold structure_words at 1. cbn [cells bind item nth_error].
  destruct (text_dec (fmt_d (Z.of_nat (length (palette order amass)))) §"Dynamical") as [E|_].
  { exfalso. pose proof (to_int_word (Z.of_nat (length (palette order amass)))) as W. rewrite E in W. vm_compute in W. discriminate. }
  fold (structure_words alat (length (palette order amass)) (length order)). unfold read_frc. rewrite read_structure_ok by assumption. cbn [bind].
  assert (Ch : forall F, (do (tmp, f) <- cells (charge_part (length order) alph epsil zeu ++ F) ;; do flag <- item tmp 0 ;;
     (if text_dec flag §"T" then
      do alph <- match tmp with _ :: w :: _ => do x <- to_float w ;; Ok (Some x) | _ => Ok None end ;;
      do (epsil, f) <- table 3 f ;;
      do (zeu, f) <- read_charges false (length order) (length order) f ;; Ok (alph, Some epsil, Some zeu, f)
    else Ok (None, None, None, f))) = Ok (charges_read (length order) alph epsil zeu, F)).
  { intros F. unfold charge_part, charges_read. destruct epsil as [epsil|]; [|reflexivity]. destruct zeu as [zeu|]; [|reflexivity]. unfold flag_words. cbn [app cells bind item nth_error]. destruct (text_dec §"T" §"T"); [|congruence]. rewrite <- app_assoc.
    assert (Ra : match §"T" :: match alph with Some a => [fmt_g a] | None => [] end with _ :: w :: _ => do x <- to_float w ;; Ok (Some x) | _ => Ok None end = Ok (option_map g_round alph)).
    { destruct alph as [a|]; [|reflexivity]. destruct (g_ok a) as (_ & _ & E). rewrite E. reflexivity. }
    rewrite Ra. cbn [bind]. rewrite table_ok by lia. cbn [bind]. pose proof (read_charges_ok zeu (length order) F (seq 0 (length order)) ltac:(intros na Hna; apply in_seq in Hna; lia)) as RC. rewrite seq_length in RC. rewrite RC. reflexivity. }
  specialize (Ch (shape_words nr :: flat_map (pair_rows (let '(nr1, nr2, nr3) := nr in frc_cells nr1 nr2 nr3) phid) (frc_pairs (length order)))).
  destruct (cells (charge_part (length order) alph epsil zeu ++ shape_words nr :: flat_map (pair_rows (let '(nr1, nr2, nr3) := nr in frc_cells nr1 nr2 nr3) phid) (frc_pairs (length order)))) as [[tmp F]|]; [|discriminate]. cbn [bind] in Ch |- *.
  destruct (item tmp 0) as [flag|]; [|discriminate]. cbn [bind] in Ch |- *. rewrite Ch. destruct (charges_read (length order) alph epsil zeu) as [[al ep] ze]. cbn [bind fst snd].
  destruct nr as [[nr1 nr2] nr3]. cbn [shape_words cells bind map_res]. rewrite !to_int_word. cbn [bind]. destruct (Z.ltb_spec (Z.of_nat nr1) 0); [lia|]. destruct (Z.ltb_spec (Z.of_nat nr2) 0); [lia|]. destruct (Z.ltb_spec (Z.of_nat nr3) 0); [lia|]. cbn [orb]. rewrite !Nat2Z.id.
  pose proof (read_pairs_ok (frc_cells nr1 nr2 nr3) phid [] (frc_pairs (length order))) as RP. rewrite app_nil_r in RP. rewrite RP. reflexivity.
Qed.
End Frc.

(** ** Dynamical matrices *)

(** Numbers with eight (nine) decimals that leave a blank in a column of twelve (fourteen) *)
Definition fits12 (x : Q) : Prop := length (fmt_f 8 x) < 12.
Definition fits14 (x : Q) : Prop := length (fmt_f 9 x) < 14.

Lemma pad_line n w t ws : word w -> length w < n -> tail_line t ws -> tail_line (pad n w ++ t) (w :: ws).
Proof.
  intros Hw Hl Ht. unfold pad. rewrite <- app_assoc. apply line_blanks; [destruct (n - length w) eqn:E; [lia|discriminate]|apply Forall_forall; intros c Hc; apply repeat_spec in Hc; exact Hc|]. apply (line_word w); assumption.
Qed.

Definition row_words (l : list (Q * Q)) : list text := flat_map (fun z => [fmt_f 8 (fst z); fmt_f 8 (snd z)]) l.

Lemma line_row a b c : fits12 (snd a) -> fits12 (snd b) -> fits12 (snd c) -> is_line (complex_row [a; b; c]) (row_words [a; b; c]).
Proof.
  intros Ha Hb Hc. unfold complex_row, row_words. cbn [map concat flat_map app]. rewrite app_nil_r. repeat (rewrite <- app_assoc || cbn [app]).
  apply line_pad; [apply word_fmt_f|]. apply pad_line; [apply word_fmt_f|exact Ha|]. apply (line_blanks [blank; blank]); [discriminate|repeat constructor|]. apply line_pad; [apply word_fmt_f|]. apply pad_line; [apply word_fmt_f|exact Hb|]. apply (line_blanks [blank; blank]); [discriminate|repeat constructor|].
  apply line_pad; [apply word_fmt_f|]. apply pad_line; [apply word_fmt_f|exact Hc|]. apply line_end.
Qed.

Definition block_words (p : nat * nat) : list text := str_split (pad 5 (fmt_d (Z.of_nat (fst p + 1))) ++ pad 5 (fmt_d (Z.of_nat (snd p + 1))) ++ [newline]).
Definition block_row (D : nat -> nat -> Q * Q) (p : nat * nat) (j : nat) : list (Q * Q) := map (fun k => D (3 * fst p + j) (3 * snd p + k)) (seq 0 3).
Definition block_rows (D : nat -> nat -> Q * Q) (p : nat * nat) : list (list text) := block_words p :: map (fun j => row_words (block_row D p j)) (seq 0 3).

(** The two indices may merge if there are more than 9998 atoms, which does not matter. *)
Lemma is_line_any t : no_newline t -> is_line (t ++ [newline]) (str_split (t ++ [newline])).
Proof. intros H. split; [exists t; split; [reflexivity|exact H]|reflexivity]. Qed.

Lemma words_from_nonempty w rest : word w -> str_split (w ++ rest) <> [].
Proof.
  intros [NE S] E. destruct w as [|c w]; [congruence|]. unfold str_split in E.
  assert (G : forall w acc, solid w -> acc <> [] -> words_from acc (w ++ rest) <> []).
  { clear. induction w as [|c w IH]; intros acc Hw Ha E.
    - cbn [app] in E. revert acc Ha E. induction rest as [|c r IH]; intros acc Ha E; cbn in E; [unfold emit in E; destruct acc; [congruence|discriminate]|]. destruct (is_space c); [unfold emit in E; destruct acc; [congruence|discriminate]|]. apply (IH (acc ++ [c])); [destruct acc; discriminate|exact E].
    - apply Forall_cons_iff in Hw as [Hc Hw]. cbn in E. rewrite Hc in E. apply (IH (acc ++ [c])); [exact Hw|destruct acc; discriminate|exact E]. }
  apply Forall_cons_iff in S as [Hc S]. cbn in E. rewrite Hc in E. apply (G w ([] ++ [c])); [exact S|discriminate|exact E].
Qed.

Lemma block_words_nonempty p : block_words p <> [].
Proof.
  unfold block_words. destruct (Nat.le_gt_cases 5 (length (fmt_d (Z.of_nat (fst p + 1))))) as [H|H].
  - unfold pad at 1. replace (5 - length (fmt_d (Z.of_nat (fst p + 1)))) with 0 by lia. cbn [repeat app]. apply words_from_nonempty, word_fmt_d.
  - unfold pad at 1. rewrite <- app_assoc. unfold str_split. rewrite words_spaces by (apply Forall_forall; intros c Hc; apply repeat_spec in Hc; subst c; reflexivity). apply (words_from_nonempty (fmt_d (Z.of_nat (fst p + 1)))), word_fmt_d.
Qed.

Lemma lines_block D p : (forall j k, j < 3 -> k < 3 -> fits12 (snd (D (3 * fst p + j) (3 * snd p + k)))) -> are_lines (dyn_block D p) (block_rows D p).
Proof.
  intros H. unfold dyn_block, block_rows. rewrite (app_assoc (pad 5 _)). rewrite (app_assoc _ [newline]). apply (lines_two _ _ [block_words p]).
  - apply lines_one. unfold block_words. rewrite (app_assoc (pad 5 _)). apply is_line_any. apply no_newline_app; apply no_newline_pad, no_newline_d.
  - cbn [map seq concat]. rewrite app_nil_r. apply (lines_two _ _ [_] [_; _]); [apply lines_one, line_row; apply H; lia|]. apply (lines_two _ _ [_] [_]); apply lines_one, line_row; apply H; lia.
Qed.

Definition complex_rounded (z : Q * Q) : Q * Q := (rounded 8 (fst z), rounded 8 (snd z)).
Definition block_indices (p : nat * nat) : list dyn_index := flat_map (fun j => map (fun k => (3 * fst p + j, 3 * snd p + k)) (seq 0 3)) (seq 0 3).

Lemma read_rows_ok D p f : forall js, read_rows (map (fun j => 3 * fst p + j) js) (3 * snd p) (map (fun j => row_words (block_row D p j)) js ++ f)
  = Ok (flat_map (fun j => map (fun k => ((3 * fst p + j, 3 * snd p + k), complex_rounded (D (3 * fst p + j) (3 * snd p + k)))) (seq 0 3)) js, f).
Proof.
  induction js as [|j js IH]; [reflexivity|]. cbn [map read_rows app]. unfold row_words at 1, block_row at 1. cbn [map seq flat_map app cells bind map_res]. rewrite !to_float_fmt by lia. cbn [bind firstn skipn complex_of]. rewrite IH. cbn [bind flat_map map seq app]. rewrite Nat.add_0_r. reflexivity.
Qed.

Lemma read_blocks_ok D f : forall pairs, read_blocks pairs (flat_map (block_rows D) pairs ++ f)
  = Ok (map (fun ij => (ij, complex_rounded (D (fst ij) (snd ij)))) (flat_map block_indices pairs), f).
Proof.
  induction pairs as [|[na1 na2] pairs IH]; [reflexivity|]. cbn [flat_map read_blocks]. rewrite <- app_assoc. unfold block_rows at 1. change ((block_words (na1, na2) :: map (fun j => row_words (block_row D (na1, na2) j)) (seq 0 3)) ++ flat_map (block_rows D) pairs ++ f) with (block_words (na1, na2) :: map (fun j => row_words (block_row D (na1, na2) j)) (seq 0 3) ++ flat_map (block_rows D) pairs ++ f).
  assert (C : forall F, cells (block_words (na1, na2) :: F) = Ok (block_words (na1, na2), F)) by (intros F; pose proof (block_words_nonempty (na1, na2)) as NE; destruct (block_words (na1, na2)); [congruence|reflexivity]).
  rewrite C. cbv zeta. pose proof (read_rows_ok D (na1, na2) (flat_map (block_rows D) pairs ++ f) (seq 0 3)) as RR. cbn [fst snd] in RR. rewrite RR. clear RR. cbn [bind]. rewrite IH. cbn [bind]. rewrite map_app. reflexivity.
Qed.

Lemma in_block_indices n i j : In (i, j) (flat_map block_indices (dyn_pairs n)) <-> i < 3 * n /\ j < 3 * n.
Proof.
  rewrite in_flat_map. unfold dyn_pairs, block_indices. split.
  - intros ([a b] & Hp & Hi). apply in_flat_map in Hp as (a' & Ha & Hp). apply in_map_iff in Hp as (b' & E & Hb). injection E as -> ->. apply in_flat_map in Hi as (x & Hx & Hi). apply in_map_iff in Hi as (y & E & Hy). injection E as <- <-. rewrite in_seq in *. cbn [fst snd]. lia.
  - intros [Hi Hj]. exists (i / 3, j / 3). pose proof (Nat.div_mod i 3 ltac:(lia)). pose proof (Nat.div_mod j 3 ltac:(lia)). pose proof (Nat.mod_upper_bound i 3 ltac:(lia)). pose proof (Nat.mod_upper_bound j 3 ltac:(lia)). split.
    + apply in_flat_map. exists (i / 3). split; [apply in_seq; lia|]. apply in_map_iff. exists (j / 3). split; [reflexivity|apply in_seq; lia].
    + apply in_flat_map. exists (i mod 3). split; [apply in_seq; lia|]. apply in_map_iff. exists (j mod 3). split; [|apply in_seq; lia]. cbn [fst snd]. f_equal; lia.
Qed.

Section Dyn.
Variable alat twopi : Q.

Definition title_words : list text := [§"Dynamical"; §"matrix"; §"in"; §"Cartesian"; §"axes"].
Definition q_words (q : nat -> Q) : list text := [§"q"; §"="; §"("] ++ map (fun i => fmt_f 9 (q i * alat / twopi)%Q) (seq 0 3) ++ [§")"].
Definition matrix_rows (n : nat) (x : (nat -> Q) * (nat -> nat -> Q * Q)) : list (list text) :=
  [[]; title_words; []; q_words (fst x); []] ++ flat_map (block_rows (snd x)) (dyn_pairs n).

Lemma literal_line s ws : no_newline s -> str_split (s ++ [newline]) = ws -> is_line (s ++ [newline]) ws.
Proof using Type. clear. intros H <-. apply is_line_any, H. Qed.

Lemma lines_matrix n q D : (forall i j, i < 3 * n -> j < 3 * n -> fits12 (snd (D i j))) -> (forall i, i < 3 -> fits14 (q i * alat / twopi)) -> are_lines (dyn_matrix alat twopi n q D) (matrix_rows n (q, D)).
Proof.
  intros HD Hq. unfold dyn_matrix, matrix_rows. cbn [fst snd].
  change ([[]; title_words; []; q_words q; []] ++ flat_map (block_rows D) (dyn_pairs n)) with ([[]] ++ [title_words] ++ [[]] ++ [q_words q] ++ [[]] ++ flat_map (block_rows D) (dyn_pairs n)).
  apply lines_two; [apply lines_empty|]. rewrite (app_assoc §"     Dynamical matrix in Cartesian axes"). apply lines_two; [apply lines_one, literal_line; [repeat (constructor; [discriminate|]); constructor|reflexivity]|].
  apply lines_two; [apply lines_empty|].
  match goal with |- are_lines (?a ++ ?b ++ ?c ++ ?d ++ ?e) _ => replace (a ++ b ++ c ++ d ++ e) with ((a ++ b ++ c ++ d) ++ e) by (rewrite <- !app_assoc; reflexivity) end.
  apply lines_two; [|apply lines_two; [apply lines_empty|apply lines_concat; intros [a b] I; apply lines_block; intros j k Hj Hk; apply in_flat_map in I as (a' & Ia & I); apply in_map_iff in I as (b' & E & Ib); injection E as -> ->; rewrite in_seq in Ia, Ib; cbn [fst snd]; apply HD; lia]].
  apply lines_one. unfold q_words. cbn [map seq concat app]. rewrite app_nil_r. rewrite <- !app_assoc. change (§"     q = ( ") with ([blank; blank; blank; blank; blank] ++ §"q" ++ [blank] ++ §"=" ++ [blank] ++ §"(" ++ [blank]). rewrite <- !app_assoc.
  assert (W : forall c, is_space c = false -> word [c]) by (intros c Hc; split; [discriminate|repeat constructor; exact Hc]).
  assert (B : forall t ws, is_line t ws -> tail_line ([blank] ++ t) ws) by (intros t ws Ht; apply line_blanks; [discriminate|repeat constructor|exact Ht]).
  apply line_blanks; [discriminate|repeat constructor|]. apply line_word; [apply W; reflexivity|]. apply B. apply line_word; [apply W; reflexivity|]. apply B. apply line_word; [apply W; reflexivity|]. apply B.
  apply pad_line; [apply word_fmt_f|apply Hq; lia|]. apply pad_line; [apply word_fmt_f|apply Hq; lia|]. apply pad_line; [apply word_fmt_f|apply Hq; lia|]. apply (B (§")" ++ [newline])). apply line_word; [apply W; reflexivity|apply line_end].
Qed.

Definition dyn_charges (n : nat) (epsil : option (nat -> nat -> Q)) (zeu : option (nat -> nat -> nat -> Q)) : list (list text) :=
  match epsil, zeu with
  | Some epsil, Some zeu => [[]; [§"Dielectric"; §"tensor"]] ++ table_rows 12 epsil ++ [[]; [§"Effective"; §"charges"]] ++
      flat_map (fun na => str_split (§"     atom #" ++ pad 5 (fmt_d (Z.of_nat (na + 1))) ++ [newline]) :: table_rows 7 (zeu na)) (seq 0 n)
  | _, _ => []
  end.

Lemma write_dyn_ok qD amass at_ tau order epsil zeu : order <> [] -> length amass = length order -> Forall symbol order ->
  Forall (fun x => (forall i j, i < 3 * length order -> j < 3 * length order -> fits12 (snd (snd x i j))) /\ forall i, i < 3 -> fits14 (fst x i * alat / twopi)) qD ->
  exists t, write_dyn alat twopi qD amass at_ tau order epsil zeu = Ok t /\
    words_of t = [§"Dynamical"; §"matrix"; §"file"] :: [] :: structure_words alat (length (palette order amass)) (length order) :: structure_rows alat true amass at_ tau order ++
      flat_map (matrix_rows (length order)) qD ++ dyn_charges (length order) epsil zeu.
Proof.
  intros NE L HS HQ. unfold write_dyn. pose proof (palette_nonempty order amass NE L) as NP. destruct (palette order amass) as [|x pal] eqn:Ep; [congruence|]. rewrite <- Ep. clear NP. eexists. split; [reflexivity|].
  match goal with |- words_of ?t = ?r => assert (A : are_lines t r) end.
  2: { specialize (A []). rewrite !app_nil_r in A. rewrite A. reflexivity. }
  rewrite (app_assoc §"Dynamical matrix file"). apply (lines_two _ _ [_]); [apply lines_one, literal_line; [repeat (constructor; [discriminate|]); constructor|reflexivity]|].
  apply (lines_two _ _ [[]]); [apply lines_empty|].
  change (structure_words alat (length (palette order amass)) (length order) :: structure_rows alat true amass at_ tau order ++ flat_map (matrix_rows (length order)) qD ++ dyn_charges (length order) epsil zeu)
    with ((structure_words alat (length (palette order amass)) (length order) :: structure_rows alat true amass at_ tau order) ++ flat_map (matrix_rows (length order)) qD ++ dyn_charges (length order) epsil zeu).
  apply lines_two; [apply lines_structure; exact HS|]. apply lines_two; [apply lines_concat; intros [q D] I; rewrite Forall_forall in HQ; destruct (HQ _ I) as [H1 H2]; apply lines_matrix; assumption|].
  unfold dyn_charges. destruct epsil as [epsil|]; [|apply lines_nil]. destruct zeu as [zeu|]; [|apply lines_nil].
  change ([[]; [§"Dielectric"; §"tensor"]] ++ ?x) with ([[]] ++ [[§"Dielectric"; §"tensor"]] ++ x). apply lines_two; [apply lines_empty|]. rewrite (app_assoc §"     Dielectric tensor"). apply lines_two; [apply lines_one, literal_line; [repeat (constructor; [discriminate|]); constructor|reflexivity]|].
  apply lines_two; [apply lines_table|]. change ([[]; [§"Effective"; §"charges"]] ++ ?x) with ([[]] ++ [[§"Effective"; §"charges"]] ++ x). apply lines_two; [apply lines_empty|]. rewrite (app_assoc §"     Effective charges"). apply lines_two; [apply lines_one, literal_line; [repeat (constructor; [discriminate|]); constructor|reflexivity]|].
  apply lines_concat. intros na _. rewrite (app_assoc (pad 5 _)), (app_assoc §"     atom #"). apply (lines_two _ _ [_]); [|apply lines_table]. apply lines_one. rewrite (app_assoc §"     atom #" (pad 5 _)). apply is_line_any. apply no_newline_app; [repeat (constructor; [discriminate|]); constructor|apply no_newline_pad, no_newline_d].
Qed.

Definition matrix_read (n : nat) (D : nat -> nat -> Q * Q) : list (dyn_index * (Q * Q)) := map (fun ij => (ij, complex_rounded (D (fst ij) (snd ij)))) (flat_map block_indices (dyn_pairs n)).
Definition q_read (q : nat -> Q) : list Q := map (fun i => rounded 9 (q i * alat / twopi) * twopi / rounded 7 alat)%Q (seq 0 3).

Lemma read_sections_ok n g epsil zeu : forall qD fuel acc, length qD + 2 <= fuel -> d_geometry acc = g ->
  read_sections twopi fuel n (rounded 7 alat) g acc (flat_map (matrix_rows n) qD ++ dyn_charges n epsil zeu)
  = Ok {| d_q := d_q acc ++ map (fun x => q_read (fst x)) qD; d_D := d_D acc ++ map (fun x => matrix_read n (snd x)) qD; d_geometry := g;
          d_epsil := match epsil, zeu with Some epsil, Some _ => Some (table_values 12 epsil) | _, _ => d_epsil acc end; d_zeu := d_zeu acc |}.
Proof.
  induction qD as [|[q D] qD IH]; intros fuel acc Hf Eg.
  - cbn [map flat_map app length] in *. rewrite !app_nil_r. destruct fuel as [|[|fuel]]; [lia|lia|]. unfold dyn_charges. destruct epsil as [epsil|]; [|cbn; destruct acc; cbn in *; subst; reflexivity]. destruct zeu as [zeu|]; [|cbn; destruct acc; cbn in *; subst; reflexivity].
    cbn [app read_sections cells]. change (contains §"dynamical matrix in cartesian axes" (lower (join [§"Dielectric"; §"tensor"]))) with false. change (contains §"dielectric tensor" (lower (join [§"Dielectric"; §"tensor"]))) with true. cbv iota.
    rewrite table_ok by lia. cbn [bind cells]. reflexivity.
  - destruct fuel as [|fuel]; [cbn in Hf; lia|]. cbn [flat_map map]. unfold matrix_rows at 1. cbn [fst snd]. rewrite <- !app_assoc. unfold title_words. cbn [app read_sections cells].
    change (contains §"dynamical matrix in cartesian axes" (lower (join [§"Dynamical"; §"matrix"; §"in"; §"Cartesian"; §"axes"]))) with true. cbv iota. unfold q_words. cbn [app cells bind map seq skipn firstn map_res]. rewrite !to_float_fmt by lia. cbn [bind].
    assert (NilB : forall F, read_blocks (dyn_pairs n) ([] :: F) = read_blocks (dyn_pairs n) F \/ dyn_pairs n = []) by (intros F; destruct (dyn_pairs n) as [|[a b] l]; [right; reflexivity|left; reflexivity]).
    assert (RB : read_blocks (dyn_pairs n) ([] :: flat_map (block_rows D) (dyn_pairs n) ++ flat_map (matrix_rows n) qD ++ dyn_charges n epsil zeu) = Ok (matrix_read n D, flat_map (matrix_rows n) qD ++ dyn_charges n epsil zeu) \/ dyn_pairs n = []).
    { destruct (NilB (flat_map (block_rows D) (dyn_pairs n) ++ flat_map (matrix_rows n) qD ++ dyn_charges n epsil zeu)) as [E|E]; [left; rewrite E; apply read_blocks_ok|right; exact E]. }
    destruct RB as [RB|E0].
    + rewrite RB. cbn [bind]. rewrite IH by (try reflexivity; cbn in Hf; lia). cbn [d_q d_D d_epsil d_zeu]. rewrite <- !app_assoc. reflexivity.
    + assert (M : matrix_read n D = []) by (unfold matrix_read; rewrite E0; reflexivity). rewrite M, E0. cbn [read_blocks bind flat_map app].
      destruct fuel as [|fuel]; [cbn in Hf; lia|].
      assert (Skip : forall acc, read_sections twopi (S fuel) n (rounded 7 alat) g acc ([] :: flat_map (matrix_rows n) qD ++ dyn_charges n epsil zeu) = read_sections twopi (S fuel) n (rounded 7 alat) g acc (flat_map (matrix_rows n) qD ++ dyn_charges n epsil zeu)) by (intros; reflexivity).
      rewrite Skip, IH by (try reflexivity; cbn in Hf; lia). cbn [d_q d_D d_epsil d_zeu map]. rewrite <- !app_assoc. reflexivity.
Qed.

Lemma read_dyn_ok primitives qD amass at_ tau order epsil zeu t : length amass = length order -> Forall symbol order -> one_mass order amass ->
  words_of t = [§"Dynamical"; §"matrix"; §"file"] :: [] :: structure_words alat (length (palette order amass)) (length order) :: structure_rows alat true amass at_ tau order ++
      flat_map (matrix_rows (length order)) qD ++ dyn_charges (length order) epsil zeu ->
  read_flfrc primitives twopi t = Ok (inr {| d_q := map (fun x => q_read (fst x)) qD; d_D := map (fun x => matrix_read (length order) (snd x)) qD; d_geometry := geometry_values alat amass at_ tau order;
          d_epsil := match epsil, zeu with Some epsil, Some _ => Some (table_values 12 epsil) | _, _ => None end; d_zeu := None |}).
Proof.
  intros L HS U Et. unfold read_flfrc. rewrite Et. cbn [cells bind item nth_error]. destruct (text_dec §"Dynamical" §"Dynamical"); [|congruence]. unfold read_dyn. cbn [skip bind].
  assert (C : forall F, cells (structure_words alat (length (palette order amass)) (length order) :: F) = Ok (structure_words alat (length (palette order amass)) (length order), F)) by reflexivity.
  rewrite C. cbn [bind]. rewrite read_structure_ok by assumption. cbn [bind].
  assert (Hl : length qD + 2 <= S (length (flat_map (matrix_rows (length order)) qD ++ dyn_charges (length order) epsil zeu)) \/ (qD = [] /\ dyn_charges (length order) epsil zeu = [])).
  { rewrite app_length. assert (B : 5 * length qD <= length (flat_map (matrix_rows (length order)) qD)) by (clear; induction qD as [|x l IH]; [cbn; lia|]; cbn [flat_map length]; rewrite app_length; unfold matrix_rows at 1; rewrite app_length; cbn [length]; lia).
    destruct qD as [|x qD]; [|left; cbn [length] in *; lia]. unfold dyn_charges. destruct epsil; [|right; auto]. destruct zeu; [|right; auto]. left. cbn. lia. }
  destruct Hl as [Hl|[-> Hl]].
  - rewrite read_sections_ok by (exact Hl || reflexivity). reflexivity.
  - rewrite Hl. cbn. unfold dyn_charges in Hl. destruct epsil; [|reflexivity]. destruct zeu; [discriminate|reflexivity].
Qed.
End Dyn.
