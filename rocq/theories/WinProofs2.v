(** Proofs about input files of Wannier90, part 2: meshes and whole files. *)
From Coq Require Import Lia Ascii String Qabs.
From Verif Require Import Common CommonProofs Text TextProofs NmlModel QeModel NmlProofs WinModel WinSpec WinProofs.
From Verif Require XmlModel XmlProofs ProjModel QuadProofs.
Import ListNotations.
Local Open Scope nat_scope.

Lemma without_fmt_d z : without "=" (fmt_d z).
Proof.
  apply fmt_d_all; [|discriminate]. intros c Hc. destruct (digit_cases c Hc) as [->|[->|[->|[->|[->|[->|[->|[->|[->| ->]]]]]]]]]; discriminate.
Qed.

(** The line with the mesh, with a separator of one character that is not a blank *)
Lemma grid_words (w : text) a b c : word w ->
  str_split (nl (w ++ blank :: fmt_d a ++ blank :: fmt_d b ++ blank :: fmt_d c)) = [w; fmt_d a; fmt_d b; fmt_d c].
Proof.
  intros W. unfold nl. rewrite <- app_assoc, split_first by (try exact W; reflexivity). f_equal.
  cbn [app]. rewrite split_blank, <- app_assoc, split_first by (try apply word_fmt_d; reflexivity). f_equal.
  cbn [app]. rewrite split_blank, <- app_assoc, split_first by (try apply word_fmt_d; reflexivity). f_equal.
  cbn [app]. rewrite split_blank, split_last by apply word_fmt_d. reflexivity.
Qed.

Lemma grid_line (w : text) a b c : solid w -> line (nl (w ++ blank :: fmt_d a ++ blank :: fmt_d b ++ blank :: fmt_d c)).
Proof.
  intros W. apply line_nl. apply no_newline_app; [apply no_newline_solid, W|]. apply no_newline_blank, no_newline_app; [apply no_newline_d|].
  apply no_newline_blank, no_newline_app; [apply no_newline_d|]. apply no_newline_blank, no_newline_d.
Qed.

Lemma grid_step a b c g d : step (State Top g d) (nl (§"mp_grid" ++ §"=" ++ blank :: fmt_d a ++ blank :: fmt_d b ++ blank :: fmt_d c)) =
  Ok (State Top (Some (a, b, c)) (dset d §"mp_grid" (WGrid a b c))).
Proof.
  unfold step. cbn [s_grid s_struct s_mode]. unfold step_top, split_words.
  change (§"mp_grid" ++ §"=" ++ blank :: fmt_d a ++ blank :: fmt_d b ++ blank :: fmt_d c) with (§"mp_grid=" ++ blank :: fmt_d a ++ blank :: fmt_d b ++ blank :: fmt_d c).
  rewrite grid_words by (split; [discriminate|repeat constructor]). change (flat_map _ ?l) with (pieces l).
  change (pieces (§"mp_grid=" :: ?l)) with (§"mp_grid" :: pieces l).
  rewrite !pieces_word by (apply word_fmt_d || apply without_fmt_d). change (pieces []) with (@nil text).
  change (lower §"mp_grid") with (§"mp_grid"). change (among §"mp_grid" int_keys) with false. change (among §"mp_grid" float_keys) with false.
  change (among §"mp_grid" bool_keys) with false. change (teqb §"mp_grid" §"mp_grid") with true. cbv iota zeta. unfold item. cbn [nth_error bind].
  rewrite !to_int_word. reflexivity.
Qed.

Lemma colon_step a b c g d : step (State Top g d) (nl (§"mp_grid" ++ §":" ++ blank :: fmt_d a ++ blank :: fmt_d b ++ blank :: fmt_d c)) = Ok (State Top g d).
Proof.
  unfold step. cbn [s_grid s_struct s_mode]. unfold step_top, split_words.
  change (§"mp_grid" ++ §":" ++ blank :: fmt_d a ++ blank :: fmt_d b ++ blank :: fmt_d c) with (§"mp_grid:" ++ blank :: fmt_d a ++ blank :: fmt_d b ++ blank :: fmt_d c).
  rewrite grid_words by (split; [discriminate|repeat constructor]). change (flat_map _ ?l) with (pieces l).
  change (pieces (§"mp_grid:" :: ?l)) with (§"mp_grid:" :: pieces l). reflexivity.
Qed.

(** k points *)
Definition point_line (k : row * Q) : text := nl (row_text (fst k) ++ blank :: f12 (snd k)).

Lemma point_line_line k : line (point_line k).
Proof.
  apply line_nl. apply no_newline_app; [apply no_newline_row|]. apply no_newline_blank, no_newline_pad, no_newline_f.
Qed.

Lemma read_point_line k : read_point (str_split (point_line k)) = Ok (rounded_point k).
Proof.
  destruct k as [[[a b] c] w]. unfold point_line, nl. rewrite <- app_assoc. cbn [fst snd]. rewrite split_row by reflexivity. cbn [app].
  unfold f12. rewrite split_blank_pad by (try apply word_fmt_f; reflexivity). rewrite split_end. unfold row_words, read_point. cbn [app firstn map_res].
  rewrite !to_float_fmt by lia. cbn [bind]. change (4 <? length [fmt_f 9 a; fmt_f 9 b; fmt_f 9 c; fmt_f 9 w]) with false. reflexivity.
Qed.

Lemma steps_points g d : forall l done, l <> [] -> steps (State (Kpoints (length done + length l) done) g d) (map point_line l) =
  Ok (State Top g (dset d §"kpoints" (WPoints (done ++ map rounded_point l)))).
Proof.
  induction l as [|k l IH]; intros done H; [contradiction|]. cbn [map steps]. unfold step. cbn [s_grid s_struct s_mode]. rewrite read_point_line. cbn [bind].
  rewrite app_length. cbn [length]. destruct l as [|k' l].
  - change (S (length (@nil (row * Q)))) with 1. rewrite Nat.eqb_refl. reflexivity.
  - replace (length done + 1 =? length done + S (length (k' :: l))) with false by (symmetry; apply Nat.eqb_neq; cbn [length]; lia). cbn [bind].
    replace (length done + S (length (k' :: l))) with (length (done ++ [rounded_point k]) + length (k' :: l)) by (rewrite app_length; cbn [length]; lia).
    rewrite IH by discriminate. rewrite <- app_assoc. reflexivity.
Qed.

Section Trip.
  Variable repr_f : Q -> text.
  Variable s : dict wval.
  Hypothesis Hr : good_repr repr_f s.
  Hypothesis Hs : good s.

  (** Everything before the mesh *)
  Lemma reads_first : exists ls ks, reads repr_f s ls ks /\
    (forall k, In k ks <-> In k (map str (optional_ints ++ optional_floats ++ optional_bools ++ ["proj"; "kpoint_path"; "unit_cell"; "atoms_coords"; "at"; "atoms"]%string))) /\
    forall sep, write_lines repr_f sep s =
      do l9 <- grid_lines sep (dget s §"mp_grid") ;; do v <- need s "kpoints" ;; do l10 <- points_lines v ;; Ok (ls ++ l9 ++ empty ++ l10).
  Proof.
    destruct (reads_params repr_f s Hr Hs ["num_bands"; "num_wann"]%string) as (l1 & E1 & R1). { intros k [<-|[<-|[]]]; unfold param_key; cbn; auto 20. }
    destruct (reads_params repr_f s Hr Hs ["dis_win_min"; "dis_win_max"; "dis_froz_min"; "dis_froz_max"]%string) as (l2 & E2 & R2). { intros k [<-|[<-|[<-|[<-|[]]]]]; unfold param_key; cbn; auto 20. }
    destruct (reads_proj repr_f s Hs) as (v3 & l3 & N3 & E3 & R3).
    destruct (reads_params repr_f s Hr Hs ["write_hr"; "bands_plot"]%string) as (l4 & E4 & R4). { intros k [<-|[<-|[]]]; unfold param_key; cbn; auto 20. }
    destruct (reads_params repr_f s Hr Hs ["dis_num_iter"; "num_iter"; "search_shells"]%string) as (l5 & E5 & R5). { intros k [<-|[<-|[<-|[]]]]; unfold param_key; cbn; auto 20. }
    destruct (reads_path repr_f s Hs) as (v6 & l6 & N6 & E6 & R6).
    destruct (reads_cell repr_f s Hs) as (v7 & l7 & N7 & E7 & R7).
    destruct (reads_atoms repr_f s Hs) as (c8 & a8 & r8 & l8 & Nc & Na & Nr & E8 & R8).
    pose proof (reads_empty repr_f s) as R0.
    pose proof (reads_app repr_f s _ _ _ _ R1 (reads_app repr_f s _ _ _ _ R0 (reads_app repr_f s _ _ _ _ R2 (reads_app repr_f s _ _ _ _ R0 (reads_app repr_f s _ _ _ _ R3 (reads_app repr_f s _ _ _ _ R0
      (reads_app repr_f s _ _ _ _ R4 (reads_app repr_f s _ _ _ _ R0 (reads_app repr_f s _ _ _ _ R5 (reads_app repr_f s _ _ _ _ R0 (reads_app repr_f s _ _ _ _ R6 (reads_app repr_f s _ _ _ _ R0 (reads_app repr_f s _ _ _ _ R7 (reads_app repr_f s _ _ _ _ R0 (reads_app repr_f s _ _ _ _ R8 R0))))))))))))))) as R.
    eexists _, _. split; [exact R|]. split.
    - intros k. cbn [map rev app optional_ints optional_floats optional_bools In]. split; intros H; repeat (destruct H as [H|H]; [auto 30|]); try contradiction; tauto.
    - intros sep. unfold write_lines. rewrite E1. cbn [bind]. rewrite E2. cbn [bind]. rewrite N3. cbn [bind]. rewrite E3. cbn [bind]. rewrite E4. cbn [bind]. rewrite E5. cbn [bind].
      rewrite N6. cbn [bind]. rewrite E6. cbn [bind]. rewrite N7. cbn [bind]. rewrite E7. cbn [bind]. rewrite Nc. cbn [bind]. rewrite Na. cbn [bind]. rewrite Nr. cbn [bind]. rewrite E8. cbn [bind].
      destruct (grid_lines sep (dget s §"mp_grid")) as [l9|]; cbn [bind]; [|reflexivity]. destruct (need s "kpoints") as [v|]; cbn [bind]; [|reflexivity].
      destruct (points_lines v) as [l10|]; cbn [bind]; [|reflexivity]. rewrite <- !app_assoc. reflexivity.
  Qed.

  Lemma lines_of ls : Forall line ls -> lines (concat ls) = ls.
  Proof.
    intros H. rewrite <- (app_nil_r (concat ls)). rewrite QuadProofs.lines_concat; [apply app_nil_r|]. intros t I. revert t I. apply Forall_forall. exact H.
  Qed.

  Lemma inv_nil : Inv repr_f s [] [].
  Proof. intros k. reflexivity. Qed.

  Lemma near_rounded x : near x (rounded 9 x).
  Proof. exact (rounded_near 9 x). Qed.
  Lemma near_rounded_row r : near_row r (rounded_row r).
  Proof. destruct r as [[a b] c]. repeat split; apply near_rounded. Qed.
  Lemma near_rounded_value k v : written k -> dget s k = Some v -> near_value v (rounded_value repr_f v).
  Proof.
    intros Hk Ek. destruct v; cbn [rounded_value near_value]; try reflexivity.
    - unfold written in Hk. rewrite !map_app, !in_app_iff in Hk. destruct Hk as [Hk|[Hk|[Hk|Hk]]].
      + apply in_map_iff in Hk. destruct Hk as (k' & <- & Hk). destruct (g_int s Hs k' _ Hk Ek) as (z & F). discriminate.
      + apply in_map_iff in Hk. destruct Hk as (k' & <- & Hk). destruct (Hr k' x Hk Ek) as (_ & _ & y & -> & Hy). symmetry. exact Hy.
      + apply in_map_iff in Hk. destruct Hk as (k' & <- & Hk). destruct (g_bool s Hs k' _ Hk Ek) as (z & F). discriminate.
      + exfalso. cbn [map blocks In] in Hk. destruct (g_proj s Hs) as (? & ? & _), (g_path s Hs) as (? & ? & _), (g_cell s Hs) as (? & ? & ? & ?), (g_coords s Hs) as (? & ? & _), (g_atoms s Hs) as (? & ? & ? & ? & _), (g_points s Hs) as (? & ?).
        pose proof (g_grid s Hs) as Gg.
        repeat (destruct Hk as [<-|Hk]; [first [congruence|destruct (Gg _ Ek) as (? & ? & ? & ?); discriminate]|]). exact Hk.
    - clear Ek. induction l; cbn [map]; constructor; auto. apply near_rounded_row.
    - clear Ek. induction l; cbn [map]; constructor; auto. split; [apply near_rounded_row|apply near_rounded].
  Qed.

  Lemma point_lines l : Forall line (nl §"begin kpoints" :: map point_line l ++ [nl §"end kpoints"]).
  Proof.
    constructor; [apply line_nl, no_newline_str; reflexivity|]. apply Forall_app. split; [|constructor; [apply line_nl, no_newline_str; reflexivity|constructor]].
    apply Forall_forall. intros t I. apply in_map_iff in I. destruct I as (k & <- & _). apply point_line_line.
  Qed.

  Lemma trip : good_mesh s -> exists file s', write_win_with repr_f §"=" s = Ok file /\ read_win file = Ok s' /\
    forall k, (written k -> match dget s k, dget s' k with Some v, Some v' => near_value v v' | None, None => True | _, _ => False end) /\
      (~ written k -> dget s' k = None).
  Proof.
    intros (a & b & c & l & Eg & El & Nl & Hl). destruct reads_first as (ls & ks & [F R] & Hks & W).
    unfold write_win_with. rewrite W, Eg. unfold need. rewrite El. cbn [grid_lines points_lines bind]. fold point_line.
    set (all := (ls ++ _)%list). assert (Fa : Forall line all).
    { unfold all. repeat (apply Forall_app; split); [exact F| | |apply point_lines].
      - constructor; [|constructor]. change (§"mp_grid" ++ §"=" ++ ?t) with (§"mp_grid=" ++ t). apply grid_line. repeat constructor.
      - repeat constructor. exists []. split; [reflexivity|constructor]. }
    destruct (R None [] [] inv_nil) as (d1 & S1 & H1). rewrite app_nil_r in H1.
    set (d2 := dset d1 §"mp_grid" (WGrid a b c)). set (d3 := dset d2 §"kpoints" (WPoints (map rounded_point l))).
    exists (concat all), d3. split; [reflexivity|]. split.
    - unfold read_win. rewrite lines_of by exact Fa. unfold all. rewrite steps_app, S1. cbn [bind]. cbn [app steps]. rewrite grid_step. cbn [bind]. fold d2.
      change (empty ++ ?x)%list with ([newline] :: x). cbn [steps]. rewrite step_empty. cbn [bind].
      assert (B : step (State Top (Some (a, b, c)) d2) (nl §"begin kpoints") = Ok (State (Kpoints (length l) []) (Some (a, b, c)) d2)).
      { unfold step. cbn [s_grid s_struct s_mode]. unfold step_top. change (split_words (nl §"begin kpoints")) with [§"begin"; §"kpoints"].
        change (lower §"begin") with (§"begin"). change (among §"begin" int_keys) with false. change (among §"begin" float_keys) with false.
        change (among §"begin" bool_keys) with false. change (teqb §"begin" §"mp_grid") with false. change (teqb §"begin" §"begin") with true. cbv iota zeta.
        unfold item. cbn [nth_error bind]. change (teqb §"kpoints" §"projections") with false. change (teqb §"kpoints" §"kpoint_path") with false.
        change (teqb §"kpoints" §"unit_cell_cart") with false. change (QeModel.prefix §"atoms_" §"kpoints") with false. change (teqb §"kpoints" §"kpoints") with true. cbv iota zeta.
        rewrite Hl. replace (Z.of_nat (length l) <? 0)%Z with false by (symmetry; apply Z.ltb_ge; lia).
        replace (Z.of_nat (length l) =? 0)%Z with false by (symmetry; apply Z.eqb_neq; destruct l; [contradiction|cbn [length]; lia]). rewrite Nat2Z.id. reflexivity. }
      rewrite B. cbn [bind]. rewrite steps_app. pose proof (steps_points (Some (a, b, c)) d2 l [] Nl) as SP; cbn [length Nat.add app] in SP; rewrite SP. cbn [bind app]. fold d3. cbn [steps].
      change (step (State Top (Some (a, b, c)) d3) (nl §"end kpoints")) with (Ok (State Top (Some (a, b, c)) d3)). reflexivity.
    - assert (H3 : Inv repr_f s (§"kpoints" :: §"mp_grid" :: ks) d3).
      { apply inv_set; [apply inv_set; [exact H1|unfold E; rewrite Eg; reflexivity]|unfold E; rewrite El; reflexivity]. }
      assert (K : forall k, In k (§"kpoints" :: §"mp_grid" :: ks) <-> written k).
      { intros k. cbn [In]. rewrite Hks. unfold written, blocks. cbn [map app optional_ints optional_floats optional_bools In]. tauto. }
      intros k. specialize (H3 k). destruct (in_dec (list_eq_dec ascii_dec) k (§"kpoints" :: §"mp_grid" :: ks)) as [I|I].
      + split; [intros Hk|intros N; exfalso; apply N, K, I]. rewrite H3. unfold E. destruct (dget s k) eqn:Ek; [apply (near_rounded_value k _ Hk Ek)|exact Logic.I].
      + split; [intros N; exfalso; apply I, K, N|intros _; exact H3].
  Qed.

  Lemma colon : exists file, write_win repr_f s = Ok file /\ read_win file = Raise UnboundLocalError.
  Proof.
    destruct (g_points s Hs) as (l & El). destruct reads_first as (ls & ks & [F R] & Hks & W).
    unfold write_win, write_win_with. rewrite W.
    assert (G : exists lg, grid_lines §":" (dget s §"mp_grid") = Ok lg /\ Forall line lg /\ forall d, steps (State Top None d) lg = Ok (State Top None d)).
    { destruct (dget s §"mp_grid") as [v|] eqn:Eg; [|exists []; repeat split; constructor]. destruct (g_grid s Hs v Eg) as (a & b & c & ->). eexists. split; [reflexivity|]. split.
      - constructor; [|constructor]. change (§"mp_grid" ++ §":" ++ ?t) with (§"mp_grid:" ++ t). apply grid_line. repeat constructor.
      - intros d. cbn [steps]. rewrite colon_step. reflexivity. }
    destruct G as (lg & Eg & Fg & Sg). rewrite Eg. unfold need. rewrite El. cbn [points_lines bind]. fold point_line. eexists. split; [reflexivity|].
    destruct (R None [] [] inv_nil) as (d1 & S1 & H1).
    unfold read_win. rewrite lines_of.
    - rewrite steps_app, S1. cbn [bind]. rewrite steps_app, Sg. reflexivity.
    - apply Forall_app. split; [exact F|]. apply Forall_app. split; [exact Fg|]. apply Forall_app. split; [repeat constructor; exists []; split; [reflexivity|constructor]|apply point_lines].
  Qed.
End Trip.
