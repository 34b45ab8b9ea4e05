(** Proofs about input files of Wannier90. *)
From Coq Require Import Lia Ascii String Qabs.
From Verif Require Import Common CommonProofs Text TextProofs NmlModel QeModel NmlProofs WinModel WinSpec.
From Verif Require XmlModel XmlProofs ProjModel QuadProofs.
Import ListNotations.
Local Open Scope nat_scope.

(** ** Words *)
Lemma split_at_none w : without "=" w -> XmlModel.split_at "=" w = [w].
Proof. intros H. unfold XmlModel.split_at. rewrite <- (app_nil_r w) at 1. rewrite XmlProofs.split_from_no by exact H. reflexivity. Qed.

Definition pieces (ws : list text) : list text :=
  flat_map (fun column => filter (fun w => negb (teqb w [])) (XmlModel.split_at "=" column)) ws.

Lemma pieces_word w ws : word w -> without "=" w -> pieces (w :: ws) = w :: pieces ws.
Proof.
  intros [N _] H. unfold pieces. cbn [flat_map]. rewrite split_at_none by exact H. cbn [filter app].
  rewrite (proj2 (teqb_neq w []) N). reflexivity.
Qed.

Lemma word_str s : Forall (fun c => is_space c = false) (str s) -> str s <> [] -> word (str s).
Proof. split; assumption. Qed.

Lemma split_words_nl w rest : spaces [] -> split_words (nl (w ++ rest)) = pieces (str_split (w ++ rest ++ [newline])).
Proof. intros _. unfold split_words, nl. rewrite <- app_assoc. reflexivity. Qed.

Lemma end_starts : starts_space [newline].
Proof. reflexivity. Qed.

Lemma split_last w : word w -> str_split (w ++ [newline]) = [w].
Proof. intros H. change (w ++ [newline]) with ([] ++ w ++ [newline]). rewrite (split_word [] w [newline]); [reflexivity|constructor|exact H|reflexivity]. Qed.

Lemma split_first w rest : word w -> starts_space rest -> str_split (w ++ rest) = w :: str_split rest.
Proof. intros H Hr. change (w ++ rest) with ([] ++ w ++ rest). apply split_word; [constructor|exact H|exact Hr]. Qed.

Lemma split_blank t : str_split (blank :: t) = str_split t.
Proof. reflexivity. Qed.

(** ** Lines without blanks at their ends *)
Lemma lstrip_length t : length (lstrip t) <= length t.
Proof. induction t as [|c t IH]; [reflexivity|]. cbn [lstrip]. destruct (is_space c); cbn [length]; lia. Qed.

Lemma lstrip_same t : length (lstrip t) = length t -> lstrip t = t.
Proof.
  destruct t as [|c t]; [reflexivity|]. cbn [lstrip]. destruct (is_space c); [|reflexivity]. pose proof (lstrip_length t). cbn [length]. lia.
Qed.

Lemma strip_parts t : strip t = t -> lstrip t = t /\ lstrip (rev t) = rev t.
Proof.
  intros H. pose proof (lstrip_length t) as L1. pose proof (lstrip_length (rev (lstrip t))) as L2. rewrite rev_length in L2.
  assert (L : length (strip t) = length t) by (rewrite H; reflexivity). unfold strip in L. rewrite rev_length in L.
  assert (E : lstrip t = t) by (apply lstrip_same; lia). split; [exact E|]. rewrite E in *. apply lstrip_same. rewrite rev_length. lia.
Qed.

Lemma lstrip_app t r : lstrip t = t -> t <> [] -> lstrip (t ++ r) = t ++ r.
Proof.
  destruct t as [|c t]; [contradiction|]. intros H _. cbn [lstrip app] in *. destruct (is_space c); [|reflexivity].
  exfalso. pose proof (lstrip_length t) as L. rewrite H in L. cbn [length] in L. lia.
Qed.

Lemma spaces_rev s : spaces s -> spaces (rev s).
Proof. intros H. apply Forall_forall. intros c I. apply in_rev in I. revert c I. apply Forall_forall. exact H. Qed.

Lemma strip_around s t r : spaces s -> spaces r -> strip t = t -> strip (s ++ t ++ r) = t.
Proof.
  intros Hs Hr H. destruct (strip_parts t H) as [H1 H2]. unfold strip. rewrite lstrip_spaces by exact Hs.
  destruct t as [|c t].
  - cbn [app]. rewrite <- (app_nil_r r), lstrip_spaces by exact Hr. reflexivity.
  - rewrite lstrip_app by (auto; discriminate). rewrite rev_app_distr, lstrip_spaces by (apply spaces_rev, Hr).
    rewrite H2, rev_involutive. reflexivity.
Qed.

Lemma strip_line t : strip t = t -> strip (nl t) = t.
Proof. intros H. apply (strip_around [] t [newline]); [constructor|repeat constructor|exact H]. Qed.

(** ** Parts of texts *)
Lemma prefix_iff p : forall t, QeModel.prefix p t = true <-> exists u, t = p ++ u.
Proof.
  induction p as [|c p IH]; intros t; cbn [QeModel.prefix app].
  - split; [intros _; exists t; reflexivity|destruct t; reflexivity].
  - destruct t as [|d t]; [split; [discriminate|intros (u & E); discriminate]|]. rewrite Bool.andb_true_iff, Ascii.eqb_eq, IH. split.
    + intros (-> & u & ->). exists u. reflexivity.
    + intros (u & E). injection E as -> ->. split; [reflexivity|exists u; reflexivity].
Qed.

Lemma proj_prefix_iff p : forall t, ProjModel.prefix p t = true <-> exists u, t = p ++ u.
Proof.
  induction p as [|c p IH]; intros t; cbn [ProjModel.prefix app].
  - split; [intros _; exists t; reflexivity|destruct t; reflexivity].
  - destruct t as [|d t]; [split; [discriminate|intros (u & E); discriminate]|]. rewrite Bool.andb_true_iff, Ascii.eqb_eq, IH. split.
    + intros (-> & u & ->). exists u. reflexivity.
    + intros (u & E). injection E as -> ->. split; [reflexivity|exists u; reflexivity].
Qed.

Lemma contains_iff p t : ProjModel.contains p t = true <-> occurs p t.
Proof.
  unfold occurs. induction t as [|c t IH]; cbn [ProjModel.contains]; rewrite Bool.orb_true_iff, proj_prefix_iff.
  - split.
    + intros [(u & E)|F]; [exists [], u; exact E|discriminate].
    + intros (x & y & E). left. destruct x; [exists y; exact E|discriminate].
  - rewrite IH. split.
    + intros [(u & E)|(x & y & E)]; [exists [], u; exact E|exists (c :: x), y; rewrite E; reflexivity].
    + intros (x & y & E). destruct x as [|d x]; [left; exists y; exact E|right; injection E as -> ->; exists x, y; reflexivity].
Qed.

Lemma occurs_nl t : occurs §"end" (nl t) -> occurs §"end" t.
Proof.
  intros (x & y & E). unfold nl in E. destruct y as [|c y] using rev_ind.
  - exfalso. rewrite app_nil_r in E. change (§"end") with (§"en" ++ ["d"%char]) in E. rewrite app_assoc in E. apply app_inj_tail in E. destruct E as [_ E]. discriminate.
  - rewrite !app_assoc in E. apply app_inj_tail in E. destruct E as [E _]. exists x, y. rewrite E, <- app_assoc. reflexivity.
Qed.

Lemma partition_at c a b : without c a -> XmlModel.partition c (a ++ c :: b) = (a, Some b).
Proof.
  induction a as [|d a IH]; intros H; cbn [app XmlModel.partition].
  - rewrite Ascii.eqb_refl. reflexivity.
  - rewrite (proj2 (Ascii.eqb_neq d c)) by exact (Forall_inv H). rewrite IH by exact (Forall_inv_tail H). reflexivity.
Qed.

(** ** Steps *)
Lemma steps_app l1 : forall s l2, steps s (l1 ++ l2) = do s <- steps s l1 ;; steps s l2.
Proof.
  induction l1 as [|l l1 IH]; intros s l2; cbn [app steps]; [reflexivity|]. destruct (step s l) as [s'|e]; cbn [bind]; [apply IH|reflexivity].
Qed.

Lemma step_empty g d : step (State Top g d) [newline] = Ok (State Top g d).
Proof. reflexivity. Qed.

(** ** Rows *)
Definition rounded_row (r : row) : row := let '(a, b, c) := r in (rounded 9 a, rounded 9 b, rounded 9 c).
Definition rounded_point (k : row * Q) : row * Q := (rounded_row (fst k), rounded 9 (snd k)).
Definition rounded_value (repr_f : Q -> text) (v : wval) : wval :=
  match v with WFloat x => WFloat (match to_float (repr_f x) with Ok y => y | Raise _ => x end) | WRows l => WRows (map rounded_row l) | WPoints l => WPoints (map rounded_point l) | _ => v end.

Definition row_words (r : row) : list text := let '(a, b, c) := r in [fmt_f 9 a; fmt_f 9 b; fmt_f 9 c].

Lemma split_row r rest : starts_space rest -> str_split (row_text r ++ rest) = row_words r ++ str_split rest.
Proof.
  intros H. destruct r as [[a b] c]. unfold row_text, f12, row_words. rewrite <- app_assoc. cbn [app]. rewrite split_pad by (try apply word_fmt_f; reflexivity).
  f_equal. rewrite <- app_assoc. cbn [app]. rewrite split_blank_pad by (try apply word_fmt_f; reflexivity). f_equal. rewrite split_blank_pad by (try apply word_fmt_f; exact H). reflexivity.
Qed.

Lemma read_row_words r ws : read_row (row_words r ++ ws) = Ok (rounded_row r).
Proof.
  destruct r as [[a b] c]. unfold read_row, row_words, item. cbn [app nth_error bind]. rewrite !to_float_fmt by lia. reflexivity.
Qed.

Lemma no_newline_blank t : no_newline t -> no_newline (blank :: t).
Proof. intros H. constructor; [discriminate|exact H]. Qed.

Lemma no_newline_row r : no_newline (row_text r).
Proof.
  destruct r as [[a b] c]. unfold row_text, f12. apply no_newline_app; [apply no_newline_pad, no_newline_f|]. apply no_newline_blank.
  apply no_newline_app; [apply no_newline_pad, no_newline_f|]. apply no_newline_blank. apply no_newline_pad, no_newline_f.
Qed.

Lemma no_newline_str s : forallb (fun c => negb (Ascii.eqb c newline)) (str s) = true -> no_newline (str s).
Proof.
  intros H. apply Forall_forall. intros c I E. rewrite forallb_forall in H. specialize (H c I). subst c. rewrite Ascii.eqb_refl in H. discriminate.
Qed.

(** ** Well-formed lines *)
Definition line (t : text) : Prop := exists l, t = l ++ [newline] /\ no_newline l.

Lemma line_nl t : no_newline t -> line (nl t).
Proof. intros H. exists t. split; [reflexivity|exact H]. Qed.

Section Trip.
  Variable repr_f : Q -> text.
  Variable s : dict wval.
  Hypothesis Hr : good_repr repr_f s.
  Hypothesis Hs : good s.

  Definition E (k : text) : option wval := match dget s k with Some v => Some (rounded_value repr_f v) | None => None end.
  (** What has been read so far *)
  Definition Inv (ks : list text) (d : dict wval) : Prop := forall k, dget d k = if in_dec (list_eq_dec ascii_dec) k ks then E k else None.

  Lemma inv_set ks d k v : Inv ks d -> E k = Some v -> Inv (k :: ks) (dset d k v).
  Proof.
    intros H Ek k'. rewrite dget_dset. destruct (in_dec (list_eq_dec ascii_dec) k' (k :: ks)) as [I|I].
    - destruct (teqb k k') eqn:T; [apply teqb_eq in T; subst; symmetry; exact Ek|]. apply teqb_neq in T. destruct I as [I|I]; [contradiction|].
      rewrite H. destruct (in_dec (list_eq_dec ascii_dec) k' ks); [reflexivity|contradiction].
    - destruct (teqb k k') eqn:T; [apply teqb_eq in T; exfalso; apply I; left; exact T|]. rewrite H.
      destruct (in_dec (list_eq_dec ascii_dec) k' ks); [exfalso; apply I; right; assumption|reflexivity].
  Qed.

  Lemma inv_skip ks d k : Inv ks d -> E k = None -> Inv (k :: ks) d.
  Proof.
    intros H Ek k'. rewrite H. destruct (in_dec (list_eq_dec ascii_dec) k' (k :: ks)) as [I|I], (in_dec (list_eq_dec ascii_dec) k' ks) as [J|J]; try reflexivity.
    - destruct I as [<-|I]; [symmetry; exact Ek|contradiction].
    - exfalso. apply I. right. exact J.
  Qed.

  Definition param_key (k : string) : Prop := In k (optional_ints ++ optional_floats ++ optional_bools)%list.

  (** The line of one parameter *)
  Lemma param_step k v g d : param_key k -> dget s (str k) = Some v -> exists r, repr repr_f v = Ok r /\ line (nl (str k ++ §" = " ++ r)) /\
    step (State Top g d) (nl (str k ++ §" = " ++ r)) = Ok (State Top g (dset d (str k) (rounded_value repr_f v))).
  Proof.
    intros Hk Ek.
    assert (K : forall k0, In k0 (optional_ints ++ optional_floats ++ optional_bools)%list -> word (str k0) /\ without "=" (str k0) /\ lower (str k0) = str k0 /\ no_newline (str k0)).
    { intros k0 H0. cbn in H0. repeat destruct H0 as [<-|H0]; try contradiction; (split; [split; [discriminate|repeat constructor]|split; [repeat (constructor; [discriminate|]); constructor|split; [reflexivity|apply no_newline_str; reflexivity]]]). }
    destruct (K k Hk) as (K1 & K2 & K3 & K4).
    assert (G : forall r, word r -> without "=" r -> line (nl (str k ++ §" = " ++ r)) /\ split_words (nl (str k ++ §" = " ++ r)) = [str k; r]).
    { intros r R1 R2. split.
      - apply line_nl. apply no_newline_app; [exact K4|]. apply no_newline_app; [apply no_newline_str; reflexivity|]. apply no_newline_solid, R1.
      - unfold split_words, nl. rewrite <- app_assoc. rewrite split_first by (try exact K1; reflexivity).
        change ((§" = " ++ r) ++ [newline]) with (blank :: §"=" ++ (blank :: r ++ [newline])). rewrite split_blank, (split_first §"=" (blank :: r ++ [newline])); [|split; [discriminate|repeat constructor]|reflexivity].
        rewrite split_blank, split_last by exact R1. change (flat_map _ ?l) with (pieces l). rewrite pieces_word by assumption.
        f_equal. change (pieces (§"=" :: [r])) with (pieces [r]). rewrite pieces_word by assumption. reflexivity. }
    unfold param_key in Hk. rewrite !in_app_iff in Hk. destruct Hk as [Hk|[Hk|Hk]].
    - destruct (g_int s Hs k v Hk Ek) as (z & ->). exists (fmt_d z). destruct (G (fmt_d z) (word_fmt_d z)) as [L W].
      { apply fmt_d_all; [|discriminate]. intros c Hc. destruct (digit_cases c Hc) as [->|[->|[->|[->|[->|[->|[->|[->|[->| ->]]]]]]]]]; discriminate. }
      split; [reflexivity|]. split; [exact L|]. unfold step. cbn [s_grid s_struct s_mode]. unfold step_top. rewrite W, K3.
      replace (among (str k) int_keys) with true by (cbn in Hk; repeat destruct Hk as [<-|Hk]; try contradiction; reflexivity).
      unfold item. cbn [nth_error bind]. rewrite to_int_word. reflexivity.
    - destruct (g_float s Hs k v Hk Ek) as (x & ->). exists (repr_f x). destruct (Hr k x Hk Ek) as (Rw & Re & y & Ry & _). destruct (G (repr_f x) Rw Re) as [L W].
      split; [reflexivity|]. split; [exact L|]. unfold step. cbn [s_grid s_struct s_mode]. unfold step_top. rewrite W, K3.
      replace (among (str k) int_keys) with false by (cbn in Hk; repeat destruct Hk as [<-|Hk]; try contradiction; reflexivity).
      replace (among (str k) float_keys) with true by (cbn in Hk; repeat destruct Hk as [<-|Hk]; try contradiction; reflexivity).
      unfold item. cbn [nth_error bind]. cbn [rounded_value]. rewrite Ry. reflexivity.
    - destruct (g_bool s Hs k v Hk Ek) as (b & ->). exists (if b then §"True" else §"False"). destruct (G (if b then §"True" else §"False")) as [L W].
      { destruct b; (split; [discriminate|repeat constructor]). } { destruct b; repeat (constructor; [discriminate|]); constructor. }
      split; [reflexivity|]. split; [exact L|]. unfold step. cbn [s_grid s_struct s_mode]. unfold step_top. rewrite W, K3.
      replace (among (str k) int_keys) with false by (cbn in Hk; repeat destruct Hk as [<-|Hk]; try contradiction; reflexivity).
      replace (among (str k) float_keys) with false by (cbn in Hk; repeat destruct Hk as [<-|Hk]; try contradiction; reflexivity).
      replace (among (str k) bool_keys) with true by (cbn in Hk; repeat destruct Hk as [<-|Hk]; try contradiction; reflexivity).
      unfold item. cbn [nth_error bind]. destruct b; reflexivity.
  Qed.

  (** A part of the file that is read as intended *)
  Definition reads (ls : list text) (ks : list text) : Prop :=
    Forall line ls /\ forall g ks0 d, Inv ks0 d -> exists d', steps (State Top g d) ls = Ok (State Top g d') /\ Inv (ks ++ ks0) d'.

  Lemma reads_nil : reads [] [].
  Proof. split; [constructor|]. intros g ks0 d H. exists d. split; [reflexivity|exact H]. Qed.

  Lemma reads_app l1 k1 l2 k2 : reads l1 k1 -> reads l2 k2 -> reads (l1 ++ l2) (k2 ++ k1).
  Proof.
    intros [F1 R1] [F2 R2]. split; [apply Forall_app; split; assumption|]. intros g ks0 d H.
    destruct (R1 g ks0 d H) as (d1 & S1 & H1). destruct (R2 g (k1 ++ ks0)%list d1 H1) as (d2 & S2 & H2).
    exists d2. rewrite steps_app, S1. cbn [bind]. rewrite <- app_assoc. split; assumption.
  Qed.

  Lemma reads_empty : reads empty [].
  Proof.
    split; [repeat constructor; exists []; split; [reflexivity|constructor]|]. intros g ks0 d H. exists d. split; [reflexivity|exact H].
  Qed.

  Lemma reads_params keys : (forall k, In k keys -> param_key k) -> exists ls, params repr_f s keys = Ok ls /\ reads ls (rev (map str keys)).
  Proof.
    induction keys as [|k keys IH]; intros H; [exists []; split; [reflexivity|apply reads_nil]|].
    destruct (IH (fun k' I => H k' (or_intror I))) as (ls & El & R). cbn [params map rev]. destruct (dget s (str k)) as [v|] eqn:Ek.
    - destruct (param_step k v None [] (H k (or_introl eq_refl)) Ek) as (r & Er & L & _). rewrite Er. cbn [bind]. rewrite El. cbn [bind]. eexists. split; [reflexivity|].
      change (?x :: ls) with ([x] ++ ls)%list. apply reads_app; [|exact R]. split; [repeat constructor; exact L|]. intros g ks0 d Hd.
      destruct (param_step k v g d (H k (or_introl eq_refl)) Ek) as (r' & Er' & _ & St). rewrite Er in Er'. injection Er' as <-.
      exists (dset d (str k) (rounded_value repr_f v)). cbn [steps]. rewrite St. split; [reflexivity|]. apply inv_set; [exact Hd|]. unfold E. rewrite Ek. reflexivity.
    - exists ls. split; [exact El|]. change ls with ([] ++ ls)%list. apply reads_app; [|exact R]. split; [constructor|]. intros g ks0 d Hd. exists d. split; [reflexivity|].
      apply inv_skip; [exact Hd|]. unfold E. rewrite Ek. reflexivity.
  Qed.

  Ltac top := unfold step; cbn [s_grid s_struct s_mode].

  (** Projections *)
  Lemma reads_proj : exists v ls, need s "proj" = Ok v /\ proj_lines v = Ok ls /\ reads ls [§"proj"].
  Proof.
    destruct (g_proj s Hs) as (p & Ep & Np & Nd & Hp). exists (WProj p). unfold need. rewrite Ep.
    exists (nl §"begin projections" :: map (fun x => nl (fst x ++ §": " ++ snd x)) p ++ [nl §"end projections"]). split; [reflexivity|].
    split; [unfold proj_lines; destruct p; [contradiction|reflexivity]|]. split.
    - constructor; [apply line_nl, no_newline_str; reflexivity|]. apply Forall_app. split; [|repeat constructor; apply line_nl, no_newline_str; reflexivity].
      apply Forall_forall. intros t I. apply in_map_iff in I. destruct I as ([a b] & <- & I). destruct (Hp a b I) as (A & B & _ & _). cbn [fst snd]. apply line_nl.
      apply no_newline_app; [apply A|]. apply no_newline_app; [apply no_newline_str; reflexivity|apply B].
    - intros g ks0 d Hd. exists (dset d §"proj" (WProj p)). split; [|apply inv_set; [exact Hd|unfold E; rewrite Ep; reflexivity]].
      cbn [steps]. top. change (step_top (nl §"begin projections") g d) with (Ok (State (Projections []) g d)). cbn [bind]. rewrite steps_app.
      assert (G : forall q done, (forall a b, In (a, b) q -> stripped_line a /\ stripped_line b /\ without ":" a /\ ~ occurs §"end" (a ++ §": " ++ b)) ->
        NoDup (map fst (done ++ q)) -> steps (State (Projections done) g d) (map (fun x => nl (fst x ++ §": " ++ snd x)) q) = Ok (State (Projections (done ++ q)) g d)).
      { induction q as [|[a b] q IH]; intros done Hq Hn; [rewrite app_nil_r; reflexivity|]. destruct (Hq a b (or_introl eq_refl)) as ((A1 & A2) & (B1 & B2) & C & O). cbn [map steps fst snd]. top.
        replace (ProjModel.contains §"end" (nl (a ++ §": " ++ b))) with false by (symmetry; apply Bool.not_true_iff_false; rewrite contains_iff; intros F; exact (O (occurs_nl _ F))).
        change (nl (a ++ §": " ++ b)) with ((a ++ §": " ++ b) ++ [newline]). rewrite <- app_assoc. change ((§": " ++ b) ++ [newline]) with (":"%char :: blank :: b ++ [newline]).
        rewrite partition_at by exact C. rewrite A2. change (blank :: b ++ [newline]) with ([blank] ++ b ++ [newline]). rewrite (strip_around [blank] b [newline]) by (try exact B2; repeat constructor). cbn [bind].
        rewrite dset_new.
        - rewrite IH; [rewrite <- app_assoc; reflexivity|intros a' b' I; apply Hq; right; exact I|rewrite <- app_assoc; exact Hn].
        - rewrite map_app in Hn. cbn [map fst] in Hn. apply NoDup_remove_2 in Hn. intros I. apply Hn. apply in_app_iff. left. exact I. }
      rewrite (G p []); [|intros a b I; apply Hp; exact I|exact Nd]. cbn [bind app steps]. top.
      change (ProjModel.contains §"end" (nl §"end projections")) with true. reflexivity.
  Qed.

  (** Path of k points *)
  Lemma reads_path : exists v ls, need s "kpoint_path" = Ok v /\ path_lines v = Ok ls /\ reads ls [§"kpoint_path"].
  Proof.
    destruct (g_path s Hs) as (p & Ep & Np & Hp). exists (WTexts p). unfold need. rewrite Ep.
    exists (nl §"begin kpoint_path" :: map nl p ++ [nl §"end kpoint_path"]). split; [reflexivity|].
    split; [unfold path_lines; destruct p; [contradiction|reflexivity]|]. split.
    - constructor; [apply line_nl, no_newline_str; reflexivity|]. apply Forall_app. split; [|repeat constructor; apply line_nl, no_newline_str; reflexivity].
      apply Forall_forall. intros t I. apply in_map_iff in I. destruct I as (a & <- & I). apply line_nl. apply (Hp a I).
    - intros g ks0 d Hd. exists (dset d §"kpoint_path" (WTexts p)). split; [|apply inv_set; [exact Hd|unfold E; rewrite Ep; reflexivity]].
      cbn [steps]. top. change (step_top (nl §"begin kpoint_path") g d) with (Ok (State (Kpoint_path []) g d)). cbn [bind]. rewrite steps_app.
      assert (G : forall q done, (forall t, In t q -> stripped_line t /\ ~ (exists u, t = §"end" ++ u)) ->
        steps (State (Kpoint_path done) g d) (map nl q) = Ok (State (Kpoint_path (done ++ q)) g d)).
      { induction q as [|a q IH]; intros done Hq; [rewrite app_nil_r; reflexivity|]. destruct (Hq a (or_introl eq_refl)) as ((A1 & A2) & B). cbn [map steps]. top.
        rewrite strip_line by exact A2. replace (QeModel.prefix §"end" a) with false by (symmetry; apply Bool.not_true_iff_false; rewrite prefix_iff; exact B). cbn [bind].
        rewrite IH; [rewrite <- app_assoc; reflexivity|intros t I; apply Hq; right; exact I]. }
      rewrite (G p [] Hp). cbn [bind app steps]. top. reflexivity.
  Qed.

  (** Unit cell *)
  Lemma reads_cell : exists v ls, need s "unit_cell" = Ok v /\ cell_lines v = Ok ls /\ reads ls [§"unit_cell"].
  Proof.
    destruct (g_cell s Hs) as (r1 & r2 & r3 & Ep). exists (WRows [r1; r2; r3]). unfold need. rewrite Ep.
    exists (nl §"begin unit_cell_cart" :: map (fun r => nl (row_text r)) [r1; r2; r3] ++ [nl §"end unit_cell_cart"]). split; [reflexivity|]. split; [reflexivity|]. split.
    - cbn [map app]. repeat constructor; apply line_nl; try apply no_newline_row; apply no_newline_str; reflexivity.
    - intros g ks0 d Hd. exists (dset d §"unit_cell" (WRows (map rounded_row [r1; r2; r3]))). split; [|apply inv_set; [exact Hd|unfold E; rewrite Ep; reflexivity]].
      cbn [steps map app]. unfold step at 1. cbn [s_grid s_struct s_mode]. change (step_top (nl §"begin unit_cell_cart") g d) with (Ok (State (Unit_cell []) g d)). cbn [bind].
      do 3 (unfold step at 1; cbn [s_grid s_struct s_mode]; unfold nl at 1; rewrite split_row by reflexivity; rewrite read_row_words; cbn [bind app length Nat.eqb]).
      reflexivity.
  Qed.

  (** Atoms *)
  Lemma reads_atoms : exists c a r ls, need s "atoms_coords" = Ok c /\ need s "at" = Ok a /\ need s "atoms" = Ok r /\ atoms_lines c a r = Ok ls /\ reads ls [§"atoms"; §"at"; §"atoms_coords"].
  Proof.
    destruct (g_coords s Hs) as (c & Ec & C1 & C2). destruct (g_atoms s Hs) as (l & r & El & Er & Hl & HX).
    exists (WText c), (WTexts l), (WRows r). unfold need. rewrite Ec, El, Er. eexists. split; [reflexivity|]. split; [reflexivity|]. split; [reflexivity|]. split; [reflexivity|].
    assert (HX' : forall X R, In (X, R) (combine l r) -> word X /\ X <> §"end") by (intros X R I; apply HX; apply in_combine_l in I; exact I).
    assert (Fc : forall p, no_newline (str p) -> no_newline (str p ++ c)) by (intros p Np; apply no_newline_app; [exact Np|apply no_newline_solid, C1]).
    split.
    - constructor; [apply line_nl, Fc, no_newline_str; reflexivity|]. apply Forall_app. split; [|constructor; [apply line_nl, Fc, no_newline_str; reflexivity|constructor]].
      apply Forall_forall. intros t I. apply in_map_iff in I. destruct I as ([X R] & <- & I). cbn [fst snd]. apply line_nl.
      apply no_newline_app; [apply no_newline_pad, no_newline_solid, (HX' X R I)|]. apply no_newline_blank, no_newline_row.
    - intros g ks0 d Hd. set (d1 := dset d §"atoms_coords" (WText c)).
      exists (dset (dset d1 §"at" (WTexts l)) §"atoms" (WRows (map rounded_row r))). split.
      2: { apply (inv_set (§"at" :: §"atoms_coords" :: ks0)); [|unfold E; rewrite Er; reflexivity]. apply (inv_set (§"atoms_coords" :: ks0)); [|unfold E; rewrite El; reflexivity].
           apply inv_set; [exact Hd|unfold E; rewrite Ec; reflexivity]. }
      cbn [steps]. top.
      assert (St : step_top (nl (§"begin atoms_" ++ c)) g d = Ok (State (Atoms []) g d1)).
      { unfold step_top.
        assert (W : split_words (nl (§"begin atoms_" ++ c)) = [§"begin"; §"atoms_" ++ c]).
        { unfold split_words, nl. change ((§"begin atoms_" ++ c) ++ [newline]) with (§"begin" ++ blank :: (§"atoms_" ++ c) ++ [newline]).
          rewrite (split_first §"begin" (blank :: (§"atoms_" ++ c) ++ [newline])); [|split; [discriminate|repeat constructor]|reflexivity]. rewrite split_blank, (split_last (§"atoms_" ++ c)); [|split; [discriminate|repeat (constructor; [reflexivity|]); exact C1]].
          change (flat_map _ ?l) with (pieces l). rewrite pieces_word by (try (split; [discriminate|repeat constructor]); repeat (constructor; [discriminate|]); constructor).
          rewrite pieces_word; [reflexivity|split; [discriminate|repeat (constructor; [reflexivity|]); exact C1]|repeat (constructor; [discriminate|]); exact C2]. }
        rewrite W. reflexivity. }
      rewrite St. cbn [bind]. rewrite steps_app.
      assert (G : forall q done, (forall X R, In (X, R) q -> word X /\ X <> §"end") ->
        steps (State (Atoms done) g d1) (map (fun x => nl (pad 2 (fst x) ++ blank :: row_text (snd x))) q) = Ok (State (Atoms (done ++ map (fun x => fst x :: row_words (snd x)) q)) g d1)).
      { induction q as [|[X R] q IH]; intros done Hq; [rewrite app_nil_r; reflexivity|]. destruct (Hq X R (or_introl eq_refl)) as (A & B). cbn [map steps fst snd]. top.
        assert (W : str_split (nl (pad 2 X ++ blank :: row_text R)) = X :: row_words R).
        { unfold nl. rewrite <- app_assoc. rewrite split_pad by (try exact A; reflexivity). cbn [app]. rewrite split_blank, split_row by reflexivity. rewrite split_end, app_nil_r. reflexivity. }
        rewrite W. unfold item. cbn [nth_error bind]. rewrite (proj2 (teqb_neq X §"end") B). cbn [bind].
        rewrite IH; [rewrite <- app_assoc; reflexivity|intros X' R' I; apply (Hq X' R'); right; exact I]. }
      rewrite (G _ [] HX'). cbn [bind app steps]. top.
      assert (W : str_split (nl (§"end atoms_" ++ c)) = [§"end"; §"atoms_" ++ c]).
      { unfold nl. change ((§"end atoms_" ++ c) ++ [newline]) with (§"end" ++ blank :: (§"atoms_" ++ c) ++ [newline]).
        rewrite (split_first §"end" (blank :: (§"atoms_" ++ c) ++ [newline])); [|split; [discriminate|repeat constructor]|reflexivity]. rewrite split_blank, (split_last (§"atoms_" ++ c)); [|split; [discriminate|repeat (constructor; [reflexivity|]); exact C1]]. reflexivity. }
      rewrite W. unfold item at 1. cbn [nth_error bind]. change (teqb §"end" §"end") with true. cbv iota.
      unfold finish_atoms. rewrite (XmlProofs.map_res_all _ (fun words => (hd [] words, match read_row (tl words) with Ok r => r | Raise _ => (0, 0, 0)%Q end))).
      + cbn [bind]. rewrite !map_map. cbn [fst snd hd tl].
        replace (map (fun x : text * row => fst x) (combine l r)) with l by (symmetry; clear - Hl; revert r Hl; induction l as [|x l IH]; intros [|y r] H; try discriminate; [reflexivity|]; cbn [combine map fst]; f_equal; apply IH; injection H as H; exact H).
        replace (map (fun x : text * row => match read_row (row_words (snd x)) with Ok r => r | Raise _ => (0, 0, 0)%Q end) (combine l r)) with (map rounded_row r); [reflexivity|].
        clear - Hl. revert r Hl. induction l as [|x l IH]; intros [|y r] H; try discriminate; [reflexivity|]. cbn [combine map snd].
        rewrite <- (app_nil_r (row_words y)), read_row_words. f_equal. apply IH. injection H as H. exact H.
      + intros words I. apply in_map_iff in I. destruct I as ([X R] & <- & _). cbn [fst snd]. unfold item. cbn [nth_error bind hd tl].
        rewrite <- (app_nil_r (row_words R)), read_row_words. reflexivity.
  Qed.
End Trip.
