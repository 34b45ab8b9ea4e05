(** Proofs about input files of pw.x. *)
From Coq Require Import Lia Ascii String Qabs.
From Verif Require Import Common CommonProofs Text TextProofs NmlModel NmlProofs QeModel QeSpec QeProofs QeCards.
Import ListNotations.
Local Open Scope nat_scope.

(** ** Reading cards *)
Definition reads (s : dict value) (ls : list text) (g g' : geometry) : Prop := forall fuel, length ls <= fuel -> cards fuel s ls g = Ok g'.

Lemma reads_nil s g : reads s [] g g.
Proof. intros fuel _. destruct fuel; reflexivity. Qed.
Lemma reads_step s l ls rest g g1 g' : card s (str_split l) ls g = Ok (g1, rest) -> length rest <= length ls -> reads s rest g1 g' -> reads s (l :: ls) g g'.
Proof. intros E L H fuel F. cbn [length] in F. destruct fuel as [|fuel]; [lia|]. cbn [cards]. rewrite E. cbn [bind]. apply H. lia. Qed.

Definition is_card (w : text) : bool :=
  teqb w (§"atomic_species") || teqb w (§"atomic_positions") || teqb w (§"k_points") || teqb w (§"cell_parameters").
Definition inert (l : text) : Prop := match str_split l with [] => True | w :: _ => is_card (lower w) = false end.
Lemma card_inert s l ls g : inert l -> card s (str_split l) ls g = Ok (g, ls).
Proof.
  unfold inert, is_card, card. destruct (str_split l) as [|w ws]; [reflexivity|]. intros H. repeat rewrite Bool.orb_false_iff in H. destruct H as (((-> & ->) & ->) & ->). reflexivity.
Qed.
Lemma reads_inert s l ls g g' : inert l -> reads s ls g g' -> reads s (l :: ls) g g'.
Proof. intros H R. apply (reads_step s l ls ls g g g'); [apply card_inert, H|lia|exact R]. Qed.
Lemma reads_inerts s l ls g g' : Forall inert l -> reads s ls g g' -> reads s (l ++ ls) g g'.
Proof. intros H R. induction H as [|x l Hx _ IH]; [exact R|]. cbn [app]. apply reads_inert; assumption. Qed.

Lemma inert_word w rest : word w -> starts_space rest -> is_card (lower w) = false -> inert (w ++ rest).
Proof. intros H1 H2 H3. unfold inert. change (w ++ rest) with ([] ++ w ++ rest). rewrite split_word by (assumption || constructor). exact H3. Qed.
Lemma inert_blank : inert (line []).
Proof. exact I. Qed.

Lemma map_fst_combine {A B} (l : list A) : forall (m : list B), length m = length l -> map fst (combine l m) = l.
Proof. induction l as [|a l IH]; intros [|b m] H; try discriminate; [reflexivity|]. cbn [combine map fst]. rewrite IH by (cbn in H; lia). reflexivity. Qed.
Lemma map_snd_combine {A B} (l : list A) : forall (m : list B), length m = length l -> map snd (combine l m) = m.
Proof. induction l as [|a l IH]; intros [|b m] H; try discriminate; [reflexivity|]. cbn [combine map snd]. rewrite IH by (cbn in H; lia). reflexivity. Qed.

Lemma map_res_seq {A B} (f : nat -> res B) (h : A -> B) l : forall j, (forall i x, nth_error l i = Some x -> f (j + i) = Ok (h x)) -> map_res f (seq j (length l)) = Ok (map h l).
Proof.
  induction l as [|x l IH]; intros j H; [reflexivity|]. cbn [length seq map_res map]. rewrite <- (Nat.add_0_r j) at 1. rewrite (H 0 x eq_refl). cbn [bind]. rewrite (IH (S j)); [reflexivity|].
  intros i y E. rewrite <- (H (S i) y E). f_equal. lia.
Qed.

Section Pw.
  Variable repr_f fmt_g : Q -> text.
  Variable g12 : Q -> Q.
  Local Notation render := (render repr_f).
  Local Notation file := (NmlProofs.file repr_f).

  (** ** Namelists *)
  Definition control_keys : list string := ["title"; "prefix"; "outdir"; "pseudo_dir"; "calculation"; "tprnfor"; "tstress"; "nstep"; "forc_conv_thr"]%string.
  Definition system_keys : list string :=
    ["ibrav"; "ntyp"; "nat"; "a"; "b"; "c"; "cosbc"; "cosac"; "cosab"; "ecutwfc"; "ecutrho"; "nbnd"; "occupations"; "smearing"; "degauss";
     "nosym"; "noinv"; "tot_charge"; "assume_isolated"; "nspin"; "noncolin"; "lspinorb"; "tot_magnetization"; "starting_magnetization";
     "space_group"; "uniqueb"; "origin_choice"; "rhombohedral"]%string.
  Definition electrons_keys : list string := ["electron_maxstep"; "conv_thr"; "diagonalization"; "diago_full_acc"; "mixing_beta"; "startingpot"; "startingwfc"; "scf_must_converge"]%string.

  Definition pw_sections (s : dict value) : list (text * list part) :=
    [(§"CONTROL", pput s control_keys); (§"SYSTEM", plist s "celldm" ++ pput s system_keys); (§"ELECTRONS", pput s electrons_keys)] ++
    (if moving s ["relax"; "md"; "vc-relax"; "vc-md"]%string then
      [(§"IONS", pput s ion_keys)] ++ (if moving s ["vc-relax"; "vc-md"]%string then [(§"CELL", pput s cell_keys)] else [])
    else []).

  Lemma vc_moving s : moving s ["vc-relax"; "vc-md"]%string = true -> moving s ["relax"; "md"; "vc-relax"; "vc-md"]%string = true.
  Proof.
    unfold moving. destruct (dget s (§"calculation")) as [[t| | | | |]|]; try discriminate. cbn [existsb]. intros H. rewrite H. rewrite !Bool.orb_true_r. reflexivity.
  Qed.

  Definition pw_ok (s : dict value) : Prop := good_params repr_f s (pw_keys_of s) /\ good_list repr_f s "celldm".

  Lemma celldm_key : list_key (§"celldm").
  Proof. apply (list_key_ok "celldm"); reflexivity. Qed.

  Lemma key_sets s : incl control_keys (pw_keys_of s) /\ incl system_keys (pw_keys_of s) /\ incl electrons_keys (pw_keys_of s) /\
    (moving s ["relax"; "md"; "vc-relax"; "vc-md"]%string = true -> incl ion_keys (pw_keys_of s)) /\ (moving s ["vc-relax"; "vc-md"]%string = true -> incl cell_keys (pw_keys_of s)).
  Proof.
    unfold pw_keys_of. repeat split.
    - intros x H. apply in_or_app. left. change pw_keys with (control_keys ++ system_keys ++ electrons_keys). apply in_or_app. left. exact H.
    - intros x H. apply in_or_app. left. change pw_keys with (control_keys ++ system_keys ++ electrons_keys). apply in_or_app. right. apply in_or_app. left. exact H.
    - intros x H. apply in_or_app. left. change pw_keys with (control_keys ++ system_keys ++ electrons_keys). apply in_or_app. right. apply in_or_app. right. exact H.
    - intros -> x H. apply in_or_app. right. apply in_or_app. left. exact H.
    - intros -> x H. apply in_or_app. right. apply in_or_app. right. exact H.
  Qed.

  Lemma pput_incl s keys : pw_ok s -> incl keys (pw_keys_of s) -> forallb simple_key keys = true -> Forall (good_part repr_f) (pput s keys).
  Proof. intros [G _] I K. apply pput_good; [exact K|]. exact (good_params_incl repr_f s _ _ I G). Qed.

  Lemma pw_sections_good s : pw_ok s -> Forall (good_section repr_f) (pw_sections s).
  Proof.
    intros G. destruct (key_sets s) as (K1 & K2 & K3 & K4 & K5). unfold pw_sections.
    assert (N : forall n ps, name_word n = true -> Forall (good_part repr_f) ps -> good_section repr_f (str n, ps)) by (intros n ps Hn Hp; split; [apply name_good, Hn|exact Hp]).
    apply Forall_app. split.
    - constructor; [apply (N "CONTROL"%string); [reflexivity|apply pput_incl; auto]|]. constructor; [apply (N "SYSTEM"%string); [reflexivity|]|].
      + apply Forall_app. split; [apply plist_good; [apply celldm_key|apply G]|apply pput_incl; auto].
      + constructor; [apply (N "ELECTRONS"%string); [reflexivity|apply pput_incl; auto]|constructor].
    - destruct (moving s ["relax"; "md"; "vc-relax"; "vc-md"]%string); [|constructor]. constructor; [apply (N "IONS"%string); [reflexivity|apply pput_incl; auto]|].
      destruct (moving s ["vc-relax"; "vc-md"]%string); [|constructor]. constructor; [apply (N "CELL"%string); [reflexivity|apply pput_incl; auto]|constructor].
  Qed.

  Lemma pw_names s : NoDup (map (fun x => lower (fst x)) (pw_sections s)).
  Proof.
    unfold pw_sections. destruct (moving s ["relax"; "md"; "vc-relax"; "vc-md"]%string); [destruct (moving s ["vc-relax"; "vc-md"]%string)|]; cbn [app map fst]; repeat constructor; cbn [In]; intuition discriminate.
  Qed.

  Ltac distinct := repeat constructor; cbn [In]; intuition discriminate.

  Lemma lookup1_system s k : lookup1 (plist s "celldm" ++ pput s system_keys) k = if is_key k system_keys then dget s k else if teqb (§"celldm") k then listed_as s k else None.
  Proof.
    rewrite (lookup1_filter _ k _ eq_refl), entries_app, filter_app, filter_plist by apply celldm_key. rewrite filter_pput by (try reflexivity; unfold system_keys; distinct).
    destruct (is_key k system_keys) eqn:K.
    - replace (teqb (str "celldm") k) with false by (symmetry; apply teqb_neq; intros <-; discriminate). cbn [app]. destruct (dget s k) as [v|]; [|reflexivity].
      rewrite add_simple by (apply (simple_is_key k system_keys); [reflexivity|exact K]). reflexivity.
    - rewrite app_nil_r. destruct (teqb (str "celldm") k) eqn:T; [|reflexivity]. apply teqb_eq in T. subst k. apply (fold_plist s "celldm" celldm_key).
  Qed.

  Lemma pw_lookup s k : lookup (pw_sections s) k = if is_key k (pw_keys_of s) then dget s k else if teqb (§"celldm") k then listed_as s k else None.
  Proof.
    assert (L : forall keys, forallb simple_key keys = true -> NoDup keys -> lookup1 (pput s keys) k = if is_key k keys then dget s k else None) by (intros; apply lookup1_put; auto).
    assert (LC := L control_keys eq_refl ltac:(unfold control_keys; distinct)). assert (LE := L electrons_keys eq_refl ltac:(unfold electrons_keys; distinct)).
    assert (LI := L ion_keys eq_refl ltac:(unfold ion_keys; distinct)). assert (LL := L cell_keys eq_refl ltac:(unfold cell_keys; distinct)).
    pose proof (lookup1_system s k) as LS. unfold lookup1 in *.
    unfold pw_sections, pw_keys_of. change pw_keys with (control_keys ++ system_keys ++ electrons_keys). rewrite !is_key_app.
    assert (CK : teqb (§"celldm") k = true -> is_key k control_keys = false /\ is_key k system_keys = false /\ is_key k electrons_keys = false /\ is_key k ion_keys = false /\ is_key k cell_keys = false) by (intros T; apply teqb_eq in T; subst k; repeat split; reflexivity).
    pose proof (vc_moving s) as VM.
    destruct (moving s ["relax"; "md"; "vc-relax"; "vc-md"]%string); [destruct (moving s ["vc-relax"; "vc-md"]%string)|destruct (moving s ["vc-relax"; "vc-md"]%string); [specialize (VM eq_refl); discriminate|]];
      cbn [app lookup snd]; rewrite ?LC, ?LS, ?LE, ?LI, ?LL; change (is_key k []) with false;
      destruct (teqb (§"celldm") k); try (specialize (CK eq_refl); destruct CK as (C1 & C2 & C3 & C4 & C5); rewrite ?C1, ?C2, ?C3, ?C4, ?C5; cbn [orb]; destruct (listed_as s k); reflexivity);
      destruct (is_key k control_keys), (is_key k system_keys), (is_key k electrons_keys), (is_key k ion_keys), (is_key k cell_keys), (dget s k); reflexivity.
  Qed.

  (** ** Lines of namelists are not cards. *)
  Definition inert_key (k : string) : bool := negb (is_card (lower (str k))).
  Lemma inert_entry k v : good_key k -> is_card (lower k) = false -> inert (render (Entry k v)).
  Proof. intros Hk H. cbn [NmlProofs.render]. unfold entry. apply inert_word; [apply word_token, Hk|reflexivity|exact H]. Qed.
  Lemma inert_pput s keys : forallb simple_key keys = true -> forallb inert_key keys = true -> Forall inert (map render (pput s keys)).
  Proof.
    intros H1 H2. rewrite forallb_forall in H1, H2. apply Forall_forall. intros l Hl. apply in_map_iff in Hl as (p & <- & Hp). unfold pput in Hp. apply in_flat_map in Hp as (k & Hk & Hp).
    destruct (dget s (str k)) as [v|]; [|destruct Hp]. destruct Hp as [<-|[]]. apply inert_entry; [apply simple_good, H1, Hk|]. specialize (H2 k Hk). unfold inert_key in H2. apply Bool.negb_true_iff in H2. exact H2.
  Qed.
  Lemma inert_plist s : Forall inert (map render (plist s "celldm")).
  Proof.
    unfold plist. destruct (dget s (str "celldm")) as [[| | | | |l]|]; try constructor. generalize 1. induction l as [|v l IH]; intros i; [constructor|]. cbn [pput_list]. rewrite map_app. apply Forall_app. split; [|apply IH].
    destruct (truth v); [|constructor]. constructor; [|constructor]. apply inert_entry; [apply index_good, celldm_key|]. unfold index_key. rewrite lower_app. unfold is_card. repeat rewrite Bool.orb_false_iff.
    repeat split; apply teqb_neq; intros E; vm_compute in E; discriminate.
  Qed.

  Lemma reads_section s name ps rest g g' : name_word name = true -> Forall (good_part repr_f) ps -> Forall inert (map render ps) ->
    reads s (lines rest) g g' -> reads s (lines (section repr_f (str name, ps) ++ rest)) g g'.
  Proof.
    intros Hn Hp Hi H. rewrite lines_section by assumption. apply reads_inert.
    - assert (W := name_good name Hn). destruct W as [W0 W]. unfold line. apply inert_word; [split; [discriminate|]|reflexivity|reflexivity].
      constructor; [reflexivity|]. revert W. apply Forall_impl. intros c Hc. destruct (is_space c) eqn:E; [|reflexivity]. exfalso. clear - Hc E. destruct c as [[|] [|] [|] [|] [|] [|] [|] [|]]; discriminate.
    - apply reads_inerts; [exact Hi|]. apply reads_inert; [reflexivity|exact H].
  Qed.

  Lemma reads_namelists s0 s tail g g' : pw_ok s -> reads s0 (lines tail) g g' -> reads s0 (lines (file (pw_sections s) tail)) g g'.
  Proof.
    intros G H. destruct (key_sets s) as (K1 & K2 & K3 & K4 & K5). unfold NmlProofs.file, pw_sections. rewrite flat_map_app. cbn [flat_map]. rewrite <- !app_assoc. cbn [app].
    assert (M : reads s0 (lines (flat_map (section repr_f) (if moving s ["relax"; "md"; "vc-relax"; "vc-md"]%string then (§"IONS", pput s ion_keys) :: (if moving s ["vc-relax"; "vc-md"]%string then [(§"CELL", pput s cell_keys)] else []) else []) ++ tail)) g g').
    { destruct (moving s ["relax"; "md"; "vc-relax"; "vc-md"]%string); [|exact H]. cbn [flat_map]. rewrite <- app_assoc. apply (reads_section s0 "IONS"); [reflexivity|apply pput_incl; auto|apply inert_pput; reflexivity|].
      destruct (moving s ["vc-relax"; "vc-md"]%string); [|exact H]. cbn [flat_map]. rewrite <- app_assoc. apply (reads_section s0 "CELL"); [reflexivity|apply pput_incl; auto|apply inert_pput; reflexivity|exact H]. }
    apply (reads_section s0 "CONTROL"); [reflexivity|apply pput_incl; auto|apply inert_pput; reflexivity|].
    apply (reads_section s0 "SYSTEM"); [reflexivity| | |].
    - apply Forall_app. split; [apply plist_good; [apply celldm_key|apply G]|apply pput_incl; auto].
    - rewrite map_app. apply Forall_app. split; [apply inert_plist|apply inert_pput; reflexivity].
    - apply (reads_section s0 "ELECTRONS"); [reflexivity|apply pput_incl; auto|apply inert_pput; reflexivity|exact M].
  Qed.

  Lemma write_sections s : good_list repr_f s "celldm" -> exists t, write_system repr_f s = Ok t /\
    forall rest, write_control repr_f s ++ t ++ write_electrons repr_f s ++ write_ions repr_f s ++ rest = file (pw_sections s) rest.
  Proof.
    intros H. unfold write_system. rewrite body_plist by exact H. cbn [bind]. eexists. split; [reflexivity|]. intros rest.
    unfold NmlProofs.file, pw_sections. rewrite flat_map_app. cbn [flat_map]. unfold section at 1 2 3. cbn [fst snd]. rewrite body_app, !body_put.
    unfold write_control, write_electrons, write_ions. change calculation_in with moving.
    rewrite <- !app_assoc. cbn [app]. unfold line. rewrite <- !app_assoc.
    assert (M : (if moving s ["relax"; "md"; "vc-relax"; "vc-md"]%string then
        (§"&IONS" ++ [newline]) ++ put repr_f s ["ion_dynamics"; "upscale"]%string ++ (§"/" ++ [newline]) ++
        if moving s ["vc-relax"; "vc-md"]%string then (§"&CELL" ++ [newline]) ++ put repr_f s ["cell_dynamics"; "cell_dofree"; "press"; "press_conv_thr"]%string ++ (§"/" ++ [newline]) else []
        else []) =
      flat_map (section repr_f) (if moving s ["relax"; "md"; "vc-relax"; "vc-md"]%string then (§"IONS", pput s ion_keys) :: (if moving s ["vc-relax"; "vc-md"]%string then [(§"CELL", pput s cell_keys)] else []) else [])).
    { destruct (moving s ["relax"; "md"; "vc-relax"; "vc-md"]%string); [|reflexivity]. cbn [flat_map]. unfold section at 1. cbn [fst snd]. rewrite body_put.
      destruct (moving s ["vc-relax"; "vc-md"]%string).
      - cbn [flat_map]. unfold section. cbn [fst snd]. rewrite body_put, app_nil_r, <- !app_assoc. reflexivity.
      - cbn [flat_map]. rewrite !app_nil_r, <- !app_assoc. reflexivity. }
    rewrite <- M. reflexivity.
  Qed.

  (** ** Cards *)
  Definition spl (x : text * Q * text) : text := line (fst (fst x) ++ §" " ++ fmt_g (snd (fst x)) ++ §" " ++ snd x).
  Lemma zip3 (X : list text) : forall (m : list Q) (p : list text), length m = length X -> length p = length X ->
    exists l : list (text * Q * text), X = map (fun x => fst (fst x)) l /\ m = map (fun x => snd (fst x)) l /\ p = map snd l.
  Proof.
    induction X as [|a X IH]; intros [|b m] [|c p] H1 H2; try discriminate; [exists []; auto|]. destruct (IH m p) as (l & -> & -> & ->); [cbn in *; lia|cbn in *; lia|]. exists ((a, b, c) :: l). auto.
  Qed.

  Lemma species_written s g l : at_species g = Some (map (fun x => fst (fst x)) l) -> amass g = Some (map (fun x => snd (fst x)) l) -> pp g = Some (map snd l) ->
    dget s (§"ntyp") = Some (VInt (Z.of_nat (length l))) -> write_species fmt_g s g = Ok (line (§"ATOMIC_SPECIES") ++ concat (map spl l) ++ line []).
  Proof.
    intros E1 E2 E3 E4. unfold write_species, need_int. rewrite E4. cbn [bind]. rewrite Nat2Z.id. rewrite (map_res_seq _ spl); [reflexivity|]. intros i x Hi. cbn [Nat.add].
    unfold species_line. rewrite E1, E2, E3. cbn [need bind]. unfold at_index. rewrite !nth_error_map, Hi. reflexivity.
  Qed.

  Lemma spl_line x : name_ok (fst (fst x)) -> mass_ok fmt_g g12 (snd (fst x)) -> name_ok (snd x) -> is_line (spl x).
  Proof.
    intros H1 [H2 _] H3. eexists. split; [|reflexivity]. repeat (apply no_newline_app; [first [apply newline_name; assumption|repeat constructor; discriminate]|]). apply newline_name, H3.
  Qed.
  Lemma spl_read x : name_ok (fst (fst x)) -> mass_ok fmt_g g12 (snd (fst x)) -> name_ok (snd x) -> read_specie (str_split (spl x)) = Ok (fst (fst x), g12 (snd (fst x)), snd x).
  Proof.
    intros H1 [H2 H2'] H3. unfold spl, line. rewrite <- !app_assoc.
    assert (S1 : forall w rest, name_ok w -> starts_space rest -> str_split (w ++ rest) = w :: str_split rest) by (intros w rest Hw Hr; apply (split_word [] w rest); [constructor|apply word_name, Hw|exact Hr]).
    rewrite S1 by (assumption || reflexivity). rewrite split_blank, S1 by (assumption || reflexivity). rewrite split_blank, S1 by (assumption || reflexivity).
    unfold read_specie. cbn [at_index nth_error bind]. rewrite H2'. reflexivity.
  Qed.

  Lemma split2 (w : string) t : word (str w) -> name_ok t -> str_split (line (str w ++ §" " ++ t)) = [str w; t].
  Proof.
    intros H1 H2. unfold line. rewrite <- !app_assoc. change (str w ++ ?r) with ([] ++ str w ++ r). rewrite split_word by (assumption || constructor). f_equal. rewrite split_blank.
    change (t ++ [newline]) with ([] ++ t ++ [newline]). rewrite split_word; [reflexivity|constructor|apply word_name, H2|reflexivity].
  Qed.
  Lemma word_str w : match str w with [] => false | _ => true end && forallb (fun c => negb (is_space c)) (str w) = true -> word (str w).
  Proof.
    rewrite Bool.andb_true_iff. intros [H1 H2]. split; [destruct (str w); congruence|]. rewrite forallb_forall in H2. apply Forall_forall. intros c Hc. specialize (H2 c Hc). apply Bool.negb_true_iff in H2. exact H2.
  Qed.

  Lemma reads_species s0 l rest g g' : need_int s0 "ntyp" = Ok (Z.of_nat (length l)) ->
    Forall (fun x => name_ok (fst (fst x)) /\ mass_ok fmt_g g12 (snd (fst x)) /\ name_ok (snd x)) l ->
    reads s0 (lines rest) (Geometry (Some (map (fun x => fst (fst x)) l)) (Some (map (fun x => g12 (snd (fst x))) l)) (Some (map snd l)) (coords g) (at_ g) (r_ g)
        (ktyp g) (nks g) (k_points g) (cell_units g) (r_cell g)) g' ->
    reads s0 (lines ((line (§"ATOMIC_SPECIES") ++ concat (map spl l) ++ line []) ++ rest)) g g'.
  Proof.
    intros N F R. rewrite Forall_forall in F. rewrite <- !app_assoc. rewrite lines_line by (apply no_newline_str; reflexivity). rewrite lines_concat.
    2: { apply Forall_forall. intros t Ht. apply in_map_iff in Ht as (x & <- & Hx). destruct (F x Hx) as (F1 & F2 & F3). apply spl_line; assumption. }
    rewrite lines_line by constructor.
    eapply (reads_step _ _ _ (line [] :: lines rest)).
    - change (str_split (line (§"ATOMIC_SPECIES"))) with [§"ATOMIC_SPECIES"]. unfold card.
      change (teqb (lower (§"ATOMIC_SPECIES")) (§"atomic_species")) with true. cbv iota. rewrite N. cbn [bind]. rewrite Nat2Z.id.
      rewrite (read_rows_map read_specie spl (fun x => (fst (fst x), g12 (snd (fst x)), snd x))) by (reflexivity || (intros x Hx; destruct (F x Hx) as (F1 & F2 & F3); apply spl_read; assumption)).
      cbn [bind]. rewrite !map_map. cbn [fst snd]. reflexivity.
    - rewrite app_length. lia.
    - apply reads_inert; [apply inert_blank|exact R].
  Qed.

  (** *** Positions *)
  Definition rd_positions (r : positions) : positions := match r with Cart r => Cart (map rd_row r) | Wyckoff r => Wyckoff r end.
  Definition cart_line (x : text * row) : text := line (pad 2 (fst x) ++ §" " ++ fmt_row (snd x)).
  Definition wyckoff_line (x : text * text) : text := line (pad 2 (fst x) ++ §" " ++ snd x).
  Definition position_lines (X : list text) (r : positions) : list text :=
    match r with Cart r => map cart_line (combine X r) | Wyckoff r => map wyckoff_line (combine X r) end.
  Definition positions_text (c : text) (X : list text) (r : positions) : text := line (§"ATOMIC_POSITIONS " ++ c) ++ concat (position_lines X r).

  Lemma positions_written g c X r : coords g = Some c -> at_ g = Some X -> r_ g = Some r -> option_ok c -> good_positions c r (length X) ->
    write_positions g = Ok (positions_text c X r).
  Proof.
    intros E1 E2 E3 (Hc & Hl & Hb) H. unfold write_positions. rewrite E1, E2, E3. cbn [need bind]. rewrite Hl. inversion H as [c' r' H1|c' r' H1 H2]; subst; rewrite H1; reflexivity.
  Qed.

  Lemma cart_is_line x : name_ok (fst x) -> is_line (cart_line x).
  Proof.
    intros H. eexists. split; [|reflexivity]. apply no_newline_app; [apply no_newline_pad, newline_name, H|]. apply no_newline_app; [repeat constructor; discriminate|apply newline_row].
  Qed.
  Lemma wyckoff_is_line x : name_ok (fst x) -> name_ok (snd x) -> is_line (wyckoff_line x).
  Proof.
    intros H H'. eexists. split; [|reflexivity]. apply no_newline_app; [apply no_newline_pad, newline_name, H|]. apply no_newline_app; [repeat constructor; discriminate|apply newline_name, H'].
  Qed.
  Lemma cart_read x : name_ok (fst x) -> read_position (str_split (cart_line x)) = Ok (fst x, rd_row (snd x)).
  Proof.
    intros H. destruct x as [X [[a b] c]]. cbn [fst snd] in *. unfold cart_line, line. cbn [fst snd]. rewrite <- !app_assoc. rewrite split_pad by (reflexivity || apply word_name, H). rewrite split_blank, split_row by reflexivity.
    unfold read_position, read_row. cbn [at_index nth_error bind Nat.add]. rewrite !float_9. reflexivity.
  Qed.
  Lemma wyckoff_read x : name_ok (fst x) -> name_ok (snd x) -> read_wyckoff (str_split (wyckoff_line x)) = Ok x.
  Proof.
    intros H H'. destruct x as [X w]. cbn [fst snd] in *. unfold wyckoff_line, line. cbn [fst snd]. rewrite <- !app_assoc. rewrite split_pad by (reflexivity || apply word_name, H). rewrite split_blank.
    change (w ++ [newline]) with ([] ++ w ++ [newline]). rewrite split_word; [reflexivity|constructor|apply word_name, H'|reflexivity].
  Qed.

  Lemma filter_id {A} (f : A -> bool) l : Forall (fun x => f x = true) l -> filter f l = l.
  Proof. induction 1 as [|x l H _ IH]; [reflexivity|]. cbn [filter]. rewrite H, IH. reflexivity. Qed.

  Lemma reads_positions s0 c X r rest g g' : need_int s0 "nat" = Ok (Z.of_nat (length X)) -> option_ok c -> Forall name_ok X -> good_positions c r (length X) ->
    reads s0 (lines rest) (Geometry (at_species g) (amass g) (pp g) (Some c) (Some X) (Some (rd_positions r)) (ktyp g) (nks g) (k_points g) (cell_units g) (r_cell g)) g' ->
    reads s0 (lines (positions_text c X r ++ rest)) g g'.
  Proof.
    intros N (Hc & Hl & Hb) HX H R. unfold positions_text. rewrite <- app_assoc. rewrite lines_line by (apply no_newline_app; [apply no_newline_str; reflexivity|apply newline_name, Hc]).
    assert (XI : forall B (m : list B) x, In x (combine X m) -> name_ok (fst x)) by (intros B m [a b] Hx; apply in_combine_l in Hx; rewrite Forall_forall in HX; apply HX, Hx).
    assert (SP : str_split (line (§"ATOMIC_POSITIONS " ++ c)) = [§"ATOMIC_POSITIONS"; c]).
    { change (§"ATOMIC_POSITIONS " ++ c) with (§"ATOMIC_POSITIONS" ++ §" " ++ c). apply split2; [apply word_str; reflexivity|exact Hc]. }
    inversion H as [c' r' H1 H2 H3 H4|c' r' H1 HW H2 H3 H4]; subst.
    - rewrite lines_concat by (apply Forall_forall; intros t Ht; apply in_map_iff in Ht as (x & <- & Hx); apply cart_is_line, (XI _ _ _ Hx)).
      eapply (reads_step _ _ _ (lines rest)); [|rewrite app_length; lia|exact R]. rewrite SP. unfold card.
      change (teqb (lower (§"ATOMIC_POSITIONS")) (§"atomic_species")) with false. change (teqb (lower (§"ATOMIC_POSITIONS")) (§"atomic_positions")) with true. cbv iota zeta.
      rewrite Hl, filter_id by exact Hb. rewrite N. cbn [bind]. rewrite H1. unfold dimension. destruct (Z.ltb_spec (Z.of_nat (length X)) 0); [lia|]. cbn [bind]. rewrite Nat2Z.id.
      cbn [position_lines]. rewrite (read_rows_map read_position cart_line (fun x => (fst x, rd_row (snd x)))); [|rewrite combine_length; lia|intros x Hx; apply cart_read, (XI _ _ _ Hx)].
      cbn [bind]. rewrite !map_map. cbn [fst snd]. rewrite map_fst_combine by lia. rewrite <- (map_map snd rd_row), map_snd_combine by lia. reflexivity.
    - assert (WI : forall x, In x (combine X r') -> name_ok (snd x)) by (intros [a b] Hx; apply in_combine_r in Hx; rewrite Forall_forall in HW; apply HW, Hx).
      rewrite lines_concat by (apply Forall_forall; intros t Ht; apply in_map_iff in Ht as (x & <- & Hx); apply wyckoff_is_line; [apply (XI _ _ _ Hx)|apply WI, Hx]).
      eapply (reads_step _ _ _ (lines rest)); [|rewrite app_length; lia|exact R]. rewrite SP. unfold card.
      change (teqb (lower (§"ATOMIC_POSITIONS")) (§"atomic_species")) with false. change (teqb (lower (§"ATOMIC_POSITIONS")) (§"atomic_positions")) with true. cbv iota zeta.
      rewrite Hl, filter_id by exact Hb. rewrite N. cbn [bind]. rewrite H1. rewrite Nat2Z.id.
      cbn [position_lines]. rewrite (read_rows_map read_wyckoff wyckoff_line (fun x => x)); [|rewrite combine_length; lia|intros x Hx; apply wyckoff_read; [apply (XI _ _ _ Hx)|apply WI, Hx]].
      cbn [bind]. rewrite map_id, map_fst_combine, map_snd_combine by lia. reflexivity.
  Qed.

  (** *** Points *)
  Lemma to_float_d z : to_float (fmt_d z) = Ok (z # 1)%Q.
  Proof.
    unfold to_float. rewrite <- (app_nil_r (fmt_d z)) at 1. change (fmt_d z ++ []) with ([] ++ fmt_d z ++ []). rewrite strip_word by (apply word_fmt_d || constructor).
    unfold fmt_d. destruct (Z.ltb_spec z 0).
    - cbn [app str list_ascii_of_string sign]. rewrite Ascii.eqb_refl. destruct (scan_nonneg (- z) 0 0 [] ltac:(lia)) as (m & Hm & E). rewrite app_nil_r in E. rewrite E. cbn [scan].
      destruct m; [lia|]. cbn [Nat.add]. unfold power_of_ten. cbn [Z.of_nat Z.opp]. change (0 <? 0)%Z with false. cbv iota. f_equal. f_equal. rewrite Z.pow_0_r. lia.
    - rewrite <- (app_nil_r (nonneg_to_text z)), sign_nonneg by lia. destruct (scan_nonneg z 0 0 [] ltac:(lia)) as (m & Hm & E). rewrite E. cbn [scan].
      destruct m; [lia|]. cbn [Nat.add]. unfold power_of_ten. cbn [Z.of_nat Z.opp]. change (0 <? 0)%Z with false. cbv iota. f_equal. f_equal. rewrite Z.pow_0_r. lia.
  Qed.

  Definition rd_weight (w : Q) : Q := if is_integer w then (Qnum w / Zpos (Qden w) # 1)%Q else rd w.
  Lemma near_weight w : near w (rd_weight w).
  Proof.
    unfold rd_weight. destruct (is_integer w) eqn:E; [|apply near_rd]. unfold near. unfold is_integer in E. apply Z.eqb_eq in E.
    assert (Q0 : (w - (Qnum w / Z.pos (Qden w) # 1) == 0)%Q).
    { destruct w as [n d]. cbn [Qnum Qden] in *. unfold Qeq, Qminus, Qplus, Qopp. cbn [Qnum Qden]. pose proof (Z.div_mod n (Z.pos d) ltac:(lia)). rewrite E in H. lia. }
    rewrite Q0. cbn. unfold Qle. cbn. lia.
  Qed.

  Definition point_line (x : row * Q) : text := line (fmt_row (fst x) ++ §" " ++ fmt_weight (snd x)).
  Lemma newline_weight w : no_newline (fmt_weight w).
  Proof. unfold fmt_weight. destruct (is_integer w); [apply no_newline_d|apply newline_12_9]. Qed.
  Lemma point_is_line x : is_line (point_line x).
  Proof. eexists. split; [|reflexivity]. apply no_newline_app; [apply newline_row|]. apply no_newline_app; [repeat constructor; discriminate|apply newline_weight]. Qed.
  Lemma point_read x : read_kpoint (str_split (point_line x)) = Ok (rd_row (fst x), rd_weight (snd x)).
  Proof.
    destruct x as [[[a b] c] w]. unfold point_line, line. cbn [fst snd]. rewrite <- !app_assoc. rewrite split_row by reflexivity. rewrite split_blank. unfold fmt_weight, rd_weight.
    destruct (is_integer w).
    - change (fmt_d ?z ++ [newline]) with ([] ++ fmt_d z ++ [newline]). rewrite split_word by (apply word_fmt_d || constructor). unfold read_kpoint. cbn [firstn map_res]. rewrite !float_9, to_float_d. reflexivity.
    - rewrite split_12_9 by reflexivity. unfold read_kpoint. cbn [firstn map_res]. rewrite !float_9. reflexivity.
  Qed.

  Definition points_text (t : text) (l : text) : text := line [] ++ line (§"K_POINTS " ++ t) ++ l.
  Definition grid_text (n : list Z) : text :=
    match n with
    | [a; b; c; d; e; f] => line (fmt_d a ++ §" " ++ fmt_d b ++ §" " ++ fmt_d c ++ §" " ++ fmt_d d ++ §" " ++ fmt_d e ++ §" " ++ fmt_d f)
    | _ => []
    end.
  Definition k_text (g : geometry) : text :=
    match ktyp g with
    | None => []
    | Some t => points_text t (if contains (§"automatic") t then match k_points g with Some (Grid n) => grid_text n | _ => [] end
        else if contains (§"gamma") t then []
        else match k_points g with Some (Points k) => line (fmt_d (Z.of_nat (length k))) ++ flat_map point_line k | _ => [] end)
    end.
  Lemma points_written g : good_points g -> write_k_points g = Ok (k_text g).
  Proof.
    unfold write_k_points, k_text. intros [E|t a b c d e f E O A K|t E O A G|t k E O A G N K]; rewrite E; [reflexivity| | |].
    - rewrite A, K. cbn [need bind]. reflexivity.
    - rewrite A, G. cbn [negb bind]. reflexivity.
    - rewrite A, G, N, K. cbn [need negb bind]. reflexivity.
  Qed.

  Definition nks_read (g : geometry) : option Z := match ktyp g with Some t => if contains (§"automatic") t then None else if contains (§"gamma") t then None else nks g | None => None end.
  Definition points_read (g : geometry) : option kpoints :=
    match ktyp g with
    | Some t => if contains (§"automatic") t then k_points g else if contains (§"gamma") t then None
      else match k_points g with Some (Points k) => Some (Points (map (fun x => (rd_row (fst x), rd_weight (snd x))) k)) | _ => None end
    | None => None
    end.

  Lemma split_d z rest : starts_space rest -> str_split (fmt_d z ++ rest) = fmt_d z :: str_split rest.
  Proof. intros H. apply (split_word [] (fmt_d z) rest); [constructor|apply word_fmt_d|exact H]. Qed.

  Lemma reads_points s0 g g0 g' rest : good_points g -> ktyp g0 = None -> nks g0 = None -> k_points g0 = None ->
    reads s0 (lines rest) (Geometry (at_species g0) (amass g0) (pp g0) (coords g0) (at_ g0) (r_ g0) (ktyp g) (nks_read g) (points_read g) (cell_units g0) (r_cell g0)) g' ->
    reads s0 (lines (k_text g ++ rest)) g0 g'.
  Proof.
    intros H E1 E2 E3 R. unfold k_text. unfold nks_read, points_read in R.
    assert (SP : forall t, option_ok t -> str_split (line (§"K_POINTS " ++ t)) = [§"K_POINTS"; t]).
    { intros t (Ht & _). change (§"K_POINTS " ++ t) with (§"K_POINTS" ++ §" " ++ t). apply split2; [apply word_str; reflexivity|exact Ht]. }
    assert (NL : forall t, option_ok t -> no_newline (§"K_POINTS " ++ t)) by (intros t (Ht & _); apply no_newline_app; [apply no_newline_str; reflexivity|apply newline_name, Ht]).
    destruct H as [E|t a b c d e f E O A K|t E O A G|t k E O A G N K]; rewrite E in *.
    - cbn [app]. replace g0 with (Geometry (at_species g0) (amass g0) (pp g0) (coords g0) (at_ g0) (r_ g0) None None None (cell_units g0) (r_cell g0)); [exact R|]. destruct g0. cbn in *. congruence.
    - rewrite A, K in *. unfold points_text. rewrite <- !app_assoc. rewrite lines_line by constructor. apply reads_inert; [apply inert_blank|]. rewrite lines_line by apply NL, O.
      cbn [grid_text]. rewrite lines_line by (repeat (apply no_newline_app; [first [apply no_newline_d|repeat constructor; discriminate]|]); apply no_newline_d).
      eapply (reads_step _ _ _ (lines rest)); [|cbn [length]; lia|exact R]. rewrite SP by exact O. unfold card.
      change (teqb (lower (§"K_POINTS")) (§"atomic_species")) with false. change (teqb (lower (§"K_POINTS")) (§"atomic_positions")) with false. change (teqb (lower (§"K_POINTS")) (§"k_points")) with true. cbv iota.
      cbn [at_index nth_error bind]. destruct O as (_ & Hl & _). rewrite Hl, A. cbn [next bind]. unfold line. rewrite <- !app_assoc.
      do 5 (rewrite split_d by reflexivity; rewrite split_blank). rewrite split_d by reflexivity. cbn [firstn map_res]. rewrite !to_int_word. cbn [bind]. rewrite E2. reflexivity.
    - rewrite A, G in *. unfold points_text. rewrite <- !app_assoc. rewrite lines_line by constructor. apply reads_inert; [apply inert_blank|]. rewrite lines_line by apply NL, O. cbn [app].
      eapply (reads_step _ _ _ (lines rest)); [|lia|exact R]. rewrite SP by exact O. unfold card.
      change (teqb (lower (§"K_POINTS")) (§"atomic_species")) with false. change (teqb (lower (§"K_POINTS")) (§"atomic_positions")) with false. change (teqb (lower (§"K_POINTS")) (§"k_points")) with true. cbv iota.
      cbn [at_index nth_error bind]. destruct O as (_ & Hl & _). rewrite Hl, A, G. cbn [negb]. rewrite E2, E3. reflexivity.
    - rewrite A, G, K in *. unfold points_text. rewrite <- !app_assoc. rewrite lines_line by constructor. apply reads_inert; [apply inert_blank|]. rewrite lines_line by apply NL, O.
      rewrite lines_line by apply no_newline_d. rewrite lines_flat by (intros; apply point_is_line).
      eapply (reads_step _ _ _ (lines rest)); [|cbn [length]; rewrite app_length; lia|exact R]. rewrite SP by exact O. unfold card.
      change (teqb (lower (§"K_POINTS")) (§"atomic_species")) with false. change (teqb (lower (§"K_POINTS")) (§"atomic_positions")) with false. change (teqb (lower (§"K_POINTS")) (§"k_points")) with true. cbv iota.
      cbn [at_index nth_error bind]. destruct O as (_ & Hl & _). rewrite Hl, A, G. cbn [negb next bind]. unfold line at 1. rewrite to_int_line. cbn [bind]. unfold dimension. destruct (Z.ltb_spec (Z.of_nat (length k)) 0); [lia|]. cbn [bind]. rewrite Nat2Z.id.
      rewrite (read_rows_map read_kpoint point_line (fun x => (rd_row (fst x), rd_weight (snd x)))) by (reflexivity || (intros; apply point_read)). cbn [bind]. rewrite N. reflexivity.
  Qed.

  (** *** Cell *)
  Definition row_line (r : row) : text := line (fmt_row r).
  Definition cell_text (g : geometry) : text :=
    match r_cell g, cell_units g with Some r, Some u => line [] ++ line (§"CELL_PARAMETERS " ++ u) ++ flat_map row_line r | _, _ => [] end.
  Definition cell_ok (g : geometry) : Prop := forall r, r_cell g = Some r -> length r = 3 /\ exists u, cell_units g = Some u /\ name_ok u.
  Lemma cell_written g : cell_ok g -> write_cell g = Ok (cell_text g).
  Proof.
    intros H. unfold write_cell, cell_text. destruct (r_cell g) as [r|] eqn:E; [|reflexivity]. destruct (H r E) as (_ & u & -> & _). reflexivity.
  Qed.
  Lemma row_read r : read_row (str_split (row_line r)) 0 = Ok (rd_row r).
  Proof.
    destruct r as [[a b] c]. unfold row_line, line. rewrite split_row by reflexivity. unfold read_row. cbn [at_index nth_error bind Nat.add]. rewrite !float_9. reflexivity.
  Qed.
  Lemma reads_cell s0 g g0 : cell_ok g -> cell_units g0 = None -> r_cell g0 = None ->
    reads s0 (lines (cell_text g)) g0 (Geometry (at_species g0) (amass g0) (pp g0) (coords g0) (at_ g0) (r_ g0) (ktyp g0) (nks g0) (k_points g0)
      (match r_cell g with Some _ => cell_units g | None => None end) (option_map (map rd_row) (r_cell g))).
  Proof.
    intros H E1 E2. unfold cell_text. destruct (r_cell g) as [r|] eqn:E.
    - destruct (H r E) as (L & u & Eu & Hu). rewrite Eu. rewrite <- (app_nil_r (flat_map row_line r)). rewrite lines_line by constructor. apply reads_inert; [apply inert_blank|].
      rewrite lines_line by (apply no_newline_app; [apply no_newline_str; reflexivity|apply newline_name, Hu]).
      rewrite lines_flat by (intros x _; eexists; split; [apply newline_row|reflexivity]).
      eapply (reads_step _ _ _ (lines [])); [|cbn; lia|apply reads_nil].
      change (§"CELL_PARAMETERS " ++ u) with (§"CELL_PARAMETERS" ++ §" " ++ u). rewrite split2 by (assumption || (apply word_str; reflexivity)). unfold card.
      change (teqb (lower (§"CELL_PARAMETERS")) (§"atomic_species")) with false. change (teqb (lower (§"CELL_PARAMETERS")) (§"atomic_positions")) with false.
      change (teqb (lower (§"CELL_PARAMETERS")) (§"k_points")) with false. change (teqb (lower (§"CELL_PARAMETERS")) (§"cell_parameters")) with true. cbv iota zeta.
      rewrite (read_rows_map (fun words => read_row words 0) row_line rd_row) by (lia || (intros; apply row_read)). reflexivity.
    - replace (Geometry _ _ _ _ _ _ _ _ _ None _) with g0; [apply reads_nil|]. destruct g0. cbn in *. congruence.
  Qed.

  (** ** Everything *)
  Lemma tail_concat l : Forall (Forall tail_char) l -> Forall tail_char (concat l).
  Proof. induction 1 as [|x l H _ IH]; [constructor|]. cbn [concat]. apply Forall_app. split; assumption. Qed.

  Definition geometry_read (g : geometry) : geometry :=
    Geometry (at_species g) (option_map (map g12) (amass g)) (pp g) (coords g) (at_ g) (option_map rd_positions (r_ g)) (ktyp g) (nks_read g) (points_read g)
      (match r_cell g with Some _ => cell_units g | None => None end) (option_map (map rd_row) (r_cell g)).

  Theorem read_write_pwi s g : pw_ok s -> good_geometry fmt_g g12 s g ->
    exists t d, write_pwi repr_f fmt_g s g = Ok t /\ read_pwi t = Ok (d, geometry_read g) /\
      forall k, dget d k = if is_key k (pw_keys_of s) then dget s k else if is_key k ["celldm"]%string then kept (dget s k) else None.
  Proof.
    intros HS HG. destruct HS as [HS1 HS2]. pose proof (conj HS1 HS2 : pw_ok s) as HS.
    destruct HG as [(X & m & p & EX & Em & Ep & Lm & Lp & EN & HX & Hm & Hp) (c & Y & r & Ec & Hc & EY & HY & Er & Hr & EA) HK HC].
    destruct (zip3 X m p Lm Lp) as (l & -> & -> & ->).
    rewrite map_length in EN. destruct (write_sections s HS2) as (sys & WS & WF).
    pose proof (species_written s g l EX Em Ep EN) as W1. pose proof (positions_written g c Y r Ec EY Er Hc Hr) as W2. pose proof (points_written g HK) as W3. pose proof (cell_written g HC) as W4.
    set (spt := line (§"ATOMIC_SPECIES") ++ concat (map spl l) ++ line []) in *.
    set (tail := spt ++ positions_text c Y r ++ k_text g ++ cell_text g).
    assert (HF : Forall (fun x => name_ok (fst (fst x)) /\ mass_ok fmt_g g12 (snd (fst x)) /\ name_ok (snd x)) l).
    { rewrite !Forall_map in *. rewrite Forall_forall in *. intros x Hx. auto. }
    assert (T : tail_ok tail).
    { apply tail_of. unfold tail. apply Forall_app. split; [|apply Forall_app; split; [|apply Forall_app; split]].
      - unfold spt. apply Forall_app. split; [apply tail_line, tail_str; reflexivity|]. apply Forall_app. split; [|apply tail_line; constructor].
        apply tail_concat. rewrite Forall_map. revert HF. apply Forall_impl. intros x (F1 & [F2 _] & F3). apply tail_line. repeat (apply Forall_app; split); first [apply tail_name; assumption|apply tail_space].
      - unfold positions_text. apply Forall_app. split; [apply tail_line, Forall_app; split; [apply tail_str; reflexivity|apply tail_name, Hc]|]. apply tail_concat.
        assert (XI : forall B (m : list B) x, In x (combine Y m) -> name_ok (fst x)) by (intros B m' [a b] Hx; apply in_combine_l in Hx; rewrite Forall_forall in HY; apply HY, Hx).
        inversion Hr as [c' r' H1 H2 H3 H4|c' r' H1 HW H2 H3 H4]; subst; cbn [position_lines]; rewrite Forall_map; apply Forall_forall; intros x Hx; apply tail_line; (apply Forall_app; split; [apply tail_pad, tail_name, (XI _ _ _ Hx)|apply Forall_app; split; [apply tail_space|]]).
        + apply tail_row.
        + destruct x as [a b]. apply in_combine_r in Hx. rewrite Forall_forall in HW. apply tail_name, HW, Hx.
      - unfold k_text. destruct HK as [E|t a b c' d e f E HO A K|t E HO A G|t k E HO A G N K]; rewrite E; [apply Forall_nil| | |]; unfold points_text; apply Forall_app; (split; [apply tail_line, Forall_nil|]); apply Forall_app;
          (split; [apply tail_line, Forall_app; split; [apply tail_str; reflexivity|apply tail_name, HO]|]); rewrite A.
        + rewrite K. apply tail_line. repeat (apply Forall_app; split); first [apply tail_d|apply tail_space].
        + rewrite G. apply Forall_nil.
        + rewrite G, K. apply Forall_app. split; [apply tail_line, tail_d|]. apply tail_flat. intros x _. apply tail_line. apply Forall_app. split; [apply tail_row|]. apply Forall_app. split; [apply tail_space|].
          unfold fmt_weight. destruct (is_integer (snd x)); [apply tail_d|apply tail_12_9].
      - unfold cell_text. destruct (r_cell g) as [rc|] eqn:E; [|constructor]. destruct (HC rc eq_refl) as (_ & u & -> & Hu). apply Forall_app. split; [apply tail_line, Forall_nil|]. apply Forall_app.
        split; [apply tail_line, Forall_app; split; [apply tail_str; reflexivity|apply tail_name, Hu]|]. apply tail_flat. intros x _. apply tail_line, tail_row. }
    destruct (read_input_file repr_f (pw_sections s) tail (pw_sections_good s HS) (pw_names s) T) as (d & RD & HD).
    exists (file (pw_sections s) tail), (wrap d "celldm").
    assert (HW : forall k, dget (wrap d "celldm") k = if is_key k (pw_keys_of s) then dget s k else if is_key k ["celldm"]%string then kept (dget s k) else None).
    { intros k. rewrite dget_wrap, HD, pw_lookup. change (is_key k ["celldm"]%string) with (teqb k (§"celldm") || false). rewrite Bool.orb_false_r.
      destruct (teqb (§"celldm") k) eqn:TK.
      - apply teqb_eq in TK. subst k. rewrite teqb_refl.
        replace (is_key (§"celldm") (pw_keys_of s)) with false.
        2: { unfold pw_keys_of. rewrite !is_key_app. destruct (moving s ["relax"; "md"; "vc-relax"; "vc-md"]%string), (moving s ["vc-relax"; "vc-md"]%string); reflexivity. }
        apply (wrap_listed repr_f s "celldm" HS2).
      - replace (teqb k (§"celldm")) with false by (symmetry; apply teqb_neq; apply teqb_neq in TK; congruence). destruct (is_key k (pw_keys_of s)); reflexivity. }
    assert (NI : forall k z, is_key (str k) (pw_keys_of s) = true -> dget s (str k) = Some (VInt z) -> need_int (wrap d "celldm") k = Ok z).
    { intros k z K E. unfold need_int. rewrite HW, K, E. reflexivity. }
    split; [|split; [|exact HW]].
    - unfold write_pwi. rewrite WS, W1, W2, W3, W4. cbn [bind]. rewrite WF. reflexivity.
    - unfold read_pwi. rewrite RD. cbn [bind].
      assert (R : reads (wrap d "celldm") (lines (file (pw_sections s) tail)) nothing (geometry_read g)).
      { apply reads_namelists; [exact HS|]. unfold tail. apply reads_species.
        - apply NI; [|exact EN]. unfold pw_keys_of. rewrite is_key_app. reflexivity.
        - exact HF.
        - apply reads_positions; [apply NI; [unfold pw_keys_of; rewrite is_key_app; reflexivity|exact EA]|exact Hc|exact HY|exact Hr|].
          apply reads_points; [exact HK|reflexivity|reflexivity|reflexivity|].
          replace (geometry_read g) with (Geometry (Some (map (fun x => fst (fst x)) l)) (Some (map (fun x => g12 (snd (fst x))) l)) (Some (map snd l)) (Some c) (Some Y) (Some (rd_positions r)) (ktyp g) (nks_read g) (points_read g)
            (match r_cell g with Some _ => cell_units g | None => None end) (option_map (map rd_row) (r_cell g))).
          + apply reads_cell; [exact HC|reflexivity|reflexivity].
          + unfold geometry_read. rewrite EX, Em, Ep, Ec, EY, Er. cbn [option_map]. rewrite map_map. reflexivity. }
      rewrite (R (length (lines (file (pw_sections s) tail))) (le_n _)). reflexivity.
  Qed.

  Lemma geometry_same s g : good_geometry fmt_g g12 s g -> same_geometry g12 g (geometry_read g).
  Proof.
    intros [_ (c & Y & r & Ec & Hc & EY & HY & Er & Hr & EA) HK HC].
    assert (NR : forall l, Forall2 near_row l (map rd_row l)) by (induction l; constructor; [apply near_rd_row|assumption]).
    constructor; unfold geometry_read; cbn [at_species amass pp coords at_ r_ ktyp nks k_points cell_units r_cell].
    - auto.
    - repeat split. rewrite Er. cbn [option_map]. destruct r as [r|r]; cbn; [apply NR|reflexivity].
    - unfold near_points, nks_read, points_read. cbn [ktyp nks k_points]. destruct HK as [E|t a b c' d e f E O A K|t E O A G|t k E O A G N K]; rewrite E; [auto| | |]; rewrite A; [auto| |]; rewrite G; [auto|]. rewrite K. repeat split.
      clear N K. induction k as [|x k IH]; constructor; [|exact IH]. split; [apply near_rd_row|apply near_weight].
    - unfold near_cell. cbn [cell_units r_cell]. destruct (r_cell g) as [rc|]; cbn [option_map]; [split; [reflexivity|apply NR]|auto].
  Qed.
End Pw.
