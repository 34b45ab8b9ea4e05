(** Proofs about QeModel.v. *)
From Coq Require Import Lia Ascii String Qabs.
From Verif Require Import Common CommonProofs Text TextProofs NmlModel NmlProofs QeModel QeSpec.
Import ListNotations.
Local Open Scope nat_scope.

Section QeProofs.
  Variable repr_f fmt_g : Q -> text.
  Local Notation good := (good repr_f).
  Local Notation body := (body repr_f).
  Local Notation file := (file repr_f).

  (** ** Parameters *)
  Definition pput (s : dict value) (keys : list string) : list part :=
    flat_map (fun k => match dget s (str k) with Some v => [Entry (str k) v] | None => [] end) keys.
  Definition index_key (key : text) (i : nat) : text := key ++ §"(" ++ fmt_d (Z.of_nat i) ++ §")".
  Fixpoint pput_list (key : text) (i : nat) (l : list value) : list part :=
    match l with [] => [] | v :: l => (if truth v then [Entry (index_key key i) v] else []) ++ pput_list key (S i) l end.

  Lemma body_app p q : body (p ++ q) = body p ++ body q.
  Proof. apply flat_map_app. Qed.
  Lemma body_blank p : body (Blank :: p) = line [] ++ body p.
  Proof. reflexivity. Qed.
  Lemma entries_app p q : entries (p ++ q) = entries p ++ entries q.
  Proof. apply flat_map_app. Qed.
  Lemma entries_blank p : entries (Blank :: p) = entries p.
  Proof. reflexivity. Qed.
  Lemma entries_put s a b : entries (pput s (a ++ b)) = entries (pput s a) ++ entries (pput s b).
  Proof. unfold pput. rewrite flat_map_app. apply flat_map_app. Qed.
  Lemma body_put s keys : body (pput s keys) = put repr_f s keys.
  Proof.
    unfold pput, put. induction keys as [|k keys IH]; [reflexivity|]. cbn [flat_map]. rewrite body_app, IH. destruct (dget s (str k)); [|reflexivity].
    cbn [body NmlProofs.body flat_map render]. rewrite app_nil_r. reflexivity.
  Qed.
  Lemma body_list key l : forall i, body (pput_list key i l) = put_list repr_f key i l.
  Proof.
    induction l as [|v l IH]; intros i; [reflexivity|]. cbn [pput_list put_list]. rewrite body_app, IH. destruct (truth v); [|reflexivity].
    cbn [NmlProofs.body flat_map render]. rewrite app_nil_r. reflexivity.
  Qed.

  Definition simple_key (k : string) : bool :=
    match str k with [] => false | _ => true end && forallb plain_char (str k) && negb (starts_open (str k)) &&
    teqb (fst (match_key (str k))) (str k) && (snd (match_key (str k)) =? 0)%Z.
  Lemma simple_good k : simple_key k = true -> good_key (str k).
  Proof.
    unfold simple_key. repeat rewrite Bool.andb_true_iff. intros ((((H1 & H2) & H3) & _) & _). split; [split|].
    - destruct (str k); congruence.
    - apply Forall_forall. apply forallb_forall. exact H2.
    - apply Bool.negb_true_iff. exact H3.
  Qed.
  Lemma simple_match k : simple_key k = true -> match_key (str k) = (str k, 0%Z).
  Proof.
    unfold simple_key. repeat rewrite Bool.andb_true_iff. intros ((_ & H1) & H2). apply teqb_eq in H1. apply Z.eqb_eq in H2. destruct (match_key (str k)). cbn [fst snd] in *. congruence.
  Qed.

  Lemma pput_good s keys : forallb simple_key keys = true -> good_params repr_f s keys -> Forall (good_part repr_f) (pput s keys).
  Proof.
    intros Hk Hg. unfold pput. rewrite forallb_forall in Hk. apply Forall_forall. intros p Hp. apply in_flat_map in Hp as (k & Hk' & Hp).
    destruct (dget s (str k)) as [v|] eqn:E; [|destruct Hp]. destruct Hp as [<-|[]]. split; [apply simple_good, Hk, Hk'|]. exact (Hg k v Hk' E).
  Qed.


  Lemma filter_pput s k keys : forallb simple_key keys = true -> NoDup keys ->
    filter (about k) (entries (pput s keys)) = if is_key k keys then match dget s k with Some v => [(k, v)] | None => [] end else [].
  Proof.
    intros Hk Hn. induction Hn as [|x keys Hx Hn IH]; [reflexivity|]. cbn [forallb] in Hk. apply Bool.andb_true_iff in Hk as [Hk1 Hk2]. specialize (IH Hk2).
    change (pput s (x :: keys)) with (match dget s (str x) with Some v => [Entry (str x) v] | None => [] end ++ pput s keys).
    rewrite entries_app, filter_app, IH. unfold is_key. cbn [existsb]. destruct (teqb k (str x)) eqn:E; cbn [orb].
    - apply teqb_eq in E. subst k. replace (existsb _ keys) with false.
      + rewrite app_nil_r. destruct (dget s (str x)) as [v|]; [|reflexivity]. cbn [entries flat_map app filter]. unfold about. cbn [fst]. rewrite (simple_match x Hk1). cbn [fst]. rewrite teqb_refl. reflexivity.
      + symmetry. apply Bool.not_true_iff_false. intros H. apply existsb_exists in H as (y & Hy & H). apply teqb_eq in H. apply Hx.
        assert (x = y) as -> by (rewrite <- (string_of_list_ascii_of_string x), <- (string_of_list_ascii_of_string y); f_equal; exact H). exact Hy.
    - replace (filter (about k) (entries match dget s (str x) with Some v => [Entry (str x) v] | None => [] end)) with (@nil ent); [reflexivity|].
      destruct (dget s (str x)); [|reflexivity]. cbn [entries flat_map app filter]. unfold about. cbn [fst]. rewrite (simple_match x Hk1). cbn [fst].
      replace (teqb (str x) k) with false; [reflexivity|]. symmetry. apply teqb_neq. apply teqb_neq in E. congruence.
  Qed.

  (** *** Lists *)
  Definition list_key (key : text) : Prop := good_key key /\ lower key = key /\ Forall (fun c => negb (Ascii.eqb c "(") = true) key.

  Lemma lower_app s t : lower (s ++ t) = lower s ++ lower t.
  Proof. apply map_app. Qed.
  Lemma lower_d z : lower (fmt_d z) = fmt_d z.
  Proof.
    unfold lower. rewrite <- (map_id (fmt_d z)) at 2. apply map_ext_in. intros c Hc.
    assert (H : Forall (fun c => is_upper c = false) (fmt_d z)) by (apply fmt_d_all; [intros d Hd; destruct (digit_cases d Hd) as [->|[->|[->|[->|[->|[->|[->|[->|[->| ->]]]]]]]]]; reflexivity|reflexivity]).
    rewrite Forall_forall in H. rewrite (H c Hc). reflexivity.
  Qed.

  Lemma match_index key i : list_key key -> match_key (index_key key (S i)) = (key, Z.of_nat i).
  Proof.
    intros ((Hk & _) & Hl & Ho). unfold match_key, index_key. rewrite !lower_app, Hl, lower_d. change (lower (§"(")) with ["("%char]. change (lower (§")")) with [")"%char].
    rewrite (span_app _ key) by (try exact Ho; reflexivity).
    rewrite (span_app _ ["("%char]).
    - rewrite scan_nat by reflexivity. f_equal. destruct (token_d (Z.of_nat (S i))) as [H _]. destruct (fmt_d (Z.of_nat (S i))); [congruence|]. cbn [length]. lia.
    - repeat constructor.
    - assert (H : Forall (fun c => Ascii.eqb c "(" || Ascii.eqb c blank = false) (fmt_d (Z.of_nat (S i)))).
      { apply fmt_d_all; [intros d Hd; destruct (digit_cases d Hd) as [->|[->|[->|[->|[->|[->|[->|[->|[->| ->]]]]]]]]]; reflexivity|reflexivity]. }
      destruct (token_d (Z.of_nat (S i))) as [H0 _]. destruct (fmt_d (Z.of_nat (S i))); [congruence|]. inversion H; subst. assumption.
  Qed.

  Lemma index_good key i : list_key key -> good_key (index_key key i).
  Proof.
    intros (((Hk & Hk') & Ho) & _ & _). unfold index_key. split; [split|].
    - destruct key; [congruence|discriminate].
    - apply Forall_app. split; [exact Hk'|]. apply Forall_app. split; [repeat constructor|]. apply Forall_app. split; [apply token_d|repeat constructor].
    - destruct key; [congruence|exact Ho].
  Qed.

  Lemma pput_list_good key l : list_key key -> Forall (fun x => truth x = true -> good x) l -> forall i, Forall (good_part repr_f) (pput_list key i l).
  Proof.
    intros Hk. induction 1 as [|v l Hv _ IH]; intros i; cbn [pput_list]; [constructor|]. apply Forall_app. split; [|apply IH].
    destruct (truth v); [|constructor]. constructor; [|constructor]. split; [apply index_good, Hk|apply Hv; reflexivity].
  Qed.

  Lemma filter_pput_list key k l : list_key key -> forall i, filter (about k) (entries (pput_list key (S i) l)) = if teqb key k then entries (pput_list key (S i) l) else [].
  Proof.
    intros Hk. induction l as [|v l IH]; intros i; cbn [pput_list]; [destruct (teqb key k); reflexivity|]. rewrite entries_app, filter_app, IH.
    destruct (truth v).
    - cbn [entries flat_map app filter]. unfold about at 1. cbn [fst]. rewrite match_index by exact Hk. cbn [fst]. destruct (teqb key k); reflexivity.
    - destruct (teqb key k); reflexivity.
  Qed.

  Lemma repeat_snoc {A} (x : A) n l : repeat x n ++ x :: l = repeat x (S n) ++ l.
  Proof. induction n as [|n IH]; [reflexivity|]. cbn [repeat app]. f_equal. rewrite IH. reflexivity. Qed.

  Lemma fold_list key l : list_key key -> forall i acc, length acc <= i ->
    fold_left add_to (entries (pput_list key (S i) l)) acc = match trim l with [] => acc | r => acc ++ repeat VNone (i - length acc) ++ r end.
  Proof.
    intros Hk. induction l as [|v l IH]; intros i acc Hi; cbn [pput_list trim]; [reflexivity|]. rewrite entries_app, fold_left_app. destruct (truth v) eqn:T.
    - cbn [entries flat_map app fold_left]. unfold add_to at 2. cbn [fst snd]. rewrite match_index by exact Hk. cbn [snd].
      unfold assign. destruct (Z.ltb_spec (Z.of_nat i) 0); [lia|]. unfold fill. rewrite Nat2Z.id.
      assert (L : length (acc ++ repeat VNone (i - length acc)) = i) by (rewrite app_length, repeat_length; lia).
      rewrite firstn_all2, skipn_all2 by lia. rewrite IH by (rewrite app_length, L; cbn [length]; lia).
      rewrite app_length, L. cbn [length]. replace (S i - (i + 1)) with 0 by lia. cbn [repeat app]. unfold hole. rewrite T.
      destruct (trim l) as [|w r]; rewrite <- !app_assoc; reflexivity.
    - cbn [entries flat_map app fold_left]. rewrite IH by lia. unfold hole. rewrite T. destruct (trim l) as [|w r]; [reflexivity|]. f_equal.
      rewrite repeat_snoc. f_equal. f_equal. lia.
  Qed.

  Definition lookup1 (ps : list part) (k : text) : option value := match listed (entries ps) k with Some l => Some (unwrap l) | None => None end.

  Lemma trim_no_list l v : Forall (fun x => truth x = true -> good x) l -> trim l = [v] -> good v.
  Proof.
    intros H. revert v. induction H as [|x l Hx _ IH]; intros v E; cbn [trim] in E; [discriminate|].
    destruct (trim l) as [|w r].
    - destruct (truth x); [|discriminate]. injection E as <-. apply Hx. reflexivity.
    - discriminate.
  Qed.

  Lemma entries_list_nil key l : list_key key -> forall i, entries (pput_list key (S i) l) = [] <-> trim l = [].
  Proof.
    intros Hk. induction l as [|v l IH]; intros i; cbn [pput_list trim]; [tauto|]. rewrite entries_app. destruct (truth v).
    - cbn [entries flat_map app]. split; [discriminate|]. destruct (trim l); discriminate.
    - cbn [entries flat_map app]. rewrite IH. destruct (trim l); [tauto|]. split; discriminate.
  Qed.

  (** Parameters with the elements of one or two lists among them *)
  Lemma unwrap_one v : unwrap [v] = v.
  Proof. reflexivity. Qed.

  Lemma lookup1_filter ps k fs : filter (about k) (entries ps) = fs -> lookup1 ps k = match fs with [] => None | _ => Some (unwrap (fold_left add_to fs [])) end.
  Proof. intros <-. unfold lookup1, listed. destruct (filter (about k) (entries ps)); reflexivity. Qed.

  Lemma add_simple k v : match_key k = (k, 0%Z) -> fold_left add_to [(k, v)] [] = [v].
  Proof. intros E. cbn [fold_left]. unfold add_to. cbn [fst snd]. rewrite E. reflexivity. Qed.

  Lemma simple_is_key k keys : forallb simple_key keys = true -> is_key k keys = true -> match_key k = (k, 0%Z).
  Proof.
    intros H E. unfold is_key in E. apply existsb_exists in E as (x & Hx & E). apply teqb_eq in E. subst k. apply simple_match. rewrite forallb_forall in H. apply H, Hx.
  Qed.

  Lemma lookup1_put s k keys ps : forallb simple_key keys = true -> NoDup keys -> entries ps = entries (pput s keys) ->
    lookup1 ps k = if is_key k keys then dget s k else None.
  Proof.
    intros Hk Hn E. rewrite (lookup1_filter ps k _ eq_refl), E, filter_pput by assumption. destruct (is_key k keys) eqn:K; [|reflexivity].
    destruct (dget s k) as [v|]; [|reflexivity]. rewrite add_simple by (apply (simple_is_key k keys); assumption). reflexivity.
  Qed.

  (** What the items of a list are read as *)
  Definition listed_as (s : dict value) (key : text) : option value :=
    match dget s key with Some (VList l) => match trim l with [] => None | l => Some (unwrap l) end | _ => None end.
  Definition plist (s : dict value) (key : string) : list part := match dget s (str key) with Some (VList l) => pput_list (str key) 1 l | _ => [] end.

  Lemma filter_plist s key k : list_key (str key) -> filter (about k) (entries (plist s key)) = if teqb (str key) k then entries (plist s key) else [].
  Proof.
    intros Hk. unfold plist. destruct (dget s (str key)) as [[]|]; try (destruct (teqb (str key) k); reflexivity). apply filter_pput_list. exact Hk.
  Qed.

  Lemma fold_plist s key : list_key (str key) ->
    match entries (plist s key) with [] => None | _ :: _ => Some (unwrap (fold_left add_to (entries (plist s key)) [])) end = listed_as s (str key).
  Proof.
    intros Hk. unfold plist, listed_as. destruct (dget s (str key)) as [[| | | | |l]|]; try reflexivity.
    pose proof (fold_list (str key) l Hk 0 [] (le_n 0)) as F. pose proof (entries_list_nil (str key) l Hk 0) as N.
    destruct (trim l) as [|w r] eqn:T.
    - rewrite (proj2 N eq_refl). reflexivity.
    - destruct (entries (pput_list (str key) 1 l)) eqn:E; [destruct N as [N _]; specialize (N eq_refl); discriminate|]. rewrite F. reflexivity.
  Qed.

  Lemma dget_wrap s key k : dget (wrap s key) k = if teqb (str key) k then match dget s k with None => None | Some (VList l) => Some (VList l) | Some v => Some (VList [v]) end else dget s k.
  Proof.
    unfold wrap. destruct (teqb (str key) k) eqn:E.
    - apply teqb_eq in E. subst k. destruct (dget s (str key)) as [[]|] eqn:D; try (rewrite dget_dset, teqb_refl; reflexivity); exact D.
    - destruct (dget s (str key)) as [[]|] eqn:D; try (rewrite dget_dset, E; reflexivity); reflexivity.
  Qed.

  Lemma wrap_listed s key : good_list repr_f s key ->
    match listed_as s (str key) with None => None | Some (VList l) => Some (VList l) | Some v => Some (VList [v]) end = kept (dget s (str key)).
  Proof.
    intros H. unfold listed_as, kept. destruct (dget s (str key)) as [v|] eqn:E; [|reflexivity]. destruct (H v E) as (l & -> & Hl).
    destruct (trim l) as [|a [|b r]] eqn:T; [reflexivity| |reflexivity]. cbn [unwrap]. pose proof (trim_no_list l a Hl T) as G. destruct a; try reflexivity. destruct G.
  Qed.

  Lemma plist_good s key : list_key (str key) -> good_list repr_f s key -> Forall (good_part repr_f) (plist s key).
  Proof.
    intros Hk H. unfold plist. destruct (dget s (str key)) as [v|] eqn:E; [|constructor]. destruct (H v E) as (l & -> & Hl). apply pput_list_good; assumption.
  Qed.

  Lemma body_plist s key : good_list repr_f s key -> put_indexed repr_f s key = Ok (body (plist s key)).
  Proof.
    intros H. unfold put_indexed, plist. destruct (dget s (str key)) as [v|] eqn:E; [|reflexivity]. destruct (H v E) as (l & -> & Hl). rewrite body_list. reflexivity.
  Qed.

  (** ** Files with one namelist *)
  Definition file1 (name : string) (ps : list part) (tail : text) : text := file [(str name, ps)] tail.

  Lemma file1_eq name ps tail : file1 name ps tail = line (§"&" ++ str name) ++ body ps ++ line (§"/") ++ tail.
  Proof. unfold file1, NmlProofs.file, section, line. cbn [flat_map fst snd]. rewrite app_nil_r, <- !app_assoc. reflexivity. Qed.

  Definition name_word (name : string) : bool := match str name with [] => false | _ => true end && forallb is_word (str name).
  Lemma name_good name : name_word name = true -> good_name (str name).
  Proof.
    unfold name_word. rewrite Bool.andb_true_iff. intros [H1 H2]. split; [destruct (str name); congruence|]. apply Forall_forall, forallb_forall, H2.
  Qed.

  Lemma read_file1 name ps tail : name_word name = true -> Forall (good_part repr_f) ps -> tail_ok tail ->
    exists d, read_input_data (file1 name ps tail) = Ok d /\ forall k, dget d k = lookup1 ps k.
  Proof.
    intros Hn Hp Ht. destruct (read_input_file repr_f [(str name, ps)] tail) as (d & E & H).
    - constructor; [|constructor]. split; [apply name_good, Hn|exact Hp].
    - cbn. constructor; [intros []|constructor].
    - exact Ht.
    - exists d. split; [exact E|]. intros k. rewrite H. reflexivity.
  Qed.

  Lemma tail_nil : tail_ok [].
  Proof. repeat split; constructor. Qed.

  Ltac distinct := repeat constructor; cbn [In]; intuition discriminate.

  Theorem read_write_ph s : good_params repr_f s ph_keys ->
    exists d, read_ph (write_ph repr_f s) = Ok d /\ forall k, dget d k = if is_key k ph_keys then dget s k else None.
  Proof.
    intros G. set (ps := pput s ["prefix"; "outdir"]%string ++ Blank :: pput s ["fildyn"; "fildvscf"]%string ++ Blank ::
      pput s ["ldisp"; "nq1"; "nq2"; "nq3"]%string ++ Blank :: pput s ["tr2_ph"; "alpha_mix"; "cdfpt"; "subspace"; "cdfpt_bnd"; "cdfpt_orb"]%string).
    assert (E : write_ph repr_f s = file1 "INPUTPH" ps []).
    { rewrite file1_eq. unfold write_ph, ps. repeat rewrite ?body_app, ?body_blank, ?body_put. rewrite !app_nil_r. repeat (rewrite <- !app_assoc; cbn [app]). reflexivity. }
    destruct (read_file1 "INPUTPH" ps []) as (d & R & H); [reflexivity| |apply tail_nil|].
    - assert (P : forall l, incl l ph_keys -> forallb simple_key l = true -> Forall (good_part repr_f) (pput s l)).
      { intros l I K. apply pput_good; [exact K|]. intros k v Hk. apply G, I, Hk. }
      unfold ps. repeat (apply Forall_app; split; [apply P; [intros x Hx; unfold ph_keys; cbn [In] in *; tauto|reflexivity]|constructor; [exact I|]]).
      apply P; [intros x Hx; unfold ph_keys; cbn [In] in *; tauto|reflexivity].
    - exists d. split; [unfold read_ph; rewrite E; exact R|]. intros k. rewrite H. apply lookup1_put; [reflexivity|unfold ph_keys; distinct|].
      unfold ps. repeat rewrite ?entries_app, ?entries_blank. rewrite <- !entries_put. reflexivity.
  Qed.

  Theorem read_write_q2r s : good_params repr_f s q2r_keys ->
    exists d, read_q2r (write_q2r repr_f s) = Ok d /\ forall k, dget d k = if is_key k q2r_keys then dget s k else None.
  Proof.
    intros G. assert (E : write_q2r repr_f s = file1 "INPUT" (pput s q2r_keys) []) by (rewrite file1_eq, body_put, app_nil_r; reflexivity).
    destruct (read_file1 "INPUT" (pput s q2r_keys) []) as (d & R & H); [reflexivity|apply pput_good; [reflexivity|exact G]|apply tail_nil|].
    exists d. split; [unfold read_q2r; rewrite E; exact R|]. intros k. rewrite H. apply lookup1_put; [reflexivity|unfold q2r_keys; distinct|reflexivity].
  Qed.

  (** *** epw *)
  Lemma list_key_ok key : simple_key key = true -> lower (str key) = str key -> forallb (fun c => negb (Ascii.eqb c "(")) (str key) = true -> list_key (str key).
  Proof. intros H1 H2 H3. split; [apply simple_good, H1|]. split; [exact H2|]. apply Forall_forall, forallb_forall, H3. Qed.

  Lemma is_key_app k a b : is_key k (a ++ b) = is_key k a || is_key k b.
  Proof. apply existsb_app. Qed.

  Lemma good_params_incl s a b : incl a b -> good_params repr_f s b -> good_params repr_f s a.
  Proof. intros I H k v Hk. apply H, I, Hk. Qed.

  Theorem read_write_epw s : good_params repr_f s epw_keys -> good_list repr_f s "proj" -> good_list repr_f s "wdata" ->
    exists t d, write_epw repr_f s = Ok t /\ read_epw t = Ok d /\
      forall k, dget d k = if is_key k epw_keys then dget s k else if is_key k ["proj"; "wdata"]%string then kept (dget s k) else None.
  Proof.
    intros G G1 G2.
    set (a := ["prefix"; "outdir"; "dvscf_dir"; "wannierize"; "elph"; "epbwrite"; "epwwrite"; "epbread"; "epwread"; "use_ws"; "nbndsub"; "bands_skipped"; "dis_win_min"; "dis_win_max"; "dis_froz_min"; "dis_froz_max"]%string).
    set (c := ["nk1"; "nk2"; "nk3"; "nq1"; "nq2"; "nq3"; "nkf1"; "nkf2"; "nkf3"; "nqf1"; "nqf2"; "nqf3"]%string).
    set (ps := pput s ["prefix"; "outdir"; "dvscf_dir"]%string ++ Blank :: pput s ["wannierize"; "elph"]%string ++ Blank :: pput s ["epbwrite"; "epwwrite"]%string ++
      Blank :: pput s ["epbread"; "epwread"]%string ++ Blank :: pput s ["use_ws"; "nbndsub"; "bands_skipped"]%string ++ Blank ::
      pput s ["dis_win_min"; "dis_win_max"; "dis_froz_min"; "dis_froz_max"]%string ++ Blank ::
      plist s "proj" ++ Blank :: pput s ["num_iter"]%string ++ plist s "wdata" ++ Blank ::
      pput s ["nk1"; "nk2"; "nk3"]%string ++ Blank :: pput s ["nq1"; "nq2"; "nq3"]%string ++ Blank ::
      pput s ["nkf1"; "nkf2"; "nkf3"]%string ++ Blank :: pput s ["nqf1"; "nqf2"; "nqf3"]%string).
    assert (K1 : list_key (§"proj")) by (apply (list_key_ok "proj"); reflexivity).
    assert (K2 : list_key (§"wdata")) by (apply (list_key_ok "wdata"); reflexivity).
    assert (E : write_epw repr_f s = Ok (file1 "INPUTEPW" ps [])).
    { unfold write_epw. rewrite !body_plist by assumption. cbn [bind]. f_equal. rewrite file1_eq. unfold ps.
      repeat rewrite ?body_app, ?body_blank, ?body_put. rewrite !app_nil_r. repeat (rewrite <- !app_assoc; cbn [app]). reflexivity. }
    assert (EE : entries ps = entries (pput s a) ++ entries (plist s "proj") ++ entries (pput s ["num_iter"]%string) ++ entries (plist s "wdata") ++ entries (pput s c)).
    { unfold ps. repeat rewrite ?entries_app, ?entries_blank.
      change a with (["prefix"; "outdir"; "dvscf_dir"]%string ++ ["wannierize"; "elph"]%string ++ ["epbwrite"; "epwwrite"]%string ++ ["epbread"; "epwread"]%string ++ ["use_ws"; "nbndsub"; "bands_skipped"]%string ++ ["dis_win_min"; "dis_win_max"; "dis_froz_min"; "dis_froz_max"]%string).
      change c with (["nk1"; "nk2"; "nk3"]%string ++ ["nq1"; "nq2"; "nq3"]%string ++ ["nkf1"; "nkf2"; "nkf3"]%string ++ ["nqf1"; "nqf2"; "nqf3"]%string).
      rewrite !entries_put, <- !app_assoc. reflexivity. }
    destruct (read_file1 "INPUTEPW" ps []) as (d & R & H); [reflexivity| |apply tail_nil|].
    - assert (P : forall l, incl l epw_keys -> forallb simple_key l = true -> Forall (good_part repr_f) (pput s l)).
      { intros l I K. apply pput_good; [exact K|]. exact (good_params_incl s l _ I G). }
      assert (B : forall q, Forall (good_part repr_f) q -> Forall (good_part repr_f) (Blank :: q)) by (intros; constructor; [exact I|assumption]).
      pose proof (plist_good s "proj" K1 G1). pose proof (plist_good s "wdata" K2 G2).
      unfold ps. repeat first [assumption|apply P; [intros x Hx; unfold epw_keys; cbn [In] in *; tauto|reflexivity]|apply B|apply Forall_app; split].
    - exists (file1 "INPUTEPW" ps []), (wrap (wrap d "proj") "wdata"). split; [exact E|]. split; [unfold read_epw; rewrite R; reflexivity|]. intros k.
      assert (L : lookup1 ps k = if is_key k epw_keys then dget s k else if is_key k ["proj"; "wdata"]%string then listed_as s k else None).
      { rewrite (lookup1_filter ps k _ eq_refl), EE, !filter_app, !filter_plist by assumption. rewrite !filter_pput by (try reflexivity; unfold a, c; distinct).
        destruct (is_key k epw_keys) eqn:K.
        - replace (teqb (§"proj") k) with false by (symmetry; apply teqb_neq; intros <-; discriminate).
          replace (teqb (§"wdata") k) with false by (symmetry; apply teqb_neq; intros <-; discriminate). cbn [app].
          assert (KK : is_key k (a ++ ["num_iter"]%string ++ c) = true) by exact K. rewrite !is_key_app in KK.
          assert (D : (is_key k a = true /\ is_key k ["num_iter"]%string = false /\ is_key k c = false) \/ (is_key k a = false /\ is_key k ["num_iter"]%string = true /\ is_key k c = false) \/
            (is_key k a = false /\ is_key k ["num_iter"]%string = false /\ is_key k c = true)).
          { assert (X : forall l l', (forall x, In x l -> is_key (str x) l' = false) -> is_key k l = true -> is_key k l' = false).
            { intros l l' Hx Hk. unfold is_key in Hk. apply existsb_exists in Hk as (x & Hx' & Hk). apply teqb_eq in Hk. subst k. apply Hx, Hx'. }
            assert (Y : forall l l', forallb (fun x => negb (is_key (str x) l')) l = true -> is_key k l = true -> is_key k l' = false).
            { intros l l' Hx. apply X. intros x Hx'. rewrite forallb_forall in Hx. specialize (Hx x Hx'). apply Bool.negb_true_iff in Hx. exact Hx. }
            destruct (is_key k a) eqn:A; [left; repeat split; apply (Y a); auto; reflexivity|].
            destruct (is_key k ["num_iter"]%string) eqn:B; [right; left; repeat split; apply (Y ["num_iter"]%string); auto; reflexivity|]. right; right. auto. }
          assert (M : match_key k = (k, 0%Z)) by (apply (simple_is_key k epw_keys); [reflexivity|exact K]).
          destruct D as [(-> & -> & ->)|[(-> & -> & ->)|(-> & -> & ->)]]; cbn [app]; rewrite ?app_nil_r; destruct (dget s k) as [v|]; try reflexivity; rewrite add_simple by exact M; reflexivity.
        - assert (KK : is_key k (a ++ ["num_iter"]%string ++ c) = false) by exact K. rewrite !is_key_app in KK.
          apply Bool.orb_false_iff in KK as [-> KK]. apply Bool.orb_false_iff in KK as [-> ->]. cbn [app]. rewrite app_nil_r.
          unfold is_key. cbn [existsb].
          destruct (teqb (§"proj") k) eqn:T1.
          + apply teqb_eq in T1. subst k. change (teqb (§"wdata") (§"proj")) with false. cbv iota. rewrite app_nil_r. rewrite teqb_refl. cbn [orb]. apply (fold_plist s "proj" K1).
          + replace (teqb k (§"proj")) with false by (symmetry; apply teqb_neq; apply teqb_neq in T1; congruence). cbn [orb app].
            destruct (teqb (§"wdata") k) eqn:T2.
            * apply teqb_eq in T2. subst k. rewrite teqb_refl. cbn [orb]. apply (fold_plist s "wdata" K2).
            * replace (teqb k (§"wdata")) with false by (symmetry; apply teqb_neq; apply teqb_neq in T2; congruence). reflexivity. }
      rewrite !dget_wrap, H, L. change (is_key k ["proj"; "wdata"]%string) with (teqb k (§"proj") || (teqb k (§"wdata") || false)).
      destruct (teqb (§"proj") k) eqn:T1.
      + apply teqb_eq in T1. subst k. change (teqb (§"wdata") (§"proj")) with false. cbv iota. change (is_key (§"proj") epw_keys) with false. rewrite teqb_refl. cbn [orb]. cbv iota.
        apply (wrap_listed s "proj" G1).
      + destruct (teqb (§"wdata") k) eqn:T2.
        * apply teqb_eq in T2. subst k. change (is_key (§"wdata") epw_keys) with false. rewrite teqb_refl. cbn [orb]. rewrite Bool.orb_true_r. cbv iota. apply (wrap_listed s "wdata" G2).
        * replace (teqb k (§"proj")) with false by (symmetry; apply teqb_neq; apply teqb_neq in T1; congruence).
          replace (teqb k (§"wdata")) with false by (symmetry; apply teqb_neq; apply teqb_neq in T2; congruence). cbn [orb]. destruct (is_key k epw_keys); reflexivity.
  Qed.
End QeProofs.
