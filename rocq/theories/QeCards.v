(** Proofs about the parts of input files that follow the namelists. *)
From Coq Require Import Lia Ascii String Qabs.
From Verif Require Import Common CommonProofs Text TextProofs NmlModel NmlProofs QeModel QeSpec QeProofs.
Import ListNotations.
Local Open Scope nat_scope.

(** ** Lines *)
Lemma lines_line t rest : no_newline t -> lines (line t ++ rest) = line t :: lines rest.
Proof. intros H. unfold line. rewrite <- app_assoc. apply lines_app, H. Qed.

Definition is_line (t : text) : Prop := exists x, no_newline x /\ t = line x.

Lemma lines_concat l rest : Forall is_line l -> lines (concat l ++ rest) = l ++ lines rest.
Proof.
  induction 1 as [|t l (x & Hx & ->) _ IH]; [reflexivity|]. cbn [concat app]. rewrite <- app_assoc, lines_line by exact Hx. rewrite IH. reflexivity.
Qed.
Lemma lines_flat {A} (f : A -> text) l rest : (forall x, In x l -> is_line (f x)) -> lines (flat_map f l ++ rest) = map f l ++ lines rest.
Proof.
  intros H. rewrite flat_map_concat_map. apply lines_concat. apply Forall_forall. intros t Ht. apply in_map_iff in Ht as (x & <- & Hx). apply H, Hx.
Qed.

Lemma no_newline_str s : forallb (fun c => negb (Ascii.eqb c newline)) (str s) = true -> no_newline (str s).
Proof. intros H. rewrite forallb_forall in H. apply Forall_forall. intros c Hc ->. specialize (H _ Hc). discriminate. Qed.

Lemma newline_harmless s : Forall (fun c => harmless c = true) s -> no_newline s.
Proof. apply Forall_impl. intros c H ->. discriminate. Qed.
Lemma newline_token t : token_ok t -> no_newline t.
Proof. intros [_ H]. revert H. apply Forall_impl. intros c H ->. discriminate. Qed.
Lemma newline_name t : name_ok t -> no_newline t.
Proof. intros [_ H]. revert H. apply Forall_impl. intros c H ->. discriminate. Qed.
Lemma word_name t : name_ok t -> word t.
Proof. intros [H0 H]. split; [exact H0|]. revert H. apply Forall_impl. intros c H. unfold safe_char in H. destruct (is_space c); [discriminate|reflexivity]. Qed.
Lemma word_token t : token_ok t -> word t.
Proof. intros [H0 H]. split; [exact H0|]. revert H. apply Forall_impl, plain_space. Qed.

(** ** Rows of numbers *)
Definition rd (x : Q) : Q := rounded 9 x.
Lemma near_rd x : near x (rd x).
Proof. unfold near, rd. eapply Qle_trans; [apply rounded_near|]. apply Qle_refl. Qed.

Lemma split_12_9 x rest : starts_space rest -> str_split (fmt_12_9 x ++ rest) = fmt_f 9 x :: str_split rest.
Proof. intros H. apply split_pad; [apply word_fmt_f|exact H]. Qed.
Lemma split_blank t : str_split (§" " ++ t) = str_split t.
Proof. apply words_spaces. repeat constructor. Qed.
Lemma newline_12_9 x : no_newline (fmt_12_9 x).
Proof. apply no_newline_pad, no_newline_f. Qed.
Lemma newline_row r : no_newline (fmt_row r).
Proof.
  destruct r as [[x y] z]. unfold fmt_row. repeat (apply no_newline_app; [apply newline_12_9|apply no_newline_app; [repeat constructor; discriminate|]]). apply newline_12_9.
Qed.
Lemma split_row r rest : starts_space rest -> str_split (fmt_row r ++ rest) = let '(x, y, z) := r in fmt_f 9 x :: fmt_f 9 y :: fmt_f 9 z :: str_split rest.
Proof.
  intros H. destruct r as [[x y] z]. unfold fmt_row. rewrite <- !app_assoc. rewrite split_12_9 by reflexivity. rewrite split_blank, split_12_9 by reflexivity. rewrite split_blank, split_12_9 by exact H. reflexivity.
Qed.
Definition rd_row (r : row) : row := let '(x, y, z) := r in (rd x, rd y, rd z).
Lemma near_rd_row r : near_row r (rd_row r).
Proof. destruct r as [[x y] z]. cbn. repeat split; apply near_rd. Qed.

Lemma float_9 x : to_float (fmt_f 9 x) = Ok (rd x).
Proof. apply to_float_fmt. lia. Qed.

(** ** Reading a number of rows *)
Lemma read_rows_ok {A} (f : list text -> res A) ls xs : Forall2 (fun l x => f (str_split l) = Ok x) ls xs -> forall rest, read_rows f (length ls) (ls ++ rest) = Ok (xs, rest).
Proof.
  induction 1 as [|l x ls xs H _ IH]; intros rest; [reflexivity|]. cbn [length read_rows app next bind]. rewrite H. cbn [bind]. rewrite IH. reflexivity.
Qed.
Lemma read_rows_map {A B} (f : list text -> res A) (g : B -> text) (h : B -> A) l rest n : n = length l ->
  (forall x, In x l -> f (str_split (g x)) = Ok (h x)) -> read_rows f n (map g l ++ rest) = Ok (map h l, rest).
Proof.
  intros -> H. rewrite <- (map_length g l). apply read_rows_ok. induction l as [|x l IH]; cbn [map]; constructor; [apply H; left; reflexivity|]. apply IH. intros y Hy. apply H. right. exact Hy.
Qed.

(** ** Text after the namelists *)
Definition tail_char (c : ascii) : Prop := is_quote c = false /\ c <> "!"%char /\ c <> "&"%char.
Lemma tail_of t : Forall tail_char t -> tail_ok t.
Proof. intros H. repeat split; revert H; apply Forall_impl; intros c (H1 & H2 & H3); assumption. Qed.
Definition tail_charb (c : ascii) : bool := negb (is_quote c) && negb (Ascii.eqb c "!") && negb (Ascii.eqb c "&").
Lemma tail_charb_ok c : tail_charb c = true -> tail_char c.
Proof.
  unfold tail_charb, tail_char. repeat rewrite Bool.andb_true_iff. rewrite !Bool.negb_true_iff. intros ((H1 & H2) & H3). repeat split; [exact H1| |]; apply Ascii.eqb_neq; assumption.
Qed.
Lemma tail_str s : forallb tail_charb (str s) = true -> Forall tail_char (str s).
Proof. intros H. rewrite forallb_forall in H. apply Forall_forall. intros c Hc. apply tail_charb_ok, H, Hc. Qed.
Lemma tail_chr d : (0 <= d < 10)%Z -> tail_char (chr d).
Proof. intros H. apply tail_charb_ok. destruct (digit_cases d H) as [->|[->|[->|[->|[->|[->|[->|[->|[->| ->]]]]]]]]]; reflexivity. Qed.
Lemma tail_d z : Forall tail_char (fmt_d z).
Proof. apply fmt_d_all; [apply tail_chr|apply tail_charb_ok; reflexivity]. Qed.
Lemma tail_f n x : Forall tail_char (fmt_f n x).
Proof. apply fmt_f_all; [apply tail_chr|apply tail_charb_ok; reflexivity|apply tail_charb_ok; reflexivity]. Qed.
Lemma tail_pad n t : Forall tail_char t -> Forall tail_char (pad n t).
Proof.
  intros H. unfold pad. apply Forall_app. split; [|exact H]. apply Forall_forall. intros c Hc. apply repeat_spec in Hc. subst c. apply tail_charb_ok. reflexivity.
Qed.
Lemma tail_name t : name_ok t -> Forall tail_char t.
Proof.
  intros [_ H]. revert H. apply Forall_impl. intros c H. apply tail_charb_ok. unfold safe_char in H. apply Bool.andb_true_iff in H as [_ H]. cbn [existsb str list_ascii_of_string] in H.
  apply Bool.negb_true_iff in H. repeat rewrite Bool.orb_false_iff in H. destruct H as (H1 & H2 & H3 & H4 & _). unfold tail_charb, is_quote. change squote with "'"%char. change dquote with """"%char. rewrite H1, H2, H3, H4. reflexivity.
Qed.
Lemma tail_line t : Forall tail_char t -> Forall tail_char (line t).
Proof. intros H. apply Forall_app. split; [exact H|]. constructor; [apply tail_charb_ok; reflexivity|constructor]. Qed.
Lemma tail_12_9 x : Forall tail_char (fmt_12_9 x).
Proof. apply tail_pad, tail_f. Qed.
Lemma tail_space : Forall tail_char (§" ").
Proof. apply tail_str. reflexivity. Qed.
Lemma tail_row r : Forall tail_char (fmt_row r).
Proof.
  destruct r as [[x y] z]. unfold fmt_row. repeat (apply Forall_app; split; [apply tail_12_9|apply Forall_app; split; [apply tail_space|]]). apply tail_12_9.
Qed.
Lemma tail_flat {A} (f : A -> text) l : (forall x, In x l -> Forall tail_char (f x)) -> Forall tail_char (flat_map f l).
Proof.
  intros H. apply Forall_forall. intros c Hc. apply in_flat_map in Hc as (x & Hx & Hc). specialize (H x Hx). rewrite Forall_forall in H. apply H, Hc.
Qed.

Section Cards.
  Variable repr_f fmt_g : Q -> text.
  Local Notation good := (good repr_f).
  Local Notation render := (render repr_f).

  Lemma newline_repr v : good v -> no_newline (repr repr_f v).
  Proof.
    intros G. destruct v; try (apply newline_token, token_repr; [exact G|reflexivity]); try contradiction.
    cbn [repr]. rewrite repr_plain by exact G. constructor; [discriminate|]. apply no_newline_app; [apply newline_harmless, G|repeat constructor; discriminate].
  Qed.

  Lemma render_line p : good_part repr_f p -> is_line (render p).
  Proof.
    destruct p as [|k v]; cbn [NmlProofs.render]; intros H; [exists []; split; [constructor|reflexivity]|]. destruct H as [Hk Hv]. exists (k ++ §" = " ++ repr repr_f v).
    split; [|unfold entry, line; rewrite <- !app_assoc; reflexivity]. apply no_newline_app; [apply newline_token, Hk|]. apply no_newline_app; [repeat constructor; discriminate|apply newline_repr, Hv].
  Qed.

  Lemma lines_section name ps rest : name_word name = true -> Forall (good_part repr_f) ps ->
    lines (section repr_f (str name, ps) ++ rest) = line (§"&" ++ str name) :: map render ps ++ line (§"/") :: lines rest.
  Proof.
    intros Hn Hp. unfold section. cbn [fst snd].
    replace ((§"&" ++ str name ++ [newline] ++ body repr_f ps ++ §"/" ++ [newline]) ++ rest) with (line (§"&" ++ str name) ++ (body repr_f ps ++ (line (§"/") ++ rest)))
      by (unfold line; rewrite <- !app_assoc; reflexivity).
    rewrite lines_line.
    - f_equal. unfold body. rewrite lines_flat by (intros x Hx; apply render_line; rewrite Forall_forall in Hp; apply Hp, Hx). rewrite lines_line by (repeat constructor; discriminate). reflexivity.
    - apply no_newline_app; [repeat constructor; discriminate|]. destruct (name_good name Hn) as [_ H]. revert H. apply Forall_impl. intros c H ->. discriminate.
  Qed.

  (** ** matdyn *)
  Lemma contains_slash t : contains (§"/") t = existsb (fun c => Ascii.eqb "/" c) t.
  Proof. induction t as [|c t IH]; [reflexivity|]. cbn [contains prefix str list_ascii_of_string existsb]. rewrite <- IH. rewrite Bool.andb_true_r. reflexivity. Qed.

  Definition slashed (v : value) : bool := match v with VStr s => existsb (Ascii.eqb "/") s | _ => false end.

  Lemma slash_token t : token_ok t -> existsb (fun c => Ascii.eqb "/" c) t = false.
  Proof.
    intros [_ H]. apply Bool.not_true_iff_false. intros E. apply existsb_exists in E as (c & Hc & E). apply Ascii.eqb_eq in E. subst c. rewrite Forall_forall in H. specialize (H _ Hc). discriminate.
  Qed.

  Lemma slash_entry k v : good_key k -> good v -> contains (§"/") (render (Entry k v)) = slashed v.
  Proof.
    intros [Hk _] Hv. rewrite contains_slash. cbn [NmlProofs.render]. unfold entry. rewrite !existsb_app. rewrite slash_token by exact Hk. cbn [str list_ascii_of_string existsb orb].
    change (Ascii.eqb "/" " ") with false. change (Ascii.eqb "/" "=") with false. change (Ascii.eqb "/" newline) with false. cbn [orb]. rewrite Bool.orb_false_r.
    destruct v; try (rewrite slash_token by (apply token_repr; [exact Hv|reflexivity]); reflexivity); try contradiction.
    cbn [repr slashed]. rewrite repr_plain by exact Hv. cbn [existsb]. rewrite existsb_app. cbn [existsb]. change (Ascii.eqb "/" squote) with false. cbn [orb]. rewrite Bool.orb_false_r. reflexivity.
  Qed.

  Lemma skip_lines ls rest q words : forall fuel, Forall (fun l => contains (§"/") l = false) ls ->
    matdyn_points (length ls + fuel) words (ls ++ rest) q = matdyn_points fuel words rest q.
  Proof. intros fuel. induction 1 as [|l ls H _ IH]; [reflexivity|]. cbn [length app Nat.add matdyn_points]. rewrite H. exact IH. Qed.

  Definition join_q := fix join (l : list Q) : text := match l with [] => [] | [x] => fmt_12_9 x | x :: l => fmt_12_9 x ++ §" " ++ join l end.
  Definition q_line (point : list Q) : text := line (join_q point).

  Lemma split_q a b c d : str_split (q_line [a; b; c; d]) = [fmt_f 9 a; fmt_f 9 b; fmt_f 9 c; fmt_f 9 d].
  Proof.
    unfold q_line, line. cbn [join_q]. rewrite <- !app_assoc. rewrite split_12_9 by reflexivity. rewrite split_blank, split_12_9 by reflexivity. rewrite split_blank, split_12_9 by reflexivity.
    rewrite split_blank, split_12_9 by reflexivity. reflexivity.
  Qed.

  Lemma newline_q l : no_newline (join_q l).
  Proof.
    induction l as [|x l IH]; [constructor|]. cbn [join_q]. destruct l as [|y l]; [apply newline_12_9|]. apply no_newline_app; [apply newline_12_9|]. apply no_newline_app; [repeat constructor; discriminate|exact IH].
  Qed.
  Lemma tail_q l : Forall tail_char (join_q l).
  Proof.
    induction l as [|x l IH]; [constructor|]. cbn [join_q]. destruct l as [|y l]; [apply tail_12_9|]. apply Forall_app. split; [apply tail_12_9|]. apply Forall_app. split; [apply tail_space|exact IH].
  Qed.

  Definition matdyn_tail (nq : Z) (q : list (list Q)) : text := line (fmt_d nq) ++ flat_map q_line q.
  Lemma matdyn_tail_ok nq q : tail_ok (matdyn_tail nq q).
  Proof. apply tail_of. apply Forall_app. split; [apply tail_line, tail_d|]. apply tail_flat. intros x _. apply tail_line, tail_q. Qed.

  Lemma write_matdyn_eq s nq q : write_matdyn repr_f s (Some nq) (Some q) = Ok (file1 repr_f "INPUT" (pput s matdyn_keys) (matdyn_tail nq q)).
  Proof. unfold write_matdyn. cbn [need bind]. rewrite file1_eq, body_put. reflexivity. Qed.

  Lemma lines_matdyn s nq q : good_params repr_f s matdyn_keys ->
    lines (file1 repr_f "INPUT" (pput s matdyn_keys) (matdyn_tail nq q)) =
    line (§"&INPUT") :: map render (pput s matdyn_keys) ++ line (§"/") :: line (fmt_d nq) :: map q_line q.
  Proof.
    intros G. unfold file1, file. cbn [flat_map]. rewrite app_nil_r. rewrite lines_section by (reflexivity || (apply pput_good; [reflexivity|exact G])).
    unfold matdyn_tail. rewrite lines_line by apply no_newline_d. rewrite <- (app_nil_r (flat_map q_line q)), lines_flat.
    - change (lines []) with (@nil text). rewrite app_nil_r. reflexivity.
    - intros x _. exists (join_q x). split; [apply newline_q|reflexivity].
  Qed.

  Lemma render_no_slash s : good_params repr_f s matdyn_keys -> (forall k v, In k matdyn_keys -> dget s (str k) = Some v -> slashed v = false) ->
    Forall (fun l => contains (§"/") l = false) (map render (pput s matdyn_keys)).
  Proof.
    intros G N. apply Forall_forall. intros l Hl. apply in_map_iff in Hl as (p & <- & Hp). unfold pput in Hp. apply in_flat_map in Hp as (k & Hk & Hp).
    destruct (dget s (str k)) as [v|] eqn:E; [|destruct Hp]. destruct Hp as [<-|[]]. rewrite slash_entry.
    - exact (N k v Hk E).
    - apply simple_good. assert (F : forallb simple_key matdyn_keys = true) by reflexivity. rewrite forallb_forall in F. apply F, Hk.
    - exact (G k v Hk E).
  Qed.

  Theorem read_write_matdyn s q : good_params repr_f s matdyn_keys -> (forall k v, In k matdyn_keys -> dget s (str k) = Some v -> slashed v = false) ->
    Forall (fun x => length x = 4) q ->
    exists t d, write_matdyn repr_f s (Some (Z.of_nat (length q))) (Some q) = Ok t /\
      read_matdyn t = Ok (d, Some (Z.of_nat (length q), map (map rd) q)) /\
      forall k, dget d k = if is_key k matdyn_keys then dget s k else None.
  Proof.
    intros G N F. set (nq := Z.of_nat (length q)).
    destruct (read_file1 repr_f "INPUT" (pput s matdyn_keys) (matdyn_tail nq q)) as (d & R & H); [reflexivity|apply pput_good; [reflexivity|exact G]|apply matdyn_tail_ok|].
    exists (file1 repr_f "INPUT" (pput s matdyn_keys) (matdyn_tail nq q)), d. split; [apply write_matdyn_eq|]. split.
    - unfold read_matdyn. rewrite R. cbn [bind]. rewrite lines_matdyn by exact G. cbn [length matdyn_points].
      change (contains (§"/") (line (§"&INPUT"))) with false. cbv iota.
      rewrite app_length, map_length. rewrite <- (map_length render (pput s matdyn_keys)).
      rewrite skip_lines by (apply render_no_slash; assumption). cbn [length matdyn_points]. change (contains (§"/") (line (§"/"))) with true. cbv iota. cbn [first_words].
      assert (S1 : str_split (line (fmt_d nq)) = [fmt_d nq]) by (apply (split_word [] (fmt_d nq) [newline]); [constructor|apply word_fmt_d|reflexivity]).
      rewrite S1. cbn [at_index nth_error bind]. rewrite to_int_word. cbn [bind]. unfold dimension. destruct (Z.ltb_spec nq 0); [unfold nq in *; lia|]. cbn [bind].
      rewrite <- (app_nil_r (map q_line q)). rewrite (read_rows_map read_q q_line (map rd)).
      + cbn [bind]. destruct (Z.to_nat nq); destruct (S (length (map q_line q))); reflexivity.
      + unfold nq. rewrite Nat2Z.id. reflexivity.
      + intros x Hx. rewrite Forall_forall in F. specialize (F x Hx). destruct x as [|a [|b [|c [|e [|]]]]]; try discriminate. rewrite split_q. unfold read_q. cbn [at_index nth_error bind]. rewrite !float_9. reflexivity.
    - intros k. rewrite H. apply lookup1_put; [reflexivity|unfold matdyn_keys; repeat constructor; cbn [In]; intuition discriminate|reflexivity].
  Qed.

  (** Any slash in a string makes reading fail. *)
  Lemma first_slash l : (forall p, In p l -> good_part repr_f p /\ exists k v, p = Entry (str k) v /\ In k matdyn_keys) ->
    (exists k v, In (Entry k v) l /\ slashed v = true) ->
    exists l1 k v l2, l = l1 ++ Entry k v :: l2 /\ slashed v = true /\ Forall (fun p => contains (§"/") (render p) = false) l1.
  Proof.
    induction l as [|p l IH]; intros H (k & v & HI & S1); [destruct HI|]. destruct (H p (or_introl eq_refl)) as (Gp & k' & v' & -> & Hk').
    destruct (slashed v') eqn:E.
    - exists [], (str k'), v', l. repeat split; [exact E|constructor].
    - destruct IH as (l1 & k1 & v1 & l2 & -> & S2 & F); [intros p Hp; apply H; right; exact Hp| |].
      + exists k, v. split; [|exact S1]. destruct HI as [HI|HI]; [|exact HI]. injection HI as <- <-. congruence.
      + exists (Entry (str k') v' :: l1), k1, v1, l2. repeat split; [exact S2|]. constructor; [|exact F]. rewrite slash_entry; [exact E|apply Gp|apply Gp].
  Qed.

  Theorem matdyn_slash s nq q : good_params repr_f s matdyn_keys -> (exists k v, In k matdyn_keys /\ dget s (str k) = Some v /\ slashed v = true) ->
    exists t, write_matdyn repr_f s (Some nq) (Some q) = Ok t /\ read_matdyn t = Raise ValueError.
  Proof.
    intros G (k0 & v0 & Hk0 & D0 & S0).
    destruct (read_file1 repr_f "INPUT" (pput s matdyn_keys) (matdyn_tail nq q)) as (d & R & _); [reflexivity|apply pput_good; [reflexivity|exact G]|apply matdyn_tail_ok|].
    exists (file1 repr_f "INPUT" (pput s matdyn_keys) (matdyn_tail nq q)). split; [apply write_matdyn_eq|]. unfold read_matdyn. rewrite R. cbn [bind]. rewrite lines_matdyn by exact G.
    assert (FS : forallb simple_key matdyn_keys = true) by reflexivity. rewrite forallb_forall in FS.
    destruct (first_slash (pput s matdyn_keys)) as (l1 & k & v & l2 & E & S1 & F).
    - intros p Hp. split; [pose proof (pput_good repr_f s matdyn_keys eq_refl G) as P; rewrite Forall_forall in P; apply P, Hp|]. unfold pput in Hp. apply in_flat_map in Hp as (k & Hk & Hp).
      destruct (dget s (str k)) as [v|]; [|destruct Hp]. destruct Hp as [<-|[]]. exists k, v. auto.
    - exists (str k0), v0. split; [|exact S0]. unfold pput. apply in_flat_map. exists k0. split; [exact Hk0|]. rewrite D0. left. reflexivity.
    - assert (GP : forall p, In p (pput s matdyn_keys) -> good_part repr_f p /\ exists k v, p = Entry (str k) v /\ In k matdyn_keys).
      { intros p Hp. split; [pose proof (pput_good repr_f s matdyn_keys eq_refl G) as P; rewrite Forall_forall in P; apply P, Hp|]. unfold pput in Hp. apply in_flat_map in Hp as (k' & Hk' & Hp).
        destruct (dget s (str k')) as [v'|]; [|destruct Hp]. destruct Hp as [<-|[]]. exists k', v'. auto. }
      rewrite E in *. cbn [length matdyn_points]. change (contains (§"/") (line (§"&INPUT"))) with false. cbv iota.
      rewrite map_app, <- app_assoc, app_length. cbn [map].
      assert (F' : Forall (fun l => contains (§"/") l = false) (map render l1)) by (apply Forall_forall; intros l Hl; apply in_map_iff in Hl as (p & <- & Hp); rewrite Forall_forall in F; apply F, Hp).
      rewrite skip_lines by exact F'. cbn [app length matdyn_points].
      assert (Gkv : good_part repr_f (Entry k v)) by (apply GP, in_or_app; right; left; reflexivity).
      rewrite slash_entry by apply Gkv. rewrite S1.
      assert (W : forall rest, exists w ws r, first_words None (map render l2 ++ line (§"/") :: rest) = (Some (w :: ws), r) /\ to_int w = Raise ValueError).
      { intros rest. destruct l2 as [|p l2]; cbn [map app first_words].
        - exists (§"/"), [], rest. split; reflexivity.
        - destruct (GP p) as (Gp & k' & v' & -> & Hk'); [apply in_or_app; right; right; left; reflexivity|].
          assert (SP : exists ws, str_split (render (Entry (str k') v')) = str k' :: ws).
          { cbn [NmlProofs.render]. unfold entry. eexists. apply (split_word [] (str k')); [constructor|apply word_token, Gp|reflexivity]. }
          destruct SP as [ws SP]. rewrite SP. exists (str k'), ws, (map render l2 ++ line (§"/") :: rest). split; [reflexivity|].
          assert (FI : forallb (fun k => match to_int (str k) with Raise ValueError => true | _ => false end) matdyn_keys = true) by reflexivity.
          rewrite forallb_forall in FI. specialize (FI k' Hk'). destruct (to_int (str k')) as [|[]]; congruence || reflexivity. }
      destruct (W (line (fmt_d nq) :: map q_line q)) as (w & ws & r & W1 & W2). rewrite W1. cbn [at_index nth_error bind]. rewrite W2. reflexivity.
  Qed.
End Cards.
