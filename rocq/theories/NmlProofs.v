(** Proofs about NmlModel.v. *)
From Coq Require Import Lia Ascii String.
From Verif Require Import Common CommonProofs Text TextProofs NmlModel QeModel QeSpec.
Import ListNotations.
Local Open Scope nat_scope.

(** ** Texts *)
Lemma teqb_eq s t : teqb s t = true <-> s = t.
Proof. unfold teqb. destruct (list_eq_dec ascii_dec s t); split; congruence. Qed.
Lemma teqb_refl s : teqb s s = true.
Proof. apply teqb_eq. reflexivity. Qed.
Lemma teqb_neq s t : teqb s t = false <-> s <> t.
Proof. rewrite <- teqb_eq. destruct (teqb s t); split; congruence. Qed.

(** ** Dictionaries *)
Lemma dget_dset {A} (d : dict A) k v k' : dget (dset d k v) k' = if teqb k k' then Some v else dget d k'.
Proof.
  unfold dget. induction d as [|x d IH]; cbn [dset find fst snd].
  - destruct (teqb k k'); reflexivity.
  - destruct (teqb (fst x) k) eqn:E; cbn [find fst snd].
    + apply teqb_eq in E. rewrite E. destruct (teqb k k'); reflexivity.
    + destruct (teqb (fst x) k') eqn:E'; [|exact IH]. apply teqb_eq in E'. apply teqb_neq in E.
      replace (teqb k k') with false; [reflexivity|]. symmetry. apply teqb_neq. congruence.
Qed.

Lemma dset_dset {A} (d : dict A) k v w : dset (dset d k v) k w = dset d k w.
Proof.
  induction d as [|x d IH]; cbn [dset fst]; [rewrite teqb_refl; reflexivity|].
  destruct (teqb (fst x) k) eqn:E; cbn [dset fst]; [rewrite teqb_refl; reflexivity|]. rewrite E, IH. reflexivity.
Qed.

Definition keys {A} (d : dict A) : list text := map fst d.

Lemma keys_dset {A} (d : dict A) k v : NoDup (keys d) -> NoDup (keys (dset d k v)).
Proof.
  unfold keys. induction d as [|x d IH]; intros H; cbn [dset map fst].
  - constructor; [intros []|constructor].
  - cbn [map] in H. inversion H as [|? ? H1 H2]; subst. destruct (teqb (fst x) k) eqn:E; cbn [map fst].
    + apply teqb_eq in E. rewrite <- E. constructor; assumption.
    + constructor; [|apply IH; exact H2]. intros HI. apply H1. apply teqb_neq in E. clear - HI E.
      induction d as [|y d IH]; cbn [dset map fst] in HI |- *; [destruct HI as [HI|[]]; congruence|].
      destruct (teqb (fst y) k) eqn:E'; cbn [map fst] in HI.
      * apply teqb_eq in E'. destruct HI as [HI|HI]; [congruence|right; exact HI].
      * destruct HI as [HI|HI]; [left; exact HI|right; apply IH; exact HI].
Qed.

Lemma dget_in {A} (d : dict A) k : dget d k = None <-> ~ In k (keys d).
Proof.
  unfold dget, keys. induction d as [|x d IH]; cbn [find map In]; [split; auto|].
  destruct (teqb (fst x) k) eqn:E.
  - apply teqb_eq in E. split; [discriminate|]. intros H. exfalso. apply H. left. exact E.
  - rewrite IH. apply teqb_neq in E. split; [intros H [H'|H']; auto|auto].
Qed.

Lemma update_dget e : forall d k, NoDup (keys e) -> dget (update d e) k = match dget e k with Some v => Some v | None => dget d k end.
Proof.
  unfold update. induction e as [|x e IH]; intros d k H; cbn [fold_left]; [reflexivity|].
  unfold keys in H. cbn [map] in H. inversion H as [|? ? H1 H2]; subst. rewrite IH by exact H2. rewrite dget_dset.
  unfold dget at 3. cbn [find]. destruct (teqb (fst x) k) eqn:E.
  - apply teqb_eq in E. subst k. replace (dget e (fst x)) with (@None value); [reflexivity|]. symmetry. apply dget_in. exact H1.
  - reflexivity.
Qed.

Lemma dget_map {A B} (f : A -> B) (d : dict A) k : dget (map (fun x => (fst x, f (snd x))) d) k = match dget d k with Some v => Some (f v) | None => None end.
Proof.
  unfold dget. induction d as [|x d IH]; cbn [map find fst snd]; [reflexivity|]. destruct (teqb (fst x) k); [reflexivity|exact IH].
Qed.

Lemma keys_map {A B} (f : A -> B) (d : dict A) : keys (map (fun x => (fst x, f (snd x))) d) = keys d.
Proof. unfold keys. rewrite map_map. reflexivity. Qed.

(** ** Comments *)
Lemma uncomment_id t : Forall (fun c => c <> "!"%char) t -> uncomment false t = t.
Proof.
  induction 1 as [|c t Hc _ IH]; cbn [uncomment]; [reflexivity|]. cbn [orb]. rewrite (proj2 (Ascii.eqb_neq c "!") Hc), IH. destruct (Ascii.eqb c newline); reflexivity.
Qed.

(** ** Strings *)
Definition unquoted (t : text) : Prop := Forall (fun c => is_quote c = false) t.

Lemma subn_unquoted u : unquoted u -> forall t g c, subn 0 (u ++ t) g c = let '(x, g', n) := subn 0 t g c in (u ++ x, g', n).
Proof.
  induction 1 as [|a u Ha _ IH]; intros t g c; cbn [app].
  - destruct (subn 0 t g c) as [[x g'] n]. reflexivity.
  - cbn [subn]. rewrite Ha, IH. destruct (subn 0 t g c) as [[x g'] n]. reflexivity.
Qed.

Lemma subn_none t g c : unquoted t -> subn 0 t g c = (t, g, c).
Proof. intros H. rewrite <- (app_nil_r t) at 1. rewrite subn_unquoted by exact H. cbn [subn]. rewrite app_nil_r. reflexivity. Qed.

Lemma closing_string q s t : unquoted s -> is_quote q = true -> closing q (s ++ q :: t) = Some s.
Proof.
  intros Hs Hq. induction Hs as [|a s Ha _ IH]; cbn [app closing]; [rewrite Hq, Ascii.eqb_refl; reflexivity|]. rewrite Ha, IH. reflexivity.
Qed.

Lemma subn_skip u : forall t g c, subn (length u) (u ++ t) g c = subn 0 t g c.
Proof. induction u as [|a u IH]; intros t g c; cbn [length app]; [reflexivity|]. cbn [subn]. apply IH. Qed.

Lemma subn_string q s t g c : unquoted s -> is_quote q = true ->
  subn 0 (q :: s ++ q :: t) g c = let '(x, g', n) := subn 0 t (g ++ [q :: s ++ [q]]) (S c) in (mark (length g + 1) ++ x, g', n).
Proof.
  intros Hs Hq. cbn [subn]. rewrite Hq, (closing_string q s t Hs Hq).
  replace (s ++ q :: t) with ((s ++ [q]) ++ t) by (rewrite <- app_assoc; reflexivity).
  replace (length s + 1) with (length (s ++ [q])) by (rewrite app_length; reflexivity).
  rewrite subn_skip, app_length. reflexivity.
Qed.

(** ** Contents of namelists *)
Inductive part := Blank | Entry (key : text) (v : value).

Section Parts.
  Variable repr_f : Q -> text.

  Definition render (p : part) : text := match p with Blank => [newline] | Entry k v => entry repr_f k v end.
  Definition body (ps : list part) : text := flat_map render ps.
  Definition section (x : text * list part) : text := §"&" ++ fst x ++ [newline] ++ body (snd x) ++ §"/" ++ [newline].
  Definition file (secs : list (text * list part)) (tail : text) : text := flat_map section secs ++ tail.

  (** With strings replaced, beginning with the number n + 1 *)
  Definition string_of (v : value) : option text := match v with VStr s => Some (squote :: s ++ [squote]) | _ => None end.
  Definition token (n : nat) (v : value) : text := match v with VStr _ => mark (n + 1) | _ => repr repr_f v end.
  Definition strings (ps : list part) : list text :=
    flat_map (fun p => match p with Entry _ (VStr s) => [squote :: s ++ [squote]] | _ => [] end) ps.
  Definition after (n : nat) (v : value) : nat := match v with VStr _ => n + 1 | _ => n end.
  Fixpoint pbody (n : nat) (ps : list part) : text :=
    match ps with
    | [] => []
    | Blank :: ps => newline :: pbody n ps
    | Entry k v :: ps => k ++ §" = " ++ token n v ++ newline :: pbody (after n v) ps
    end.
  Definition psection (n : nat) (x : text * list part) : text := §"&" ++ fst x ++ [newline] ++ pbody n (snd x) ++ §"/" ++ [newline].
  Fixpoint psections (n : nat) (secs : list (text * list part)) : text :=
    match secs with [] => [] | x :: secs => psection n x ++ psections (n + length (strings (snd x))) secs end.
  Definition all_strings (secs : list (text * list part)) : list text := flat_map (fun x => strings (snd x)) secs.

  Definition starts_open (t : text) : bool := match t with c :: _ => Ascii.eqb c "(" | [] => false end.
  Definition good_key (k : text) : Prop := token_ok k /\ starts_open k = false.
  Definition good_part (p : part) : Prop := match p with Blank => True | Entry k v => good_key k /\ good repr_f v end.
  Definition good_name (t : text) : Prop := t <> [] /\ Forall (fun c => is_word c = true) t.

  Lemma newline_space : is_space newline = true.
  Proof. reflexivity. Qed.

  Lemma existsb_eqb c l : existsb (Ascii.eqb c) l = true <-> In c l.
  Proof.
    rewrite existsb_exists. split; [intros (x & H & E); apply Ascii.eqb_eq in E; subst; exact H|]. intros H. exists c. rewrite Ascii.eqb_refl. auto.
  Qed.

  Lemma plain_not c d : plain_char c = true -> special d = true -> c <> d.
  Proof. intros H1 H2 ->. unfold plain_char in H1. rewrite H2, Bool.andb_false_r in H1. discriminate. Qed.

  Lemma plain_space c : plain_char c = true -> is_space c = false.
  Proof. unfold plain_char. destruct (is_space c); cbn; congruence. Qed.

  Lemma plain_unquoted c : plain_char c = true -> is_quote c = false.
  Proof.
    intros H. unfold is_quote. destruct (Ascii.eqb_spec c squote) as [->|]; [discriminate|]. destruct (Ascii.eqb_spec c dquote) as [->|]; [discriminate|reflexivity].
  Qed.

  Lemma plain_sep c : plain_char c = true -> is_sep c = false.
  Proof.
    intros H. unfold is_sep. rewrite (plain_space c H). rewrite !(proj2 (Ascii.eqb_neq _ _)); [reflexivity|apply (plain_not c ","); auto|apply (plain_not c ";"); auto].
  Qed.

  Lemma plain_chr d : (0 <= d < 10)%Z -> plain_char (chr d) = true.
  Proof. intros H. destruct (digit_cases d H) as [->|[->|[->|[->|[->|[->|[->|[->|[->| ->]]]]]]]]]; reflexivity. Qed.

  Lemma token_d z : token_ok (fmt_d z).
  Proof. split; [apply word_fmt_d|]. apply fmt_d_all; [apply plain_chr|reflexivity]. Qed.

  Lemma Forall_str (P : ascii -> Prop) s : Forall P (str s) <-> Forall P (list_ascii_of_string s).
  Proof. reflexivity. Qed.

  Lemma token_mark n : token_ok (mark n).
  Proof.
    split; [discriminate|]. unfold mark. apply Forall_app. split; [repeat constructor|]. apply Forall_app. split; [apply token_d|repeat constructor].
  Qed.

  Lemma escape_harmless c : harmless c = true -> escape squote c = [c].
  Proof.
    unfold harmless, escape, is_quote. intros H. repeat rewrite Bool.andb_true_iff in H. destruct H as ((((H1 & H2) & H3) & H4) & H5).
    apply Bool.negb_true_iff in H1, H2. apply Bool.orb_false_iff in H1 as [H1 H1']. rewrite H1, H2. cbn [orb].
    apply Nat.leb_le in H4.
    assert (G : forall n, n < 32 -> Ascii.eqb c (ascii_of_nat n) = false).
    { intros n Hn. apply Ascii.eqb_neq. intros ->. rewrite nat_ascii_embedding in H4 by lia. lia. }
    unfold newline. rewrite !G by lia. reflexivity.
  Qed.

  Lemma repr_plain s : plain_string s -> repr_str s = squote :: s ++ [squote].
  Proof.
    intros [H _]. unfold repr_str.
    assert (E : has [squote] s = false).
    { unfold has. apply Bool.not_true_iff_false. intros E. apply existsb_exists in E as (c & Hc & E). cbn in E. rewrite Bool.orb_false_r in E. apply Ascii.eqb_eq in E. subst c.
      rewrite Forall_forall in H. specialize (H _ Hc). discriminate. }
    rewrite E. cbn [andb]. f_equal. f_equal. induction H as [|c s Hc _ IH]; cbn [flat_map]; [reflexivity|]. rewrite escape_harmless by exact Hc. cbn [app].
    f_equal. apply IH. unfold has in *. cbn [existsb] in E. apply Bool.orb_false_iff in E. apply E.
  Qed.

  Lemma harmless_unquoted s : Forall (fun c => harmless c = true) s -> unquoted s.
  Proof. apply Forall_impl. intros c H. unfold harmless in H. destruct (is_quote c); [discriminate|reflexivity]. Qed.

  Lemma token_repr v : good repr_f v -> string_of v = None -> token_ok (repr repr_f v).
  Proof.
    destruct v as [s|[|]|z|x| |l]; cbn [good string_of repr]; intros G E; try discriminate; try contradiction.
    - split; [discriminate|repeat constructor].
    - split; [discriminate|repeat constructor].
    - apply token_d.
    - apply G.
  Qed.

  Lemma token_ok_token n v : good repr_f v -> token_ok (token n v).
  Proof. intros G. destruct v; cbn [token]; try (apply token_repr; [exact G|reflexivity]). apply token_mark. Qed.

  Lemma token_unquoted t : token_ok t -> unquoted t.
  Proof. intros [_ H]. revert H. apply Forall_impl. apply plain_unquoted. Qed.

  Lemma subn_unquoted_eq u t t' g g' c c' : unquoted u ->
    subn 0 t g c = (t', g', c') -> subn 0 (u ++ t) g c = (u ++ t', g', c').
  Proof. intros H E. rewrite subn_unquoted by exact H. rewrite E. reflexivity. Qed.

  Lemma unquoted_str s : forallb (fun c => negb (is_quote c)) (str s) = true -> unquoted (str s).
  Proof. intros H. rewrite forallb_forall in H. apply Forall_forall. intros c Hc. specialize (H c Hc). destruct (is_quote c); [discriminate|reflexivity]. Qed.

  Lemma subn_body ps : Forall good_part ps -> forall t t' g g' c c',
    subn 0 t (g ++ strings ps) (c + length (strings ps)) = (t', g', c') ->
    subn 0 (body ps ++ t) g c = (pbody (length g) ps ++ t', g', c').
  Proof.
    induction 1 as [|p ps Hp _ IH]; intros t t' g g' c c' E.
    - cbn [body strings flat_map] in *. rewrite app_nil_r, Nat.add_0_r in E. exact E.
    - destruct p as [|k v].
      + cbn [body flat_map render]. rewrite <- app_assoc. cbn [pbody app].
        change (newline :: flat_map render ps ++ t) with ([newline] ++ (body ps ++ t)).
        change (newline :: pbody (length g) ps ++ t') with ([newline] ++ (pbody (length g) ps ++ t')).
        apply subn_unquoted_eq; [repeat constructor|]. apply IH. exact E.
      + destruct Hp as [Hk Hv]. cbn [body flat_map render]. unfold entry. rewrite <- !app_assoc. cbn [pbody]. rewrite <- !app_assoc.
        apply subn_unquoted_eq; [apply token_unquoted, Hk|]. apply subn_unquoted_eq; [apply unquoted_str; reflexivity|].
        destruct v as [s|b|z|x| |l]; try contradiction.
        * cbn [repr token after]. rewrite repr_plain by exact Hv. 
          change ((squote :: s ++ [squote]) ++ [newline] ++ flat_map render ps ++ t) with (squote :: (s ++ [squote]) ++ [newline] ++ (body ps ++ t)).
          rewrite <- app_assoc. cbn [app]. rewrite subn_string by (try reflexivity; apply harmless_unquoted, Hv).
          cbn [strings flat_map] in E. 
          change (newline :: body ps ++ t) with ([newline] ++ (body ps ++ t)).
          erewrite (subn_unquoted_eq [newline]); [|repeat constructor|].
          2: { apply (IH t t' (g ++ [squote :: s ++ [squote]]) g' (S c) c'). rewrite <- app_assoc. cbn [app length] in E |- *. rewrite <- E. f_equal. fold (strings ps). lia. }
          rewrite app_length. reflexivity.
        * change (token (length g) (VBool b)) with (repr repr_f (VBool b)). apply subn_unquoted_eq; [apply token_unquoted, token_repr; [exact Hv|reflexivity]|].
          cbn [after]. apply (subn_unquoted_eq [newline]); [repeat constructor|]. apply IH. exact E.
        * change (token (length g) (VInt z)) with (repr repr_f (VInt z)). apply subn_unquoted_eq; [apply token_unquoted, token_repr; [exact Hv|reflexivity]|].
          cbn [after]. apply (subn_unquoted_eq [newline]); [repeat constructor|]. apply IH. exact E.
        * change (token (length g) (VFloat x)) with (repr repr_f (VFloat x)). apply subn_unquoted_eq; [apply token_unquoted, token_repr; [exact Hv|reflexivity]|].
          cbn [after]. apply (subn_unquoted_eq [newline]); [repeat constructor|]. apply IH. exact E.
  Qed.

  Definition good_section (x : text * list part) : Prop := good_name (fst x) /\ Forall good_part (snd x).

  Lemma word_unquoted c : is_word c = true -> is_quote c = false.
  Proof.
    intros H. unfold is_quote. destruct (Ascii.eqb_spec c squote) as [->|]; [discriminate|]. destruct (Ascii.eqb_spec c dquote) as [->|]; [discriminate|reflexivity].
  Qed.

  Lemma subn_sections secs : Forall good_section secs -> forall t t' g g' c c',
    subn 0 t (g ++ all_strings secs) (c + length (all_strings secs)) = (t', g', c') ->
    subn 0 (flat_map section secs ++ t) g c = (psections (length g) secs ++ t', g', c').
  Proof.
    induction 1 as [|[nm ps] secs [Hn Hp] _ IH]; intros t t' g g' c c' E.
    - cbn [flat_map all_strings psections] in *. rewrite app_nil_r, Nat.add_0_r in E. exact E.
    - cbn [flat_map psections fst snd] in *. unfold section, psection. cbn [fst snd]. rewrite <- !app_assoc.
      apply subn_unquoted_eq; [repeat constructor|]. apply subn_unquoted_eq; [destruct Hn as [_ Hn]; revert Hn; apply Forall_impl, word_unquoted|].
      apply subn_unquoted_eq; [repeat constructor|]. apply subn_body; [exact Hp|].
      apply subn_unquoted_eq; [repeat constructor|]. apply subn_unquoted_eq; [repeat constructor|].
      rewrite <- app_length. apply IH. cbn [all_strings flat_map snd] in E. rewrite app_length in E. rewrite <- app_assoc, <- Nat.add_assoc. exact E.
  Qed.

  Lemma pbody_unquoted ps : Forall good_part ps -> forall n, unquoted (pbody n ps).
  Proof.
    induction 1 as [|p ps Hp _ IH]; intros n; cbn [pbody]; [constructor|]. destruct p as [|k v].
    - constructor; [reflexivity|apply IH].
    - destruct Hp as [Hk Hv]. apply Forall_app. split; [apply token_unquoted, Hk|]. apply Forall_app. split; [apply unquoted_str; reflexivity|].
      apply Forall_app. split; [apply token_unquoted, token_ok_token, Hv|]. constructor; [reflexivity|apply IH].
  Qed.

  Lemma psections_unquoted secs : Forall good_section secs -> forall n, unquoted (psections n secs).
  Proof.
    induction 1 as [|[nm ps] secs [Hn Hp] _ IH]; intros n; cbn [psections]; [constructor|]. apply Forall_app. split; [|apply IH].
    unfold psection. cbn [fst snd]. repeat (apply Forall_app; split); try (repeat constructor).
    - destruct Hn as [_ Hn]. revert Hn. apply Forall_impl, word_unquoted.
    - apply pbody_unquoted, Hp.
  Qed.

  Lemma protect_file secs tail : Forall good_section secs -> unquoted tail ->
    protect (length (file secs tail)) (file secs tail) [] = (psections 0 secs ++ tail, all_strings secs).
  Proof.
    intros Hs Ht. unfold file.
    assert (E : subn 0 (flat_map section secs ++ tail) [] 0 = (psections 0 secs ++ tail, all_strings secs, length (all_strings secs))).
    { apply (subn_sections secs Hs tail tail [] (all_strings secs) 0). apply subn_none. exact Ht. }
    destruct (flat_map section secs ++ tail) as [|a u] eqn:F.
    - cbn [length protect]. rewrite E. destruct (length (all_strings secs)); reflexivity.
    - cbn [length protect]. rewrite E. destruct (length (all_strings secs)) eqn:L; [reflexivity|].
      assert (E2 : subn 0 (psections 0 secs ++ tail) (all_strings secs) 0 = (psections 0 secs ++ tail, all_strings secs, 0)).
      { apply subn_none. apply Forall_app. split; [apply psections_unquoted, Hs|exact Ht]. }
      destruct (length u); cbn [protect]; rewrite E2; reflexivity.
  Qed.

  (** ** Comments *)
  Lemma harmless_not_comment s : Forall (fun c => harmless c = true) s -> Forall (fun c => c <> "!"%char) s.
  Proof. apply Forall_impl. intros c H ->. discriminate. Qed.
  Lemma token_not_comment t : token_ok t -> Forall (fun c => c <> "!"%char) t.
  Proof. intros [_ H]. revert H. apply Forall_impl. intros c H ->. discriminate. Qed.
  Lemma word_not_comment t : Forall (fun c => is_word c = true) t -> Forall (fun c => c <> "!"%char) t.
  Proof. apply Forall_impl. intros c H ->. discriminate. Qed.

  Lemma repr_not_comment v : good repr_f v -> Forall (fun c => c <> "!"%char) (repr repr_f v).
  Proof.
    intros G. destruct v; try (apply token_not_comment, token_repr; [exact G|reflexivity]); try contradiction.
    cbn [repr]. rewrite repr_plain by exact G. constructor; [discriminate|]. apply Forall_app. split; [apply harmless_not_comment, G|repeat constructor; discriminate].
  Qed.

  Ltac chars := repeat constructor; discriminate.

  Lemma body_not_comment ps : Forall good_part ps -> Forall (fun c => c <> "!"%char) (body ps).
  Proof.
    induction 1 as [|p ps Hp _ IH]; cbn [body flat_map]; [constructor|]. apply Forall_app. split; [|exact IH]. destruct p as [|k v]; [chars|].
    destruct Hp as [Hk Hv]. cbn [render]. unfold entry. apply Forall_app. split; [apply token_not_comment, Hk|]. apply Forall_app. split; [chars|].
    apply Forall_app. split; [apply repr_not_comment, Hv|chars].
  Qed.

  Lemma file_not_comment secs tail : Forall good_section secs -> Forall (fun c => c <> "!"%char) tail -> Forall (fun c => c <> "!"%char) (file secs tail).
  Proof.
    intros Hs Ht. unfold file. apply Forall_app. split; [|exact Ht]. induction Hs as [|[nm ps] secs [Hn Hp] _ IH]; cbn [flat_map]; [constructor|].
    apply Forall_app. split; [|exact IH]. unfold section. cbn [fst snd]. apply Forall_app. split; [chars|]. apply Forall_app. split; [apply word_not_comment, Hn|].
    apply Forall_app. split; [chars|]. apply Forall_app. split; [apply body_not_comment, Hp|]. apply Forall_app. split; chars.
  Qed.

  (** ** Namelists *)
  Lemma span_app f u t : Forall (fun c => f c = true) u -> (match t with [] => True | c :: _ => f c = false end) -> span f (u ++ t) = (u, t).
  Proof.
    intros H Ht. induction H as [|c u Hc _ IH]; cbn [app].
    - destruct t as [|c t]; [reflexivity|]. cbn [span]. rewrite Ht. reflexivity.
    - cbn [span]. rewrite Hc, IH. reflexivity.
  Qed.

  Lemma token_slash t : token_ok t -> Forall (fun c => not_slash c = true) t.
  Proof. intros [_ H]. revert H. apply Forall_impl. intros c H. unfold not_slash. rewrite (proj2 (Ascii.eqb_neq c "/")); [reflexivity|]. intros ->. discriminate. Qed.

  Lemma pbody_slash ps : Forall good_part ps -> forall n, Forall (fun c => not_slash c = true) (pbody n ps).
  Proof.
    induction 1 as [|p ps Hp _ IH]; intros n; cbn [pbody]; [constructor|]. destruct p as [|k v].
    - constructor; [reflexivity|apply IH].
    - destruct Hp as [Hk Hv]. apply Forall_app. split; [apply token_slash, Hk|]. apply Forall_app. split; [repeat constructor|].
      apply Forall_app. split; [apply token_slash, token_ok_token, Hv|]. constructor; [reflexivity|apply IH].
  Qed.

  Lemma namelists_skip u : forall t, namelists (length u) (u ++ t) = namelists 0 t.
  Proof. induction u as [|a u IH]; intros t; cbn [length app]; [reflexivity|]. cbn [namelists]. apply IH. Qed.

  Lemma namelists_none t : Forall (fun c => c <> "&"%char) t -> namelists 0 t = [].
  Proof. induction 1 as [|c t Hc _ IH]; cbn [namelists]; [reflexivity|]. rewrite (proj2 (Ascii.eqb_neq c "&") Hc). exact IH. Qed.

  Fixpoint contents (n : nat) (secs : list (text * list part)) : list (text * text) :=
    match secs with [] => [] | x :: secs => (fst x, newline :: pbody n (snd x)) :: contents (n + length (strings (snd x))) secs end.

  Lemma namelists_sections secs tail : Forall good_section secs -> Forall (fun c => c <> "&"%char) tail ->
    forall n, namelists 0 (psections n secs ++ tail) = contents n secs.
  Proof.
    intros Hs Ht. induction Hs as [|[nm ps] secs [Hn Hp] _ IH]; intros n; cbn [psections contents fst snd]; [apply namelists_none, Ht|].
    cbn [fst snd] in Hn, Hp. unfold psection. cbn [fst snd]. rewrite <- !app_assoc. cbn [app str list_ascii_of_string].
    cbn [namelists]. rewrite Ascii.eqb_refl. unfold match_namelist. destruct Hn as [Hn0 Hn].
    set (rest := psections (n + length (strings ps)) secs ++ tail).
    rewrite (span_app is_word nm (newline :: _) Hn eq_refl).
    destruct nm as [|a nm]; [congruence|].
    rewrite (span_app not_slash (pbody n ps) ("/"%char :: newline :: rest) (pbody_slash ps Hp n) eq_refl).
    f_equal.
    replace (length (a :: nm) + length (newline :: pbody n ps) + 1) with (length ((a :: nm) ++ newline :: pbody n ps ++ ["/"%char])) by (rewrite !app_length; cbn [length]; rewrite app_length; cbn [length]; lia).
    replace ((a :: nm) ++ newline :: pbody n ps ++ "/"%char :: newline :: rest) with (((a :: nm) ++ newline :: pbody n ps ++ ["/"%char]) ++ newline :: rest).
    2: { rewrite <- app_assoc. cbn [app]. rewrite <- app_assoc. reflexivity. }
    rewrite namelists_skip. cbn [namelists]. change (Ascii.eqb newline "&") with false. cbv iota. apply IH.
  Qed.

  (** ** Items *)
  Lemma spread_app s t : spread (s ++ t) = spread s ++ spread t.
  Proof. apply flat_map_app. Qed.
  Lemma spread_token t : token_ok t -> spread t = t.
  Proof.
    intros [_ H]. unfold spread. induction H as [|c t Hc _ IH]; cbn [flat_map]; [reflexivity|].
    rewrite (proj2 (Ascii.eqb_neq c "=")); [|intros ->; discriminate]. cbn [app]. f_equal. exact IH.
  Qed.

  Lemma glue_word w t : Forall (fun c => is_space c = false) w -> glue (w ++ t) = w ++ glue t.
  Proof. induction 1 as [|c w Hc _ IH]; cbn [app]; [reflexivity|]. cbn [glue]. rewrite Hc. cbn [andb]. rewrite IH. reflexivity. Qed.
  Lemma glue_space c t : opens t = false -> glue (c :: t) = c :: glue t.
  Proof. intros H. cbn [glue]. rewrite H, Bool.andb_false_r. reflexivity. Qed.

  Lemma opens_space c t : is_space c = true -> opens (c :: t) = opens t.
  Proof. intros H. unfold opens. cbn [lstrip]. rewrite H. reflexivity. Qed.
  Lemma opens_word c t : is_space c = false -> opens (c :: t) = Ascii.eqb c "(".
  Proof. intros H. unfold opens. cbn [lstrip]. rewrite H. reflexivity. Qed.

  Lemma items_word w : Forall (fun c => is_sep c = false) w -> forall cur t, items_from cur (w ++ t) = items_from (cur ++ w) t.
  Proof.
    induction 1 as [|c w Hc _ IH]; intros cur t; cbn [app]; [rewrite app_nil_r; reflexivity|]. cbn [items_from]. rewrite Hc, IH, <- app_assoc. reflexivity.
  Qed.
  Lemma items_token w c t : token_ok w -> is_sep c = true -> items_from [] (w ++ c :: t) = w :: items_from [] t.
  Proof.
    intros [H0 H] Hc. rewrite items_word by (revert H; apply Forall_impl, plain_sep). cbn [app items_from]. rewrite Hc. destruct w; [congruence|reflexivity].
  Qed.
  Lemma items_sep c t : is_sep c = true -> items_from [] (c :: t) = items_from [] t.
  Proof. intros H. cbn [items_from]. rewrite H. reflexivity. Qed.

  Fixpoint tokens (n : nat) (ps : list part) : list text :=
    match ps with
    | [] => []
    | Blank :: ps => tokens n ps
    | Entry k v :: ps => k :: §"=" :: token n v :: tokens (after n v) ps
    end.

  Lemma open_repr v : good repr_f v -> starts_open (repr repr_f v) = false.
  Proof.
    intros G. destruct v as [s|[|]|z|x| |l]; try reflexivity; try contradiction.
    - cbn [repr]. rewrite repr_plain by exact G. reflexivity.
    - cbn [repr]. assert (A : Forall (fun c => Ascii.eqb c "(" = false) (fmt_d z)).
      { apply fmt_d_all; [|reflexivity]. intros d Hd. destruct (digit_cases d Hd) as [->|[->|[->|[->|[->|[->|[->|[->|[->| ->]]]]]]]]]; reflexivity. }
      destruct (fmt_d z); [reflexivity|]. inversion A; subst. assumption.
    - cbn [repr good] in *. destruct G as (_ & _ & G & _). unfold has in G. destruct (repr_f x) as [|c t]; [reflexivity|]. cbn [existsb] in G. apply Bool.orb_false_iff in G as [G _].
      cbn [starts_open]. repeat rewrite Bool.orb_false_iff in G. cbn in G. repeat rewrite Bool.orb_false_iff in G. tauto.
  Qed.
  Lemma open_token n v : good repr_f v -> starts_open (token n v) = false.
  Proof. intros G. destruct v; cbn [token]; try (apply (open_repr _ G)). reflexivity. Qed.

  Lemma token_nospace t : token_ok t -> Forall (fun c => is_space c = false) t.
  Proof. intros [_ H]. revert H. apply Forall_impl, plain_space. Qed.

  Lemma opens_token w t : token_ok w -> starts_open w = false -> opens (w ++ t) = false.
  Proof.
    intros [H0 H] H1. destruct w as [|c w]; [congruence|]. inversion H; subst. cbn [app]. rewrite opens_word by (apply plain_space; assumption). exact H1.
  Qed.

  Lemma spread_entry k v n t : token_ok k -> good repr_f v ->
    spread (k ++ §" = " ++ token n v ++ newline :: t) = k ++ (blank :: blank :: "="%char :: blank :: blank :: token n v ++ newline :: spread t).
  Proof.
    intros Hk Hv. rewrite spread_app, spread_token by exact Hk. f_equal. rewrite spread_app. cbn [spread flat_map str list_ascii_of_string app].
    change (spread (token n v ++ newline :: t)) with (spread (token n v ++ [newline] ++ t)). rewrite !spread_app, spread_token by (apply token_ok_token, Hv). reflexivity.
  Qed.

  Lemma opens_body ps : Forall good_part ps -> forall n, opens (spread (pbody n ps)) = false.
  Proof.
    induction 1 as [|p ps Hp _ IH]; intros n; cbn [pbody]; [reflexivity|]. destruct p as [|k v].
    - change (spread (newline :: pbody n ps)) with (newline :: spread (pbody n ps)). rewrite opens_space by reflexivity. apply IH.
    - destruct Hp as [Hk Hv]. rewrite spread_entry by (try apply Hk; exact Hv). apply opens_token; apply Hk.
  Qed.

  Lemma items_body ps : Forall good_part ps -> forall n, items_from [] (glue (spread (pbody n ps))) = tokens n ps.
  Proof.
    induction 1 as [|p ps Hp Hps IH]; intros n; cbn [pbody tokens]; [reflexivity|]. destruct p as [|k v].
    - change (spread (newline :: pbody n ps)) with (newline :: spread (pbody n ps)). rewrite glue_space by (apply opens_body, Hps). rewrite items_sep by reflexivity. apply IH.
    - destruct Hp as [[Hk Hk'] Hv]. rewrite spread_entry by (try apply Hk; exact Hv).
      pose proof (token_ok_token n v Hv) as Ht. pose proof (open_token n v Hv) as Ho.
      rewrite glue_word by (apply token_nospace, Hk).
      assert (O1 : forall t, opens (token n v ++ t) = false) by (intros t; apply opens_token; assumption).
      rewrite (glue_space blank) by (rewrite !opens_space by reflexivity; reflexivity).
      rewrite (glue_space blank) by reflexivity.
      change (glue ("="%char :: blank :: blank :: token n v ++ newline :: spread (pbody (after n v) ps))) with ("="%char :: glue (blank :: blank :: token n v ++ newline :: spread (pbody (after n v) ps))).
      rewrite (glue_space blank) by (rewrite opens_space by reflexivity; apply O1).
      rewrite (glue_space blank) by apply O1.
      rewrite glue_word by (apply token_nospace, Ht). rewrite glue_space by (apply opens_body, Hps).
      rewrite (items_token k) by (try reflexivity; exact Hk). f_equal. rewrite items_sep by reflexivity.
      change ("="%char :: blank :: ?t) with (["="%char] ++ blank :: t).
      rewrite (items_word ["="%char]) by (repeat constructor). cbn [app items_from]. change (is_sep blank) with true. cbn [emit app]. f_equal.
      rewrite (items_token (token n v)) by (try reflexivity; exact Ht). f_equal. apply IH.
  Qed.

  Lemma items_content ps n : Forall good_part ps -> items (newline :: pbody n ps) = tokens n ps.
  Proof.
    intros H. unfold items. change (spread (newline :: pbody n ps)) with (newline :: spread (pbody n ps)). rewrite glue_space by (apply opens_body, H).
    rewrite items_sep by reflexivity. apply items_body, H.
  Qed.

  (** ** Strings put back *)
  Lemma match_mark_none t : bars t = None -> match_mark t = None.
  Proof. intros H. unfold match_mark. rewrite H. reflexivity. Qed.

  Lemma has_bars_cons a t : has_bars (a :: t) = match bars (a :: t) with Some _ => true | None => has_bars t end.
  Proof.
    cbn [has_bars bars]. destruct t as [|b [|c t]]; try reflexivity. destruct (Ascii.eqb a "_" && Ascii.eqb b "_" && Ascii.eqb c "_"); reflexivity.
  Qed.

  Lemma place_none t g : has_bars t = false -> forall c, place 0 t g c = Ok (t, c).
  Proof.
    induction t as [|a t IH]; intros H c; [reflexivity|]. rewrite has_bars_cons in H. cbn [place].
    destruct (bars (a :: t)) eqn:E; [discriminate|]. rewrite match_mark_none by exact E. rewrite IH by exact H. reflexivity.
  Qed.

  Lemma place_all_none t g fuel : has_bars t = false -> place_all fuel t g = Ok t.
  Proof. intros H. destruct fuel; cbn [place_all]; rewrite place_none by exact H; reflexivity. Qed.

  Lemma place_skip u : forall t g c, place (length u) (u ++ t) g c = place 0 t g c.
  Proof. induction u as [|a u IH]; intros t g c; cbn [length app]; [reflexivity|]. cbn [place]. apply IH. Qed.

  Lemma digits_text n : fmt_d (Z.of_nat n) = nonneg_to_text (Z.of_nat n).
  Proof. unfold fmt_d. destruct (Z.ltb_spec (Z.of_nat n) 0); [lia|reflexivity]. Qed.

  Lemma scan_nat n rest : match rest with c :: _ => digit c = None | [] => True end ->
    scan 0 0 (fmt_d (Z.of_nat n) ++ rest) = (Z.of_nat n, length (fmt_d (Z.of_nat n)), rest).
  Proof.
    intros H. rewrite digits_text. unfold nonneg_to_text. pose proof (fuel_enough (Z.of_nat n) ltac:(lia)).
    rewrite scan_digits by lia. cbn [Nat.add Z.add Z.mul]. destruct rest as [|c rest]; cbn [scan]; [reflexivity|]. rewrite H. reflexivity.
  Qed.

  Lemma mark_length n : length (mark n) = length (fmt_d (Z.of_nat n)) + 6.
  Proof. unfold mark. rewrite !app_length. change (length (§"___")) with 3. lia. Qed.

  Lemma match_mark_mark n : match_mark (mark n) = Some (Z.of_nat n, length (mark n)).
  Proof.
    rewrite mark_length. unfold match_mark, mark. cbn [str list_ascii_of_string app bars]. rewrite Ascii.eqb_refl. cbn [andb].
    rewrite scan_nat by reflexivity. cbn [bars]. rewrite Ascii.eqb_refl. cbn [andb].
    destruct (token_d (Z.of_nat n)) as [H _]. destruct (fmt_d (Z.of_nat n)); [congruence|]. reflexivity.
  Qed.

  Lemma place_mark n g x : nth_error g n = Some x -> place 0 (mark (n + 1)) g 0 = Ok (x, 1).
  Proof.
    intros H. pose proof (match_mark_mark (n + 1)) as M. pose proof (mark_length (n + 1)) as L.
    destruct (mark (n + 1)) as [|a t] eqn:E; [discriminate|]. cbn [place]. rewrite M.
    unfold item_at. replace (Z.of_nat (n + 1) - 1)%Z with (Z.of_nat n) by lia.
    destruct (Z.ltb_spec (Z.of_nat n) 0); [lia|]. cbv zeta. destruct (Z.ltb_spec (Z.of_nat n) 0); [lia|]. rewrite Nat2Z.id, H. cbn [bind].
    replace (length (a :: t) - 1) with (length t) by (cbn [length]; lia). rewrite <- (app_nil_r t) at 2. rewrite place_skip. cbn [place bind]. rewrite app_nil_r. reflexivity.
  Qed.

  Lemma place_all_mark n g x : nth_error g n = Some x -> has_bars x = false -> place_all (length g) (mark (n + 1)) g = Ok x.
  Proof.
    intros H Hx. assert (L : n < length g) by (apply nth_error_Some; congruence). destruct (length g) as [|m]; [lia|].
    cbn [place_all]. rewrite (place_mark n g x H). cbn [bind]. apply place_all_none, Hx.
  Qed.

  Lemma bars_cons c t : Ascii.eqb c "_" = false -> bars (c :: t) = None.
  Proof. intros H. cbn [bars]. destruct t as [|b [|d t]]; try reflexivity. rewrite H. reflexivity. Qed.

  Lemma bars_append t x : Ascii.eqb x "_" = false -> bars t = None -> bars (t ++ [x]) = None.
  Proof.
    intros Hx H. destruct t as [|a [|b [|c t]]]; cbn [app bars] in *; try reflexivity.
    - rewrite Hx, !Bool.andb_false_r. reflexivity.
    - destruct (Ascii.eqb a "_" && Ascii.eqb b "_" && Ascii.eqb c "_"); [discriminate|reflexivity].
  Qed.

  Lemma bars_quoted s : has_bars s = false -> has_bars (squote :: s ++ [squote]) = false.
  Proof.
    intros H. rewrite has_bars_cons, bars_cons by reflexivity. induction s as [|c s IH]; cbn [app]; [reflexivity|].
    rewrite has_bars_cons in H |- *. destruct (bars (c :: s)) eqn:E; [discriminate|].
    change (c :: s ++ [squote]) with ((c :: s) ++ [squote]). rewrite bars_append by (try reflexivity; exact E). apply IH, H.
  Qed.

  (** ** Values *)
  Lemma has_none cs t : Forall (fun c => ~ In c cs) t -> has cs t = false.
  Proof.
    intros H. unfold has. apply Bool.not_true_iff_false. intros E. apply existsb_exists in E as (c & Hc & E). apply existsb_eqb in E. rewrite Forall_forall in H. exact (H c Hc E).
  Qed.

  Lemma has_incl cs cs' t : incl cs' cs -> has cs t = false -> has cs' t = false.
  Proof.
    intros I H. apply has_none. apply Forall_forall. intros c Hc HI. apply Bool.not_true_iff_false in H. apply H. apply existsb_exists. exists c. split; [exact Hc|]. apply existsb_eqb, I, HI.
  Qed.

  Lemma quoted_token t : token_ok t -> quoted t = false.
  Proof.
    intros [H0 H]. destruct t as [|c t]; [congruence|]. inversion H; subst. cbn [quoted]. rewrite (plain_unquoted c) by assumption. reflexivity.
  Qed.

  Lemma convert_string s : plain_string s -> convert (squote :: s ++ [squote]) = VStr s.
  Proof.
    intros [H _]. unfold convert. cbn [quoted]. rewrite rev_app_distr. cbn [rev app]. rewrite Ascii.eqb_refl.
    replace (forallb (fun c => negb (Ascii.eqb c newline)) (squote :: s ++ [squote])) with true.
    - cbn [tl]. rewrite removelast_last. reflexivity.
    - symmetry. cbn [forallb]. rewrite forallb_app. cbn [forallb]. change (negb (Ascii.eqb squote newline)) with true. cbn [andb]. rewrite !Bool.andb_true_r.
      rewrite forallb_forall. intros c Hc. rewrite Forall_forall in H. specialize (H c Hc). destruct (Ascii.eqb_spec c newline) as [->|]; [discriminate|reflexivity].
  Qed.

  Lemma digit_not_in cs z : Forall (fun c => digit c = None) cs -> ~ In "-"%char cs -> has cs (fmt_d z) = false.
  Proof.
    intros H Hm. apply has_none. apply fmt_d_all; [|exact Hm]. intros d Hd HI. rewrite Forall_forall in H. specialize (H _ HI). rewrite digit_chr in H by exact Hd. discriminate.
  Qed.

  Lemma convert_repr v : good repr_f v -> string_of v = None -> convert (repr repr_f v) = v.
  Proof.
    destruct v as [s|[|]|z|x| |l]; cbn [good string_of repr]; intros G E; try discriminate; try contradiction; try reflexivity.
    - unfold convert. rewrite quoted_token by apply token_d.
      rewrite !digit_not_in by (repeat constructor || (intros [H|[H|[]]]; discriminate)). rewrite to_int_word. reflexivity.
    - destruct G as (G1 & G2 & G3 & [e G4] & G5). unfold convert. rewrite quoted_token by exact G1.
      rewrite !(has_incl (§"tTfF(") _ _) by (try exact G3; intros c Hc; repeat (destruct Hc as [<-|Hc]; [cbn; tauto|]); destruct Hc).
      rewrite G4, G5. reflexivity.
  Qed.

  Lemma has_bars_no t : Forall (fun c => Ascii.eqb c "_" = false) t -> has_bars t = false.
  Proof. induction 1 as [|c t Hc _ IH]; [reflexivity|]. rewrite has_bars_cons, bars_cons by exact Hc. exact IH. Qed.

  Lemma repr_bars v : good repr_f v -> string_of v = None -> has_bars (repr repr_f v) = false.
  Proof.
    destruct v as [s|[|]|z|x| |l]; cbn [good string_of repr]; intros G E; try discriminate; try contradiction; try reflexivity; [|apply G].
    apply has_bars_no. apply fmt_d_all; [|reflexivity]. intros d Hd. destruct (digit_cases d Hd) as [->|[->|[->|[->|[->|[->|[->|[->|[->| ->]]]]]]]]]; reflexivity.
  Qed.

  (** ** Loop over items *)
  Definition ent := (text * value)%type.
  Definition entries (ps : list part) : list ent := flat_map (fun p => match p with Blank => [] | Entry k v => [(k, v)] end) ps.

  Definition add_to (l : list value) (e : ent) : list value := let n := snd (match_key (fst e)) in assign (fill l n) n (snd e).
  Definition old (d : dict (list value)) (k : text) : list value := match dget d k with Some l => l | None => [] end.
  Definition put_entry (d : dict (list value)) (e : ent) : dict (list value) :=
    let k := fst (match_key (fst e)) in dset d k (add_to (old d k) e).

  Lemma token_not_eq t : token_ok t -> teqb t (§"=") = false.
  Proof. intros [_ H]. apply teqb_neq. intros ->. inversion H; subst. discriminate. Qed.

  Lemma tokens_head ps n : Forall good_part ps -> match tokens n ps with e :: _ => teqb e (§"=") | [] => false end = false.
  Proof.
    induction 1 as [|p ps Hp _ IH]; [reflexivity|]. destruct p as [|k v]; cbn [tokens]; [exact IH|]. apply token_not_eq, Hp.
  Qed.

  Lemma parse_tokens ps : Forall good_part ps -> forall g g1 g2 key d, g = g1 ++ strings ps ++ g2 ->
    parse g (tokens (length g1) ps) key d = Ok (fold_left put_entry (entries ps) d).
  Proof.
    induction 1 as [|p ps Hp Hps IH]; intros g g1 g2 key d E; [reflexivity|]. destruct p as [|k v].
    - cbn [tokens entries flat_map app]. apply (IH g g1 g2). exact E.
    - destruct Hp as [Hk Hv]. cbn [tokens]. cbn [parse]. rewrite teqb_refl. cbv iota.
      destruct (match_key k) as [kk n] eqn:EK.
      rewrite (token_not_eq (token (length g1) v)) by (apply token_ok_token, Hv).
      pose proof (tokens_head ps (after (length g1) v) Hps) as HH.
      destruct (match tokens (after (length g1) v) ps with e :: _ => teqb e (§"=") | [] => false end); [discriminate|]. clear HH.
      assert (P : exists t, place_all (length g) (token (length g1) v) g = Ok t /\ convert t = v).
      { destruct (string_of v) as [q|] eqn:ES.
        - destruct v as [s|b|z|x| |l]; try discriminate. cbn [token]. exists (squote :: s ++ [squote]). split; [|apply convert_string, Hv].
          apply place_all_mark; [|apply bars_quoted, Hv]. rewrite E. rewrite nth_error_app2 by lia. rewrite Nat.sub_diag. reflexivity.
        - exists (repr repr_f v). split; [|apply convert_repr; assumption]. replace (token (length g1) v) with (repr repr_f v) by (destruct v; reflexivity || discriminate).
          apply place_all_none, repr_bars; assumption. }
      destruct P as (t & P1 & P2). rewrite P1. cbn [bind]. rewrite P2. rewrite dget_dset, teqb_refl, dset_dset.
      cbn [entries flat_map app fold_left].
      replace (put_entry d (k, v)) with (dset d kk (assign (fill match dget d kk with Some l => l | None => [] end n) n v)) by (unfold put_entry, add_to, old; cbn [fst snd]; rewrite EK; reflexivity).
      destruct (string_of v) as [q|] eqn:ES.
      + destruct v as [s|b|z|x| |l]; try discriminate. cbn [after]. replace (length g1 + 1) with (length (g1 ++ [squote :: s ++ [squote]])) by (rewrite app_length; reflexivity). apply (IH g (g1 ++ [squote :: s ++ [squote]]) g2). rewrite <- app_assoc. exact E.
      + replace (after (length g1) v) with (length g1) by (destruct v; reflexivity || discriminate). apply (IH g g1 g2). rewrite E. destruct v; reflexivity || discriminate.
  Qed.

  Definition content_dict (ps : list part) : dict value := map (fun x => (fst x, unwrap (snd x))) (fold_left put_entry (entries ps) []).

  Lemma read_contents secs : Forall good_section secs -> forall g g1 g2 data, g = g1 ++ all_strings secs ++ g2 ->
    read_all g (contents (length g1) secs) data = Ok (fold_left (fun data x => dset data (lower (fst x)) (content_dict (snd x))) secs data).
  Proof.
    induction 1 as [|[nm ps] secs [Hn Hp] _ IH]; intros g g1 g2 data E; [reflexivity|]. cbn [fst snd] in Hn, Hp.
    cbn [contents fst snd read_all]. unfold read_content. rewrite items_content by exact Hp.
    cbn [all_strings flat_map snd] in E. rewrite <- app_assoc in E.
    rewrite (parse_tokens ps Hp g g1 (all_strings secs ++ g2)) by exact E. cbn [bind]. cbn [fold_left fst snd].
    rewrite <- app_length. apply (IH g (g1 ++ strings ps) g2). rewrite <- app_assoc. exact E.
  Qed.

  Definition tail_ok (t : text) : Prop := unquoted t /\ Forall (fun c => c <> "!"%char) t /\ Forall (fun c => c <> "&"%char) t.

  Theorem read_namelists_file secs tail : Forall good_section secs -> tail_ok tail ->
    read_namelists (file secs tail) = Ok (fold_left (fun data x => dset data (lower (fst x)) (content_dict (snd x))) secs []).
  Proof.
    intros Hs (T1 & T2 & T3). unfold read_namelists. rewrite uncomment_id by (apply file_not_comment; assumption).
    rewrite protect_file by assumption. rewrite namelists_sections by assumption. apply (read_contents secs Hs (all_strings secs) [] []). rewrite app_nil_r. reflexivity.
  Qed.

  (** ** What the dictionary contains *)
  Definition about (k : text) (e : ent) : bool := teqb (fst (match_key (fst e))) k.
  Definition listed (es : list ent) (k : text) : option (list value) :=
    match filter (about k) es with [] => None | fs => Some (fold_left add_to fs []) end.

  Lemma dget_fold es : forall d k, dget (fold_left put_entry es d) k = match filter (about k) es with [] => dget d k | fs => Some (fold_left add_to fs (old d k)) end.
  Proof.
    induction es as [|e es IH]; intros d k; cbn [fold_left filter]; [reflexivity|]. rewrite IH.
    assert (G : dget (put_entry d e) k = if about k e then Some (add_to (old d k) e) else dget d k).
    { unfold put_entry. rewrite dget_dset. unfold about. destruct (teqb (fst (match_key (fst e))) k) eqn:E; [|reflexivity]. apply teqb_eq in E. rewrite E. reflexivity. }
    unfold old at 1. rewrite G. destruct (about k e) eqn:A.
    - destruct (filter (about k) es); reflexivity.
    - reflexivity.
  Qed.

  Lemma dget_content ps k : dget (content_dict ps) k = match listed (entries ps) k with Some l => Some (unwrap l) | None => None end.
  Proof.
    unfold content_dict. rewrite dget_map, dget_fold. unfold listed. destruct (filter (about k) (entries ps)); reflexivity.
  Qed.

  Lemma keys_content ps : NoDup (keys (content_dict ps)).
  Proof.
    unfold content_dict. rewrite keys_map. assert (G : forall es d, NoDup (keys d) -> NoDup (keys (fold_left put_entry es d))).
    { induction es as [|e es IH]; intros d H; cbn [fold_left]; [exact H|]. apply IH. apply keys_dset, H. }
    apply G. constructor.
  Qed.

  (** Last namelist in which the parameter occurs *)
  Fixpoint lookup (secs : list (text * list part)) (k : text) : option value :=
    match secs with
    | [] => None
    | x :: secs => match lookup secs k with Some v => Some v | None => match listed (entries (snd x)) k with Some l => Some (unwrap l) | None => None end end
    end.

  Lemma dset_new {A} (d : dict A) k v : ~ In k (keys d) -> dset d k v = d ++ [(k, v)].
  Proof.
    induction d as [|x d IH]; intros H; [reflexivity|]. cbn [dset]. destruct (teqb (fst x) k) eqn:E.
    - apply teqb_eq in E. exfalso. apply H. left. exact E.
    - cbn [app]. rewrite IH; [reflexivity|]. intros HI. apply H. right. exact HI.
  Qed.

  Lemma names_distinct secs : NoDup (map (fun x => lower (fst x)) secs) ->
    fold_left (fun data x => dset data (lower (fst x)) (content_dict (snd x))) secs [] = map (fun x => (lower (fst x), content_dict (snd x))) secs.
  Proof.
    intros H. rewrite <- (rev_involutive secs) in *. induction (rev secs) as [|x l IH]; [reflexivity|]. cbn [rev] in *. rewrite map_app in H.
    cbn [map] in H. pose proof (NoDup_remove_1 _ _ _ H) as H1. rewrite app_nil_r in H1. rewrite fold_left_app, map_app, IH by exact H1. cbn [fold_left map]. apply dset_new.
    unfold keys. rewrite map_map. cbn [fst]. intros HI. apply NoDup_remove_2 in H. rewrite app_nil_r in H. exact (H HI).
  Qed.

  Theorem read_input_file secs tail : Forall good_section secs -> NoDup (map (fun x => lower (fst x)) secs) -> tail_ok tail ->
    exists d, read_input_data (file secs tail) = Ok d /\ forall k, dget d k = lookup secs k.
  Proof.
    intros Hs Hn Ht. unfold read_input_data. rewrite read_namelists_file by assumption. cbn [bind]. rewrite names_distinct by exact Hn.
    eexists. split; [reflexivity|]. intros k.
    assert (G : forall d, dget (fold_left (fun d x => update d (snd x)) (map (fun x => (lower (fst x), content_dict (snd x))) secs) d) k = match lookup secs k with Some v => Some v | None => dget d k end).
    { clear. induction secs as [|x secs IH]; intros d; cbn [map fold_left lookup snd]; [reflexivity|]. rewrite IH. destruct (lookup secs k); [reflexivity|].
      rewrite update_dget by apply keys_content. rewrite dget_content. destruct (listed (entries (snd x)) k); reflexivity. }
    rewrite G. cbn. destruct (lookup secs k); reflexivity.
  Qed.
End Parts.
