(** Proofs about namelists in free layout. *)
From Coq Require Import Lia Ascii String.
From Verif Require Import Common CommonProofs Text TextProofs NmlModel QeSpec NmlProofs FreeSpec.
Import ListNotations.
Local Open Scope nat_scope.

(** ** Comments *)
Lemma uncomment_app a : forall i b, exists j, uncomment i (a ++ b) = uncomment i a ++ uncomment j b.
Proof.
  induction a as [|c a IH]; intros i b; [exists i; reflexivity|]. cbn [app uncomment]. destruct (Ascii.eqb c newline).
  - destruct (IH false b) as [j E]. exists j. rewrite E. reflexivity.
  - destruct (i || Ascii.eqb c "!").
    + destruct (IH true b) as [j E]. exists j. exact E.
    + destruct (IH false b) as [j E]. exists j. rewrite E. reflexivity.
Qed.

Fixpoint state (i : bool) (t : text) : bool :=
  match t with [] => i | c :: t => state (if Ascii.eqb c newline then false else i || Ascii.eqb c "!") t end.
Lemma uncomment_state a : forall i b, uncomment i (a ++ b) = uncomment i a ++ uncomment (state i a) b.
Proof.
  induction a as [|c a IH]; intros i b; [reflexivity|]. cbn [app uncomment state]. destruct (Ascii.eqb c newline); [rewrite IH; reflexivity|].
  destruct (i || Ascii.eqb c "!"); rewrite IH; reflexivity.
Qed.
Lemma uncomment_in c b : Forall (fun x => x <> newline) c -> uncomment true (c ++ newline :: b) = newline :: uncomment false b.
Proof.
  induction 1 as [|x c Hx _ IH]; cbn [app uncomment].
  - rewrite Ascii.eqb_refl. reflexivity.
  - rewrite (proj2 (Ascii.eqb_neq x newline) Hx). exact IH.
Qed.
Lemma uncomment_comment a c b : Forall (fun x => x <> newline) c -> uncomment false (a ++ "!"%char :: c ++ newline :: b) = uncomment false (a ++ newline :: b).
Proof.
  intros H. rewrite !uncomment_state. f_equal. generalize (state false a). intros i. cbn [uncomment]. rewrite Ascii.eqb_refl.
  change (Ascii.eqb "!" newline) with false. change (Ascii.eqb "!" "!") with true. rewrite Bool.orb_true_r. cbv iota. apply uncomment_in, H.
Qed.

(** ** Strings *)
Inductive prot : nat -> text -> text -> list text -> Prop :=
| prot_nil n : prot n [] [] []
| prot_plain n u t t' g : unquoted u -> prot n t t' g -> prot n (u ++ t) (u ++ t') g
| prot_str n q s t t' g : is_quote q = true -> unquoted s -> prot (n + 1) t t' g ->
    prot n ((q :: s ++ [q]) ++ t) (mark (n + 1) ++ t') ((q :: s ++ [q]) :: g).

Lemma prot_app n t t' g : prot n t t' g -> forall u u' h, prot (n + length g) u u' h -> prot n (t ++ u) (t' ++ u') (g ++ h).
Proof.
  induction 1 as [n|n v t t' g Hv _ IH|n q s t t' g Hq Hs _ IH]; intros u u' h H.
  - cbn [length] in H. rewrite Nat.add_0_r in H. exact H.
  - rewrite <- !app_assoc. apply prot_plain; [exact Hv|]. apply IH, H.
  - rewrite <- !app_assoc. cbn [app]. change (q :: ([q] ++ ?x)) with ([q; q] ++ x). 
    change (q :: s ++ [q] ++ t ++ u) with ((q :: s ++ [q] ++ t ++ u)).
    replace (q :: s ++ [q] ++ t ++ u) with ((q :: s ++ [q]) ++ (t ++ u)) by (cbn [app]; rewrite <- app_assoc; reflexivity).
    apply prot_str; [exact Hq|exact Hs|]. apply IH. cbn [length] in H. replace (n + 1 + length g) with (n + S (length g)) by lia. exact H.
Qed.

Lemma prot_only n u : unquoted u -> prot n u u [].
Proof. intros H. rewrite <- (app_nil_r u). apply prot_plain; [exact H|constructor]. Qed.

Lemma prot_subn n t t' g : prot n t t' g -> forall g0 c, length g0 = n -> subn 0 t g0 c = (t', g0 ++ g, c + length g).
Proof.
  induction 1 as [n|n v t t' g Hv _ IH|n q s t t' g Hq Hs _ IH]; intros g0 c E.
  - cbn [subn length]. rewrite app_nil_r, Nat.add_0_r. reflexivity.
  - rewrite subn_unquoted by exact Hv. rewrite (IH g0 c E). reflexivity.
  - replace ((q :: s ++ [q]) ++ t) with (q :: s ++ q :: t) by (cbn [app]; rewrite <- app_assoc; reflexivity).
    rewrite subn_string by assumption. rewrite (IH (g0 ++ [q :: s ++ [q]]) (S c)) by (rewrite app_length; cbn [length]; lia).
    rewrite E, <- app_assoc. cbn [app length]. f_equal. lia.
Qed.

Lemma prot_unquoted n t t' g : prot n t t' g -> unquoted t'.
Proof.
  induction 1 as [n|n v t t' g Hv _ IH|n q s t t' g Hq Hs _ IH]; [constructor|apply Forall_app; split; assumption|].
  apply Forall_app. split; [apply token_unquoted, token_mark|exact IH].
Qed.

Lemma prot_length n t t' g : prot n t t' g -> length g <= length t.
Proof. induction 1 as [n|n v t t' g Hv _ IH|n q s t t' g Hq Hs _ IH]; cbn [length app]; rewrite ?app_length; cbn [length]; lia. Qed.

Lemma prot_protect t t' g : prot 0 t t' g -> protect (length t) t [] = (t', g).
Proof.
  intros H. pose proof (prot_subn 0 t t' g H [] 0 eq_refl) as E. pose proof (prot_length _ _ _ _ H) as L.
  assert (E2 : forall fuel, protect fuel t' g = (t', g)).
  { intros fuel. destruct fuel; cbn [protect]; rewrite (subn_none t' g 0 (prot_unquoted _ _ _ _ H)); reflexivity. }
  cbn [app Nat.add] in E. destruct (length t) as [|k]; cbn [protect]; rewrite E.
  - destruct (length g); reflexivity.
  - destruct (length g); [reflexivity|apply E2].
Qed.

(** ** Items *)
Inductive lexeme := W (t : text) | I (t b : text) (i : nat) | E.
Definition ltext (l : lexeme) : text := match l with W t => t | I t b i => t ++ b ++ §"(" ++ fmt_d (Z.of_nat i) ++ §")" | E => §"=" end.
Definition ltoken (l : lexeme) : text := match l with W t => t | I t b i => t ++ §"(" ++ fmt_d (Z.of_nat i) ++ §")" | E => §"=" end.
Definition good_lexeme (l : lexeme) : Prop :=
  match l with
  | W t => token_ok t /\ opening t = false
  | I t b i => token_ok t /\ opening t = false /\ Forall (fun c => is_space c = true) b
  | E => True
  end.
Definition layout := list (text * lexeme).
Definition lay (l : layout) : text := flat_map (fun x => fst x ++ ltext (snd x)) l.
Definition is_E (l : lexeme) : bool := match l with E => true | _ => false end.
Fixpoint spaced (free : bool) (l : layout) : Prop :=
  match l with
  | [] => True
  | (s, x) :: l => separator s /\ good_lexeme x /\ (free = true \/ is_E x = true \/ s <> []) /\ spaced (is_E x) l
  end.

Lemma sep_not_eq c : is_sep c = true -> c <> "="%char.
Proof. intros H ->. discriminate. Qed.
Lemma spread_sep s : separator s -> spread s = s.
Proof.
  intros H. unfold spread. induction H as [|c s Hc _ IH]; cbn [flat_map]; [reflexivity|]. rewrite (proj2 (Ascii.eqb_neq c "=") (sep_not_eq c Hc)). cbn [app]. rewrite IH. reflexivity.
Qed.
Lemma space_sep c : is_space c = true -> is_sep c = true.
Proof. intros H. unfold is_sep. rewrite H. reflexivity. Qed.
Lemma spread_cons c t : c <> "="%char -> spread (c :: t) = c :: spread t.
Proof. intros H. unfold spread at 1. cbn [flat_map]. rewrite (proj2 (Ascii.eqb_neq c "=") H). reflexivity. Qed.

Lemma opens_sep s t : separator s -> opens t = false -> opens (s ++ t) = false.
Proof.
  intros H Ht. induction H as [|c s Hc _ IH]; [exact Ht|]. cbn [app]. destruct (is_space c) eqn:ES; [rewrite opens_space by exact ES; exact IH|].
  rewrite opens_word by exact ES. destruct (Ascii.eqb_spec c "(") as [->|]; [discriminate|reflexivity].
Qed.
Lemma glue_sep s t : separator s -> opens t = false -> glue (s ++ t) = s ++ glue t.
Proof.
  intros H Ht. induction H as [|c s Hc Hs IH]; [reflexivity|]. cbn [app]. rewrite glue_space by (apply opens_sep; assumption). rewrite IH. reflexivity.
Qed.
Lemma glue_blanks b t : Forall (fun c => is_space c = true) b -> glue (b ++ "("%char :: t) = "("%char :: glue t.
Proof.
  induction 1 as [|c b Hc Hb IH]; cbn [app]; [reflexivity|]. cbn [glue]. rewrite Hc. cbn [andb].
  assert (O : opens (b ++ "("%char :: t) = true) by (clear IH; induction Hb as [|d b Hd _ IHb]; [reflexivity|]; cbn [app]; rewrite opens_space by exact Hd; exact IHb).
  rewrite O. exact IH.
Qed.
Lemma items_seps s t : separator s -> items_from [] (s ++ t) = items_from [] t.
Proof. induction 1 as [|c s Hc _ IH]; [reflexivity|]. cbn [app]. rewrite items_sep by exact Hc. exact IH. Qed.

(** After a word, there is nothing or a separator. *)
Definition ends (t : text) : Prop := match t with [] => True | c :: _ => is_sep c = true end.
Lemma items_end w t : token_ok w -> ends t -> items_from [] (w ++ t) = w :: items_from [] t.
Proof.
  intros H He. destruct t as [|c t]; [|].
  - destruct H as [H0 H]. rewrite items_word by (revert H; apply Forall_impl, plain_sep). cbn [app items_from emit]. destruct w; [congruence|reflexivity].
  - rewrite (items_token w c t H He). rewrite items_sep by exact He. reflexivity.
Qed.

Lemma token_index t i : token_ok t -> token_ok (t ++ §"(" ++ fmt_d (Z.of_nat i) ++ §")").
Proof.
  intros [H0 H]. split; [destruct t; [congruence|discriminate]|]. apply Forall_app. split; [exact H|]. apply Forall_app. split; [repeat constructor|]. apply Forall_app. split; [apply token_d|repeat constructor].
Qed.

Lemma spread_lexeme x t : good_lexeme x -> is_E x = false -> spread (ltext x ++ t) = ltext x ++ spread t.
Proof.
  intros G H. rewrite spread_app. f_equal. destruct x as [w|w b i|]; [apply spread_token, G| |discriminate]. destruct G as (G1 & _ & G2). cbn [ltext].
  rewrite !spread_app, (spread_token w G1), (spread_token _ (token_d _)). rewrite (spread_sep b); [reflexivity|]. revert G2. apply Forall_impl, space_sep.
Qed.

Lemma opens_lexeme x t : good_lexeme x -> is_E x = false -> opens (ltext x ++ t) = false.
Proof.
  intros G H. destruct x as [w|w b i|]; [| |discriminate]; cbn [ltext].
  - apply opens_token; apply G.
  - rewrite <- app_assoc. apply opens_token; apply G.
Qed.

Lemma opens_layout l f : forall free, spaced free l -> separator f -> opens (spread (lay l ++ f)) = false.
Proof.
  intros free Hl Hf. destruct l as [|[s x] l]; cbn [lay flat_map app fst snd].
  - rewrite spread_sep by exact Hf. rewrite <- (app_nil_r f). apply opens_sep; [exact Hf|reflexivity].
  - destruct Hl as (Hs & Hx & _ & Hl). rewrite <- !app_assoc, spread_app, (spread_sep s Hs). apply opens_sep; [exact Hs|].
    destruct (is_E x) eqn:EX.
    + destruct x; try discriminate. cbn [ltext]. change (spread (§"=" ++ ?t)) with (blank :: "="%char :: blank :: spread t). rewrite opens_space by reflexivity. reflexivity.
    + rewrite spread_lexeme by assumption. apply opens_lexeme; assumption.
Qed.

Lemma ends_layout l f : spaced false l -> separator f -> ends (glue (spread (lay l ++ f))).
Proof.
  intros Hl Hf. destruct l as [|[s x] l]; cbn [lay flat_map app fst snd].
  - rewrite spread_sep by exact Hf. rewrite <- (app_nil_r f), glue_sep by (try reflexivity; exact Hf). destruct Hf as [|c f Hc Hf]; [exact Logic.I|exact Hc].
  - destruct Hl as (Hs & Hx & Hne & Hl). destruct s as [|c s].
    + destruct Hne as [|[Hne|]]; try congruence. destruct x; try discriminate. cbn [app ltext].
      change (spread ("="%char :: lay l ++ f)) with (blank :: "="%char :: blank :: spread (lay l ++ f)).
      change (flat_map (fun x => fst x ++ ltext (snd x)) l) with (lay l).
      change (spread ((§"=" ++ lay l) ++ f)) with (blank :: "="%char :: blank :: spread (lay l ++ f)). rewrite glue_space by reflexivity. reflexivity.
    + assert (EQ : spread (((c :: s) ++ ltext x) ++ flat_map (fun x => fst x ++ ltext (snd x)) l ++ f) = (c :: s) ++ spread (ltext x ++ lay l ++ f)) by (rewrite <- app_assoc, spread_app, (spread_sep _ Hs); reflexivity).
      rewrite <- app_assoc, EQ, glue_sep; [|exact Hs|].
      * cbn [app ends]. inversion Hs; assumption.
      * pose proof (opens_layout (([], x) :: l) f true) as O. cbn [lay flat_map app fst snd] in O. rewrite <- app_assoc in O. apply O; [|exact Hf].
        cbn [spaced]. repeat split; try assumption; [constructor|]. left. reflexivity.
Qed.

Lemma glue_lexeme x t : good_lexeme x -> is_E x = false -> glue (ltext x ++ t) = ltoken x ++ glue t.
Proof.
  intros G H. destruct x as [w|w b i|]; [| |discriminate]; cbn [ltext ltoken].
  - apply glue_word, token_nospace, G.
  - destruct G as (G1 & _ & G2). rewrite <- !app_assoc. rewrite glue_word by (apply token_nospace, G1). f_equal.
    change (b ++ §"(" ++ fmt_d (Z.of_nat i) ++ §")" ++ t) with (b ++ "("%char :: fmt_d (Z.of_nat i) ++ §")" ++ t). rewrite glue_blanks by exact G2. cbn [app str list_ascii_of_string]. f_equal.
    rewrite glue_word by (apply token_nospace, token_d). f_equal.
Qed.
Lemma token_lexeme x : good_lexeme x -> is_E x = false -> token_ok (ltoken x).
Proof. intros G H. destruct x as [w|w b i|]; [apply G| |discriminate]. apply token_index, G. Qed.

Lemma items_layout l f : separator f -> forall free, spaced free l -> items_from [] (glue (spread (lay l ++ f))) = map (fun x => ltoken (snd x)) l.
Proof.
  intros Hf. induction l as [|[s x] l IH]; intros free Hl.
  - cbn [lay flat_map app map]. rewrite spread_sep by exact Hf. rewrite <- (app_nil_r f), glue_sep, items_seps by (try reflexivity; exact Hf). reflexivity.
  - pose proof Hl as (Hs & Hx & Hne & Hl'). cbn [map snd]. unfold lay. cbn [flat_map fst snd]. fold (lay l). rewrite <- !app_assoc, spread_app, (spread_sep s Hs).
    assert (O : opens (spread (ltext x ++ lay l ++ f)) = false).
    { pose proof (opens_layout (([], x) :: l) f true) as O. cbn [lay flat_map app fst snd] in O. rewrite <- app_assoc in O. apply O; [|exact Hf].
      cbn [spaced]. repeat split; try assumption; [constructor|]. left. reflexivity. }
    rewrite glue_sep, items_seps by assumption. destruct (is_E x) eqn:EX.
    + destruct x; try discriminate. cbn [ltext ltoken]. change (spread (§"=" ++ ?t)) with (blank :: "="%char :: blank :: spread t).
      rewrite (glue_space blank) by reflexivity. rewrite items_sep by reflexivity. change (glue ("="%char :: blank :: ?t)) with ("="%char :: glue (blank :: t)).
      rewrite (glue_space blank) by (apply (opens_layout l f true); assumption).
      change ("="%char :: blank :: ?t) with (["="%char] ++ blank :: t). rewrite (items_word ["="%char]) by (repeat constructor). cbn [app items_from]. change (is_sep blank) with true. cbn [emit app]. f_equal.
      apply (IH true). exact Hl'.
    + rewrite spread_lexeme by assumption. rewrite glue_lexeme by assumption. rewrite items_end; [|apply token_lexeme; assumption|apply ends_layout; assumption].
      f_equal. apply (IH false). exact Hl'.
Qed.

(** ** From assignments to items *)
Definition key_of (a : assignment) : lexeme := match index a with None => W (name a) | Some (b, i) => I (name a) b i end.
Definition plex (n : nat) (v : written) : lexeme := match v with Word t => W t | Quoted _ _ => W (mark (n + 1)) end.
Definition next (n : nat) (v : written) : nat := match v with Word _ => n | Quoted _ _ => n + 1 end.
Definition vstr (v : written) : list text := match v with Word _ => [] | Quoted q s => [q :: s ++ [q]] end.
Fixpoint vlay (n : nat) (vs : list (text * written)) : layout :=
  match vs with [] => [] | (s, v) :: vs => (s, plex n v) :: vlay (next n v) vs end.
Definition vstrs (vs : list (text * written)) : list text := flat_map (fun v => vstr (snd v)) vs.
Definition alay (n : nat) (a : assignment) : layout := (lead a, key_of a) :: (before a, E) :: vlay n (values a).
Fixpoint aslay (n : nat) (l : list assignment) : layout :=
  match l with [] => [] | a :: l => alay n a ++ aslay (n + length (vstrs (values a))) l end.
Definition astrs (l : list assignment) : list text := flat_map (fun a => vstrs (values a)) l.

Lemma sep_unquoted s : separator s -> unquoted s.
Proof. apply Forall_impl. intros c H. unfold is_quote. destruct (Ascii.eqb_spec c squote) as [->|]; [discriminate|]. destruct (Ascii.eqb_spec c dquote) as [->|]; [discriminate|reflexivity]. Qed.

Lemma next_length n v : next n v = n + length (vstr v).
Proof. destruct v; cbn [next vstr length]; lia. Qed.

Lemma lay_cons s x l : lay ((s, x) :: l) = s ++ ltext x ++ lay l.
Proof. unfold lay. cbn [flat_map fst snd]. rewrite <- app_assoc. reflexivity. Qed.
Lemma lay_app l m : lay (l ++ m) = lay l ++ lay m.
Proof. apply flat_map_app. Qed.

Lemma prot_values vs : Forall (fun v => separator (fst v) /\ good_written (snd v)) vs -> forall n,
  prot n (flat_map (fun v => fst v ++ raw (snd v)) vs) (lay (vlay n vs)) (vstrs vs).
Proof.
  induction 1 as [|[s v] vs [Hs Hv] _ IH]; intros n; [constructor|]. cbn [fst snd] in Hs, Hv. cbn [flat_map fst snd vlay]. rewrite lay_cons, <- app_assoc.
  apply prot_plain; [apply sep_unquoted, Hs|]. unfold vstrs. cbn [flat_map snd]. destruct v as [t|q s']; cbn [raw plex next vstr ltext app].
  - apply prot_plain; [apply token_unquoted, Hv|apply IH].
  - destruct Hv as (Hq & _ & Hs'). apply (prot_str n q s'); [exact Hq| |apply IH]. revert Hs'. apply Forall_impl. intros c Hc. apply Hc.
Qed.

Lemma key_text a : name a ++ write_index (index a) = ltext (key_of a).
Proof. unfold key_of. destruct (index a) as [[b i]|]; cbn [write_index ltext]; [reflexivity|apply app_nil_r]. Qed.

Lemma opening_name t : Forall (fun c => c <> "("%char) t -> opening t = false.
Proof. intros H. destruct H as [|c t Hc _]; [reflexivity|]. apply Ascii.eqb_neq, Hc. Qed.

Lemma good_key_of a : good_assignment a -> good_lexeme (key_of a).
Proof.
  intros G. destruct (FreeSpec.name_ok a G) as [H1 H2]. apply opening_name in H2. unfold key_of. destruct (index a) as [[b i]|] eqn:EI; cbn [good_lexeme]; [|auto].
  destruct (index_ok a G b i EI) as [H3 _]. auto.
Qed.
Lemma key_not_E a : is_E (key_of a) = false.
Proof. unfold key_of. destruct (index a) as [[b i]|]; reflexivity. Qed.

Lemma unquoted_lexeme x : good_lexeme x -> unquoted (ltext x).
Proof.
  intros G. destruct x as [w|w b i|]; cbn [ltext]; [apply token_unquoted, G| |repeat constructor]. destruct G as (G1 & _ & G2).
  repeat (apply Forall_app; split); try (apply token_unquoted; first [exact G1|apply token_d]); try (repeat constructor). apply sep_unquoted. revert G2. apply Forall_impl, space_sep.
Qed.

Lemma prot_assignment a n : good_assignment a -> prot n (write_assignment a) (lay (alay n a)) (vstrs (values a)).
Proof.
  intros G. unfold write_assignment, alay. rewrite !lay_cons. rewrite (app_assoc (name a)), key_text.
  apply prot_plain; [apply sep_unquoted, G|]. apply prot_plain; [apply unquoted_lexeme, good_key_of, G|]. apply prot_plain; [apply sep_unquoted, G|].
  apply prot_plain; [repeat constructor|]. apply prot_values. apply (values_ok a G).
Qed.

Lemma prot_assignments l : Forall good_assignment l -> forall n, prot n (flat_map write_assignment l) (lay (aslay n l)) (astrs l).
Proof.
  induction 1 as [|a l Ha _ IH]; intros n; [constructor|]. cbn [flat_map aslay astrs]. rewrite lay_app. apply prot_app; [apply prot_assignment, Ha|apply IH].
Qed.

Lemma spaced_weak l : spaced false l -> forall free, spaced free l.
Proof. destruct l as [|[s x] l]; [trivial|]. intros (H1 & H2 & H3 & H4) free. cbn [spaced]. repeat split; try assumption. destruct H3 as [|H3]; [discriminate|]. right. exact H3. Qed.

Lemma good_plex n v : good_written v -> good_lexeme (plex n v) /\ is_E (plex n v) = false.
Proof.
  destruct v as [t|q s]; cbn [good_written plex good_lexeme is_E].
  - intros (H1 & H2 & _). auto.
  - intros _. split; [|reflexivity]. split; [apply token_mark|reflexivity].
Qed.

Lemma spaced_values vs rest : spaced false rest -> Forall (fun v => separator (fst v) /\ good_written (snd v)) vs -> Forall (fun v => fst v <> []) vs -> forall n, spaced false (vlay n vs ++ rest).
Proof.
  intros Hr H1 H2. induction H1 as [|[s v] vs [Hs Hv] _ IH]; intros n; [exact Hr|]. cbn [fst snd] in Hs, Hv. apply Forall_cons_iff in H2 as [H2 H3]. cbn [fst] in H2.
  cbn [vlay app spaced]. destruct (good_plex n v Hv) as [G1 G2]. rewrite G2. auto 10.
Qed.

Lemma spaced_assignment a n rest : good_assignment a -> spaced false rest -> spaced false (alay n a ++ rest).
Proof.
  intros G Hr. unfold alay. cbn [app spaced is_E]. destruct (lead_ok a G) as [L1 L2]. rewrite key_not_E.
  split; [exact L1|]. split; [apply good_key_of, G|]. split; [auto|]. split; [apply (before_ok a G)|]. split; [exact Logic.I|]. split; [auto|].
  destruct (values_ok a G) as [V1 V2]. destruct (values a) as [|[s v] vs]; [apply spaced_weak, Hr|]. cbn [tl] in V2.
  apply Forall_cons_iff in V1 as [[V0 V3] V1]. cbn [fst snd] in V0, V3. cbn [vlay app spaced]. destruct (good_plex n v V3) as [G1 G2]. rewrite G2.
  split; [exact V0|]. split; [exact G1|]. split; [auto|]. apply spaced_values; assumption.
Qed.

Lemma spaced_assignments l : Forall good_assignment l -> forall n, spaced false (aslay n l).
Proof. induction 1 as [|a l Ha _ IH]; intros n; [exact Logic.I|]. cbn [aslay]. apply spaced_assignment; [exact Ha|apply IH]. Qed.

(** ** From items to values *)
Lemma lower_digits z : lower (fmt_d z) = fmt_d z.
Proof.
  unfold lower. rewrite <- (map_id (fmt_d z)) at 2. apply map_ext_in. intros c Hc.
  assert (A : Forall (fun c => is_upper c = false) (fmt_d z)).
  { apply fmt_d_all; [|reflexivity]. intros d Hd. destruct (digit_cases d Hd) as [->|[->|[->|[->|[->|[->|[->|[->|[->| ->]]]]]]]]]; reflexivity. }
  rewrite Forall_forall in A. rewrite (A c Hc). reflexivity.
Qed.
Lemma lower_paren c : Ascii.eqb (if is_upper c then ascii_of_nat (nat_of_ascii c + 32) else c) "(" = Ascii.eqb c "(".
Proof. destruct c as [[] [] [] [] [] [] [] []]; reflexivity. Qed.
Lemma lower_name t : Forall (fun c => c <> "("%char) t -> Forall (fun c => negb (Ascii.eqb c "(") = true) (lower t).
Proof. intros H. unfold lower. apply Forall_map. revert H. apply Forall_impl. intros c H. rewrite lower_paren. rewrite (proj2 (Ascii.eqb_neq c "(") H). reflexivity. Qed.

Lemma match_key_of a : good_assignment a -> match_key (ltoken (key_of a)) = (lower (name a), Z.of_nat (first (index a) - 1)).
Proof.
  intros G. destruct (FreeSpec.name_ok a G) as [_ H2]. apply lower_name in H2. unfold key_of, match_key. destruct (index a) as [[b i]|] eqn:EI; cbn [ltoken first].
  - destruct (index_ok a G b i EI) as [_ H3]. unfold lower. rewrite !map_app. fold (lower (name a)). fold (lower (fmt_d (Z.of_nat i))). rewrite lower_digits.
    rewrite (span_app _ _ _ H2) by reflexivity. cbn [map str list_ascii_of_string].
    change (if is_upper "(" then ascii_of_nat (nat_of_ascii "(" + 32) else "("%char) with "("%char. cbn [app span]. change (Ascii.eqb "(" "(" || Ascii.eqb "(" blank) with true. cbv iota.
    assert (SP : forall t, span (fun c => Ascii.eqb c "(" || Ascii.eqb c blank) (fmt_d (Z.of_nat i) ++ t) = ([], fmt_d (Z.of_nat i) ++ t)).
    { intros t. apply (span_app _ []); [constructor|]. destruct (token_d (Z.of_nat i)) as [D0 D]. destruct (fmt_d (Z.of_nat i)) as [|c u] eqn:ED; [congruence|]. cbn [app].
      assert (A : Forall (fun c => Ascii.eqb c "(" || Ascii.eqb c blank = false) (fmt_d (Z.of_nat i))).
      { apply fmt_d_all; [|reflexivity]. intros d Hd. destruct (digit_cases d Hd) as [->|[->|[->|[->|[->|[->|[->|[->|[->| ->]]]]]]]]]; reflexivity. }
      rewrite ED in A. inversion A; assumption. }
    rewrite SP. cbn [fst]. rewrite scan_nat by reflexivity. destruct (token_d (Z.of_nat i)) as [D0 _]. destruct (fmt_d (Z.of_nat i)) as [|c u]; [congruence|]. cbn [length]. f_equal. lia.
  - rewrite <- (app_nil_r (lower (name a))) at 1. rewrite (span_app _ _ [] H2 Logic.I). reflexivity.
Qed.

Lemma bars_in_quotes q s : is_quote q = true -> has_bars s = false -> has_bars (q :: s ++ [q]) = false.
Proof.
  intros Hq H. assert (Q : Ascii.eqb q "_" = false) by (destruct (Ascii.eqb_spec q "_") as [->|]; [discriminate|reflexivity]).
  rewrite has_bars_cons, bars_cons by exact Q. induction s as [|c s IH]; cbn [app]; [rewrite has_bars_cons, bars_cons by exact Q; reflexivity|].
  rewrite has_bars_cons in H |- *. destruct (bars (c :: s)) eqn:EB; [discriminate|].
  change (c :: s ++ [q]) with ((c :: s) ++ [q]). rewrite bars_append by assumption. apply IH, H.
Qed.

Lemma convert_quoted q s : is_quote q = true -> Forall (fun c => is_quote c = false /\ c <> "!"%char /\ c <> newline) s -> convert (q :: s ++ [q]) = VStr s.
Proof.
  intros Hq H. unfold convert. cbn [quoted]. rewrite rev_app_distr. cbn [rev app]. rewrite Hq, Ascii.eqb_refl.
  replace (forallb (fun c => negb (Ascii.eqb c newline)) (q :: s ++ [q])) with true.
  - cbn [tl andb]. rewrite removelast_last. reflexivity.
  - symmetry. apply forallb_forall. assert (QN : q <> newline) by (intros ->; discriminate).
    intros c Hc. apply Bool.negb_true_iff, Ascii.eqb_neq. destruct Hc as [<-|Hc]; [exact QN|]. apply in_app_or in Hc as [Hc|[<-|[]]]; [|exact QN]. rewrite Forall_forall in H. apply (H c Hc).
Qed.

Lemma place_written g g1 g2 v : good_written v -> g = g1 ++ vstr v ++ g2 -> exists t, place_all (length g) (ltoken (plex (length g1) v)) g = Ok t /\ convert t = FreeSpec.value v.
Proof.
  intros G EG. destruct v as [t|q s]; cbn [plex ltoken FreeSpec.value].
  - exists t. split; [apply place_all_none, G|reflexivity].
  - destruct G as (G1 & G2 & G3). exists (q :: s ++ [q]). split; [|apply convert_quoted; assumption]. apply place_all_mark; [|apply bars_in_quotes; assumption].
    rewrite EG, nth_error_app2, Nat.sub_diag by lia. reflexivity.
Qed.

Definition not_eq_next (ts : list text) : bool := match ts with e :: _ => teqb e (§"=") | [] => false end.

Lemma dset_same {A} (d : dict A) k v : dget d k = Some v -> dset d k v = d.
Proof.
  unfold dget. induction d as [|x d IH]; intros H; cbn [find dset] in *; [discriminate|]. destruct (teqb (fst x) k) eqn:E.
  - apply teqb_eq in E. injection H as <-. subst k. destruct x; reflexivity.
  - rewrite IH by exact H. reflexivity.
Qed.

Lemma assign_in l n x : n <= length l -> assign l (Z.of_nat n) x = firstn n l ++ x :: skipn (n + 1) l.
Proof. intros _. unfold assign. destruct (Z.ltb_spec (Z.of_nat n) 0); [lia|]. rewrite Nat2Z.id. reflexivity. Qed.

Lemma skipn_twice {A} (l : list A) : forall i j, skipn i (skipn j l) = skipn (j + i) l.
Proof. induction l as [|x l IH]; intros i j; [rewrite !skipn_nil; reflexivity|]. destruct j as [|j]; [reflexivity|]. cbn [skipn Nat.add]. apply IH. Qed.

Lemma replace_cons {A} (l vs : list A) n v : n <= length l ->
  let l' := firstn n l ++ v :: skipn (n + 1) l in firstn (n + 1) l' ++ vs ++ skipn (n + 1 + length vs) l' = firstn n l ++ (v :: vs) ++ skipn (n + S (length vs)) l /\ n + 1 <= length l'.
Proof.
  intros H l'. assert (L : length (firstn n l) = n) by (rewrite firstn_length; lia).
  assert (E : firstn (n + 1) l' = firstn n l ++ [v]).
  { unfold l'. rewrite firstn_app, L. replace (n + 1 - n) with 1 by lia. rewrite (firstn_all2 (firstn n l)) by lia. reflexivity. }
  split.
  - rewrite E. unfold l'. rewrite skipn_app, L, (skipn_all2 (firstn n l)) by lia. replace (n + 1 + length vs - n) with (S (length vs)) by lia.
    cbn [app skipn]. rewrite skipn_twice. rewrite <- app_assoc. cbn [app]. do 4 f_equal. lia.
  - unfold l'. rewrite app_length, L. cbn [length]. lia.
Qed.

Lemma parse_values vs : Forall (fun v => separator (fst v) /\ good_written (snd v)) vs -> forall g g1 g2 rest k n l d,
  g = g1 ++ vstrs vs ++ g2 -> not_eq_next rest = false -> dget d k = Some l -> n <= length l ->
  parse g (map (fun x => ltoken (snd x)) (vlay (length g1) vs) ++ rest) (Some (k, Z.of_nat n)) d =
  parse g rest (Some (k, Z.of_nat (n + length vs))) (dset d k (firstn n l ++ map (fun v => FreeSpec.value (snd v)) vs ++ skipn (n + length vs) l)).
Proof.
  induction 1 as [|[s v] vs [Hs Hv] Hvs IH]; intros g g1 g2 rest k n l d EG Hr Hk Hn.
  - cbn [vlay map app length]. rewrite Nat.add_0_r, firstn_skipn, dset_same by exact Hk. reflexivity.
  - cbn [fst snd] in Hs, Hv. cbn [vlay map app snd]. cbn [parse].
    assert (HN : not_eq_next (map (fun x => ltoken (snd x)) (vlay (next (length g1) v) vs) ++ rest) = false).
    { destruct Hvs as [|[s' v'] vs' [_ Hv'] _]; [exact Hr|]. cbn [vlay map app snd not_eq_next]. destruct v'; cbn [plex ltoken]; apply token_not_eq; [apply Hv'|apply token_mark]. }
    unfold not_eq_next in HN. rewrite HN.
    replace (teqb (ltoken (plex (length g1) v)) (§"=")) with false by (symmetry; destruct v; cbn [plex ltoken]; apply token_not_eq; [apply Hv|apply token_mark]).
    unfold vstrs in EG. cbn [flat_map snd] in EG. fold (vstrs vs) in EG. rewrite <- app_assoc in EG.
    destruct (place_written g g1 (vstrs vs ++ g2) v Hv EG) as (t & P1 & P2). rewrite P1. cbn [bind]. rewrite P2, Hk, assign_in by exact Hn.
    destruct (replace_cons l (map (fun v => FreeSpec.value (snd v)) vs) n (FreeSpec.value v) Hn) as [R1 R2]. rewrite map_length in R1.
    rewrite next_length, <- app_length. replace (Z.of_nat n + 1)%Z with (Z.of_nat (n + 1)) by lia.
    rewrite (IH g (g1 ++ vstr v) g2 rest k (n + 1) (firstn n l ++ FreeSpec.value v :: skipn (n + 1) l)); [| |exact Hr|rewrite dget_dset, teqb_refl; reflexivity|exact R2].
    + rewrite dset_dset, R1. cbn [length map snd]. do 3 f_equal. lia.
    + rewrite <- app_assoc. exact EG.
Qed.

Definition enter (d : dict (list NmlModel.value)) (a : assignment) : dict (list NmlModel.value) :=
  dset d (lower (name a)) (overwrite match dget d (lower (name a)) with Some l => l | None => [] end (first (index a) - 1) (values_of a)).

Lemma parse_assignments l : Forall good_assignment l -> forall g g1 g2 key d, g = g1 ++ astrs l ++ g2 ->
  parse g (map (fun x => ltoken (snd x)) (aslay (length g1) l)) key d = Ok (fold_left enter l d).
Proof.
  induction 1 as [|a l Ha Hl IH]; intros g g1 g2 key d EG; [reflexivity|].
  cbn [aslay alay app map snd ltoken]. cbn [parse]. rewrite teqb_refl. cbv iota. rewrite match_key_of by exact Ha.
  set (old := match dget d (lower (name a)) with Some l => l | None => [] end).
  set (rest := map (fun x => ltoken (snd x)) (aslay (length g1 + length (vstrs (values a))) l)).
  assert (HR : not_eq_next rest = false).
  { unfold rest. destruct Hl as [|b l Hb _]; [reflexivity|]. cbn [aslay alay app map snd not_eq_next]. apply token_not_eq. apply token_lexeme; [apply good_key_of, Hb|apply key_not_E]. }
  rewrite map_app. fold rest.
  assert (HN : not_eq_next (map (fun x => ltoken (snd x)) (vlay (length g1) (values a)) ++ rest) = false).
  { destruct (values_ok a Ha) as [V _]. destruct V as [|[s v] vs [_ Hv] _]; [exact HR|]. cbn [vlay map app snd not_eq_next]. destruct v; cbn [snd plex ltoken] in *; apply token_not_eq; [apply Hv|apply token_mark]. }
  unfold not_eq_next in HN. rewrite HN. change (teqb (§"=") (§"=")) with true. cbv iota.
  unfold astrs in EG. cbn [flat_map] in EG. fold (astrs l) in EG. rewrite <- app_assoc in EG.
  set (n := first (index a) - 1). 
  assert (LF : length (fill old (Z.of_nat n)) = Nat.max n (length old)) by (unfold fill; rewrite app_length, repeat_length, Nat2Z.id; lia).
  rewrite (parse_values (values a) (proj1 (values_ok a Ha)) g g1 (astrs l ++ g2) rest (lower (name a)) n (fill old (Z.of_nat n))); [|exact EG|exact HR|rewrite dget_dset, teqb_refl; reflexivity|lia].
  unfold rest. rewrite <- app_length. rewrite (IH g (g1 ++ vstrs (values a)) g2) by (rewrite <- app_assoc; exact EG).
  cbn [fold_left]. do 2 f_equal. rewrite dset_dset. unfold enter. fold old. fold n. f_equal. unfold overwrite, fill. rewrite Nat2Z.id. fold (values_of a). f_equal.
  replace (length (values_of a)) with (length (values a)) by (symmetry; apply map_length). f_equal.
  rewrite skipn_app. rewrite <- (app_nil_r (skipn (n + length (values a)) old)) at 2. f_equal. apply skipn_all2. rewrite repeat_length. lia.
Qed.

(** The dictionary of lists, in the order of first occurrence *)
Lemma nodup_rev_snoc (l : list text) k : rev (nodup (list_eq_dec ascii_dec) (rev (l ++ [k]))) =
  let u := rev (nodup (list_eq_dec ascii_dec) (rev l)) in if in_dec (list_eq_dec ascii_dec) k l then u else u ++ [k].
Proof.
  rewrite rev_app_distr. cbn [rev app nodup]. destruct (in_dec (list_eq_dec ascii_dec) k (rev l)) as [H|H]; destruct (in_dec (list_eq_dec ascii_dec) k l) as [H'|H']; cbn [rev]; try reflexivity.
  - exfalso. apply H', in_rev, H.
  - exfalso. apply H, in_rev. rewrite rev_involutive. exact H'.
Qed.

Lemma names_in l k : In k (names l) <-> In k (map (fun a => lower (name a)) l).
Proof. unfold names. rewrite <- in_rev, nodup_In, <- in_rev. reflexivity. Qed.
Lemma names_nodup l : NoDup (names l).
Proof. unfold names. apply NoDup_rev, NoDup_nodup. Qed.

Lemma dget_table {A} (f : text -> A) ks k : dget (map (fun k => (k, f k)) ks) k = if in_dec (list_eq_dec ascii_dec) k ks then Some (f k) else None.
Proof.
  unfold dget. induction ks as [|k' ks IH]; [reflexivity|]. cbn [map find fst]. destruct (teqb k' k) eqn:E.
  - apply teqb_eq in E. subst k'. cbn [snd]. destruct (in_dec (list_eq_dec ascii_dec) k (k :: ks)) as [|N]; [reflexivity|]. exfalso. apply N. left. reflexivity.
  - rewrite IH. apply teqb_neq in E. destruct (in_dec (list_eq_dec ascii_dec) k ks) as [I|I], (in_dec (list_eq_dec ascii_dec) k (k' :: ks)) as [J|J]; try reflexivity; exfalso; [apply J; right; exact I|]. destruct J; [congruence|auto].
Qed.

Lemma dset_table {A} (f : text -> A) ks k v : NoDup ks -> In k ks -> dset (map (fun k => (k, f k)) ks) k v = map (fun k' => (k', if list_eq_dec ascii_dec k k' then v else f k')) ks.
Proof.
  induction 1 as [|k' ks N1 N2 IH]; intros H; [destruct H|]. cbn [map dset fst]. destruct (teqb k' k) eqn:E.
  - apply teqb_eq in E. subst k'. destruct (list_eq_dec ascii_dec k k); [|contradiction]. f_equal. apply map_ext_in. intros k' Hk. destruct (list_eq_dec ascii_dec k k'); [subst; contradiction|reflexivity].
  - apply teqb_neq in E. destruct (list_eq_dec ascii_dec k k'); [congruence|]. destruct H; [congruence|]. rewrite IH by assumption. reflexivity.
Qed.

Lemma list_of_snoc l a k : list_of (l ++ [a]) k = if list_eq_dec ascii_dec (lower (name a)) k then overwrite (list_of l k) (first (index a) - 1) (values_of a) else list_of l k.
Proof.
  unfold list_of. rewrite filter_app, fold_left_app. cbn [filter]. unfold about at 1. destruct (list_eq_dec ascii_dec (lower (name a)) k); reflexivity.
Qed.

Lemma list_of_other l k : ~ In k (map (fun a => lower (name a)) l) -> list_of l k = [].
Proof.
  intros H. unfold list_of. replace (filter (about k) l) with (@nil assignment); [reflexivity|]. induction l as [|a l IH]; [reflexivity|]. cbn [map In] in H. cbn [filter]. unfold about at 1.
  destruct (list_eq_dec ascii_dec (lower (name a)) k); [exfalso; apply H; left; assumption|]. apply IH. intros I. apply H. right. exact I.
Qed.

Lemma enter_all l : fold_left enter l [] = map (fun k => (k, list_of l k)) (names l).
Proof.
  induction l as [|a l IH] using rev_ind; [reflexivity|]. rewrite fold_left_app, IH. cbn [fold_left]. unfold enter. rewrite dget_table.
  set (k := lower (name a)). unfold names. rewrite map_app. cbn [map]. rewrite nodup_rev_snoc. cbv zeta. fold k. fold (names l).
  destruct (in_dec (list_eq_dec ascii_dec) k (names l)) as [I|I]; destruct (in_dec (list_eq_dec ascii_dec) k (map (fun a => lower (name a)) l)) as [J|J]; try (exfalso; rewrite names_in in I; contradiction).
  - rewrite dset_table by (try exact I; apply names_nodup). apply map_ext. intros k'. rewrite list_of_snoc. fold k. destruct (list_eq_dec ascii_dec k k') as [<-|]; reflexivity.
  - rewrite dset_new.
    + rewrite map_app. cbn [map]. f_equal.
      * apply map_ext_in. intros k' Hk'. rewrite list_of_snoc. fold k. destruct (list_eq_dec ascii_dec k k') as [<-|]; [contradiction|reflexivity].
      * rewrite list_of_snoc. fold k. destruct (list_eq_dec ascii_dec k k); [|contradiction]. rewrite (list_of_other l k J). reflexivity.
    + unfold keys. rewrite map_map. cbn [fst]. rewrite map_id. exact I.
Qed.

Lemma nth_error_repeat' {A} (x : A) : forall n i, nth_error (repeat x n) i = if i <? n then Some x else None.
Proof. induction n as [|n IH]; intros [|i]; try reflexivity. cbn [repeat nth_error]. rewrite IH. destruct (Nat.ltb_spec i n), (Nat.ltb_spec (S i) (S n)); lia || reflexivity. Qed.
Lemma nth_error_firstn' {A} (l : list A) : forall n i, nth_error (firstn n l) i = if i <? n then nth_error l i else None.
Proof.
  induction l as [|x l IH]; intros [|n] [|i]; cbn [firstn nth_error]; try reflexivity.
  - destruct (i <? n), (S i <? S n); reflexivity.
  - rewrite IH. destruct (Nat.ltb_spec i n), (Nat.ltb_spec (S i) (S n)); lia || reflexivity.
Qed.
Lemma nth_error_skipn' {A} (l : list A) : forall n i, nth_error (skipn n l) i = nth_error l (n + i).
Proof. induction l as [|x l IH]; intros [|n] i; cbn [skipn nth_error Nat.add]; try reflexivity; [destruct i; reflexivity|apply IH]. Qed.

Lemma overwrite_nth l n vs i : nth_error (overwrite l n vs) i =
  if i <? n then (if i <? length l then nth_error l i else Some VNone) else if i <? n + length vs then nth_error vs (i - n) else nth_error l i.
Proof.
  unfold overwrite. set (p := l ++ repeat VNone (n - length l)).
  assert (L : length (firstn n p) = n) by (unfold p; rewrite firstn_length, app_length, repeat_length; lia).
  destruct (Nat.ltb_spec i n).
  - rewrite nth_error_app1 by lia. rewrite nth_error_firstn'. destruct (Nat.ltb_spec i n); [|lia]. unfold p. destruct (Nat.ltb_spec i (length l)).
    + apply nth_error_app1. lia.
    + rewrite nth_error_app2, nth_error_repeat' by lia. destruct (Nat.ltb_spec (i - length l) (n - length l)); [reflexivity|lia].
  - rewrite nth_error_app2, L by lia. destruct (Nat.ltb_spec i (n + length vs)).
    + apply nth_error_app1. lia.
    + rewrite nth_error_app2, nth_error_skipn' by lia. f_equal. lia.
Qed.

Lemma overwrite_length l n vs : length (overwrite l n vs) = Nat.max (length l) (n + length vs).
Proof. unfold overwrite. rewrite !app_length, firstn_length, app_length, repeat_length, skipn_length. lia. Qed.

Lemma sets_dec k i a : {sets k i a} + {~ sets k i a}.
Proof.
  unfold sets. destruct (list_eq_dec ascii_dec (lower (name a)) k); [|right; intros [H _]; contradiction].
  destruct (le_dec (first (index a) - 1) i); [|right; intros (_ & H & _); contradiction].
  destruct (lt_dec i (first (index a) - 1 + length (values a))); [left; auto|right; intros (_ & _ & H); contradiction].
Qed.

Lemma list_of_elements l k i :
  (forall a l1 l2, l = l1 ++ a :: l2 -> sets k i a -> Forall (fun b => ~ sets k i b) l2 ->
    nth_error (list_of l k) i = nth_error (values_of a) (i - (first (index a) - 1))) /\
  (Forall (fun b => ~ sets k i b) l -> nth_error (list_of l k) i = None \/ nth_error (list_of l k) i = Some VNone) /\
  (forall a, In a l -> sets k i a -> i < length (list_of l k)).
Proof.
  assert (V : forall a, length (values_of a) = length (values a)) by (intros a; apply map_length).
  induction l as [|a l (IH1 & IH2 & IH3)] using rev_ind.
  { repeat split; [intros a [|? ?] l2 H; discriminate|left; destruct i; reflexivity|intros a []]. }
  assert (S1 : sets k i a -> nth_error (list_of (l ++ [a]) k) i = nth_error (values_of a) (i - (first (index a) - 1)) /\ i < length (list_of (l ++ [a]) k)).
  { intros (H1 & H2 & H3). rewrite list_of_snoc. destruct (list_eq_dec ascii_dec (lower (name a)) k); [|contradiction]. rewrite overwrite_length, overwrite_nth, V. split; [|lia].
    destruct (Nat.ltb_spec i (first (index a) - 1)); [lia|].
    destruct (Nat.ltb_spec i (first (index a) - 1 + length (values a))); [reflexivity|lia]. }
  assert (S2 : ~ sets k i a -> (nth_error (list_of (l ++ [a]) k) i = nth_error (list_of l k) i \/ nth_error (list_of l k) i = None /\ nth_error (list_of (l ++ [a]) k) i = Some VNone) /\ length (list_of l k) <= length (list_of (l ++ [a]) k)).
  { intros H. rewrite list_of_snoc. destruct (list_eq_dec ascii_dec (lower (name a)) k) as [E|]; [|auto]. rewrite overwrite_length, overwrite_nth, V. split; [|lia].
    destruct (Nat.ltb_spec i (first (index a) - 1)) as [B|B].
    - destruct (Nat.ltb_spec i (length (list_of l k))); [auto|]. right. split; [apply nth_error_None; lia|reflexivity].
    - destruct (Nat.ltb_spec i (first (index a) - 1 + length (values a))); [|auto]. exfalso. apply H. split; [exact E|lia]. }
  repeat split.
  - intros b l1 l2 E Hb Hl2. destruct l2 as [|c l2] using rev_ind.
    + apply app_inj_tail in E. destruct E as [<- <-]. apply S1, Hb.
    + clear IHl2. rewrite app_comm_cons, app_assoc in E. apply app_inj_tail in E. destruct E as [E <-]. apply Forall_app in Hl2. destruct Hl2 as [F1 F2]. inversion F2 as [|? ? F3 _]; subst.
      rewrite <- (IH1 b l1 l2 eq_refl Hb F1). destruct (S2 F3) as [[X|[X _]] _]; [exact X|].
      apply nth_error_None in X. pose proof (IH3 b ltac:(apply in_or_app; right; left; reflexivity) Hb). lia.
  - intros F. apply Forall_app in F. destruct F as [F1 F2]. inversion F2 as [|? ? F3 _]; subst. destruct (S2 F3) as [[X|[_ X]] _]; [rewrite X; apply IH2, F1|right; exact X].
  - intros b Hb Sb. destruct (sets_dec k i a) as [H|H]; [apply S1, H|]. apply in_app_or in Hb. destruct Hb as [Hb|[->|[]]]; [|contradiction].
    pose proof (IH3 b Hb Sb). destruct (S2 H) as [_ ?]. lia.
Qed.

(** ** Namelists *)
Definition pnl (n : nat) (x : namelist) : text := other x ++ §"&" ++ title x ++ (lay (aslay n (assignments x)) ++ final x) ++ §"/".
Definition nstrs (x : namelist) : list text := astrs (assignments x).
Fixpoint pnls (n : nat) (l : list namelist) : text := match l with [] => [] | x :: l => pnl n x ++ pnls (n + length (nstrs x)) l end.

Lemma word_not_quote t : Forall (fun c => is_word c = true) t -> unquoted t.
Proof. apply Forall_impl. intros c. apply word_unquoted. Qed.
Lemma outside_unquoted t : outside t -> unquoted t.
Proof. apply Forall_impl. intros c H. apply H. Qed.

Lemma prot_namelist x n : good_namelist x -> prot n (write_namelist x) (pnl n x) (nstrs x).
Proof.
  intros G. unfold write_namelist, pnl. apply prot_plain; [apply outside_unquoted, G|]. apply prot_plain; [repeat constructor|]. apply prot_plain; [apply word_not_quote, G|].
  rewrite <- app_assoc. rewrite <- (app_nil_r (nstrs x)). apply prot_app; [apply prot_assignments, G|]. apply prot_plain; [apply sep_unquoted, G|]. apply prot_only. repeat constructor.
Qed.
Lemma prot_namelists l : Forall good_namelist l -> forall n, prot n (flat_map write_namelist l) (pnls n l) (flat_map nstrs l).
Proof. induction 1 as [|x l Hx _ IH]; intros n; [constructor|]. cbn [flat_map pnls]. apply prot_app; [apply prot_namelist, Hx|apply IH]. Qed.

Lemma sep_slash s : separator s -> Forall (fun c => not_slash c = true) s.
Proof. apply Forall_impl. intros c H. unfold not_slash. rewrite (proj2 (Ascii.eqb_neq c "/")); [reflexivity|]. intros ->. discriminate. Qed.
Lemma lexeme_slash x : good_lexeme x -> Forall (fun c => not_slash c = true) (ltext x).
Proof.
  intros G. destruct x as [w|w b i|]; cbn [ltext]; [apply token_slash, G| |repeat constructor]. destruct G as (G1 & _ & G2).
  repeat (apply Forall_app; split); try (apply token_slash; first [exact G1|apply token_d]); try (repeat constructor). apply sep_slash. revert G2. apply Forall_impl, space_sep.
Qed.
Lemma lay_slash l : forall free, spaced free l -> Forall (fun c => not_slash c = true) (lay l).
Proof.
  induction l as [|[s x] l IH]; intros free H; [constructor|]. destruct H as (H1 & H2 & _ & H3). rewrite lay_cons. apply Forall_app. split; [apply sep_slash, H1|]. apply Forall_app. split; [apply lexeme_slash, H2|]. apply (IH _ H3).
Qed.

Lemma namelists_outside u : Forall (fun c => c <> "&"%char) u -> forall t, namelists 0 (u ++ t) = namelists 0 t.
Proof. induction 1 as [|c u Hc _ IH]; intros t; [reflexivity|]. cbn [app namelists]. rewrite (proj2 (Ascii.eqb_neq c "&") Hc). apply IH. Qed.

Lemma sep_not_word c : is_sep c = true -> is_word c = false.
Proof. destruct c as [[] [] [] [] [] [] [] []]; vm_compute; intros; congruence. Qed.

Fixpoint fcontents (n : nat) (l : list namelist) : list (text * text) :=
  match l with [] => [] | x :: l => (title x, lay (aslay n (assignments x)) ++ final x) :: fcontents (n + length (nstrs x)) l end.

Lemma content_head x n : good_namelist x -> exists c t, lay (aslay n (assignments x)) ++ final x = c :: t /\ is_sep c = true.
Proof.
  intros G. destruct (final_ok x G) as [F1 F2]. pose proof (assignments_ok x G) as A. destruct A as [|a l Ha _].
  - destruct F2 as [|F2]; [congruence|]. destruct F1 as [|c f Hc _]; [congruence|]. exists c, f. auto.
  - destruct (lead_ok a Ha) as [L1 L2]. cbn [aslay]. rewrite lay_app. unfold alay. rewrite lay_cons. destruct L1 as [|c f Hc _]; [congruence|]. eexists c, _. split; [reflexivity|exact Hc].
Qed.

Lemma namelists_free l tail : Forall good_namelist l -> outside tail -> forall n, namelists 0 (pnls n l ++ tail) = fcontents n l.
Proof.
  intros Hl Ht. induction Hl as [|x l Hx _ IH]; intros n; cbn [pnls fcontents app].
  - apply namelists_none. revert Ht. apply Forall_impl. intros c H. apply H.
  - unfold pnl. rewrite <- !app_assoc. rewrite namelists_outside by (generalize (other_ok x Hx); apply Forall_impl; intros c H; apply H).
    set (rest := pnls (n + length (nstrs x)) l ++ tail). rewrite (app_assoc (lay _)). destruct (content_head x n Hx) as (c & t & EC & Hc).
    assert (HS : Forall (fun c => not_slash c = true) (lay (aslay n (assignments x)) ++ final x)).
    { apply Forall_app. split; [apply (lay_slash _ false), spaced_assignments, Hx|apply sep_slash, Hx]. }
    rewrite EC in *. cbn [app str list_ascii_of_string]. cbn [namelists]. rewrite Ascii.eqb_refl. unfold match_namelist. destruct (title_ok x Hx) as [T0 T].
    rewrite (span_app is_word (title x) (c :: t ++ "/"%char :: rest) T) by (apply sep_not_word, Hc).
    destruct (title x) as [|a u] eqn:ET; [congruence|]. apply Forall_cons_iff in HS as [_ HS].
    rewrite (span_app not_slash t ("/"%char :: rest) HS eq_refl). f_equal.
    replace (length (a :: u) + length (c :: t) + 1) with (length ((a :: u) ++ c :: t ++ ["/"%char])) by (rewrite !app_length; cbn [length]; rewrite app_length; cbn [length]; lia).
    replace ((a :: u) ++ c :: t ++ "/"%char :: rest) with (((a :: u) ++ c :: t ++ ["/"%char]) ++ rest) by (rewrite <- app_assoc; cbn [app]; rewrite <- app_assoc; reflexivity).
    rewrite namelists_skip. apply IH.
Qed.

(** ** No comments *)
Definition uncommented (t : text) : Prop := Forall (fun c => c <> "!"%char) t.
Lemma sep_uncommented s : separator s -> uncommented s.
Proof. apply Forall_impl. intros c H ->. discriminate. Qed.
Lemma raw_uncommented v : good_written v -> uncommented (raw v).
Proof.
  destruct v as [t|q s]; cbn [good_written raw]; intros H; [apply token_not_comment, H|]. destruct H as (H1 & _ & H2). assert (Q : q <> "!"%char) by (intros ->; discriminate).
  constructor; [exact Q|]. apply Forall_app. split; [|repeat constructor; exact Q]. revert H2. apply Forall_impl. intros c H. apply H.
Qed.
Lemma values_uncommented vs : Forall (fun v => separator (fst v) /\ good_written (snd v)) vs -> uncommented (flat_map (fun v => fst v ++ raw (snd v)) vs).
Proof.
  induction 1 as [|[s v] vs [Hs Hv] _ IH]; [constructor|]. cbn [flat_map fst snd]. apply Forall_app. split; [|exact IH]. apply Forall_app. split; [apply sep_uncommented, Hs|apply raw_uncommented, Hv].
Qed.
Lemma lexeme_uncommented x : good_lexeme x -> uncommented (ltext x).
Proof.
  intros G. destruct x as [w|w b i|]; cbn [ltext]; [apply token_not_comment, G| |repeat constructor; discriminate]. destruct G as (G1 & _ & G2).
  repeat (apply Forall_app; split); try (apply token_not_comment; first [exact G1|apply token_d]); try (repeat constructor; discriminate). apply sep_uncommented. revert G2. apply Forall_impl, space_sep.
Qed.
Lemma assignment_uncommented a : good_assignment a -> uncommented (write_assignment a).
Proof.
  intros G. unfold write_assignment. rewrite (app_assoc (name a)), key_text. apply Forall_app. split; [apply sep_uncommented, G|]. apply Forall_app. split; [apply lexeme_uncommented, good_key_of, G|].
  apply Forall_app. split; [apply sep_uncommented, G|]. apply Forall_app. split; [repeat constructor; discriminate|]. apply values_uncommented, G.
Qed.
Lemma namelist_uncommented x : good_namelist x -> uncommented (write_namelist x).
Proof.
  intros G. unfold write_namelist. apply Forall_app. split; [generalize (other_ok x G); apply Forall_impl; intros c H; apply H|]. apply Forall_app. split; [repeat constructor; discriminate|].
  apply Forall_app. split; [apply word_not_comment, G|]. apply Forall_app. split; [|apply Forall_app; split; [apply sep_uncommented, G|repeat constructor; discriminate]].
  apply Forall_flat_map. generalize (assignments_ok x G). apply Forall_impl, assignment_uncommented.
Qed.

(** ** Whole files *)
Lemma dset_all l : forall d : dict (dict NmlModel.value), NoDup (map (fun x => lower (title x)) l) -> (forall x, In x l -> ~ In (lower (title x)) (keys d)) ->
  fold_left (fun d x => dset d (lower (title x)) (snd (meaning x))) l d = d ++ map meaning l.
Proof.
  induction l as [|x l IH]; intros d ND H; cbn [fold_left map]; [rewrite app_nil_r; reflexivity|]. inversion ND as [|y z N1 N2]; subst.
  rewrite dset_new by (apply H; left; reflexivity). rewrite IH; [rewrite <- app_assoc; reflexivity|exact N2|].
  intros y Hy. unfold keys. rewrite map_app, in_app_iff. cbn [map fst In]. intros [K|[K|[]]]; [exact (H y (or_intror Hy) K)|]. apply N1. rewrite K. apply in_map_iff. exists y. auto.
Qed.

Lemma read_all_free l : Forall good_namelist l -> forall g g1 g2 data, g = g1 ++ flat_map nstrs l ++ g2 ->
  read_all g (fcontents (length g1) l) data = Ok (fold_left (fun d x => dset d (lower (title x)) (snd (meaning x))) l data).
Proof.
  induction 1 as [|x l Hx _ IH]; intros g g1 g2 data EG; [reflexivity|]. cbn [fcontents read_all fold_left]. unfold read_content, items.
  cbn [flat_map] in EG. rewrite <- app_assoc in EG.
  rewrite (items_layout _ (final x) (proj1 (final_ok x Hx)) false) by (apply spaced_assignments, Hx).
  rewrite (parse_assignments (assignments x) (assignments_ok x Hx) g g1 (flat_map nstrs l ++ g2) None []) by exact EG. rewrite enter_all.
  cbn [bind app]. rewrite map_map. cbn [fst snd]. rewrite <- app_length. rewrite (IH g (g1 ++ nstrs x) g2) by (rewrite <- app_assoc; exact EG).
  reflexivity.
Qed.

Theorem read_free l tail : Forall good_namelist l -> outside tail -> NoDup (map (fun x => lower (title x)) l) ->
  read_namelists (flat_map write_namelist l ++ tail) = Ok (map meaning l).
Proof.
  intros Hl Ht ND. unfold read_namelists. rewrite uncomment_id.
  2: { apply Forall_app. split; [apply Forall_flat_map; revert Hl; apply Forall_impl, namelist_uncommented|]. revert Ht. apply Forall_impl. intros c H. apply H. }
  assert (P : prot 0 (flat_map write_namelist l ++ tail) (pnls 0 l ++ tail) (flat_map nstrs l)).
  { rewrite <- (app_nil_r (flat_map nstrs l)). apply prot_app; [apply prot_namelists, Hl|apply prot_only, outside_unquoted, Ht]. }
  rewrite (prot_protect _ _ _ P). rewrite namelists_free by assumption. rewrite (read_all_free l Hl (flat_map nstrs l) [] []) by (rewrite app_nil_r; reflexivity).
  f_equal. apply (dset_all l []); [exact ND|intros x _ []].
Qed.

(** ** Values *)
Lemma has_lower_t t : has (§"Tt") t = has (§"t") (lower t).
Proof. unfold has, lower. induction t as [|c t IH]; [reflexivity|]. cbn [map existsb]. rewrite IH. f_equal. destruct c as [[] [] [] [] [] [] [] []]; reflexivity. Qed.
Lemma has_lower_f t : has (§"Ff") t = has (§"f") (lower t).
Proof. unfold has, lower. induction t as [|c t IH]; [reflexivity|]. cbn [map existsb]. rewrite IH. f_equal. destruct c as [[] [] [] [] [] [] [] []]; reflexivity. Qed.
Lemma quoted_lower t : quoted t = quoted (lower t).
Proof.
  assert (Q : forall c, is_quote (if is_upper c then ascii_of_nat (nat_of_ascii c + 32) else c) = is_quote c) by (intros [[] [] [] [] [] [] [] []]; reflexivity).
  destruct t as [|c t]; [reflexivity|]. unfold lower. cbn [map quoted]. rewrite Q, <- map_rev. destruct (is_quote c) eqn:E1; [|reflexivity]. cbn [andb].
  f_equal.
  - destruct (rev t) as [|d u]; [reflexivity|]. cbn [map]. clear - E1. destruct c as [[] [] [] [] [] [] [] []]; try discriminate; destruct d as [[] [] [] [] [] [] [] []]; reflexivity.
  - cbn [forallb]. f_equal; [clear; destruct c as [[] [] [] [] [] [] [] []]; reflexivity|]. clear. induction t as [|d t IH]; [reflexivity|]. cbn [map forallb]. rewrite IH. f_equal. destruct d as [[] [] [] [] [] [] [] []]; reflexivity.
Qed.
Lemma convert_true t : In (lower t) (map str logical_true) -> convert t = VBool true.
Proof.
  intros H. unfold convert. rewrite quoted_lower, has_lower_t. cbn [logical_true map In] in H. repeat destruct H as [<-|H]; try reflexivity. destruct H.
Qed.
Lemma convert_false t : In (lower t) (map str logical_false) -> convert t = VBool false.
Proof.
  intros H. unfold convert. rewrite quoted_lower, has_lower_t, has_lower_f. cbn [logical_false map In] in H. repeat destruct H as [<-|H]; try reflexivity. destruct H.
Qed.
Lemma convert_int z : convert (fmt_d z) = VInt z.
Proof. apply (convert_repr (fun _ => []) (VInt z) Logic.I eq_refl). Qed.

Lemma scan_stop t c u : Forall (fun x => digit x <> None \/ In x (§"+-.")) t -> digit c = None -> forall v k, snd (scan v k (t ++ c :: u)) <> [].
Proof.
  intros H Hc. induction H as [|x t Hx _ IH]; intros v k; cbn [app scan]; [rewrite Hc; discriminate|]. destruct (digit x); [apply IH|discriminate].
Qed.

Lemma numeric_char c : digit c <> None \/ In c (§"+-.") -> is_space c = false /\ plain_char c = true /\ ~ In c (§"TtFfdDE").
Proof. destruct c as [[] [] [] [] [] [] [] []]; vm_compute; intros H; (repeat split; [intuition congruence..]) || (exfalso; intuition congruence). Qed.

Lemma convert_real a c b x : numeric a -> numeric b -> In c (§"deDE") -> to_float (a ++ "e"%char :: b) = Ok x -> convert (a ++ c :: b) = VFloat x.
Proof.
  intros Ha Hb Hc HF.
  assert (C : is_space c = false /\ plain_char c = true /\ ~ In c (§"TtFf") /\ digit c = None /\ Ascii.eqb c "-" = false /\ Ascii.eqb c "+" = false).
  { cbn in Hc. destruct Hc as [<-|[<-|[<-|[<-|[]]]]]; repeat split; try reflexivity; cbn; intuition discriminate. }
  destruct C as (C1 & C2 & C3 & C4 & C5 & C6).
  assert (A1 : forall u, numeric u -> Forall (fun y => is_space y = false /\ plain_char y = true /\ ~ In y (§"TtFfdDE")) u) by (intros u; apply Forall_impl, numeric_char).
  assert (T : token_ok (a ++ c :: b)).
  { split; [destruct a; discriminate|]. apply Forall_app. split; [|constructor; [exact C2|]]; eapply Forall_impl; try (apply A1; eassumption); intros y Hy; apply Hy. }
  assert (HN : forall cs, incl cs (§"TtFf") -> has cs (a ++ c :: b) = false).
  { intros cs I. apply has_none. apply Forall_app. split; [|constructor; [intros K; apply C3, I, K|]]; (eapply Forall_impl; [|apply A1; eassumption]); intros y (_ & _ & Hy) K; apply Hy; apply I in K; cbn in K |- *; tauto. }
  unfold convert. rewrite quoted_token by exact T. rewrite !HN by (intros y Hy; cbn in Hy |- *; tauto).
  assert (W : word (a ++ c :: b)) by (split; [apply T|apply token_nospace, T]).
  assert (R : to_int (a ++ c :: b) = Raise ValueError).
  { unfold to_int. pose proof (strip_word [] _ [] ltac:(constructor) W ltac:(constructor)) as ES. cbn [app] in ES. rewrite app_nil_r in ES. rewrite ES.
    assert (SG : exists s a', numeric a' /\ sign (a ++ c :: b) = (s, a' ++ c :: b)).
    { unfold sign. destruct a as [|y a]; cbn [app].
      - rewrite C5, C6. exists 1%Z, []. split; [constructor|reflexivity].
      - apply Forall_cons_iff in Ha as [Hy Ha]. destruct (Ascii.eqb y "-"); [exists (-1)%Z, a; auto|]. destruct (Ascii.eqb y "+"); [exists 1%Z, a; auto|]. exists 1%Z, (y :: a). split; [constructor; assumption|reflexivity]. }
    destruct SG as (s & a' & Ha' & ->). pose proof (scan_stop a' c b Ha' C4 0%Z 0) as NS. destruct (scan 0 0 (a' ++ c :: b)) as [[v k] r]. cbn [snd] in NS. destruct k, r; congruence. }
  rewrite R. replace (exponent (a ++ c :: b)) with (a ++ "e"%char :: b); [rewrite HF; reflexivity|].
  assert (X : forall u, numeric u -> exponent u = u).
  { intros u Hu. unfold exponent. rewrite <- (map_id u) at 2. apply map_ext_in. intros y Hy. apply A1 in Hu. rewrite Forall_forall in Hu. destruct (Hu y Hy) as (_ & _ & K).
    rewrite has_none; [reflexivity|]. repeat constructor. intros K'. apply K. cbn in K' |- *. tauto. }
  unfold exponent. rewrite map_app. cbn [map]. fold (exponent a). fold (exponent b). rewrite (X a Ha), (X b Hb). do 2 f_equal.
  cbn in Hc. destruct Hc as [<-|[<-|[<-|[<-|[]]]]]; reflexivity.
Qed.
