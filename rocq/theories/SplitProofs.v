(** Proofs about expressions with brackets. *)
From Verif Require Import TextProofs SplitModel SplitSpec.
Local Open Scope nat_scope.

Section Delimiters.
Variable sd od cd : ascii.
Hypothesis D : delimiters sd od cd.
Local Notation bracket := (bracket od cd).
Local Notation good := (good sd od cd).
Local Notation goods := (goods sd od cd).

(** ** Partially packed expressions; [k] brackets are left *)
Inductive rep (G : list text) : text -> list tree -> nat -> Prop :=
| rep_nil : rep G [] [] 0
| rep_lit t s l k : rep G s l k -> rep G (t ++ s) (Lit t :: l) k
| rep_ref n body alts s l k : nth_error G n = Some body -> bod G body alts 0 -> rep G s l k -> rep G (reference n ++ s) (Alt alts :: l) k
| rep_br body alts j s l k : bod G body alts j -> rep G s l k -> rep G (od :: body ++ cd :: s) (Alt alts :: l) (S (j + k))
with bod (G : list text) : text -> list alternative -> nat -> Prop :=
| bod_one a s l b k : rep G s l k -> bod G (a ++ s ++ b) [(a, l, b)] k
| bod_cons a s l b k t alts j : rep G s l k -> bod G t alts j -> bod G ((a ++ s ++ b) ++ sd :: t) ((a, l, b) :: alts) (k + j).
Scheme rep_mut := Induction for rep Sort Prop with bod_mut := Induction for bod Sort Prop.

Lemma rep_mono G X : forall s l k, rep G s l k -> rep (G ++ X) s l k.
Proof using Type.
  clear. apply (rep_mut G (fun s l k _ => rep (G ++ X) s l k) (fun s l k _ => bod (G ++ X) s l k)); intros; try (econstructor; eauto; fail).
  econstructor; eauto. rewrite nth_error_app1; [assumption|]. apply nth_error_Some. congruence.
Qed.
Lemma bod_mono G X : forall s l k, bod G s l k -> bod (G ++ X) s l k.
Proof using Type.
  clear. apply (bod_mut G (fun s l k _ => rep (G ++ X) s l k) (fun s l k _ => bod (G ++ X) s l k)); intros; try (econstructor; eauto; fail).
  econstructor; eauto. rewrite nth_error_app1; [assumption|]. apply nth_error_Some. congruence.
Qed.

(** ** Characters *)
Lemma digit_none c z : digit c = None -> (0 <= z)%Z -> Forall (fun d => d <> c) (fmt_d z).
Proof using Type.
  clear. intros H Hz. unfold fmt_d. destruct (Z.ltb_spec z 0); [lia|]. apply nonneg_all; [|exact Hz]. intros d Hd E. subst c. rewrite digit_chr in H by lia. discriminate.
Qed.

Definition plain (t : text) : Prop := Forall (fun c => bracket c = false) t.
Lemma not_bracket c : c <> od -> c <> cd -> bracket c = false.
Proof using Type. clear. intros H1 H2. unfold bracket. apply Ascii.eqb_neq in H1. apply Ascii.eqb_neq in H2. rewrite H1, H2. reflexivity. Qed.
Lemma plain_reference n : plain (reference n).
Proof using D.
  destruct D as (_ & _ & _ & F & _). apply Forall_cons_iff in F as [(_ & Do & O1 & O2 & _) F]. apply Forall_cons_iff in F as [(_ & Dc & C1 & C2 & _) _].
  unfold reference. apply Forall_app. split; [repeat constructor; apply not_bracket; congruence|]. apply Forall_app. split; [|repeat constructor; apply not_bracket; congruence].
  pose proof (digit_none od (Z.of_nat n) Do ltac:(lia)) as A. pose proof (digit_none cd (Z.of_nat n) Dc ltac:(lia)) as B. apply Forall_forall. intros c Hc. rewrite Forall_forall in A, B. apply not_bracket; [apply A, Hc|apply B, Hc].
Qed.
Lemma plain_literal t : literal sd od cd t -> plain t.
Proof using Type. clear. apply Forall_impl. intros c (_ & H1 & H2 & _). apply not_bracket; assumption. Qed.
Lemma plain_padding t : padding sd t -> plain t.
Proof using D.
  destruct D as (_ & _ & _ & F & _). apply Forall_cons_iff in F as [(So & _) F]. apply Forall_cons_iff in F as [(Sc & _) _]. apply Forall_impl. intros c [S _]. apply not_bracket; congruence.
Qed.
Lemma sd_plain : bracket sd = false.
Proof using D. destruct D as (H1 & H2 & _). apply not_bracket; assumption. Qed.

(** The first bracket in a partially packed expression *)
Definition opens (t : text) (k : nat) : Prop := match k with O => plain t | S _ => exists p q, plain p /\ t = p ++ od :: q end.
Lemma opens_app s t k j : opens s k -> opens t j -> opens (s ++ t) (k + j).
Proof using Type.
  clear. intros Hs Ht. destruct k as [|k]; [|destruct Hs as (p & q & Hp & ->); exists p, (q ++ t); split; [exact Hp|rewrite <- app_assoc; reflexivity]].
  cbn [Nat.add]. destruct j as [|j]; [apply Forall_app; split; assumption|]. destruct Ht as (p & q & Hp & ->). exists (s ++ p), q. split; [apply Forall_app; split; assumption|rewrite <- app_assoc; reflexivity].
Qed.
Lemma opens_plain s t k : plain s -> opens t k -> opens (s ++ t) k.
Proof using Type. exact (opens_app s t 0 k). Qed.

Lemma rep_opens G : (forall s l k, rep G s l k -> good l -> opens s k) /\ (forall s l k, bod G s l k -> goods l -> opens s k).
Proof using D.
  split; [apply (rep_mut G (fun s l k _ => good l -> opens s k) (fun s l k _ => goods l -> opens s k))|apply (bod_mut G (fun s l k _ => good l -> opens s k) (fun s l k _ => goods l -> opens s k))].
  1, 7: intros _; constructor.
  1, 6: intros t s l k _ IH H; inversion H; subst; apply opens_plain; [apply plain_literal; assumption|auto].
  1, 5: intros n body alts s l k _ _ _ _ IH H; inversion H; subst; apply opens_plain; [apply plain_reference|auto].
  1, 4: intros body alts j s l k _ _ _ _ _; exists [], (body ++ cd :: s); split; [constructor|reflexivity].
  1, 3: intros a s l b k _ IH H; inversion H; subst; apply opens_plain; [apply plain_padding; assumption|]; rewrite <- (Nat.add_0_r k); apply (opens_app _ _ k 0); [auto|apply plain_padding; assumption].
  all: intros a s l b k t alts j _ IH _ IH' H; inversion H; subst; apply opens_app; [|apply (opens_plain [sd]); [repeat constructor; apply sd_plain|auto]]; apply opens_plain; [apply plain_padding; assumption|]; rewrite <- (Nat.add_0_r k); apply (opens_app _ _ k 0); [auto|apply plain_padding; assumption].
Qed.

(** ** One pass *)
Lemma run_plain p : plain p -> forall c q, bracket c = true -> run od cd (p ++ c :: q) = (p, c :: q).
Proof using Type. clear. intros H c q Hc. induction H as [|d p Hd _ IH]; cbn [app run]; [rewrite Hc; reflexivity|]. rewrite Hd, IH. reflexivity. Qed.

Lemma run_length t : forall p q, run od cd t = (p, q) -> length p + length q = length t.
Proof using Type. clear. induction t as [|c t IH]; intros p q E; cbn in E; [injection E as <- <-; reflexivity|]. destruct (bracket c); [injection E as <- <-; reflexivity|]. destruct (run od cd t) as [p' q']. injection E as <- <-. specialize (IH p' q' eq_refl). cbn [length]. lia. Qed.
Lemma match_length t p q : match_at od cd t = Some (p, q) -> length q < length t.
Proof using Type.
  clear. destruct t as [|c t]; [discriminate|]. cbn [match_at]. destruct (Ascii.eqb c od); [|discriminate]. destruct (run od cd t) as [p' [|d q']] eqn:E; [discriminate|]. destruct (Ascii.eqb d cd); [|discriminate]. intros H. injection H as <- <-. apply run_length in E. cbn [length] in *. lia.
Qed.

Lemma subn_fuel : forall f t G, length t <= f -> subn od cd f G t = subn od cd (length t) G t.
Proof using Type.
  clear. induction f as [f IH] using lt_wf_ind. intros t G H. destruct t as [|c t]; [destruct f; reflexivity|]. destruct f as [|f]; [cbn in H; lia|]. cbn [length subn]. cbn [length] in H.
  destruct (match_at od cd (c :: t)) as [[p q]|] eqn:E.
  - pose proof (match_length _ _ _ E) as L. cbn [length] in L. rewrite (IH f ltac:(lia) q _ ltac:(lia)). destruct (Nat.eq_dec (length t) f) as [->|N]; [rewrite (IH f ltac:(lia) q) by lia; reflexivity|]. rewrite (IH (length t) ltac:(lia) q) by lia. reflexivity.
  - rewrite (IH f ltac:(lia) t _ ltac:(lia)). reflexivity.
Qed.

Lemma replace_match G t p q : match_at od cd t = Some (p, q) -> replace_groups od cd G t = (reference (length G) ++ fst (replace_groups od cd (G ++ [p]) q), snd (replace_groups od cd (G ++ [p]) q)).
Proof using Type.
  clear. intros E. pose proof (match_length _ _ _ E) as L. unfold replace_groups. destruct t as [|c t]; [discriminate|]. cbn [length subn] in *. rewrite E, (subn_fuel (length t) q) by lia. destruct (subn od cd (length q) (G ++ [p]) q). reflexivity.
Qed.
Lemma replace_none G c t : match_at od cd (c :: t) = None -> replace_groups od cd G (c :: t) = (c :: fst (replace_groups od cd G t), snd (replace_groups od cd G t)).
Proof using Type. clear. intros E. unfold replace_groups. cbn [length subn]. rewrite E. destruct (subn od cd (length t) G t). reflexivity. Qed.

Lemma replace_plain G p t : Forall (fun c => c <> od) p -> replace_groups od cd G (p ++ t) = (p ++ fst (replace_groups od cd G t), snd (replace_groups od cd G t)).
Proof using Type.
  clear. intros H. induction H as [|c p Hc _ IH]; cbn [app]; [destruct (replace_groups od cd G t); reflexivity|]. rewrite replace_none by (cbn [match_at]; apply Ascii.eqb_neq in Hc; rewrite Hc; reflexivity). rewrite IH. reflexivity.
Qed.
Lemma plain_od p : plain p -> Forall (fun c => c <> od) p.
Proof using Type. clear. apply Forall_impl. intros c H E. subst c. unfold bracket in H. rewrite Ascii.eqb_refl in H. discriminate. Qed.

Lemma rep_nil_inv G s k : rep G s [] k -> s = [] /\ k = 0.
Proof using Type. clear. intros H. inversion H. auto. Qed.

(** [k] brackets become [k'] brackets *)
Definition fewer (k k' : nat) (Y : list text) : Prop := k' <= k /\ (k <> 0 -> k' < k /\ Y <> []) /\ (k = 0 -> Y = []).
Lemma fewer_app k k' Y j j' Z : fewer k k' Y -> fewer j j' Z -> fewer (k + j) (k' + j') (Y ++ Z).
Proof using Type.
  clear. intros (A1 & A2 & A3) (B1 & B2 & B3). split; [lia|]. split.
  - intros H. destruct (Nat.eq_dec k 0) as [->|N]; [destruct (B2 ltac:(lia)) as [C1 C2]; split; [lia|]; intros E; apply app_eq_nil in E; tauto|]. destruct (A2 N) as [C1 C2]. split; [lia|]. intros E. apply app_eq_nil in E. tauto.
  - intros H. rewrite A3, B3 by lia. reflexivity.
Qed.

Lemma pass G : forall s l k, rep G s l k -> good l ->
  forall X rest, exists s' k' Y, replace_groups od cd (G ++ X) (s ++ rest) = (s' ++ fst (replace_groups od cd (G ++ X ++ Y) rest), snd (replace_groups od cd (G ++ X ++ Y) rest)) /\ rep (G ++ X ++ Y) s' l k' /\ fewer k k' Y.
Proof using D.
  set (P := fun s l k => good l -> forall X rest, exists s' k' Y, replace_groups od cd (G ++ X) (s ++ rest) = (s' ++ fst (replace_groups od cd (G ++ X ++ Y) rest), snd (replace_groups od cd (G ++ X ++ Y) rest)) /\ rep (G ++ X ++ Y) s' l k' /\ fewer k k' Y).
  set (Q := fun s l k => goods l -> forall X rest, exists s' k' Y, replace_groups od cd (G ++ X) (s ++ rest) = (s' ++ fst (replace_groups od cd (G ++ X ++ Y) rest), snd (replace_groups od cd (G ++ X ++ Y) rest)) /\ bod (G ++ X ++ Y) s' l k' /\ fewer k k' Y).
  intros s l k H. revert s l k H. apply (rep_mut G (fun s l k _ => P s l k) (fun s l k _ => Q s l k)).
  - intros _ X rest. exists [], 0, []. rewrite app_nil_r. split; [cbn [app]; destruct (replace_groups od cd (G ++ X) rest); reflexivity|]. split; [constructor|]. split; [lia|]. split; [congruence|reflexivity].
  - intros t s l k _ IH Hg X rest. inversion Hg; subst. destruct (IH H2 X rest) as (s' & k' & Y & E & R & F). exists (t ++ s'), k', Y. split; [|split; [constructor; exact R|exact F]].
    rewrite <- app_assoc, replace_plain by (apply plain_od, plain_literal; assumption). rewrite E. cbn [fst snd]. rewrite <- app_assoc. reflexivity.
  - intros n body alts s l k En B _ _ IH Hg X rest. inversion Hg; subst. destruct (IH H3 X rest) as (s' & k' & Y & E & R & F). exists (reference n ++ s'), k', Y. split; [|split; [|exact F]].
    + rewrite <- app_assoc, replace_plain by (apply plain_od, plain_reference). rewrite E. cbn [fst snd]. rewrite <- app_assoc. reflexivity.
    + apply (rep_ref _ n body); [rewrite nth_error_app1; [exact En|apply nth_error_Some; congruence]|apply bod_mono; exact B|exact R].
  - intros body alts j s l k B IHB _ IH Hg X rest. inversion Hg; subst. change ((od :: body ++ cd :: s) ++ rest) with (od :: (body ++ cd :: s) ++ rest). rewrite <- app_assoc. cbn [app].
    pose proof (proj2 (rep_opens G) _ _ _ B H2) as O. assert (Bc : bracket cd = true) by (unfold bracket; rewrite Ascii.eqb_refl, orb_true_r; reflexivity). assert (Bo : bracket od = true) by (unfold bracket; rewrite Ascii.eqb_refl; reflexivity).
    destruct j as [|j].
    + assert (M : match_at od cd (od :: body ++ cd :: s ++ rest) = Some (body, s ++ rest)).
      { cbn [match_at]. rewrite Ascii.eqb_refl, (run_plain body O cd _ Bc), Ascii.eqb_refl. reflexivity. }
      rewrite (replace_match _ _ _ _ M). rewrite <- app_assoc. destruct (IH H3 (X ++ [body]) rest) as (s' & k' & Y & E & R & F). rewrite E. cbn [fst snd]. exists (reference (length (G ++ X)) ++ s'), k', (body :: Y).
      replace (G ++ X ++ body :: Y) with (G ++ (X ++ [body]) ++ Y) by (rewrite <- !app_assoc; reflexivity). split; [rewrite <- !app_assoc; reflexivity|]. split.
      * apply (rep_ref _ _ body); [|apply bod_mono; exact B|exact R]. rewrite <- app_assoc, app_assoc, nth_error_app2, Nat.sub_diag by lia. reflexivity.
      * destruct F as (F1 & F2 & F3). split; [lia|]. split; [intros _; split; [lia|discriminate]|lia].
    + destruct O as (p & q & Hp & ->). assert (M : match_at od cd (od :: (p ++ od :: q) ++ cd :: s ++ rest) = None).
      { cbn [match_at]. rewrite Ascii.eqb_refl, <- app_assoc. cbn [app]. rewrite (run_plain p Hp od _ Bo). assert (Eb : Ascii.eqb od cd = false) by (apply Ascii.eqb_neq; destruct D as (_ & _ & NE & _); exact NE). rewrite Eb. reflexivity. }
      rewrite (replace_none _ _ _ M). destruct (IHB H2 X (cd :: s ++ rest)) as (b' & j' & Y & E & R & F). rewrite E. cbn [fst snd].
      rewrite replace_none by (cbn [match_at]; assert (Eb : Ascii.eqb cd od = false) by (apply Ascii.eqb_neq; destruct D as (_ & _ & NE & _); congruence); rewrite Eb; reflexivity). cbn [fst snd].
      destruct (IH H3 (X ++ Y) rest) as (s' & k' & Z & E' & R' & F'). rewrite <- app_assoc in E'. rewrite E'. cbn [fst snd]. exists (od :: b' ++ cd :: s'), (S (j' + k')), (Y ++ Z).
      split; [cbn [app]; repeat (rewrite <- app_assoc || cbn [app]); reflexivity|]. rewrite <- app_assoc in R'. split.
      * apply rep_br; [|exact R']. replace (G ++ X ++ Y ++ Z) with ((G ++ X ++ Y) ++ Z) by (rewrite <- !app_assoc; reflexivity). apply bod_mono, R.
      * pose proof (fewer_app _ _ _ _ _ _ F F') as (A1 & A2 & A3). split; [lia|]. split; [intros _; destruct (A2 ltac:(lia)); split; [lia|assumption]|lia].
  - intros a s l b k _ IH Hg X rest. inversion Hg; subst. destruct (IH H6 X (b ++ rest)) as (s' & k' & Y & E & R & F). exists (a ++ s' ++ b), k', Y. split; [|split; [constructor; exact R|exact F]].
    rewrite <- !app_assoc, replace_plain by (apply plain_od, plain_padding; assumption). rewrite E. cbn [fst snd]. rewrite replace_plain by (apply plain_od, plain_padding; assumption). cbn [fst snd]. reflexivity.
  - intros a s l b k t alts j _ IH _ IH' Hg X rest. inversion Hg; subst. destruct (IH H6 X (b ++ sd :: t ++ rest)) as (s' & k' & Y & E & R & F). destruct (IH' H7 (X ++ Y) rest) as (t' & j' & Z & E' & R' & F'). exists ((a ++ s' ++ b) ++ sd :: t'), (k' + j'), (Y ++ Z).
    rewrite <- app_assoc in E', R'. split; [|split; [|apply fewer_app; assumption]].
    + rewrite <- !app_assoc. cbn [app]. rewrite replace_plain by (apply plain_od, plain_padding; assumption). rewrite E. cbn [fst snd]. rewrite replace_plain by (apply plain_od, plain_padding; assumption). cbn [fst snd].
      change (sd :: t ++ rest) with ([sd] ++ t ++ rest). rewrite (replace_plain _ [sd]) by (apply plain_od; repeat constructor; apply sd_plain). cbn [fst snd]. rewrite E'. cbn [fst snd app]. repeat (rewrite <- app_assoc || cbn [app]). reflexivity.
    + constructor; [|exact R']. replace (G ++ X ++ Y ++ Z) with ((G ++ X ++ Y) ++ Z) by (rewrite <- !app_assoc; reflexivity). apply rep_mono, R.
Qed.

Lemma pass_all : forall k fuel G s l, rep G s l k -> good l -> k < fuel -> exists s' G', pack_all od cd fuel G s = (s', G') /\ rep G' s' l 0.
Proof using D.
  induction k as [k IH] using lt_wf_ind. intros fuel G s l R Hg Hf. destruct fuel as [|fuel]; [lia|]. cbn [pack_all].
  destruct (pass G s l k R Hg [] []) as (s' & k' & Y & E & R' & F). assert (Z : forall X, replace_groups od cd X [] = ([], X)) by reflexivity. rewrite !Z in E. cbn [app fst snd] in E, R'. rewrite !app_nil_r in E. rewrite E.
  destruct F as (F1 & F2 & F3). destruct (Nat.eq_dec k 0) as [->|N].
  - rewrite F3, app_nil_r in * by reflexivity. rewrite Nat.eqb_refl. exists s', G. split; [reflexivity|]. replace 0 with k' by lia. exact R'.
  - destruct (F2 N) as [L NE]. destruct (Nat.eqb_spec (length (G ++ Y)) (length G)) as [El|_]; [rewrite app_length in El; destruct Y; [congruence|cbn in El; lia]|]. apply (IH k' L fuel); [exact R'|exact Hg|lia].
Qed.

(** ** The written expression *)
Fixpoint brackets (x : tree) : nat :=
  match x with Lit _ => 0 | Alt alts => S (list_sum (map (fun alt => match alt with (_, l, _) => list_sum (map brackets l) end) alts)) end.

Lemma write_rep : (forall l, good l -> exists k, rep [] (concat (map (write sd od cd) l)) l k /\ k <= length (concat (map (write sd od cd) l))) /\
  (forall alts, goods alts -> alts <> [] -> exists k, bod [] (write_alternatives sd od cd alts) alts k /\ k <= length (write_alternatives sd od cd alts)).
Proof using Type.
  clear. assert (Sch := good_ind). clear Sch.
  assert (H : forall n, (forall l, good l -> length (concat (map (write sd od cd) l)) <= n -> True) ) by auto. clear H.
  set (P := fun l => exists k, rep [] (concat (map (write sd od cd) l)) l k /\ k <= length (concat (map (write sd od cd) l))).
  set (Q := fun alts : list alternative => alts <> [] -> exists k, bod [] (write_alternatives sd od cd alts) alts k /\ k <= length (write_alternatives sd od cd alts)).
  assert (Pnil : P []) by (exists 0; split; [constructor|lia]).
  assert (Plit : forall t l, literal sd od cd t -> good l -> P l -> P (Lit t :: l)).
  { intros t l _ _ (k & R & L). exists k. cbn [map concat write]. split; [constructor; exact R|]. rewrite app_length. lia. }
  assert (Palt : forall alts l, alts <> [] -> goods alts -> Q alts -> good l -> P l -> P (Alt alts :: l)).
  { intros alts l NE _ HQ _ (k & R & L). destruct (HQ NE) as (j & B & Lj). exists (S (j + k)). cbn [map concat write]. fold (write_alternatives sd od cd alts). cbn [app]. rewrite <- app_assoc. cbn [app]. split; [constructor; assumption|]. cbn [length]. rewrite app_length. cbn [length]. lia. }
  assert (Qnil : Q []) by (intros C; congruence).
  assert (Qcons : forall a l b alts, padding sd a -> padding sd b -> trimmed l -> good l -> P l -> goods alts -> Q alts -> Q ((a, l, b) :: alts)).
  { intros a l b alts _ _ _ _ (k & R & L) _ HQ _. destruct alts as [|alt alts].
    - exists k. unfold write_alternatives. cbn [map join_with]. split; [constructor; exact R|]. rewrite !app_length. lia.
    - destruct (HQ ltac:(discriminate)) as (j & B & Lj). exists (k + j). unfold write_alternatives in *. cbn [map join_with] in *. split; [constructor; assumption|]. rewrite app_length. cbn [length]. rewrite !app_length. lia. }
  assert (R : (forall l, good l -> P l) /\ (forall alts, goods alts -> Q alts)).
  { split; [fix F 2 with (Fs alts (H : goods alts) {struct H} : Q alts)|fix Fs 2 with (F l (H : good l) {struct H} : P l)]; intros x H; destruct H; auto. }
  split; [apply R|]. intros alts H. apply R, H.
Qed.

(** ** Looking up the last reference *)
Definition unreferenced (t : text) : Prop := Forall (fun c => c <> "<"%char) t.
Lemma last_ref_none t : unreferenced t -> last_ref t = None.
Proof using Type. clear. intros H. induction H as [|c t Hc _ IH]; [reflexivity|]. cbn [last_ref]. rewrite IH. cbn [ref_at]. apply Ascii.eqb_neq in Hc. rewrite Hc. reflexivity. Qed.

Lemma digit_run_fmt z rest : (0 <= z)%Z -> (forall c q, rest = c :: q -> digit c = None) -> digit_run (fmt_d z ++ rest) = (fmt_d z, rest).
Proof using Type.
  clear. intros Hz Hr. assert (F : Forall (fun c => digit c <> None) (fmt_d z)).
  { unfold fmt_d. destruct (Z.ltb_spec z 0); [lia|]. apply nonneg_all; [|exact Hz]. intros d Hd. rewrite digit_chr by lia. discriminate. }
  induction F as [|c t Hc _ IH]; cbn [app digit_run].
  - destruct rest as [|c q]; [reflexivity|]. cbn [digit_run]. rewrite (Hr c q eq_refl). reflexivity.
  - destruct (digit c); [|congruence]. rewrite IH. reflexivity.
Qed.

Lemma ref_at_reference n rest : ref_at (reference n ++ rest) = Some (fmt_d (Z.of_nat n), rest).
Proof using Type.
  clear. unfold reference. rewrite <- !app_assoc. cbn [str list_ascii_of_string app ref_at]. change (Ascii.eqb "<" "<") with true. cbv iota.
  rewrite digit_run_fmt by (try lia; intros c q E; injection E as <- _; reflexivity). destruct (word_fmt_d (Z.of_nat n)) as [NE _]. destruct (fmt_d (Z.of_nat n)) as [|d p]; [congruence|]. reflexivity.
Qed.

Lemma last_ref_reference p n rest : unreferenced rest -> last_ref (p ++ reference n ++ rest) = Some (p, fmt_d (Z.of_nat n), rest).
Proof using Type.
  clear. intros H. induction p as [|c p IH]; [|cbn [app last_ref]; rewrite IH; reflexivity]. cbn [app].
  assert (U : unreferenced (fmt_d (Z.of_nat n) ++ §">" ++ rest)).
  { apply Forall_app. split; [apply digit_none; [reflexivity|lia]|]. constructor; [discriminate|exact H]. }
  pose proof (ref_at_reference n rest) as E. unfold reference in *. rewrite <- !app_assoc in *. cbn [str list_ascii_of_string app] in *. cbn [last_ref]. rewrite last_ref_none by exact U. rewrite E. reflexivity.
Qed.

Lemma first_line_id t : no_newline t -> first_line t = t.
Proof using Type. clear. intros H. induction H as [|c t Hc _ IH]; [reflexivity|]. cbn [first_line]. apply Ascii.eqb_neq in Hc. rewrite Hc, IH. reflexivity. Qed.

(** ** Stripped alternatives *)
Lemma strip_ends a s b : spaces a -> spaces b -> (s = [] \/ (exists c u, s = c :: u /\ is_space c = false) /\ (exists u c, s = u ++ [c] /\ is_space c = false)) -> strip (a ++ s ++ b) = s.
Proof using Type.
  clear. intros Ha Hb Hs. unfold strip. assert (L : forall x t, spaces x -> lstrip (x ++ t) = lstrip t) by (intros x t Hx; induction Hx as [|c x Hc _ IH]; [reflexivity|]; cbn [app lstrip]; rewrite Hc; exact IH).
  rewrite L by exact Ha. destruct Hs as [->|[(c & u & E & Hc) (v & d & E' & Hd)]].
  - cbn [app]. rewrite <- (app_nil_r b), L by exact Hb. reflexivity.
  - rewrite E at 1. cbn [app lstrip]. rewrite Hc. change (c :: u ++ b) with ((c :: u) ++ b). rewrite <- E, rev_app_distr, L by (apply Forall_rev; exact Hb). rewrite E', rev_app_distr. cbn [rev app lstrip]. rewrite Hd. cbn [rev]. rewrite rev_involutive. reflexivity.
Qed.

Lemma reference_head n : exists u, reference n = "<"%char :: u.
Proof using Type. eexists. reflexivity. Qed.
Lemma reference_last n : exists u, reference n = u ++ [">"%char].
Proof using Type. exists (§"<" ++ fmt_d (Z.of_nat n)). unfold reference. rewrite <- app_assoc. reflexivity. Qed.

Lemma rep_head G s l : rep G s l 0 -> match l with Lit t :: _ => exists c u, t = c :: u /\ is_space c = false | _ => True end -> l = [] \/ exists c u, s = c :: u /\ is_space c = false.
Proof using Type.
  clear. intros H T. remember 0 as k. destruct H as [|t s l k R|n body alts s l k E B R|body alts j s l k B R]; [left; reflexivity| | |discriminate]; right.
  - destruct T as (c & u & -> & Hc). exists c, (u ++ s). auto.
  - destruct (reference_head n) as [u ->]. exists "<"%char, (u ++ s). auto.
Qed.
Lemma rep_last G : forall s l k, rep G s l k -> k = 0 -> match rev l with Lit t :: _ => exists u c, t = u ++ [c] /\ is_space c = false | _ => True end -> l = [] \/ exists u c, s = u ++ [c] /\ is_space c = false.
Proof using Type.
  clear. intros s l k H. induction H as [|t s l k R IH|n body alts s l k E B R IH|body alts j s l k B R IH]; intros Ek T; [left; reflexivity| | |discriminate]; right.
  - destruct l as [|x l].
    + apply rep_nil_inv in R as [-> _]. cbn in T. destruct T as (u & c & -> & Hc). exists u, c. rewrite app_nil_r. auto.
    + destruct (IH Ek) as [C|(u & c & -> & Hc)]; [|discriminate|exists (t ++ u), c; rewrite app_assoc; auto]. cbn [rev] in *. destruct (rev l); cbn [app] in *; exact T.
  - destruct l as [|x l].
    + apply rep_nil_inv in R as [-> _]. destruct (reference_last n) as [u ->]. exists u, ">"%char. rewrite app_nil_r. auto.
    + destruct (IH Ek) as [C|(u & c & -> & Hc)]; [|discriminate|exists (reference n ++ u), c; rewrite app_assoc; auto]. cbn [rev] in *. destruct (rev l); cbn [app] in *; exact T.
Qed.
Lemma rep_strip G a s l b : rep G s l 0 -> trimmed l -> padding sd a -> padding sd b -> strip (a ++ s ++ b) = s.
Proof using Type.
  clear. intros R [T1 T2] Ha Hb. assert (Sp : forall x, padding sd x -> spaces x) by (intros x; apply Forall_impl; intros c [H _]; exact H). apply strip_ends; [auto|auto|].
  destruct (rep_head G s l R T1) as [->|H1]; [left; apply rep_nil_inv in R as [-> _]; reflexivity|]. destruct (rep_last G s l 0 R eq_refl T2) as [->|H2]; [left; apply rep_nil_inv in R as [-> _]; reflexivity|]. right. auto.
Qed.

(** ** Splitting groups *)
Definition free (t : text) : Prop := Forall (fun c => c <> sd) t.
Lemma split_free t : free t -> split_at sd t = [t].
Proof using Type. clear. intros H. induction H as [|c t Hc _ IH]; [reflexivity|]. cbn [split_at]. apply Ascii.eqb_neq in Hc. rewrite Hc, IH. reflexivity. Qed.
Lemma split_free_app t u : free t -> split_at sd (t ++ sd :: u) = t :: split_at sd u.
Proof using Type. clear. intros H. induction H as [|c t Hc _ IH]; cbn [app split_at]; [rewrite Ascii.eqb_refl; reflexivity|]. apply Ascii.eqb_neq in Hc. rewrite Hc, IH. reflexivity. Qed.

Lemma free_reference n : free (reference n).
Proof using D.
  destruct D as (_ & _ & _ & _ & Ds & S1 & S2). unfold reference. apply Forall_app. split; [repeat constructor; congruence|]. apply Forall_app. split; [apply digit_none; [exact Ds|lia]|repeat constructor; congruence].
Qed.
Lemma free_padding t : padding sd t -> free t.
Proof using Type. clear. apply Forall_impl. intros c [_ H]. exact H. Qed.
Lemma rep_free G : forall s l k, rep G s l k -> k = 0 -> good l -> free s.
Proof using D.
  intros s l k H. induction H as [|t s l k R IH|n body alts s l k E B R IH|body alts j s l k B R IH]; intros Ek Hg; [constructor| | |discriminate]; inversion Hg; subst; apply Forall_app; (split; [|apply IH; auto]).
  - revert H1. apply Forall_impl. tauto.
  - apply free_reference.
Qed.
Lemma rep_line G : forall s l k, rep G s l k -> k = 0 -> good l -> no_newline s.
Proof using D.
  intros s l k H. induction H as [|t s l k R IH|n body alts s l k E B R IH|body alts j s l k B R IH]; intros Ek Hg; [constructor| | |discriminate]; inversion Hg; subst; apply no_newline_app; try (apply IH; auto; fail).
  - revert H1. apply Forall_impl. tauto.
  - unfold reference. apply no_newline_app; [repeat constructor; discriminate|]. apply no_newline_app; [apply no_newline_d|repeat constructor; discriminate].
Qed.

(** The stripped parts of a group represent its alternatives. *)
Lemma bod_parts G : forall body alts k, bod G body alts k -> k = 0 -> goods alts ->
  Forall2 (fun y alt => rep G (strip y) (snd (fst alt)) 0 /\ good (snd (fst alt))) (split_at sd body) alts.
Proof using D.
  intros body alts k H. induction H as [a s l b k R|a s l b k t alts j R B IH]; intros Ek Hg; inversion Hg; subst.
  - rewrite split_free; [constructor; [|constructor]|]; cbn [fst snd].
    + rewrite (rep_strip G a s l b) by assumption. auto.
    + apply Forall_app. split; [apply free_padding; assumption|]. apply Forall_app. split; [apply (rep_free G s l 0); auto|apply free_padding; assumption].
  - assert (k = 0) by lia. assert (j = 0) by lia. subst. rewrite split_free_app; [constructor; [|apply IH; auto]|]; cbn [fst snd].
    + rewrite (rep_strip G a s l b) by assumption. auto.
    + apply Forall_app. split; [apply free_padding; assumption|]. apply Forall_app. split; [apply (rep_free G s l 0); auto|apply free_padding; assumption].
Qed.

(** ** Expansion *)
Lemma expand_app l m : expand_list (l ++ m) = flat_map (fun w => map (fun v => v ++ w) (expand_list l)) (expand_list m).
Proof using Type.
  clear. induction l as [|x l IH]; cbn [app expand_list fold_right].
  - fold (expand_list m). cbn [map]. generalize (expand_list m). intros r. induction r as [|w r IH]; [reflexivity|]. cbn [flat_map app]. f_equal. exact IH.
  - fold (expand_list (l ++ m)). fold (expand_list l). rewrite IH. clear IH. generalize (expand_list m). intros r. induction r as [|w r IHr]; [reflexivity|]. cbn [flat_map]. rewrite flat_map_app. f_equal; [|exact IHr].
    clear. generalize (expand_list l). intros l'. induction l' as [|v l' IH]; [reflexivity|]. cbn [map flat_map]. rewrite map_app, map_map. f_equal; [|exact IH]. apply map_ext. intros u. rewrite app_assoc. reflexivity.
Qed.

Definition is_lit (x : tree) : Prop := match x with Lit _ => True | Alt _ => False end.
Definition lits (l : list tree) : text := concat (map (fun x => match x with Lit t => t | Alt _ => [] end) l).
Lemma expand_lits l : Forall is_lit l -> expand_list l = [lits l].
Proof using Type. clear. intros H. induction H as [|x l Hx _ IH]; [reflexivity|]. destruct x as [t|]; [|contradiction]. cbn [expand_list fold_right]. fold (expand_list l). rewrite IH. reflexivity. Qed.

Lemma expand_middle pre alts post : Forall is_lit post ->
  expand_list (pre ++ Alt alts :: post) = flat_map (fun alt => expand_list (pre ++ snd (fst alt) ++ post)) alts.
Proof using Type.
  clear. intros H. rewrite expand_app. change (expand_list (Alt alts :: post)) with (flat_map (fun w => map (fun v => v ++ w) (expand (Alt alts))) (expand_list post)). rewrite (expand_lits post H).
  assert (E : expand (Alt alts) = flat_map (fun alt : alternative => expand_list (snd (fst alt))) alts) by (cbn [expand]; apply flat_map_ext; intros [[a l] b]; reflexivity).
  rewrite E. cbn [flat_map]. rewrite app_nil_r. clear E. induction alts as [|alt alts IH]; [reflexivity|]. cbn [flat_map]. rewrite map_app, flat_map_app. apply f_equal2; [|exact IH].
  rewrite (expand_app pre (snd (fst alt) ++ post)), (expand_app (snd (fst alt)) post), (expand_lits post H). cbn [flat_map]. rewrite app_nil_r. reflexivity.
Qed.

(** Separation of the last group *)
Lemma rep_split G : forall s l k, rep G s l k -> k = 0 -> good l ->
  (Forall is_lit l /\ s = lits l /\ unreferenced s) \/
  exists pre alts post p n body, l = pre ++ Alt alts :: post /\ Forall is_lit post /\ s = p ++ reference n ++ lits post /\ unreferenced (lits post) /\
    nth_error G n = Some body /\ bod G body alts 0 /\ goods alts /\ good pre /\ good post /\ rep G p pre 0 /\ rep G (lits post) post 0.
Proof using Type.
  clear. intros s l k H. induction H as [|t s l k R IH|n body alts s l k E B R IH|body alts j s l k B R IH]; intros Ek Hg; [left; repeat constructor| | |discriminate]; inversion Hg; subst.
  - assert (Ut : unreferenced t) by (revert H1; apply Forall_impl; tauto). destruct (IH eq_refl H2) as [(A & -> & U)|(pre & alts & post & p & n & body & -> & A & -> & U & E & B & Ga & Gp & Gq & Rp & Rq)].
    + left. split; [constructor; [exact I|exact A]|]. split; [reflexivity|]. apply Forall_app. auto.
    + right. exists (Lit t :: pre), alts, post, (t ++ p), n, body. split; [reflexivity|]. split; [exact A|]. split; [rewrite <- app_assoc; reflexivity|]. repeat (split; [assumption|]). split; [constructor; assumption|]. split; [assumption|]. split; [constructor; assumption|assumption].
  - destruct (IH eq_refl H3) as [(A & Es & U)|(pre & alts' & post & p & n' & body' & -> & A & -> & U & E' & B' & Ga & Gp & Gq & Rp & Rq)].
    + right. subst s. exists [], alts, l, [], n, body. split; [reflexivity|]. repeat (split; [assumption || reflexivity|]). split; [constructor|]. split; [assumption|]. split; [constructor|assumption].
    + right. exists (Alt alts :: pre), alts', post, (reference n ++ p), n', body'. split; [reflexivity|]. split; [exact A|]. split; [rewrite <- !app_assoc; reflexivity|]. repeat (split; [assumption|]). split; [constructor; assumption|]. split; [assumption|]. split; [apply (rep_ref _ _ body); assumption|assumption].
Qed.

Lemma rep_app G : forall s l k, rep G s l k -> forall t m j, rep G t m j -> rep G (s ++ t) (l ++ m) (k + j).
Proof using Type.
  clear. intros s l k H. induction H as [|t s l k R IH|n body alts s l k E B R IH|body alts j s l k B R IH]; intros u m j' R'; cbn [app].
  - exact R'.
  - rewrite <- app_assoc. constructor. auto.
  - rewrite <- app_assoc. apply (rep_ref _ _ body); auto.
  - rewrite <- app_assoc. cbn [app Nat.add]. rewrite <- Nat.add_assoc. constructor; auto.
Qed.
Lemma good_app l m : good l -> good m -> good (l ++ m).
Proof using Type. clear. intros H Hm. revert H. induction l as [|x l IH]; intros H; [exact Hm|]. inversion H; subst; cbn [app]; constructor; auto. Qed.

(** Number of nodes *)
Fixpoint size (x : tree) : nat := match x with Lit _ => 1 | Alt alts => S (list_sum (map (fun alt => match alt with (_, l, _) => list_sum (map size l) end) alts)) end.
Definition sizes (l : list tree) : nat := list_sum (map size l).
Lemma sizes_app l m : sizes (l ++ m) = sizes l + sizes m.
Proof using Type. clear. unfold sizes. rewrite map_app, list_sum_app. reflexivity. Qed.
Lemma size_alt alts alt : In alt alts -> sizes (snd (fst alt)) < size (Alt alts).
Proof using Type.
  clear. intros H. cbn [size]. induction alts as [|x alts IH]; [contradiction|]. cbn [map list_sum fold_right]. destruct H as [->|H]; [destruct alt as [[a l] b]; cbn [fst snd]; unfold sizes; fold (list_sum (map (fun alt : text * list tree * text => match alt with (_, l, _) => list_sum (map size l) end) alts)); lia|].
  specialize (IH H). change (fold_right Nat.add 0) with list_sum in *. lia.
Qed.

Lemma factorize_ok G : forall N l s, sizes l <= N -> rep G s l 0 -> good l -> forall fuel, N < fuel -> factorize sd fuel G s = Some (Ok (expand_list l)).
Proof using D.
  induction N as [N IH] using lt_wf_ind. intros l s HN R Hg fuel Hf. destruct fuel as [|fuel]; [lia|]. cbn [factorize]. rewrite first_line_id by (apply (rep_line G s l 0); auto).
  destruct (rep_split G s l 0 R eq_refl Hg) as [(A & -> & U)|(pre & alts & post & p & n & body & -> & A & -> & U & E & B & Ga & Gp & Gq & Rp & Rq)].
  - rewrite last_ref_none by exact U. rewrite expand_lits by exact A. reflexivity.
  - rewrite last_ref_reference by exact U. rewrite to_int_word, Nat2Z.id, E. rewrite expand_middle by exact A.
    pose proof (bod_parts G body alts 0 B eq_refl Ga) as F. assert (Sz : forall alt, In alt alts -> sizes (pre ++ snd (fst alt) ++ post) < N).
    { intros alt I. pose proof (size_alt alts alt I). rewrite !sizes_app in *. unfold sizes in HN at 2. cbn [map list_sum fold_right] in HN. fold (list_sum (map size post)) in HN. unfold sizes at 3. lia. }
    clear HN R Hg E B Ga U. induction F as [|y alt parts alts [R1 G1] F IHF]; [reflexivity|]. cbn [chain flat_map].
    rewrite (IH (sizes (pre ++ snd (fst alt) ++ post)) (Sz alt (or_introl eq_refl)) (pre ++ snd (fst alt) ++ post)); [| lia | | | ].
    + rewrite IHF by (intros a Ia; apply Sz; right; exact Ia). reflexivity.
    + apply (rep_app G p pre 0 Rp _ _ 0), (rep_app G _ _ 0 R1 _ _ 0 Rq).
    + apply good_app; [exact Gp|apply good_app; assumption].
    + pose proof (Sz alt (or_introl eq_refl)). lia.
Qed.

Theorem split_ok alts : goods alts -> alts <> [] -> forall fuel, sizes [Alt alts] < fuel -> split sd od cd fuel (write_alternatives sd od cd alts) = Some (Ok (expand_alternatives alts)).
Proof using D.
  intros H NE fuel Hf. unfold split. destruct (proj2 write_rep alts H NE) as (k & B & L).
  assert (R : rep [] (od :: write_alternatives sd od cd alts ++ [cd]) [Alt alts] (S (k + 0))) by (constructor; [exact B|constructor]).
  assert (Hg : good [Alt alts]) by (constructor; [exact NE|exact H|constructor]).
  destruct (pass_all _ (length (od :: write_alternatives sd od cd alts ++ [cd])) [] _ _ R Hg) as (s' & G' & E & R'); [cbn [length]; rewrite app_length; cbn [length]; lia|].
  rewrite E, (factorize_ok G' (sizes [Alt alts]) [Alt alts] s' (Nat.le_refl _) R' Hg fuel Hf). f_equal. f_equal.
  pose proof (expand_middle [] alts [] (Forall_nil _)) as M. cbn [app] in M. rewrite M. unfold expand_alternatives. apply flat_map_ext. intros alt. rewrite app_nil_r. reflexivity.
Qed.
End Delimiters.
