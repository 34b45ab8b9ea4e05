(** Proofs about ProjModel.v: names of orbitals and sums over selected orbitals. *)
From Coq Require Import Lia Permutation.
From Verif Require Import Common CommonProofs Text TextProofs SplitModel SplitSpec SplitProofs SplitProps NmlModel NmlProofs.
From Verif Require Import Num NumProofs ProjModel ProjSpec.
Import ListNotations.
Local Open Scope nat_scope.

(** ** Characters *)
Ltac allchars := let H := fresh in intros c; destruct c as [[] [] [] [] [] [] [] []]; intros H; vm_compute in H |- *; try discriminate; auto.
Lemma upper_facts : forall c, is_upper c = true -> is_space c = false /\ is_digit c = false /\ is_lower c = false /\ Ascii.eqb c "-" = false /\ is_shell c = false.
Proof. allchars; repeat split; reflexivity. Qed.
Lemma lower_facts : forall c, is_lower c = true -> is_space c = false /\ is_digit c = false /\ is_upper c = false /\ Ascii.eqb c "-" = false.
Proof. allchars; repeat split; reflexivity. Qed.
Lemma digit_facts : forall c, is_digit c = true -> is_space c = false /\ is_lower c = false /\ is_upper c = false /\ Ascii.eqb c "-" = false /\ is_shell c = false.
Proof. allchars; repeat split; reflexivity. Qed.
Lemma shell_facts : forall c, is_shell c = true -> is_space c = false /\ is_digit c = false /\ is_upper c = false /\ Ascii.eqb c "-" = false.
Proof. allchars; repeat split; reflexivity. Qed.
Lemma shell_cases t : In t [§"s"; §"p"; §"d"; §"f"; §"x"] -> exists c, t = [c] /\ is_shell c = true.
Proof. cbn [In]. intros [<-|[<-|[<-|[<-|[<-|[]]]]]]; eexists; split; reflexivity. Qed.

(** Spec components as groups of the match *)
Definition opt (t : text) : option text := match t with [] => None | _ => Some t end.
Definition info_of (o : orbital) : info5 :=
  Info (opt (element o)) (match element o with [] => None | _ => Some (atom o) end) (Some (principal o))
       (opt (shell o)) (match shell o with [] => None | _ => Some (label o) end).

Lemma written_solid o : proper o -> solid (written o).
Proof.
  intros (He & Ha & Hp & Hs & Hl). unfold written, solid. repeat (apply Forall_app; split).
  - destruct He as [[-> _]|(c & Hc & [->|(d & Hd & ->)])]; [apply Forall_nil|apply Forall_cons; [apply upper_facts, Hc|apply Forall_nil]|apply Forall_cons; [apply upper_facts, Hc|apply Forall_cons; [apply lower_facts, Hd|apply Forall_nil]]].
  - revert Ha. apply Forall_impl. intros c Hc. apply digit_facts, Hc.
  - destruct (element o); [constructor|]. destruct (principal o ++ shell o); repeat constructor.
  - revert Hp. apply Forall_impl. intros c Hc. apply digit_facts, Hc.
  - destruct Hs as [[-> _]|Hs]; [constructor|]. apply shell_cases in Hs as (c & -> & Hc). repeat constructor. apply shell_facts, Hc.
  - exact Hl.
Qed.

Lemma strip_solid a t b : spaces a -> solid t -> spaces b -> strip (a ++ t ++ b) = t.
Proof.
  intros Ha Ht Hb. destruct t as [|c t].
  - cbn [app]. unfold strip. rewrite lstrip_spaces by exact Ha. rewrite <- (app_nil_r b), lstrip_spaces by exact Hb. reflexivity.
  - apply strip_word; [exact Ha| |exact Hb]. split; [discriminate|exact Ht].
Qed.

(** The part of the name after the element *)
Lemma info_tail element atom o : proper o ->
  (let (n, t) := span is_digit (principal o ++ shell o ++ label o) in
   match t with
   | c :: u => if is_shell c then Info element atom (Some n) (Some [c]) (Some (fst (span (fun c => negb (is_space c)) u))) else Info element atom (Some n) None None
   | [] => Info element atom (Some n) None None
   end) = Info element atom (Some (principal o)) (opt (shell o)) (match shell o with [] => None | _ => Some (label o) end).
Proof.
  intros (_ & _ & Hp & Hs & Hl). rewrite span_app.
  - destruct Hs as [[-> ->]|Hs]; [reflexivity|]. apply shell_cases in Hs as (c & -> & Hc). cbn [app]. rewrite Hc.
    rewrite <- (app_nil_r (label o)) at 1. rewrite span_app; [reflexivity| |exact Logic.I].
    revert Hl. apply Forall_impl. intros d ->. reflexivity.
  - exact Hp.
  - destruct Hs as [[-> ->]|Hs]; [exact Logic.I|]. apply shell_cases in Hs as (c & -> & Hc). cbn [app]. apply shell_facts, Hc.
Qed.

Lemma info_name t o : proper o -> names t o -> info t = info_of o.
Proof.
  intros P (a & b & Ha & Hb & ->). unfold info. rewrite strip_solid by (try assumption; apply written_solid, P).
  pose proof P as (He & Hd & Hp & Hs & Hl). unfold info_of.
  destruct He as [[Ee Ea]|(c & Hc & He)].
  - unfold written. rewrite Ee, Ea. cbn [app opt].
    assert (G : principal o ++ shell o ++ label o = [] \/ exists c u, principal o ++ shell o ++ label o = c :: u /\ is_upper c = false /\ Ascii.eqb c "-" = false).
    { destruct (principal o) as [|c p]; cbn [app].
      - destruct Hs as [[-> ->]|Hs]; [left; reflexivity|]. apply shell_cases in Hs as (c & -> & Hc). right. exists c, (label o). split; [reflexivity|]. apply shell_facts in Hc. tauto.
      - right. exists c, (p ++ shell o ++ label o). split; [reflexivity|]. inversion Hp as [|? ? H1 _]; subst. apply digit_facts in H1. tauto. }
    pose proof (info_tail None None o P) as T. destruct G as [G|(c & u & G & Hu & Hm)].
    + rewrite G in *. exact T.
    + rewrite G in *. rewrite Hu, Hm. exact T.
  - assert (Ne : exists e l, element o = e :: l) by (destruct He as [->|(d & _ & ->)]; eauto). destruct Ne as (e0 & l0 & Ne).
    set (dash := match element o with [] => [] | _ :: _ => match principal o ++ shell o with [] => [] | _ :: _ => §"-" end end).
    set (tl := dash ++ principal o ++ shell o ++ label o).
    assert (Ht : match tl with [] => True | c :: _ => is_digit c = false end /\ match tl with [] => True | c :: _ => is_lower c = false end).
    { unfold tl, dash. rewrite Ne. destruct (principal o) as [|p q]; cbn [app].
      - destruct Hs as [[-> ->]|Hs]; [cbn; auto|]. apply shell_cases in Hs as (x & -> & Hx). cbn [app]. split; reflexivity.
      - split; reflexivity. }
    destruct Ht as [Ht1 Ht2].
    assert (Hdl : match atom o ++ tl with [] => True | c :: _ => is_lower c = false end).
    { destruct (atom o) as [|x y]; [exact Ht2|]. cbn [app]. inversion Hd as [|? ? H1 _]; subst. apply digit_facts in H1. tauto. }
    assert (R : match tl with c :: u => if Ascii.eqb c "-" then u else tl | [] => tl end = principal o ++ shell o ++ label o).
    { unfold tl, dash. rewrite Ne. destruct (principal o) as [|p q]; cbn [app].
      - destruct Hs as [[-> ->]|Hs]; [reflexivity|]. apply shell_cases in Hs as (x & -> & Hx). reflexivity.
      - reflexivity. }
    assert (W : written o = element o ++ atom o ++ tl) by (unfold written, tl, dash; rewrite Ne; destruct (principal o ++ shell o); reflexivity).
    rewrite W. clear W. clearbody tl.
    destruct He as [He|(d & Hl' & He)]; rewrite He; cbn [app opt]; rewrite Hc.
    + destruct (atom o ++ tl) as [|x y] eqn:Ex.
      * apply app_eq_nil in Ex as [E1 E2]. rewrite E1. rewrite E2 in R. pose proof (info_tail (Some [c]) (Some []) o P) as T. rewrite <- R in T. exact T.
      * rewrite Hdl, <- Ex. rewrite span_app by assumption. pose proof (info_tail (Some [c]) (Some (atom o)) o P) as T. rewrite <- R in T. exact T.
    + rewrite Hl'. rewrite span_app by assumption. pose proof (info_tail (Some [c; d]) (Some (atom o)) o P) as T. rewrite <- R in T. exact T.
Qed.

Lemma given_spec t : given (Some t) = match t with [] => false | _ => true end.
Proof. destruct t; reflexivity. Qed.
Lemma oteqb_eq x y : oteqb x y = true <-> x = y.
Proof. destruct x as [x|], y as [y|]; cbn [oteqb]; rewrite ?teqb_eq; split; congruence. Qed.

Lemma component_spec (A : text) (x y : option text) (B : text) :
  (A <> [] -> x = Some A) -> (A = [] -> x = None \/ x = Some []) -> (B <> [] -> y = Some B) -> (B = [] -> y = None \/ y = Some []) ->
  (negb (given x) || oteqb x y = true <-> (A <> [] -> B = A)).
Proof.
  intros HA1 HA0 HB1 HB0. destruct A as [|c A].
  - destruct (HA0 eq_refl) as [->| ->]; cbn; split; auto; intros _ H; congruence.
  - rewrite HA1 by discriminate. cbn [given negb orb]. rewrite oteqb_eq. destruct B as [|d B].
    + destruct (HB0 eq_refl) as [->| ->]; split; try discriminate; intros H; specialize (H ltac:(discriminate)); discriminate.
    + rewrite HB1 by discriminate. split; [intros H _; congruence|]. intros H. rewrite H by discriminate. reflexivity.
Qed.

Lemma matches_spec s o : proper s -> proper o -> (matches (info_of s) (info_of o) = true <-> selects s o).
Proof.
  intros (Ps1 & _ & _ & Ps4 & _) (Po1 & _ & _ & Po4 & _).
  assert (E : forall o, element o = [] /\ atom o = [] \/ (exists c, is_upper c = true /\ (element o = [c] \/ exists d, is_lower d = true /\ element o = [c; d])) ->
    (atom o <> [] -> match element o with [] => None | _ => Some (atom o) end = Some (atom o)) /\ (atom o = [] -> match element o with [] => None | _ => Some (atom o) end = None \/ match element o with [] => None | _ => Some (atom o) end = Some [])).
  { intros x [[-> ->]|(c & _ & [->|(d & _ & ->)])]; split; intros H; try congruence; rewrite ?H; auto. }
  assert (L : forall o, shell o = [] /\ label o = [] \/ In (shell o) [§"s"; §"p"; §"d"; §"f"; §"x"] ->
    (label o <> [] -> match shell o with [] => None | _ => Some (label o) end = Some (label o)) /\ (label o = [] -> match shell o with [] => None | _ => Some (label o) end = None \/ match shell o with [] => None | _ => Some (label o) end = Some [])).
  { intros x [[-> ->]|H]; [split; intros H; congruence || auto|]. apply shell_cases in H as (c & -> & _). split; intros H; rewrite ?H; auto. }
  assert (O : forall t, (t <> [] -> opt t = Some t) /\ (t = [] -> opt t = None \/ opt t = Some [])) by (intros [|c t]; split; intros H; try congruence; auto).
  assert (P : forall t : text, (t <> [] -> Some t = Some t) /\ (t = [] -> Some t = None \/ Some t = Some [])) by (intros t; split; intros H; rewrite ?H; auto).
  unfold matches, groups5, info_of. cbn [i_element i_atom i_n i_shell i_label combine forallb fst snd]. rewrite !andb_true_iff.
  rewrite (component_spec (element s) _ _ (element o)) by apply O.
  rewrite (component_spec (atom s) _ _ (atom o)) by (apply (E s Ps1) || apply (E o Po1)).
  rewrite (component_spec (principal s) _ _ (principal o)) by apply P.
  rewrite (component_spec (shell s) _ _ (shell o)) by apply O.
  rewrite (component_spec (label s) _ _ (label o)) by (apply (L s Ps4) || apply (L o Po4)).
  unfold selects, components. split.
  - intros (H1 & H2 & H3 & H4 & H5 & _) i x Hi Hx. destruct i as [|[|[|[|[|i]]]]]; cbn [nth_error] in *; injection Hi as <- || (destruct i; discriminate); f_equal; auto.
  - intros H. split; [|split; [|split; [|split; [|split; [|reflexivity]]]]]; intros Hx.
    + specialize (H 0 _ eq_refl Hx). cbn in H. congruence.
    + specialize (H 1 _ eq_refl Hx). cbn in H. congruence.
    + specialize (H 2 _ eq_refl Hx). cbn in H. congruence.
    + specialize (H 3 _ eq_refl Hx). cbn in H. congruence.
    + specialize (H 4 _ eq_refl Hx). cbn in H. congruence.
Qed.

(** ** Sets of indices *)
Lemma set_add_in a s x : In x (set_add a s) <-> x = a \/ In x s.
Proof.
  unfold set_add. destruct (existsb (Nat.eqb a) s) eqn:E.
  - split; [auto|]. intros [->|H]; [|exact H]. apply existsb_exists in E as (y & Hy & E). apply Nat.eqb_eq in E. congruence.
  - rewrite in_app_iff. cbn. intuition.
Qed.
Lemma set_add_nodup a s : NoDup s -> NoDup (set_add a s).
Proof.
  intros H. unfold set_add. destruct (existsb (Nat.eqb a) s) eqn:E; [exact H|].
  apply (Permutation_NoDup (l := a :: s)); [apply Permutation_cons_append|]. constructor; [|exact H].
  intros I. assert (existsb (Nat.eqb a) s = true) by (apply existsb_exists; exists a; split; [exact I|apply Nat.eqb_refl]). congruence.
Qed.

Lemma inner_spec sel : forall (l : list (nat * info5)) s, NoDup s ->
  let r := fold_left (fun s ao => if matches sel (snd ao) then set_add (fst ao) s else s) l s in
  NoDup r /\ forall x, In x r <-> In x s \/ exists o, In (x, o) l /\ matches sel o = true.
Proof.
  induction l as [|[a o] l IH]; intros s Hs; cbn [fold_left fst snd].
  - split; [exact Hs|]. intros x. split; [auto|]. intros [H|(o & [] & _)]. exact H.
  - assert (Hs' : NoDup (if matches sel o then set_add a s else s)) by (destruct (matches sel o); [apply set_add_nodup|]; exact Hs).
    destruct (IH _ Hs') as [N I]. split; [exact N|]. intros x. rewrite I. destruct (matches sel o) eqn:M.
    + rewrite set_add_in. split.
      * intros [[->|H]|(o' & H & M')]; [right; exists o; split; [left; reflexivity|exact M]|auto|right; exists o'; split; [right; exact H|exact M']].
      * intros [H|(o' & [H|H] & M')]; [auto|injection H as <- <-; auto|right; eauto].
    + split.
      * intros [H|(o' & H & M')]; [auto|right; exists o'; split; [right; exact H|exact M']].
      * intros [H|(o' & [H|H] & M')]; [auto|injection H as <- <-; congruence|right; eauto].
Qed.

Lemma outer_spec (l : list (nat * info5)) : forall sels s, NoDup s ->
  let r := fold_left (fun s selection => fold_left (fun s ao => if matches selection (snd ao) then set_add (fst ao) s else s) l s) sels s in
  NoDup r /\ forall x, In x r <-> In x s \/ exists sel o, In sel sels /\ In (x, o) l /\ matches sel o = true.
Proof.
  induction sels as [|sel sels IH]; intros s Hs; cbn [fold_left].
  - split; [exact Hs|]. intros x. split; [auto|]. intros [H|(sel & o & [] & _)]. exact H.
  - destruct (inner_spec sel l s Hs) as [N1 I1]. destruct (IH _ N1) as [N I]. split; [exact N|]. intros x. rewrite I, I1. split.
    + intros [[H|(o & H & M)]|(sel' & o & H & H' & M)]; [auto|right; exists sel, o; cbn; auto|right; exists sel', o; cbn; auto].
    + intros [H|(sel' & o & [<-|H] & H' & M)]; [auto|left; right; eauto|right; eauto 6].
Qed.

Lemma in_enum {A} (l : list A) : forall k x o, In (x, o) (combine (seq k (length l)) l) <-> k <= x /\ nth_error l (x - k) = Some o.
Proof.
  induction l as [|y l IH]; intros k x o; cbn [length seq combine In].
  - split; [contradiction|]. intros [_ H]. destruct (x - k); discriminate.
  - rewrite IH. split.
    + intros [H|[H1 H2]]; [injection H as <- <-; rewrite Nat.sub_diag; auto|]. split; [lia|]. replace (x - k) with (S (x - S k)) by lia. exact H2.
    + intros [H1 H2]. destruct (x - k) as [|d] eqn:E; [left; cbn in H2; injection H2 as ->; f_equal; lia|right]. split; [lia|]. replace (x - S k) with d by lia. exact H2.
Qed.

Lemma indices_spec sels os : NoDup (indices sels os) /\
  forall x, In x (indices sels os) <-> exists sel o, In sel sels /\ nth_error os x = Some o /\ matches sel o = true.
Proof.
  destruct (outer_spec (combine (seq 0 (length os)) os) sels [] (NoDup_nil _)) as [N I]. split; [exact N|].
  intros x. unfold indices. rewrite I. split.
  - intros [[]|(sel & o & H & H' & M)]. apply in_enum in H' as [_ H']. rewrite Nat.sub_0_r in H'. eauto.
  - intros (sel & o & H & H' & M). right. exists sel, o. split; [exact H|]. split; [|exact M]. apply in_enum. rewrite Nat.sub_0_r. split; [lia|exact H'].
Qed.

Lemma insert_perm a l : Permutation (a :: l) (insert a l).
Proof. induction l as [|b l IH]; cbn [insert]; [apply Permutation_refl|]. destruct (a <=? b); [apply Permutation_refl|]. etransitivity; [apply perm_swap|]. apply perm_skip, IH. Qed.
Lemma sorted_perm l : Permutation l (sorted l).
Proof. induction l as [|a l IH]; cbn [sorted fold_right]; [constructor|]. etransitivity; [apply perm_skip, IH|apply insert_perm]. Qed.

(** ** Sums *)
Section Sums.
  Context {F : num}.
  Add Ring F_ring_proj : (n_ring F).

  (** The orbitals of a group *)
  Definition covers (os : list orbital) (group : list alternative) (l : list nat) : Prop :=
    NoDup l /\ forall a, In a l <-> exists o, nth_error os a = Some o /\ group_selects group o.

  Lemma sum_group_ok (no : nat) (proj : nat -> F) os ts group :
    Forall proper os -> Forall2 names ts os -> length os <= no -> group_ok group ->
    exists depth l, covers os group l /\ forall fuel, depth <= fuel ->
      sum_group fuel no proj (map info ts) (write_alternatives "," "{" "}" group) = Some (Ok (nsum proj l)).
  Proof.
    intros Hos Hts Hno (NE & Hg & Hn). destruct (C11_expand "," "{" "}" group example_delimiters NE Hg) as [(depth & Hd) Hw].
    set (l := sorted (indices (map info (expand_alternatives group)) (map info ts))). exists depth, l.
    assert (Ei : map info ts = map info_of os).
    { clear - Hos Hts. induction Hts as [|t o ts os H _ IH]; [reflexivity|]. inversion Hos; subst. cbn [map]. f_equal; [apply info_name; assumption|apply IH; assumption]. }
    destruct (indices_spec (map info (expand_alternatives group)) (map info ts)) as [Nd Hi].
    assert (Cov : covers os group l).
    { split; [apply (Permutation_NoDup (sorted_perm _)), Nd|]. intros a. unfold l. split.
      - intros Ha. apply (Permutation_in a (Permutation_sym (sorted_perm _))) in Ha. apply Hi in Ha as (sel & i & Hsel & Hnth & M).
        rewrite Ei, nth_error_map in Hnth. destruct (nth_error os a) as [o|] eqn:Eo; [|discriminate]. cbn in Hnth. injection Hnth as <-. exists o. split; [reflexivity|].
        apply in_map_iff in Hsel as (w & <- & Hin). apply Hw in Hin as (p & tr & q & Hin & Hinst). destruct (Hn p tr q w Hin Hinst) as (s & Ps & Nm).
        exists p, tr, q, w, s. repeat (split; [assumption|]). rewrite (info_name w s Ps Nm) in M. apply matches_spec; [exact Ps| |exact M].
        rewrite Forall_forall in Hos. apply Hos. eapply nth_error_In, Eo.
      - intros (o & Eo & p & tr & q & w & s & Hin & Hinst & Ps & Nm & Sel). apply (Permutation_in a (sorted_perm _)). apply Hi.
        exists (info w), (info_of o). split; [apply in_map, Hw; eauto|]. split; [rewrite Ei, nth_error_map, Eo; reflexivity|].
        rewrite (info_name w s Ps Nm). apply matches_spec; [exact Ps| |exact Sel]. rewrite Forall_forall in Hos. apply Hos. eapply nth_error_In, Eo. }
    split; [exact Cov|]. intros fuel Hf. unfold sum_group. rewrite (Hd fuel Hf). fold l. replace (forallb (fun a => a <? no) l) with true; [reflexivity|].
    symmetry. apply forallb_forall. intros a Ha. apply Cov in Ha as (o & Eo & _). apply Nat.ltb_lt. assert (a < length os) by (apply nth_error_Some; congruence). lia.
  Qed.

  Lemma sum_groups_ok (no : nat) (proj : nat -> F) os ts groups :
    Forall proper os -> Forall2 names ts os -> length os <= no -> Forall group_ok groups ->
    exists depth ls, Forall2 (covers os) groups ls /\ forall fuel, depth <= fuel ->
      sum_groups fuel no proj (map info ts) (map (write_alternatives "," "{" "}") groups) = Some (Ok (map (nsum proj) ls)).
  Proof.
    intros Hos Hts Hno Hg. induction Hg as [|g groups Hg _ (d' & ls & C & IH)].
    - exists 0, []. split; [constructor|]. reflexivity.
    - destruct (sum_group_ok no proj os ts g Hos Hts Hno Hg) as (d & l & Cl & Hd). exists (Nat.max d d'), (l :: ls). split; [constructor; assumption|].
      intros fuel Hf. cbn [map sum_groups]. rewrite Hd by lia. rewrite IH by lia. reflexivity.
  Qed.

  Lemma nsum_concat_lists (proj : nat -> F) ls : nsum (fun x => x) (map (nsum proj) ls) = nsum proj (concat ls).
  Proof. induction ls as [|l ls IH]; cbn [map nsum concat]; [reflexivity|]. rewrite nsum_app, IH. reflexivity. Qed.
End Sums.
