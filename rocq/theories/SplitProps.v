(** C11: expansion of expressions with brackets. *)
From Verif Require Import TextProofs SplitModel SplitSpec SplitProofs.
Local Open Scope nat_scope.

(** For every expression, of any size and depth, the function returns the elements of its
    language, in a definite order. It terminates: the depth of the recursion is bounded. *)
Theorem C11_expand :
  forall sd od cd alts, delimiters sd od cd -> alts <> [] -> goods sd od cd alts ->
  (exists depth, forall fuel, depth <= fuel -> split sd od cd fuel (write_alternatives sd od cd alts) = Some (Ok (expand_alternatives alts))) /\
  (forall w, In w (expand_alternatives alts) <-> exists a l b, In (a, l, b) alts /\ instance l w).
Proof.
  intros sd od cd alts D NE H. split.
  - exists (S (sizes [Alt alts])). intros fuel Hf. apply split_ok; [exact D|exact H|exact NE|lia].
  - intros w. unfold expand_alternatives. rewrite in_flat_map.
    assert (M : (forall l, good sd od cd l -> forall w, In w (expand_list l) <-> instance l w)).
    { intros l Hg. assert (S : exists n, sizes l <= n) by (exists (sizes l); lia). destruct S as [n Hn]. revert l Hn Hg. induction n as [n IH] using lt_wf_ind. intros l Hn Hg v. destruct l as [|x l].
      - cbn. split; [intros [<-|[]]; constructor|]. intros Hi. inversion Hi. left. reflexivity.
      - assert (El : expand_list (x :: l) = flat_map (fun w => map (fun v => v ++ w) (expand x)) (expand_list l)) by reflexivity. rewrite El, in_flat_map.
        assert (Sx : sizes (x :: l) = size x + sizes l) by reflexivity. assert (Px : 1 <= size x) by (destruct x; cbn; lia).
        assert (Hgl : good sd od cd l) by (inversion Hg; assumption).
        assert (Il : forall w, In w (expand_list l) <-> instance l w) by (apply (IH (sizes l)); [lia|lia|exact Hgl]).
        destruct x as [t|alts'].
        + split.
          * intros (u & Hu & Hv). cbn in Hv. destruct Hv as [<-|[]]. constructor. apply Il, Hu.
          * intros Hi. inversion Hi; subst. exists w0. split; [apply Il; assumption|left; reflexivity].
        + assert (Ga : forall a l' b, In (a, l', b) alts' -> good sd od cd l').
          { inversion Hg; subst. clear - H3. induction H3; intros a' l' b' I; [contradiction|]. destruct I as [E|I]; [injection E as -> -> ->; assumption|eauto]. }
          assert (Ia : forall a l' b, In (a, l', b) alts' -> forall w, In w (expand_list l') <-> instance l' w).
          { intros a l' b I. pose proof (size_alt alts' (a, l', b) I) as Sz. cbn [fst snd] in Sz. apply (IH (sizes l')); [lia|lia|exact (Ga _ _ _ I)]. }
          assert (Ex : expand (Alt alts') = flat_map (fun alt : alternative => expand_list (snd (fst alt))) alts') by (cbn [expand]; apply flat_map_ext; intros [[a l'] b]; reflexivity).
          split.
          * intros (u & Hu & Hv). apply in_map_iff in Hv as (y & <- & Hy). rewrite Ex in Hy. apply in_flat_map in Hy as ([[a l'] b] & I & Hy). cbn [fst snd] in Hy. apply (instance_alt alts' a l' b); [exact I|apply (Ia a l' b I), Hy|apply Il, Hu].
          * intros Hi. inversion Hi; subst. exists w0. split; [apply Il; assumption|]. apply in_map_iff. exists v0. split; [reflexivity|]. rewrite Ex. apply in_flat_map. exists (a, l', b). split; [assumption|]. cbn [fst snd]. apply (Ia a l' b); assumption. }
    assert (Ga : forall a l' b, In (a, l', b) alts -> good sd od cd l').
    { clear - H. induction H; intros a' l' b' I; [contradiction|]. destruct I as [E|I]; [injection E as -> -> ->; assumption|eauto]. }
    split.
    + intros ([[a l] b] & I & Hw). cbn [fst snd] in Hw. exists a, l, b. split; [exact I|]. apply (M l (Ga _ _ _ I)), Hw.
    + intros (a & l & b & I & Hw). exists (a, l, b). split; [exact I|]. cbn [fst snd]. apply (M l (Ga _ _ _ I)), Hw.
Qed.
Print Assumptions C11_expand.

(** a{b, c{d,e}}{1,2}, f *)
Definition example_alts : list alternative :=
  [([], [Lit §"a"; Alt [([], [Lit §"b"], []); (§" ", [Lit §"c"; Alt [([], [Lit §"d"], []); ([], [Lit §"e"], [])]], [])]; Alt [([], [Lit §"1"], []); ([], [Lit §"2"], [])]], []);
   (§" ", [Lit §"f"], [])].
Lemma example_delimiters : delimiters "," "{" "}".
Proof. repeat split; try discriminate. repeat constructor; discriminate. Qed.
Lemma example_goods : goods "," "{" "}" example_alts.
Proof.
  assert (Lt : forall c, c <> ","%char -> c <> "{"%char -> c <> "}"%char -> c <> "<"%char -> c <> ">"%char -> c <> newline -> literal "," "{" "}" [c]) by (intros c H1 H2 H3 H4 H5 H6; constructor; [auto 10|constructor]).
  assert (Tr : forall c, is_space c = false -> trimmed [Lit [c]]) by (intros c Hc; split; [exists c, []; auto|exists [], c; auto]).
  assert (Sp : padding "," §" ") by (constructor; [split; [reflexivity|discriminate]|constructor]).
  assert (Nl : padding "," []) by constructor.
  unfold example_alts. cbn [str list_ascii_of_string]. constructor; [exact Nl|exact Nl|split; [exists "a"%char, []; auto|exact I]| |].
  - constructor; [apply Lt; discriminate|]. constructor; [discriminate| |constructor; [discriminate| |constructor]].
    + constructor; [exact Nl|exact Nl|apply Tr; reflexivity|constructor; [apply Lt; discriminate|constructor]|]. constructor; [exact Sp|exact Nl|split; [exists "c"%char, []; auto|exact I]| |constructor].
      constructor; [apply Lt; discriminate|]. constructor; [discriminate| |constructor]. constructor; [exact Nl|exact Nl|apply Tr; reflexivity|constructor; [apply Lt; discriminate|constructor]|]. constructor; [exact Nl|exact Nl|apply Tr; reflexivity|constructor; [apply Lt; discriminate|constructor]|constructor].
    + constructor; [exact Nl|exact Nl|apply Tr; reflexivity|constructor; [apply Lt; discriminate|constructor]|]. constructor; [exact Nl|exact Nl|apply Tr; reflexivity|constructor; [apply Lt; discriminate|constructor]|constructor].
  - constructor; [exact Sp|exact Nl|apply Tr; reflexivity|constructor; [apply Lt; discriminate|constructor]|constructor].
Qed.
Example C11_expand_example :
  write_alternatives "," "{" "}" example_alts = §"a{b, c{d,e}}{1,2}, f" /\
  split "," "{" "}" 30 §"a{b, c{d,e}}{1,2}, f" = Some (Ok [§"ab1"; §"acd1"; §"ace1"; §"ab2"; §"acd2"; §"ace2"; §"f"]) /\
  exists depth, forall fuel, depth <= fuel -> split "," "{" "}" fuel (write_alternatives "," "{" "}" example_alts) = Some (Ok (expand_alternatives example_alts)).
Proof. split; [reflexivity|]. split; [vm_compute; reflexivity|]. apply C11_expand; [exact example_delimiters|discriminate|exact example_goods]. Qed.

(** Expressions without brackets are split at the separators, and white space is removed. *)
Lemma lstrip_parts t : exists a, t = a ++ lstrip t /\ spaces a.
Proof. induction t as [|c t (a & E & S)]; [exists []; split; [reflexivity|constructor]|]. cbn [lstrip]. destruct (is_space c) eqn:Ec; [exists (c :: a); split; [cbn; congruence|constructor; assumption]|exists []; split; [reflexivity|constructor]]. Qed.
Lemma lstrip_head t : match lstrip t with [] => True | c :: _ => is_space c = false end.
Proof. induction t as [|c t IH]; cbn [lstrip]; [exact I|]. destruct (is_space c) eqn:E; [exact IH|exact E]. Qed.
Lemma strip_parts t : exists a b, t = a ++ strip t ++ b /\ spaces a /\ spaces b /\
  (strip t = [] \/ (exists c u, strip t = c :: u /\ is_space c = false) /\ exists u c, strip t = u ++ [c] /\ is_space c = false).
Proof.
  destruct (lstrip_parts t) as (a & Ea & Sa). destruct (lstrip_parts (rev (lstrip t))) as (b & Eb & Sb). exists a, (rev b). unfold strip.
  assert (E : lstrip t = rev (lstrip (rev (lstrip t))) ++ rev b) by (rewrite <- rev_app_distr, <- Eb, rev_involutive; reflexivity).
  split; [rewrite <- E; exact Ea|]. split; [exact Sa|]. split; [apply Forall_rev, Sb|].
  pose proof (lstrip_head (rev (lstrip t))) as H2. pose proof (lstrip_head t) as H1. destruct (lstrip (rev (lstrip t))) as [|c u]; [left; reflexivity|right]. cbn [rev] in *. split.
  - rewrite E in H1. destruct (rev u) as [|d v] eqn:Ev; cbn [app] in *; eauto.
  - exists (rev u), c. auto.
Qed.

Theorem C11_plain :
  forall sd od cd parts, delimiters sd od cd -> parts <> [] -> Forall (literal sd od cd) parts ->
  exists depth, forall fuel, depth <= fuel -> split sd od cd fuel (join_with sd parts) = Some (Ok (map strip parts)).
Proof.
  intros sd od cd parts D NE H.
  assert (A : exists alts, goods sd od cd alts /\ write_alternatives sd od cd alts = join_with sd parts /\ expand_alternatives alts = map strip parts /\ (parts <> [] -> alts <> [])).
  { clear NE. assert (B : exists alts, goods sd od cd alts /\ map (fun alt => match alt with (a, l, b) => a ++ concat (map (write sd od cd) l) ++ b end) alts = parts /\ expand_alternatives alts = map strip parts /\ (parts <> [] -> alts <> [])).
    { induction H as [|t parts Ht _ (alts & G & W & E & _)]; [exists []; repeat split; try constructor; congruence|].
      destruct (strip_parts t) as (a & b & Et & Sa & Sb & T). assert (Pd : forall x, (forall c, In c x -> In c t) -> spaces x -> padding sd x).
      { intros x Hx Sx. apply Forall_forall. intros c Hc. unfold spaces in Sx. rewrite Forall_forall in Sx. split; [apply Sx, Hc|]. unfold literal in Ht. rewrite Forall_forall in Ht. apply Ht, Hx, Hc. }
      assert (Pa : padding sd a) by (apply Pd; [intros c Hc; rewrite Et; apply in_or_app; auto|exact Sa]).
      assert (Pb : padding sd b) by (apply Pd; [intros c Hc; rewrite Et; apply in_or_app; right; apply in_or_app; auto|exact Sb]).
      assert (Ls : literal sd od cd (strip t)) by (unfold literal in *; rewrite Et in Ht; apply Forall_app in Ht as [_ Ht]; apply Forall_app in Ht as [Ht _]; exact Ht).
      destruct T as [T|[T1 T2]].
      - exists ((a, [], b) :: alts). split; [constructor; [exact Pa|exact Pb|split; exact I|constructor|exact G]|]. split; [cbn [map concat]; f_equal; [rewrite Et, T; reflexivity|exact W]|]. split; [|discriminate]. unfold expand_alternatives in *. cbn [flat_map fst snd map]. rewrite E, T. reflexivity.
      - exists ((a, [Lit (strip t)], b) :: alts). split; [constructor; [exact Pa|exact Pb|split; assumption|constructor; [exact Ls|constructor]|exact G]|]. split; [cbn [map concat write]; rewrite app_nil_r; f_equal; [symmetry; exact Et|exact W]|]. split; [|discriminate].
        unfold expand_alternatives in *. cbn [flat_map fst snd map]. rewrite E. cbn. rewrite app_nil_r. reflexivity. }
    destruct B as (alts & G & W & E & N). exists alts. split; [exact G|]. split; [unfold write_alternatives; rewrite W; reflexivity|]. split; assumption. }
  destruct A as (alts & G & W & E & N). destruct (C11_expand sd od cd alts D (N NE) G) as [(depth & Hd) _]. exists depth. intros fuel Hf. rewrite <- W, <- E. apply Hd, Hf.
Qed.
Print Assumptions C11_plain.

Example C11_plain_example : exists depth, forall fuel, depth <= fuel -> split "," "{" "}" fuel §"x y , ,z" = Some (Ok [§"x y"; []; §"z"]).
Proof.
  assert (H : Forall (literal "," "{" "}") [§"x y "; §" "; §"z"]).
  { unfold literal. cbn [str list_ascii_of_string]. repeat (apply Forall_cons || apply Forall_nil); repeat split; discriminate. }
  destruct (C11_plain "," "{" "}" [§"x y "; §" "; §"z"] example_delimiters ltac:(discriminate) H) as (d & Hd). exists d. intros fuel Hf. exact (Hd fuel Hf).
Qed.

(** The restriction on literal text is necessary: a number in angle brackets is taken for a
    group that has been packed, so that the recursion does not end or the index is out of range,
    and the text after a line break is lost. *)
Theorem C11_literals_refuted :
  (forall fuel, split "," "{" "}" fuel §"<0>" = None) /\
  split "," "{" "}" 10 §"<7>" = Some (Raise IndexError) /\
  split "," "{" "}" 10 (§"a{b,c}" ++ newline :: §"d") = Some (Ok [§"ab"; §"ac"]).
Proof.
  split; [|split; vm_compute; reflexivity]. intros fuel.
  assert (E : forall fuel, factorize "," fuel [§"<0>"] §"<0>" = None) by (induction fuel0 as [|f IH]; [reflexivity|]; cbn [factorize]; vm_compute in IH |- *; rewrite IH; reflexivity).
  exact (E fuel).
Qed.
Print Assumptions C11_literals_refuted.
