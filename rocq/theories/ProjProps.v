(** C105: sums over selected atomic orbitals. *)
From Coq Require Import Lia Permutation.
From Verif Require Import Common CommonProofs Text TextProofs SplitModel SplitSpec SplitProofs SplitProps NmlModel NmlProofs.
From Verif Require Import Num NumProofs ProjModel ProjSpec ProjProofs.
Import ListNotations.
Local Open Scope nat_scope.

(** The weight of a group is the sum over exactly those orbitals that any of its
    names selects, each counted once. The rest is what is missing to one. *)
Theorem C105_sum :
  forall (F : num) (no : nat) (proj : nat -> F) os ts groups other,
  Forall proper os -> Forall2 names ts os -> length os <= no -> Forall group_ok groups ->
  exists depth ls,
    Forall2 (fun group l => NoDup l /\ forall a, In a l <-> exists o, nth_error os a = Some o /\ group_selects group o) groups ls /\
    forall fuel, depth <= fuel ->
    proj_sum fuel no proj ts (map (write_alternatives "," "{" "}") groups) other =
    Some (Ok (map (nsum proj) ls ++ if other then [nsub n1 (nsum proj (concat ls))] else [])).
Proof.
  intros F no proj os ts groups other Hos Hts Hno Hg. destruct (sum_groups_ok no proj os ts groups Hos Hts Hno Hg) as (depth & ls & Cov & Hd).
  exists depth, ls. split; [exact Cov|]. intros fuel Hf. unfold proj_sum. rewrite Hd by exact Hf. rewrite nsum_concat_lists. destruct other; [reflexivity|]. rewrite app_nil_r. reflexivity.
Qed.
Print Assumptions C105_sum.

(** Groups that select the same orbitals have the same weight, no matter how often
    an orbital is named. *)
Theorem C105_same :
  forall (F : num) (no : nat) (proj : nat -> F) os ts g g',
  Forall proper os -> Forall2 names ts os -> length os <= no -> group_ok g -> group_ok g' ->
  (forall o, In o os -> group_selects g o <-> group_selects g' o) ->
  exists depth x, forall fuel, depth <= fuel ->
  proj_sum fuel no proj ts [write_alternatives "," "{" "}" g; write_alternatives "," "{" "}" g'] false = Some (Ok [x; x]).
Proof.
  intros F no proj os ts g g' Hos Hts Hno Hg Hg' E.
  destruct (C105_sum F no proj os ts [g; g'] false Hos Hts Hno (Forall_cons _ Hg (Forall_cons _ Hg' (Forall_nil _)))) as (depth & ls & Cov & Hd).
  inversion Cov as [|? l ? ls' [N1 I1] Cov']; subst. inversion Cov' as [|? l' ? ls'' [N2 I2] Cov'']; subst. inversion Cov''; subst.
  exists depth, (nsum proj l). intros fuel Hf. rewrite Hd by exact Hf. cbn [map app].
  assert (Q : nsum proj l' = nsum proj l); [|rewrite Q; reflexivity]. apply nsum_perm.
  apply NoDup_Permutation; [assumption|assumption|]. intros a. rewrite I1, I2. split; intros (o & Ho & S); exists o; (split; [exact Ho|]); apply (E o); auto; eapply nth_error_In, Ho.
Qed.
Print Assumptions C105_same.

Lemma NoDup_disjoint {A} (l l' : list A) : NoDup l -> NoDup l' -> (forall a, In a l -> In a l' -> False) -> NoDup (l ++ l').
Proof.
  intros H H' D. induction H as [|a l Ha _ IH]; [exact H'|]. cbn [app]. constructor; [|apply IH; intros b Hb Hb'; apply (D b); [right; exact Hb|exact Hb']].
  rewrite in_app_iff. intros [I|I]; [exact (Ha I)|]. apply (D a); [left; reflexivity|exact I].
Qed.

(** If every orbital belongs to exactly one of the groups, the weights of the groups add
    up to the total weight. *)
Theorem C105_partition :
  forall (F : num) (no : nat) (proj : nat -> F) os ts groups other,
  Forall proper os -> Forall2 names ts os -> length os = no -> Forall group_ok groups ->
  (forall o, In o os -> exists i g, nth_error groups i = Some g /\ group_selects g o /\
    forall j g', nth_error groups j = Some g' -> group_selects g' o -> j = i) ->
  exists depth xs, length xs = length groups /\ nsum (fun x => x) xs = nsum proj (seq 0 no) /\
    forall fuel, depth <= fuel ->
    proj_sum fuel no proj ts (map (write_alternatives "," "{" "}") groups) other =
    Some (Ok (xs ++ if other then [nsub n1 (nsum proj (seq 0 no))] else [])).
Proof.
  intros F no proj os ts groups other Hos Hts Hno Hg U.
  destruct (C105_sum F no proj os ts groups other Hos Hts (Nat.eq_le_incl _ _ Hno) Hg) as (depth & ls & Cov & Hd).
  assert (E : nsum proj (concat ls) = nsum proj (seq 0 no)).
  { apply nsum_perm. apply NoDup_Permutation; [| apply seq_NoDup |].
    - clear Hd depth Hts ts proj Hg other. revert ls Cov.
      assert (U' : forall o, In o os -> forall i j g g', nth_error groups i = Some g -> nth_error groups j = Some g' -> group_selects g o -> group_selects g' o -> i = j).
      { intros o Ho i j g g' Hi Hj S S'. destruct (U o Ho) as (k & h & _ & _ & Uq). rewrite (Uq i g), (Uq j g'); auto. }
      clear U. induction groups as [|g groups IH]; intros ls Cov; inversion Cov as [|? l ? ls' [N I] Cov']; subst; [constructor|]. cbn [concat].
      assert (IHn : NoDup (concat ls')). { apply IH; [|exact Cov']. intros o Ho i j h h' Hi Hj S1 S2. assert (Q : S i = S j) by (apply (U' o Ho (S i) (S j) h h'); assumption). lia. }
      apply (NoDup_disjoint l (concat ls')); [exact N|exact IHn|]. intros a Ha Hc. apply I in Ha as (o & Ho & So). apply in_concat in Hc as (l' & Hl' & Ha').
      apply In_nth_error in Hl' as (j & Hj).
      assert (Q : exists g', nth_error groups j = Some g' /\ (forall a, In a l' <-> exists o, nth_error os a = Some o /\ group_selects g' o)).
      { clear - Cov' Hj. revert j Hj. induction Cov' as [|h l0 gs ls0 [_ I0] _ IH]; intros j Hj; [destruct j; discriminate|]. destruct j as [|j]; [injection Hj as ->; exists h; auto|]. apply IH, Hj. }
      destruct Q as (g' & Hg' & I'). destruct (proj1 (I' a) Ha') as (o' & Ho' & So'). rewrite Ho in Ho'. injection Ho' as <-.
      assert (Q : 0 = S j) by (apply (U' o (nth_error_In _ _ Ho) 0 (S j) g g'); auto). discriminate.
    - intros a. rewrite in_seq, in_concat. split.
      + intros (l & Hl & Ha). assert (a < length os); [|lia]. clear - Cov Hl Ha. induction Cov as [|g l0 gs ls0 [_ I] _ IH]; [contradiction|]. destruct Hl as [->|Hl]; [|apply IH, Hl].
        apply I in Ha as (o & Ho & _). apply nth_error_Some. congruence.
      + intros Ha. destruct (nth_error os a) as [o|] eqn:Ho; [|apply nth_error_None in Ho; lia]. destruct (U o (nth_error_In _ _ Ho)) as (i & g & Hi & S & _). clear U.
        revert i Hi. clear - Cov S Ho. induction Cov as [|h l0 gs ls0 [_ I] _ IH]; intros i Hi; [destruct i; discriminate|]. destruct i as [|i].
        * injection Hi as ->. exists l0. split; [left; reflexivity|]. apply I. eauto.
        * destruct (IH i Hi) as (l & Hl & Hal). exists l. split; [right; exact Hl|exact Hal]. }
  exists depth, (map (nsum proj) ls). split; [rewrite map_length; clear - Cov; induction Cov; cbn; congruence|]. split; [rewrite nsum_concat_lists; exact E|].
  intros fuel Hf. rewrite (Hd fuel Hf), E. reflexivity.
Qed.
Print Assumptions C105_partition.

(** ** Examples *)
Definition properb (o : orbital) : bool :=
  (match element o with [] => match atom o with [] => true | _ => false end | [c] => is_upper c | [c; d] => is_upper c && is_lower d | _ => false end) &&
  forallb is_digit (atom o) && forallb is_digit (principal o) &&
  (match shell o with [] => match label o with [] => true | _ => false end | [c] => is_shell c | _ => false end) && forallb (fun c => negb (is_space c)) (label o).
Lemma properb_ok o : properb o = true -> proper o.
Proof.
  unfold properb. rewrite !andb_true_iff. intros ((((H1 & H2) & H3) & H4) & H5). rewrite forallb_forall in H2, H3, H5.
  split; [|split; [|split; [|split]]].
  - destruct (element o) as [|c [|d [|e l]]]; [left; destruct (atom o); [auto|discriminate]|right; eauto| |discriminate]. apply andb_true_iff in H1 as [H1 H1']. right. exists c. split; [exact H1|right; eauto].
  - apply Forall_forall. exact H2.
  - apply Forall_forall. exact H3.
  - destruct (shell o) as [|c [|d l]]; [left; destruct (label o); [auto|discriminate]| |discriminate]. right. clear - H4. revert H4. destruct c as [[] [] [] [] [] [] [] []]; intros H; vm_compute in H; try discriminate; cbn; auto 6.
  - apply Forall_forall. intros c Hc. apply H5 in Hc. destruct (is_space c); [discriminate|reflexivity].
Qed.

Lemma group_okb (group : list alternative) (ss : list orbital) :
  group <> [] -> goods "," "{" "}" group -> forallb properb ss = true -> expand_alternatives group = map written ss -> group_ok group.
Proof.
  intros NE G P E. split; [exact NE|]. split; [exact G|]. intros a l b w H I. destruct (C11_expand "," "{" "}" group example_delimiters NE G) as [_ Hw].
  assert (Hin : In w (expand_alternatives group)) by (apply Hw; eauto). rewrite E in Hin. apply in_map_iff in Hin as (s & <- & Hs). exists s.
  rewrite forallb_forall in P. split; [apply properb_ok, P, Hs|]. exists [], []. rewrite app_nil_r. repeat split; constructor.
Qed.

Lemma group_selects_b (group : list alternative) o : group_ok group -> proper o ->
  (group_selects group o <-> existsb (fun w => matches (info w) (info_of o)) (expand_alternatives group) = true).
Proof.
  intros (NE & G & N) P. destruct (C11_expand "," "{" "}" group example_delimiters NE G) as [_ Hw]. rewrite existsb_exists. split.
  - intros (a & l & b & w & s & H & I & Ps & Nm & S). exists w. split; [apply Hw; eauto|]. rewrite (info_name w s Ps Nm). apply matches_spec; assumption.
  - intros (w & Hin & M). apply Hw in Hin as (a & l & b & H & I). destruct (N a l b w H I) as (s & Ps & Nm). exists a, l, b, w, s. repeat (split; [assumption|]).
    rewrite (info_name w s Ps Nm) in M. apply matches_spec; assumption.
Qed.

(** Sulfur and tantalum; "S-p", "Ta-d{z2, xy}, Ta-6s, Ta-5dxy" *)
Definition ex_os : list orbital :=
  [Orbital §"S" §"1" §"3" §"p" §"z"; Orbital §"S" §"2" §"3" §"p" §"x"; Orbital §"Ta" [] §"5" §"d" §"z2"; Orbital §"Ta" [] §"6" §"s" []; Orbital §"Ta" [] §"5" §"d" §"xy"].
Definition ex_ts : list text := [§"S1-3pz"; §" S2-3px"; §"Ta-5dz2"; §"Ta-6s "; §"Ta-5dxy"].
Definition ex_g1 : list alternative := [([], [Lit §"S-p"], [])].
Definition ex_g2 : list alternative :=
  [([], [Lit §"Ta-d"; Alt [([], [Lit §"z2"], []); (§" ", [Lit §"xy"], [])]], []); (§" ", [Lit §"Ta-6s"], []); (§" ", [Lit §"Ta-5dxy"], [])].
Lemma ex_proper : Forall proper ex_os.
Proof. apply Forall_forall. intros o H. apply properb_ok. revert o H. apply forallb_forall. vm_compute. reflexivity. Qed.
Lemma ex_names : Forall2 names ex_ts ex_os.
Proof.
  assert (N : spaces []) by constructor. assert (B : spaces §" ") by (constructor; [reflexivity|constructor]).
  constructor; [exists [], []; repeat split; exact N|]. constructor; [exists §" ", []; repeat split; assumption|]. constructor; [exists [], []; repeat split; exact N|].
  constructor; [exists [], §" "; repeat split; assumption|]. constructor; [exists [], []; repeat split; exact N|]. constructor.
Qed.
Ltac lits := repeat (apply Forall_cons; [repeat split; discriminate|]); apply Forall_nil.
Lemma ex_goods1 : goods "," "{" "}" ex_g1.
Proof.
  unfold ex_g1. constructor; [constructor|constructor| |constructor; [lits|constructor]|constructor].
  split; [exists "S"%char, §"-p"; auto|exists §"S-", "p"%char; auto].
Qed.
Lemma ex_goods2 : goods "," "{" "}" ex_g2.
Proof.
  assert (B : padding "," §" ") by (constructor; [split; [reflexivity|discriminate]|constructor]).
  unfold ex_g2. constructor; [constructor|constructor| | |].
  - split; [exists "T"%char, §"a-d"; auto|exact Logic.I].
  - constructor; [lits|]. constructor; [discriminate| |constructor]. constructor; [constructor|constructor| |constructor; [lits|constructor]|].
    + split; [exists "z"%char, §"2"; auto|exists §"z", "2"%char; auto].
    + constructor; [exact B|constructor| |constructor; [lits|constructor]|constructor]. split; [exists "x"%char, §"y"; auto|exists §"x", "y"%char; auto].
  - constructor; [exact B|constructor| |constructor; [lits|constructor]|].
    + split; [exists "T"%char, §"a-6s"; auto|exists §"Ta-6", "s"%char; auto].
    + constructor; [exact B|constructor| |constructor; [lits|constructor]|constructor]. split; [exists "T"%char, §"a-5dxy"; auto|exists §"Ta-5dx", "y"%char; auto].
Qed.
Lemma ex_group1 : group_ok ex_g1.
Proof. apply (group_okb _ [Orbital §"S" [] [] §"p" []]); [discriminate|exact ex_goods1|reflexivity|reflexivity]. Qed.
Lemma ex_group2 : group_ok ex_g2.
Proof. apply (group_okb _ [Orbital §"Ta" [] [] §"d" §"z2"; Orbital §"Ta" [] [] §"d" §"xy"; Orbital §"Ta" [] §"6" §"s" []; Orbital §"Ta" [] §"5" §"d" §"xy"]); [discriminate|exact ex_goods2|reflexivity|reflexivity]. Qed.

Definition ex_proj (a : nat) : gauss := (nth a [1; 20; 300; 4000; 50000]%Z 0%Z, 0%Z).
Example C105_example :
  map (write_alternatives "," "{" "}") [ex_g1; ex_g2] = [§"S-p"; §"Ta-d{z2, xy}, Ta-6s, Ta-5dxy"] /\
  proj_sum 40 5 ex_proj ex_ts [§"S-p"; §"Ta-d{z2, xy}, Ta-6s, Ta-5dxy"] true = Some (Ok [(21, 0); (54300, 0); (-54320, 0)]%Z) /\
  exists depth xs, length xs = 2 /\ nsum (fun x => x) xs = nsum ex_proj (seq 0 5) /\
    forall fuel, depth <= fuel -> proj_sum fuel 5 ex_proj ex_ts (map (write_alternatives "," "{" "}") [ex_g1; ex_g2]) true = Some (Ok (xs ++ [nsub n1 (nsum ex_proj (seq 0 5))])).
Proof.
  split; [reflexivity|]. split; [vm_compute; reflexivity|].
  apply (C105_partition gauss 5 ex_proj ex_os ex_ts [ex_g1; ex_g2] true ex_proper ex_names eq_refl (Forall_cons _ ex_group1 (Forall_cons _ ex_group2 (Forall_nil _)))).
  assert (D : forall o, In o ex_os -> proper o) by (apply Forall_forall, ex_proper).
  intros o Ho. pose proof (D o Ho) as P. 
  assert (B : exists b, existsb (fun w => matches (info w) (info_of o)) (expand_alternatives ex_g1) = b /\ existsb (fun w => matches (info w) (info_of o)) (expand_alternatives ex_g2) = negb b).
  { clear - Ho. cbn [ex_os In] in Ho. destruct Ho as [<-|[<-|[<-|[<-|[<-|[]]]]]]; eexists; (split; [vm_compute; reflexivity|vm_compute; reflexivity]). }
  destruct B as ([] & B1 & B2).
  - exists 0, ex_g1. split; [reflexivity|]. split; [apply group_selects_b; [exact ex_group1|exact P|exact B1]|].
    intros [|[|j]] g Hj S; [reflexivity| |destruct j; discriminate]. cbn in Hj. injection Hj as <-. apply group_selects_b in S; [|exact ex_group2|exact P]. rewrite S in B2. discriminate.
  - exists 1, ex_g2. split; [reflexivity|]. split; [apply group_selects_b; [exact ex_group2|exact P|exact B2]|].
    intros [|[|j]] g Hj S; [|reflexivity|destruct j; discriminate]. cbn in Hj. injection Hj as <-. apply group_selects_b in S; [|exact ex_group1|exact P]. congruence.
Qed.

(** A name is understood up to the first character that does not fit. The rest is
    ignored silently: a misspelled name may select much more than meant, and a trailing comma
    selects all orbitals. *)
Example C105_misspelled :
  proj_sum 40 5 ex_proj ex_ts [§"Ta-D"; §"S-p,"] false = Some (Ok [(54300, 0); (54321, 0)]%Z).
Proof. vm_compute. reflexivity. Qed.
