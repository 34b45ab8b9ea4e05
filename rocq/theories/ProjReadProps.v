(** C106: names of the orbitals in the output of projwfc.x. *)
From Coq Require Import Lia Permutation.
From Verif Require Import Common CommonProofs Text TextProofs SplitSpec NmlModel NmlProofs.
From Verif Require Import ProjModel ProjSpec ProjProofs ProjReadProofs.
Import ListNotations.
Local Open Scope nat_scope.

(** Ways to iterate over a set *)
Definition enumerates (order : list text -> list text) : Prop := forall l, NoDup (order l) /\ forall x, In x (order l) <-> In x l.
Definition file_ok (before : list text) (heading gap1 gap2 : text) (l : list state) (after : list text) : Prop :=
  Forall (Forall (fun c => c <> newline)) (before ++ [heading; gap1; gap2] ++ after) /\ Forall (fun t => ~ has_title t) (before ++ after) /\ has_title heading /\
  Forall state_ok l /\ uniform l /\ (Z.of_nat (length l) < 10000)%Z.

(** For every list of states, whatever the order in which the set of names is iterated over,
    the i-th name tells species, radial function and symmetry of the i-th state; states that
    share them are numbered in order of appearance. *)
Theorem C106_names :
  forall order before heading gap1 gap2 l after other, enumerates order -> file_ok before heading gap1 gap2 l after ->
  read_projwfc_out order other (output before heading gap1 gap2 l after) =
  Ok (map (fun p => written (named l (fst p) (snd p))) (combine (seq 0 (length l)) l) ++ if other then [§"X-x"] else []).
Proof.
  intros order before heading gap1 gap2 l after other Ho (H1 & H2 & H3 & H4 & H5 & H6). unfold read_projwfc_out.
  rewrite (scan_output before heading gap1 gap2 l after H1 H2 H3 H4 H6). cbn [bind]. destruct (Ho (map wbase l)) as [N I].
  assert (E : fold_left number_duplicates (order (map wbase l)) (map wbase l) = map (fun p => written (named l (fst p) (snd p))) (combine (seq 0 (length l)) l)).
  { rewrite <- (st_nil l l []) at 2. rewrite (number_all l H4 H5); [|exact N|intros x Hx; split; [apply I, Hx|reflexivity]].
    apply (st_all l) with (pre := []); [|reflexivity]. intros x Hx. apply in_or_app. left. apply in_rev. rewrite rev_involutive. apply I, Hx. }
  rewrite E. destruct other; [reflexivity|]. rewrite app_nil_r. reflexivity.
Qed.
Print Assumptions C106_names.

(** The names are what proj_sum (C105) understands, *)
Lemma named_with l i s : named l i s = with_atom (if occurrences s l <=? 1 then [] else fmt_d (Z.of_nat (occurrences s (firstn (S i) l)))) s.
Proof. unfold named. rewrite base_with. destruct (_ <=? _); reflexivity. Qed.
Lemma named_proper l i s : state_ok s -> proper (named l i s).
Proof. intros H. rewrite named_with. apply with_atom_proper; [exact H|]. destruct (_ <=? _); [constructor|apply fmt_digits; lia]. Qed.

Theorem C106_understood :
  forall order before heading gap1 gap2 l after, enumerates order -> file_ok before heading gap1 gap2 l after ->
  exists ts os, read_projwfc_out order true (output before heading gap1 gap2 l after) = Ok ts /\
    Forall proper os /\ Forall2 names ts os /\ length os = S (length l) /\
    (forall i s, nth_error l i = Some s -> exists o, nth_error os i = Some o /\
      element o = species s /\ principal o = fmt_d (wfc s) /\ shell o = shell (base s) /\ label o = label (base s)).
Proof.
  intros order before heading gap1 gap2 l after Ho Hf.
  exists (map (fun p => written (named l (fst p) (snd p))) (combine (seq 0 (length l)) l) ++ [§"X-x"]).
  set (os' := map (fun p => named l (fst p) (snd p)) (combine (seq 0 (length l)) l) ++ [Orbital §"X" [] [] §"x" []]). exists os'.
  split; [apply (C106_names order _ _ _ _ _ _ true); assumption|]. pose proof Hf as (_ & _ & _ & H4 & _). rewrite Forall_forall in H4.
  assert (Lc : length (combine (seq 0 (length l)) l) = length l) by (rewrite combine_length, seq_length; lia).
  split; [|split; [|split]].
  - apply Forall_app. split; [|constructor; [|constructor]].
    + apply Forall_forall. intros o Hin. apply in_map_iff in Hin as ((i & s) & <- & Hin). cbn [fst snd]. apply named_proper, H4. eapply in_combine_r, Hin.
    + split; [right; exists "X"%char; split; [reflexivity|left; reflexivity]|]. split; [constructor|]. split; [constructor|]. split; [right; cbn; auto 6|constructor].
  - apply Forall2_app.
    + clear. generalize (combine (seq 0 (length l)) l). intros c. induction c as [|p c IH]; cbn [map]; constructor; [exists [], []; rewrite app_nil_r; repeat split; constructor|exact IH].
    + constructor; [exists [], []; repeat split; constructor|constructor].
  - unfold os'. rewrite app_length, map_length, Lc. cbn [length]. lia.
  - intros i s Hs. exists (named l i s). split.
    + unfold os'. assert (Hi : i < length l) by (apply nth_error_Some; congruence). rewrite nth_error_app1 by (rewrite map_length, Lc; exact Hi).
      rewrite nth_error_map. assert (E : nth_error (combine (seq 0 (length l)) l) i = Some (i, s)); [|rewrite E; reflexivity].
      assert (Hin : In (i, s) (combine (seq 0 (length l)) l)) by (apply in_enum; rewrite Nat.sub_0_r; split; [lia|exact Hs]).
      clear - Hs Hi. destruct (nth_error (combine (seq 0 (length l)) l) i) as [[j s']|] eqn:E; [|apply nth_error_None in E; rewrite combine_length, seq_length in E; lia].
      assert (Hf : nth_error (map fst (combine (seq 0 (length l)) l)) i = Some j) by (rewrite nth_error_map, E; reflexivity).
      assert (Hg : nth_error (map snd (combine (seq 0 (length l)) l)) i = Some s') by (rewrite nth_error_map, E; reflexivity).
      assert (F : map fst (combine (seq 0 (length l)) l) = seq 0 (length l) /\ map snd (combine (seq 0 (length l)) l) = l).
      { clear. generalize 0. induction l as [|x l IH]; intros k; [split; reflexivity|]. destruct (IH (S k)) as [I1 I2]. cbn [length seq combine map fst snd]. rewrite I1, I2. split; reflexivity. }
      destruct F as [F1 F2]. rewrite F1 in Hf. rewrite F2, Hs in Hg. injection Hg as <-. f_equal. f_equal.
      apply nth_error_nth with (d := 0) in Hf. rewrite seq_nth in Hf by exact Hi. cbn in Hf. congruence.
    + rewrite named_with. auto.
Qed.
Print Assumptions C106_understood.

(** and all different. *)
Lemma occ_split (same_s : state -> bool) (l : list state) i s : nth_error l i = Some s -> same_s s = true ->
  length (filter same_s (firstn (S i) l)) = S (length (filter same_s (firstn i l))).
Proof.
  revert i. induction l as [|x l IH]; intros i H E; [destruct i; discriminate|]. destruct i as [|i].
  - injection H as ->. cbn [firstn filter]. rewrite E. cbn. reflexivity.
  - cbn [nth_error] in H. cbn [firstn] in *. cbn [filter]. specialize (IH i H E). cbn [firstn] in IH. destruct (same_s x); cbn [length]; rewrite IH; reflexivity.
Qed.
Lemma occ_mono (f : state -> bool) (l : list state) i j : i <= j -> length (filter f (firstn i l)) <= length (filter f (firstn j l)).
Proof.
  intros H. replace (firstn i l) with (firstn i (firstn j l)) by (rewrite firstn_firstn; f_equal; lia).
  rewrite <- (firstn_skipn i (firstn j l)) at 2. rewrite filter_app, app_length. lia.
Qed.

Theorem C106_distinct :
  forall order before heading gap1 gap2 l after other, enumerates order -> file_ok before heading gap1 gap2 l after ->
  exists ts, read_projwfc_out order other (output before heading gap1 gap2 l after) = Ok ts /\ NoDup ts.
Proof.
  intros order before heading gap1 gap2 l after other Ho Hf. eexists. split; [apply C106_names; assumption|].
  destruct Hf as (_ & _ & _ & H4 & H5 & _). rewrite Forall_forall in H4.
  assert (X : ~ In §"X-x" (map (fun p => written (named l (fst p) (snd p))) (combine (seq 0 (length l)) l))).
  { intros H. apply in_map_iff in H as ((i & s) & E & Hin). cbn [fst snd] in E. apply in_combine_r in Hin. rewrite named_with in E.
    change §"X-x" with (written (Orbital §"X" [] [] §"x" [])) in E. rewrite <- named_with in E. apply written_inj in E; [|apply named_proper, H4, Hin|].
    - rewrite named_with in E. unfold with_atom in E. injection E as _ _ E _ _. pose proof (word_fmt_d (wfc s)) as [N _]. congruence.
    - split; [right; exists "X"%char; split; [reflexivity|left; reflexivity]|]. split; [constructor|]. split; [constructor|]. split; [right; cbn; auto 6|constructor]. }
  assert (N : NoDup (map (fun p => written (named l (fst p) (snd p))) (combine (seq 0 (length l)) l))).
  { assert (Inj : forall i s j s', i <= j -> In (i, s) (combine (seq 0 (length l)) l) -> In (j, s') (combine (seq 0 (length l)) l) -> written (named l i s) = written (named l j s') -> (i, s) = (j, s')).
    { intros i s j s' Hij Hi Hj E. apply in_enum in Hi as [_ Hi]. apply in_enum in Hj as [_ Hj]. rewrite Nat.sub_0_r in Hi, Hj.
      pose proof (nth_error_In _ _ Hi) as Is. pose proof (nth_error_In _ _ Hj) as Js. apply written_inj in E; [|apply named_proper, H4, Is|apply named_proper, H4, Js].
      rewrite !named_with in E. pose proof (f_equal element E) as E1. pose proof (f_equal atom E) as E2. pose proof (f_equal principal E) as E3. pose proof (f_equal shell E) as E4. pose proof (f_equal label E) as E5.
      unfold with_atom in E1, E2, E3, E4, E5. cbn [element atom principal shell label] in E1, E2, E3, E4, E5.
      assert (Sm : same s s' = true). { apply (same_spec l); [exact H5|apply Forall_forall, H4|exact Is|exact Js|]. unfold wbase. rewrite !base_with. unfold with_atom. rewrite E1, E3, E4, E5. reflexivity. }
      assert (Oc : forall ls, incl ls l -> occurrences s ls = occurrences s' ls).
      { intros ls Hl. rewrite <- (occ_occurrences l), <- (occ_occurrences l); try assumption; try (apply Forall_forall, H4). f_equal. apply (same_spec l) in Sm; try assumption. apply Forall_forall, H4. }
      assert (Ref : forall s, In s l -> same s s = true) by (intros x Hx; apply (same_spec l); [exact H5|apply Forall_forall, H4|exact Hx|exact Hx|reflexivity]).
      destruct (Nat.eq_dec i j) as [->|Ne]; [congruence|exfalso]. assert (Hlt : S i <= j) by lia.
      pose proof (occ_split (same s) l i s Hi (Ref s Is)) as C1. pose proof (occ_split (same s) l j s' Hj Sm) as C2. pose proof (occ_mono (same s) l (S i) j Hlt) as C3.
      pose proof (occ_mono (same s) l (S j) (length l)) as C4. rewrite firstn_all in C4. assert (Hjl : j < length l) by (apply nth_error_Some; congruence). specialize (C4 Hjl).
      rewrite <- (Oc l (incl_refl l)), <- (Oc (firstn (S j) l)) in E2 by (intros x Hx; rewrite <- (firstn_skipn (S j) l); apply in_or_app; left; exact Hx).
      unfold occurrences in E2. destruct (length (filter (same s) l) <=? 1) eqn:L; [apply Nat.leb_le in L; lia|]. apply fmt_inj in E2. lia. }
    assert (Nd : NoDup (combine (seq 0 (length l)) l)).
    { apply (NoDup_map_inv fst). clear. assert (F : map fst (combine (seq 0 (length l)) l) = seq 0 (length l)); [|rewrite F; apply seq_NoDup].
      generalize 0. induction l as [|x l IH]; intros k; [reflexivity|]. cbn [length seq combine map fst]. rewrite IH. reflexivity. }
    assert (Inj' : forall p q, In p (combine (seq 0 (length l)) l) -> In q (combine (seq 0 (length l)) l) -> written (named l (fst p) (snd p)) = written (named l (fst q) (snd q)) -> p = q).
    { intros [i s] [j s'] Hp Hq E. cbn [fst snd] in E. destruct (Nat.le_ge_cases i j) as [Hij|Hij]; [apply Inj; assumption|symmetry; apply Inj; auto]. }
    clear - Nd Inj'. induction Nd as [|p c Hp _ IH]; cbn [map]; [constructor|]. constructor.
    - intros H. apply in_map_iff in H as (q & E & Hq). apply Hp. rewrite (Inj' p q); [exact Hq|left; reflexivity|right; exact Hq|symmetry; exact E].
    - apply IH. intros a b Ha Hb. apply Inj'; right; assumption. }
  destruct other; [|rewrite app_nil_r; exact N]. apply (Permutation_NoDup (Permutation_cons_append _ _)). constructor; assumption.
Qed.
Print Assumptions C106_distinct.

(** ** Example: two sulfur atoms and one tantalum atom *)
Definition ex_states : list state :=
  [State 1 §"S" 2 1 (inl 1); State 2 §"S" 2 1 (inl 1); State 2 §"S" 2 1 (inl 2); State 3 §"Ta" 3 2 (inl 4)].
Definition ex_file : text := output [§"Program PROJWFC"] §"     Atomic states used for projection" §"     (read from pseudopotential files):" [] ex_states [§" k = 0"].
Lemma ex_file_ok : file_ok [§"Program PROJWFC"] §"     Atomic states used for projection" §"     (read from pseudopotential files):" [] ex_states [§" k = 0"].
Proof.
  split; [|split; [|split; [|split; [|split]]]].
  - cbn [app]. repeat (apply Forall_cons || apply Forall_nil); discriminate.
  - cbn [app]. assert (D : forall t, contains §"Atomic states used for projection" t = false -> ~ has_title t) by (intros t H1 H2; apply contains_spec in H2; congruence).
    apply Forall_cons; [apply D; vm_compute; reflexivity|]. apply Forall_cons; [apply D; vm_compute; reflexivity|apply Forall_nil].
  - exists §"     ", []. reflexivity.
  - unfold ex_states. repeat (apply Forall_cons || apply Forall_nil); (split; [|cbn; repeat split; lia]).
    + exists "S"%char. split; [reflexivity|left; reflexivity].
    + exists "S"%char. split; [reflexivity|left; reflexivity].
    + exists "S"%char. split; [reflexivity|left; reflexivity].
    + exists "T"%char. split; [reflexivity|right; exists "a"%char; split; reflexivity].
  - left. intros s H. cbn in H. repeat (destruct H as [<-|H]; [eexists; reflexivity|]). contradiction.
  - reflexivity.
Qed.
Lemma enumerates_nodup : enumerates (nodup (list_eq_dec Ascii.ascii_dec)).
Proof. intros l. split; [apply NoDup_nodup|intros x; apply nodup_In]. Qed.
Example C106_example :
  read_projwfc_out (nodup (list_eq_dec Ascii.ascii_dec)) true ex_file = Ok [§"S1-2pz"; §"S2-2pz"; §"S-2px"; §"Ta-3dx2-y2"; §"X-x"] /\
  forall order, enumerates order -> read_projwfc_out order true ex_file = Ok [§"S1-2pz"; §"S2-2pz"; §"S-2px"; §"Ta-3dx2-y2"; §"X-x"].
Proof.
  assert (E : forall order, enumerates order -> read_projwfc_out order true ex_file = Ok [§"S1-2pz"; §"S2-2pz"; §"S-2px"; §"Ta-3dx2-y2"; §"X-x"]).
  { intros order Ho. unfold ex_file. rewrite (C106_names order _ _ _ _ _ _ true Ho ex_file_ok). vm_compute. reflexivity. }
  split; [vm_compute; reflexivity|exact E].
Qed.

(** If species names may contain digits, names collide or are numbered twice, depending on
    the order of iteration, i.e., on the hash seed of the Python process. *)
Theorem C106_digits_refuted :
  let f := output [] §"Atomic states used for projection" [] [] [State 1 §"Ta" 1 0 (inl 1); State 2 §"Ta" 1 0 (inl 1); State 3 §"Ta1" 1 0 (inl 1)] [] in
  let set := nodup (list_eq_dec Ascii.ascii_dec) in
  enumerates set /\ enumerates (fun l => rev (set l)) /\
  read_projwfc_out set false f = Ok [§"Ta11-1s"; §"Ta2-1s"; §"Ta12-1s"] /\
  read_projwfc_out (fun l => rev (set l)) false f = Ok [§"Ta1-1s"; §"Ta2-1s"; §"Ta1-1s"].
Proof.
  cbv zeta. split; [exact enumerates_nodup|]. split.
  - intros l. split; [apply NoDup_rev, NoDup_nodup|]. intros x. rewrite <- in_rev. apply nodup_In.
  - split; vm_compute; reflexivity.
Qed.
Print Assumptions C106_digits_refuted.
