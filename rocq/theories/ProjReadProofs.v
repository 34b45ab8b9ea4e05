(** Proofs about ProjModel.v: output of projwfc.x. *)
From Coq Require Import Lia Permutation.
From Verif Require Import Common CommonProofs Text TextProofs SplitSpec NmlModel NmlProofs.
From Verif Require Import ProjModel ProjSpec ProjProofs.
Import ListNotations.
Local Open Scope nat_scope.

(** ** Columns *)
Lemma slice_app {A} (a b c : list A) i j : length a = i -> length b = j - i -> slice i j (a ++ b ++ c) = b.
Proof. intros <- Hb. unfold slice. rewrite skipn_app, skipn_all, Nat.sub_diag. cbn [app skipn]. rewrite <- Hb, firstn_app, Nat.sub_diag, firstn_all. cbn [firstn]. apply app_nil_r. Qed.
Lemma py_nth_app {A} (a c : list A) (b : A) (i : Z) : Z.of_nat (length a) = i -> py_nth (a ++ b :: c) i = Ok b.
Proof.
  intros <-. unfold py_nth. destruct (Z.of_nat (length a) <? 0)%Z eqn:E; [apply Z.ltb_lt in E; lia|]. rewrite E, Nat2Z.id. rewrite nth_error_app2 by lia. rewrite Nat.sub_diag. reflexivity.
Qed.
Lemma py_nth_in {A} (l : list A) (i : Z) x : (0 <= i)%Z -> nth_error l (Z.to_nat i) = Some x -> py_nth l i = Ok x.
Proof. intros Hi H. unfold py_nth. destruct (i <? 0)%Z eqn:E; [apply Z.ltb_lt in E; lia|]. rewrite E, H. reflexivity. Qed.

Lemma fmt_nonneg z : (0 <= z)%Z -> fmt_d z = nonneg_to_text z.
Proof. intros H. unfold fmt_d. destruct (z <? 0)%Z eqn:E; [apply Z.ltb_lt in E; lia|reflexivity]. Qed.
Lemma pad_length w t : length t <= w -> length (pad w t) = w.
Proof. intros H. unfold pad. rewrite app_length, repeat_length. lia. Qed.
Lemma pad_fmt_length w z : 0 < w -> (0 <= z < 10 ^ Z.of_nat w)%Z -> length (pad w (fmt_d z)) = w.
Proof. intros Hw H. apply pad_length. rewrite fmt_nonneg by lia. apply nonneg_length; assumption. Qed.
Lemma to_int_pad w z : to_int (pad w (fmt_d z)) = Ok z.
Proof. unfold pad. rewrite <- (app_nil_r (fmt_d z)). apply to_int_fmt; [apply spaces_blank|constructor]. Qed.
Lemma right_length w t : length t <= w -> length (right w t) = w.
Proof. intros H. unfold right. rewrite app_length, repeat_length. lia. Qed.

Lemma species_solid s : state_ok s -> word (species s) /\ length (species s) <= 2.
Proof.
  intros ((c & Hc & [->|(d & Hd & ->)]) & _); (split; [split; [discriminate|]|cbn; lia]).
  - apply Forall_cons; [apply upper_facts, Hc|apply Forall_nil].
  - apply Forall_cons; [apply upper_facts, Hc|apply Forall_cons; [apply lower_facts, Hd|apply Forall_nil]].
Qed.
Lemma strip_right s : state_ok s -> strip (right 3 (species s)) = species s.
Proof. intros H. unfold right. apply (strip_word [] (species s)); [constructor|apply species_solid, H|apply spaces_blank]. Qed.

(** Name of a state before duplicates are numbered *)
Definition wbase (s : state) : text := written (base s).
Lemma fmt_cons z : (0 <= z)%Z -> exists c t, fmt_d z = c :: t.
Proof. intros H. pose proof (word_fmt_d z) as [N _]. destruct (fmt_d z); [congruence|eauto]. Qed.
Lemma wbase_eq s : state_ok s -> wbase s = species s ++ §"-" ++ fmt_d (wfc s) ++ shell (base s) ++ label (base s).
Proof.
  intros H. unfold wbase, written. pose proof (species_solid s H) as [[N _] _]. destruct H as (_ & _ & Hw & _).
  assert (E : element (base s) = species s /\ atom (base s) = [] /\ principal (base s) = fmt_d (wfc s)) by (unfold base; destruct (mag s); auto).
  destruct E as (-> & -> & ->). destruct (species s); [congruence|]. destruct (fmt_cons (wfc s)) as (c & t0 & ->); [lia|]. reflexivity.
Qed.

Lemma ang_cases s : state_ok s -> ang s = 0 \/ ang s = 1 \/ ang s = 2 \/ ang s = 3.
Proof. intros (_ & _ & _ & H & _). lia. Qed.

Lemma line_name i s : state_ok s -> (0 <= Z.of_nat i < 10000)%Z -> orbital_of_line (state_line i s) = Ok (wbase s).
Proof.
  intros H Hi. rewrite wbase_eq by exact H. pose proof (ang_cases s H) as Ha. pose proof (species_solid s H) as [_ Hl]. pose proof (strip_right s H) as Hsr.
  destruct H as (_ & Hat & Hw & _ & Hm).
  assert (L1 : length (pad 4 (fmt_d (Z.of_nat i))) = 4) by (apply pad_fmt_length; [lia|exact Hi]).
  assert (L2 : length (pad 3 (fmt_d (at_index s))) = 3) by (apply pad_fmt_length; [lia|exact Hat]).
  assert (L3 : length (right 3 (species s)) = 3) by (apply right_length; lia).
  assert (L4 : length (pad 2 (fmt_d (wfc s))) = 2) by (apply pad_fmt_length; [lia|exact Hw]).
  assert (Dg : exists d, fmt_d (Z.of_nat (ang s)) = [d] /\ to_int [d] = Ok (Z.of_nat (ang s))) by (destruct Ha as [->|[->|[->| ->]]]; eexists; split; reflexivity).
  destruct Dg as (d & Ed & Td).
  unfold orbital_of_line, state_line. rewrite Ed.
  set (a1 := §"     state #") in *. set (a2 := §": atom ") in *. set (a3 := §" (") in *. set (a4 := §"), wfc ") in *. set (a5 := §" (l=") in *.
  set (p1 := pad 4 (fmt_d (Z.of_nat i))) in *. set (p2 := pad 3 (fmt_d (at_index s))) in *. set (p3 := right 3 (species s)) in *. set (p4 := pad 2 (fmt_d (wfc s))) in *.
  set (tl := match mag s with inl m => §" m=" ++ pad 2 (fmt_d (Z.of_nat m)) | inr t => §" j=" ++ t end ++ §")").
  replace (slice 28 31 (a1 ++ p1 ++ a2 ++ p2 ++ a3 ++ p3 ++ a4 ++ p4 ++ a5 ++ [d] ++ tl)) with p3.
  2:{ symmetry. replace (a1 ++ p1 ++ a2 ++ p2 ++ a3 ++ p3 ++ a4 ++ p4 ++ a5 ++ [d] ++ tl) with ((a1 ++ p1 ++ a2 ++ p2 ++ a3) ++ p3 ++ (a4 ++ p4 ++ a5 ++ [d] ++ tl)) by (rewrite <- !app_assoc; reflexivity).
      apply slice_app; [|exact L3]. rewrite !app_length, L1, L2. reflexivity. }
  replace (slice 38 40 (a1 ++ p1 ++ a2 ++ p2 ++ a3 ++ p3 ++ a4 ++ p4 ++ a5 ++ [d] ++ tl)) with p4.
  2:{ symmetry. replace (a1 ++ p1 ++ a2 ++ p2 ++ a3 ++ p3 ++ a4 ++ p4 ++ a5 ++ [d] ++ tl) with ((a1 ++ p1 ++ a2 ++ p2 ++ a3 ++ p3 ++ a4) ++ p4 ++ (a5 ++ [d] ++ tl)) by (rewrite <- !app_assoc; reflexivity).
      apply slice_app; [|exact L4]. rewrite !app_length, L1, L2, L3. reflexivity. }
  replace (py_nth (a1 ++ p1 ++ a2 ++ p2 ++ a3 ++ p3 ++ a4 ++ p4 ++ a5 ++ [d] ++ tl) 44) with (Ok d).
  2:{ symmetry. replace (a1 ++ p1 ++ a2 ++ p2 ++ a3 ++ p3 ++ a4 ++ p4 ++ a5 ++ [d] ++ tl) with ((a1 ++ p1 ++ a2 ++ p2 ++ a3 ++ p3 ++ a4 ++ p4 ++ a5) ++ d :: tl) by (rewrite <- !app_assoc; reflexivity).
      apply py_nth_app. rewrite !app_length, L1, L2, L3, L4. reflexivity. }
  cbv beta. rewrite Hsr. unfold p4 at 1. rewrite to_int_pad. cbn [bind]. rewrite Td. cbn [bind].
  set (pre := a1 ++ p1 ++ a2 ++ p2 ++ a3 ++ p3 ++ a4 ++ p4 ++ a5 ++ [d]).
  assert (Lp : length pre = 45) by (unfold pre; rewrite !app_length, L1, L2, L3, L4; reflexivity).
  replace (a1 ++ p1 ++ a2 ++ p2 ++ a3 ++ p3 ++ a4 ++ p4 ++ a5 ++ [d] ++ tl) with (pre ++ tl) by (unfold pre; rewrite <- !app_assoc; reflexivity).
  unfold tl, base. clearbody p1 p2 p3 p4 pre. destruct (mag s) as [m|t].
  - assert (L5 : length (pad 2 (fmt_d (Z.of_nat m))) = 2) by (apply pad_fmt_length; [lia|]; split; [lia|]; change (10 ^ Z.of_nat 2)%Z with 100%Z; lia).
    replace (pre ++ (§" m=" ++ pad 2 (fmt_d (Z.of_nat m))) ++ §")") with ((pre ++ §" ") ++ "m"%char :: §"=" ++ pad 2 (fmt_d (Z.of_nat m)) ++ §")") by (rewrite <- !app_assoc; reflexivity).
    rewrite py_nth_app by (rewrite app_length, Lp; reflexivity). cbn [bind Ascii.eqb].
    replace ((pre ++ §" ") ++ "m"%char :: §"=" ++ pad 2 (fmt_d (Z.of_nat m)) ++ §")") with ((pre ++ §" m=") ++ pad 2 (fmt_d (Z.of_nat m)) ++ §")") by (rewrite <- !app_assoc; reflexivity).
    rewrite slice_app by (rewrite ?app_length, ?Lp, ?L5; reflexivity). rewrite to_int_pad.
    change (if ("m" =? "m")%char then ?x else ?y) with x.
    assert (Hm' : Z.to_nat (Z.of_nat m - 1) = m - 1) by lia.
    set (k := m - 1) in *. assert (Hk : k <= 2 * ang s) by lia.
    assert (G : exists ls h, py_nth labels (Z.of_nat (ang s)) = Ok ls /\ py_nth ls (Z.of_nat m - 1) = Ok h /\ nth k (harmonics (ang s)) [] = h).
    { assert (Hlk : exists ls h, nth_error labels (ang s) = Some ls /\ nth_error ls k = Some h /\ nth k (harmonics (ang s)) [] = h).
      { clear - Ha Hk. destruct Ha as [Ha|[Ha|[Ha|Ha]]]; rewrite Ha in *; do 7 (destruct k as [|k]; [eexists _, _; repeat split; reflexivity || lia|]); lia. }
      destruct Hlk as (ls & h & E1 & E2 & E3). exists ls, h. split; [apply py_nth_in; [lia|]; rewrite Nat2Z.id; exact E1|]. split; [apply py_nth_in; [lia|]; rewrite Hm'; exact E2|exact E3]. }
    destruct G as (ls & h & E1 & E2 & E3). cbn [bind]. rewrite E1. cbn [bind]. rewrite E2. cbn [bind shell label]. rewrite E3. rewrite firstn_skipn. reflexivity.
  - replace (pre ++ (§" j=" ++ t) ++ §")") with ((pre ++ §" ") ++ "j"%char :: §"=" ++ t ++ §")") by (rewrite <- !app_assoc; reflexivity).
    rewrite py_nth_app by (rewrite app_length, Lp; reflexivity). cbn [bind]. change (if ("j" =? "m")%char then ?x else ?y) with y. cbn [shell label]. rewrite app_nil_r.
    clear - Ha. destruct Ha as [->|[->|[->| ->]]]; reflexivity.
Qed.

(** ** Lines *)
Definition ended (t : text) : text := t ++ [newline].
Lemma lines_ended ls : Forall no_newline ls -> lines (concat (map ended ls)) = map ended ls.
Proof.
  induction 1 as [|t ls Ht _ IH]; [reflexivity|]. cbn [map concat]. unfold ended at 1. rewrite <- app_assoc. cbn [app]. rewrite lines_app by exact Ht. rewrite IH. reflexivity.
Qed.

Lemma state_line_last i s : exists x, state_line i s = x ++ §")" /\ exists c y, x = c :: y.
Proof.
  unfold state_line. rewrite !app_assoc. eexists. split; [reflexivity|]. rewrite <- !app_assoc. eexists _, _. reflexivity.
Qed.
Lemma rstrip_state i s : rstrip (ended (state_line i s)) = state_line i s.
Proof.
  destruct (state_line_last i s) as (x & -> & _). unfold rstrip, ended. rewrite <- app_assoc. rewrite rev_app_distr.
  change (rev (§")" ++ [newline])) with [newline; ")"%char]. cbn [app]. change (lstrip (newline :: ")"%char :: rev x)) with (")"%char :: rev x). cbn [rev]. rewrite rev_involutive. reflexivity.
Qed.

Lemma block_ok l : forall i acc rest, Forall state_ok l -> (Z.of_nat (i + length l) <= 10000)%Z ->
  block (map ended (state_lines i l) ++ [newline] :: rest) acc = Ok (rest, acc ++ map wbase l).
Proof.
  induction l as [|s l IH]; intros i acc rest Hl Hi.
  - cbn [state_lines map app]. rewrite app_nil_r. reflexivity.
  - inversion Hl as [|? ? Hs Hl']; subst. cbn [length] in Hi. cbn [state_lines map app block]. rewrite rstrip_state.
    destruct (state_line i s) as [|c y] eqn:E; [destruct (state_line_last i s) as (x & Hx & c & y & ->); rewrite E in Hx; discriminate|]. rewrite <- E.
    rewrite line_name by (try assumption; lia). cbn [bind]. rewrite IH by (try assumption; lia). rewrite <- app_assoc. reflexivity.
Qed.

Lemma prefix_spec p : forall t, prefix p t = true <-> exists b, t = p ++ b.
Proof.
  induction p as [|c p IH]; intros t; cbn [prefix]; [split; [exists t; reflexivity|reflexivity]|]. destruct t as [|d t]; [split; [discriminate|intros (b & H); discriminate]|].
  rewrite andb_true_iff, Ascii.eqb_eq, IH. split; [intros (-> & b & ->); exists b; reflexivity|]. intros (b & H). injection H as -> ->. split; [reflexivity|exists b; reflexivity].
Qed.
Lemma contains_spec p : forall t, contains p t = true <-> exists a b, t = a ++ p ++ b.
Proof.
  induction t as [|c t IH]; cbn [contains]; rewrite orb_true_iff, prefix_spec.
  - split; [intros [(b & H)|H]; [exists [], b; exact H|discriminate]|]. intros (a & b & H). left. destruct a; [exists b; exact H|discriminate].
  - rewrite IH. split.
    + intros [(b & H)|(a & b & H)]; [exists [], b; exact H|exists (c :: a), b; cbn; congruence].
    + intros (a & b & H). destruct a as [|d a]; [left; exists b; exact H|]. injection H as -> ->. right. exists a, b. reflexivity.
Qed.
Lemma contains_title t : contains §"Atomic states used for projection" (ended t) = true <-> has_title t.
Proof.
  rewrite contains_spec. unfold has_title, ended. split.
  - intros (a & b & H). destruct (exists_last (l := (b : text))) as (b' & c & ->) || idtac.
    + intros ->. rewrite app_nil_r in H. change (§"Atomic states used for projection") with (§"Atomic states used for projectio" ++ §"n") in H. rewrite app_assoc in H. apply app_inj_tail in H as [_ H]. discriminate.
    + rewrite !app_assoc in H. apply app_inj_tail in H as [H _]. exists a, b'. rewrite <- app_assoc in H. exact H.
  - intros (a & b & ->). exists a, (b ++ [newline]). rewrite <- !app_assoc. reflexivity.
Qed.
Lemma contains_false t : ~ has_title t -> contains §"Atomic states used for projection" (ended t) = false.
Proof. intros H. destruct (contains _ _) eqn:E; [|reflexivity]. apply contains_title in E. contradiction. Qed.

Lemma scan_skip ls : forall fuel rest acc, Forall (fun t => ~ has_title t) ls ->
  scan_lines (length ls + fuel) (map ended ls ++ rest) acc = scan_lines fuel rest acc.
Proof.
  induction ls as [|t ls IH]; intros fuel rest acc H; [reflexivity|]. inversion H; subst. cbn [length Nat.add map app scan_lines]. rewrite contains_false by assumption. apply IH. assumption.
Qed.
Lemma scan_nil fuel acc : scan_lines fuel [] acc = Ok acc.
Proof. destruct fuel; reflexivity. Qed.
Lemma scan_rest fuel ls acc : length ls <= fuel -> Forall (fun t => ~ has_title t) ls -> scan_lines fuel (map ended ls) acc = Ok acc.
Proof.
  intros Hf H. rewrite <- (app_nil_r (map ended ls)). replace fuel with (length ls + (fuel - length ls)) by lia. rewrite scan_skip by exact H. apply scan_nil.
Qed.

Lemma state_line_newline i s : state_ok s -> no_newline (state_line i s).
Proof.
  intros H. unfold state_line. pose proof (species_solid s H) as [[_ Hs] _]. destruct H as (_ & _ & _ & _ & Hm).
  repeat match goal with |- no_newline (_ ++ _) => apply no_newline_app end; try (apply no_newline_pad, no_newline_d); try (apply no_newline_d); try (apply Forall_forall; intros c Hc; cbn in Hc; repeat (destruct Hc as [<-|Hc]; [discriminate|]); contradiction).
  - unfold right. apply no_newline_app; [apply no_newline_solid, Hs|]. apply Forall_forall. intros c Hc. apply repeat_spec in Hc. subst. discriminate.
  - destruct (mag s); [|apply no_newline_app; [|exact Hm]]; try apply no_newline_app; try (apply no_newline_pad, no_newline_d); (apply Forall_forall; intros c Hc; cbn in Hc; repeat (destruct Hc as [<-|Hc]; [discriminate|]); contradiction).
Qed.
Lemma state_lines_newline l : forall i, Forall state_ok l -> Forall no_newline (state_lines i l).
Proof. induction l as [|s l IH]; intros i H; [constructor|]. inversion H; subst. cbn [state_lines]. constructor; [apply state_line_newline; assumption|apply IH; assumption]. Qed.
Lemma state_lines_length l : forall i, length (state_lines i l) = length l.
Proof. induction l as [|s l IH]; intros i; [reflexivity|]. cbn [state_lines length]. rewrite IH. reflexivity. Qed.

Lemma scan_head fuel h g1 g2 rest acc : has_title h ->
  scan_lines (S fuel) (ended h :: g1 :: g2 :: rest) acc = (do (lines, orbitals) <- block rest acc ;; scan_lines fuel lines orbitals).
Proof. intros H. cbn [scan_lines]. rewrite (proj2 (contains_title h) H). reflexivity. Qed.

Lemma scan_output before heading gap1 gap2 l after :
  Forall no_newline (before ++ [heading; gap1; gap2] ++ after) -> Forall (fun t => ~ has_title t) (before ++ after) -> has_title heading ->
  Forall state_ok l -> (Z.of_nat (length l) < 10000)%Z ->
  let ls := lines (output before heading gap1 gap2 l after) in scan_lines (length ls) ls [] = Ok (map wbase l).
Proof.
  intros Hn Ht Hh Hl Hk. apply Forall_app in Hn as [Hn1 Hn2]. apply Forall_app in Hn2 as [Hn2 Hn3]. apply Forall_app in Ht as [Ht1 Ht2].
  assert (E : lines (output before heading gap1 gap2 l after) = map ended (before ++ [heading; gap1; gap2] ++ state_lines 1 l ++ [[]] ++ after)).
  { unfold output. apply lines_ended. repeat (apply Forall_app; split); try assumption; [apply state_lines_newline, Hl|repeat constructor]. }
  cbv zeta. rewrite E. rewrite map_length, !app_length, state_lines_length, map_app. rewrite scan_skip by exact Ht1.
  cbn [length Nat.add app map]. rewrite scan_head by exact Hh. rewrite map_app. cbn [map app]. change (ended []) with [newline].
  rewrite (block_ok l 1 []) by (try assumption; lia). cbn [bind app]. apply scan_rest; [apply Nat.le_trans with (S (length after)); [apply Nat.le_succ_diag_r|]; cbn; repeat apply le_S; clear; induction (length l); cbn; [apply le_n|apply le_S; assumption] |exact Ht2].
Qed.

(** ** Names *)
Lemma written_inj o o' : proper o -> proper o' -> written o = written o' -> o = o'.
Proof.
  intros P P' E. assert (N : names (written o) o) by (exists [], []; rewrite app_nil_r; repeat split; constructor).
  assert (N' : names (written o) o') by (exists [], []; rewrite app_nil_r; repeat split; try constructor; exact E).
  pose proof (info_name _ _ P N) as I. rewrite (info_name _ _ P' N') in I. clear N N' E.
  destruct P as (P1 & _ & _ & P4 & _). destruct P' as (P1' & _ & _ & P4' & _). destruct o as [e a p s l], o' as [e' a' p' s' l']. unfold info_of in I. cbn [element atom principal shell label] in *.
  injection I as Ie Ia Ip Is Il. subst p'.
  assert (Ee : e = e') by (destruct e, e'; cbn in Ie; congruence). assert (Es : s = s') by (destruct s, s'; cbn in Is; congruence). subst e' s'.
  assert (Ea : a = a'). { destruct e; [|congruence]. destruct P1 as [[_ ->]|(c & _ & [H|(d & _ & H)])]; try discriminate. destruct P1' as [[_ ->]|(c & _ & [H|(d & _ & H)])]; try discriminate. reflexivity. }
  assert (El : l = l'). { destruct s; [|congruence]. destruct P4 as [[_ ->]|H]; [|cbn in H; intuition discriminate]. destruct P4' as [[_ ->]|H]; [|cbn in H; intuition discriminate]. reflexivity. }
  subst. reflexivity.
Qed.

Lemma is_digit_chr d : (0 <= d < 10)%Z -> is_digit (chr d) = true.
Proof. intros H. apply digit_cases in H. repeat (destruct H as [->|H]; [reflexivity|]). subst. reflexivity. Qed.
Lemma fmt_digits z : (0 <= z)%Z -> Forall (fun c => is_digit c = true) (fmt_d z).
Proof. intros H. rewrite fmt_nonneg by exact H. apply nonneg_all; [exact is_digit_chr|exact H]. Qed.
Lemma fmt_inj x y : fmt_d x = fmt_d y -> x = y.
Proof. intros H. assert (Ok x = Ok y) by (rewrite <- (to_int_word x), <- (to_int_word y), H; reflexivity). congruence. Qed.

(** The name with a number for the atom; [[]]: no number *)
Definition with_atom (a : text) (s : state) : orbital := Orbital (species s) a (fmt_d (wfc s)) (shell (base s)) (label (base s)).
Lemma base_with s : base s = with_atom [] s.
Proof. unfold with_atom, base. destruct (mag s); reflexivity. Qed.

Lemma harmonic_facts s m : state_ok s -> mag s = inl m -> let h := nth (m - 1) (harmonics (ang s)) [] in
  In (firstn 1 h) [§"s"; §"p"; §"d"; §"f"; §"x"] /\ Forall (fun c => is_space c = false) (skipn 1 h).
Proof.
  intros H E. pose proof (ang_cases s H) as Ha. destruct H as (_ & _ & _ & _ & Hm). rewrite E in Hm.
  assert (Hk : m - 1 <= 2 * ang s) by lia. cbv zeta. generalize dependent (m - 1). intros k Hk.
  clear Hm E. destruct Ha as [Ha|[Ha|[Ha|Ha]]]; rewrite Ha in *; do 7 (destruct k as [|k]; [first [exfalso; lia|split; [cbn; auto 6|cbn; repeat constructor]]|]); exfalso; lia.
Qed.
Lemma with_atom_proper a s : state_ok s -> Forall (fun c => is_digit c = true) a -> proper (with_atom a s).
Proof.
  intros H Ha. unfold with_atom, proper. cbn [element atom principal shell label].
  split; [right; apply H|]. split; [exact Ha|]. split; [apply fmt_digits; apply H|]. unfold base. destruct (mag s) as [m|t] eqn:E; cbn [shell label].
  - pose proof (harmonic_facts s m H E) as [H1 H2]. split; [right; exact H1|exact H2].
  - split; [right|constructor]. pose proof (ang_cases s H) as [->|[->|[->| ->]]]; cbn; auto 6.
Qed.

Lemma parts_eq (h h' : text) : firstn 1 h = firstn 1 h' -> skipn 1 h = skipn 1 h' -> h = h'.
Proof. intros H1 H2. rewrite <- (firstn_skipn 1 h), <- (firstn_skipn 1 h'), H1, H2. reflexivity. Qed.

Lemma base_inj s s' : state_ok s -> state_ok s' -> (exists m, mag s = inl m) /\ (exists m, mag s' = inl m) \/ (exists t, mag s = inr t) /\ (exists t, mag s' = inr t) ->
  shell (base s) = shell (base s') -> label (base s) = label (base s') -> ang s = ang s' /\ match mag s, mag s' with inl m, inl m' => m = m' | inr _, inr _ => True | _, _ => False end.
Proof.
  intros H H' U Es El. pose proof (ang_cases s H) as Ha. pose proof (ang_cases s' H') as Ha'. destruct H as (_ & _ & _ & _ & Hm). destruct H' as (_ & _ & _ & _ & Hm').
  unfold base in *. destruct U as [[(m & E) (m' & E')]|[(t & E) (t' & E')]]; rewrite E, E' in *; cbn [shell label] in *.
  - assert (Eh : nth (m - 1) (harmonics (ang s)) [] = nth (m' - 1) (harmonics (ang s')) []) by (apply parts_eq; assumption). clear Es El.
    assert (Q : ang s = ang s' /\ m - 1 = m' - 1); [|lia].
    assert (Hk : m - 1 <= 2 * ang s) by lia. assert (Hk' : m' - 1 <= 2 * ang s') by lia.
    generalize dependent (m - 1). generalize dependent (m' - 1). clear - Ha Ha'. intros k' Hk' k Eh Hk.
    destruct Ha as [Ha|[Ha|[Ha|Ha]]]; rewrite Ha in *; destruct Ha' as [Ha'|[Ha'|[Ha'|Ha']]]; rewrite Ha' in *;
    do 7 (destruct k as [|k]; [do 7 (destruct k' as [|k']; [first [split; reflexivity|discriminate Eh|lia]|]); lia|]); lia.
  - split; [|exact Logic.I]. clear - Ha Ha' Es. destruct Ha as [Ha|[Ha|[Ha|Ha]]]; rewrite Ha in *; destruct Ha' as [Ha'|[Ha'|[Ha'|Ha']]]; rewrite Ha' in *; reflexivity || discriminate.
Qed.

Lemma same_spec l s s' : uniform l -> Forall state_ok l -> In s l -> In s' l -> (same s s' = true <-> wbase s = wbase s').
Proof.
  intros U Hok Hs Hs'. rewrite Forall_forall in Hok. pose proof (Hok s Hs) as H. pose proof (Hok s' Hs') as H'.
  assert (U' : (exists m, mag s = inl m) /\ (exists m, mag s' = inl m) \/ (exists t, mag s = inr t) /\ (exists t, mag s' = inr t)) by (destruct U as [U|U]; [left|right]; split; apply U; assumption).
  unfold same. rewrite !andb_true_iff, teqb_eq, Z.eqb_eq, Nat.eqb_eq. split.
  - intros (((E1 & E2) & E3) & E4). unfold wbase. f_equal. unfold base. rewrite E1, E2, E3. destruct (mag s), (mag s'); try discriminate; [|reflexivity]. apply Nat.eqb_eq in E4. subst. reflexivity.
  - unfold wbase. rewrite !base_with. intros E. apply written_inj in E; [|apply with_atom_proper; [assumption|constructor]|apply with_atom_proper; [assumption|constructor]].
    unfold with_atom in E. injection E as E1 E2 E3 E4. apply fmt_inj in E2. destruct (base_inj s s' H H' U' E3 E4) as [E5 E6]. rewrite E1, E2, E5. repeat split.
    destruct (mag s), (mag s'); try contradiction; [subst; apply Nat.eqb_refl|reflexivity].
Qed.

(** ** Numbering of duplicates *)
Section Number.
  Variable l : list state.
  Hypothesis Hok : Forall state_ok l.
  Hypothesis Hu : uniform l.

  Definition final (pre : list state) (s : state) : text :=
    if occurrences s l <=? 1 then wbase s else written (with_atom (fmt_d (Z.of_nat (occurrences s (pre ++ [s])))) s).
  (** The list when the names in [P] have been treated *)
  Fixpoint st (P : list text) (pre rest : list state) : list text :=
    match rest with
    | [] => []
    | s :: rest => (if existsb (teqb (wbase s)) P then final pre s else wbase s) :: st P (pre ++ [s]) rest
    end.

  Lemma st_nil : forall rest pre, st [] pre rest = map wbase rest.
  Proof. induction rest as [|s rest IH]; intros pre; [reflexivity|]. cbn [st existsb map]. rewrite IH. reflexivity. Qed.

  Definition occ (x : text) (ls : list state) : nat := length (filter (fun s => teqb x (wbase s)) ls).
  Lemma occ_occurrences s ls : In s l -> incl ls l -> occ (wbase s) ls = occurrences s ls.
  Proof.
    intros Hs Hl. unfold occ, occurrences. f_equal. apply filter_ext_in. intros s' Hs'. apply Bool.eq_iff_eq_true. rewrite teqb_eq, (same_spec l s s'); [reflexivity|assumption..|apply Hl, Hs'].
  Qed.

  Lemma final_base s pre x : In s l -> In x (map wbase l) -> final pre s = x -> occurrences s l <=? 1 = true.
  Proof.
    intros Hs Hx. unfold final. destruct (occurrences s l <=? 1); [reflexivity|]. intros E. apply in_map_iff in Hx as (s0 & <- & Hs0). unfold wbase in E. rewrite base_with in E.
    rewrite Forall_forall in Hok. apply written_inj in E; [|apply with_atom_proper; [apply Hok, Hs|apply fmt_digits; lia]|apply with_atom_proper; [apply Hok, Hs0|constructor]].
    unfold with_atom in E. injection E as _ E _ _. pose proof (word_fmt_d (Z.of_nat (occurrences s (pre ++ [s])))) as [N _]. congruence.
  Qed.

  Lemma current_eq P pre s x : In s l -> In x (map wbase l) -> existsb (teqb x) P = false ->
    teqb x (if existsb (teqb (wbase s)) P then final pre s else wbase s) = teqb x (wbase s).
  Proof.
    intros Hs Hx HP. destruct (existsb (teqb (wbase s)) P) eqn:E; [|reflexivity]. destruct (teqb x (wbase s)) eqn:E1.
    - apply teqb_eq in E1. subst x. congruence.
    - apply teqb_neq. intros E2. apply teqb_neq in E1. apply E1. symmetry in E2. pose proof (final_base s pre x Hs Hx E2) as B. unfold final in E2. rewrite B in E2. congruence.
  Qed.

  Lemma replace_written m s : state_ok s -> replace_dash m (wbase s) = written (with_atom (fmt_d (Z.of_nat m)) s).
  Proof.
    intros H. rewrite wbase_eq by exact H. unfold written, with_atom. cbn [element atom principal shell label]. pose proof H as ((c & Hc & Hs) & _).
    destruct (fmt_cons (wfc s)) as (f & t & Ef); [apply H|]. rewrite Ef. pose proof (upper_facts c Hc) as (_ & _ & _ & Hd & _).
    destruct Hs as [->|(d & Hl & ->)].
    - cbn [app replace_dash]. rewrite Hd. reflexivity.
    - pose proof (lower_facts d Hl) as (_ & _ & _ & Hd'). cbn [app replace_dash]. rewrite Hd, Hd'. reflexivity.
  Qed.

  Lemma number_step P x : In x (map wbase l) -> existsb (teqb x) P = false -> 1 < occ x l -> forall rest pre, pre ++ rest = l ->
    number_from (S (occ x pre)) x (st P pre rest) = st (x :: P) pre rest.
  Proof.
    intros Hx HP Hc. induction rest as [|s rest IH]; intros pre E; [reflexivity|]. cbn [st number_from].
    assert (Hs : In s l) by (rewrite <- E; apply in_or_app; right; left; reflexivity). rewrite current_eq by assumption. cbn [existsb].
    assert (E' : (pre ++ [s]) ++ rest = l) by (rewrite <- app_assoc; exact E).
    destruct (teqb x (wbase s)) eqn:T.
    - apply teqb_eq in T. subst x. rewrite teqb_refl, HP. cbn [orb]. f_equal.
      + rewrite replace_written by (rewrite Forall_forall in Hok; apply Hok, Hs). unfold final. rewrite <- occ_occurrences by (try assumption; apply incl_refl). destruct (occ (wbase s) l <=? 1) eqn:L; [apply Nat.leb_le in L; lia|].
        rewrite <- occ_occurrences; [|exact Hs|rewrite <- E'; apply incl_appl, incl_refl]. unfold occ. rewrite filter_app, app_length. cbn [filter]. rewrite teqb_refl. cbn [length]. rewrite Nat.add_1_r. reflexivity.
      + rewrite <- (IH (pre ++ [s]) E'). f_equal. unfold occ. rewrite filter_app, app_length. cbn [filter]. rewrite teqb_refl. cbn [length]. lia.
    - assert (T' : teqb (wbase s) x = false) by (apply teqb_neq; apply teqb_neq in T; congruence). rewrite T'. cbn [orb]. f_equal.
      rewrite <- (IH (pre ++ [s]) E'). f_equal. unfold occ. rewrite filter_app, app_length. cbn [filter]. rewrite T. cbn [length]. lia.
  Qed.

  Lemma count_st P x : In x (map wbase l) -> existsb (teqb x) P = false -> forall rest pre, pre ++ rest = l -> count x (st P pre rest) = occ x rest.
  Proof.
    intros Hx HP. induction rest as [|s rest IH]; intros pre E; [reflexivity|]. unfold count, occ in *. cbn [st filter].
    assert (Hs : In s l) by (rewrite <- E; apply in_or_app; right; left; reflexivity). rewrite current_eq by assumption.
    assert (E' : (pre ++ [s]) ++ rest = l) by (rewrite <- app_assoc; exact E). specialize (IH _ E'). destruct (teqb x (wbase s)); cbn [length]; rewrite IH; reflexivity.
  Qed.

  Lemma single_step P x : In x (map wbase l) -> occ x l <= 1 -> forall rest pre, pre ++ rest = l -> st P pre rest = st (x :: P) pre rest.
  Proof.
    intros Hx Hc. induction rest as [|s rest IH]; intros pre E; [reflexivity|]. cbn [st existsb].
    assert (E' : (pre ++ [s]) ++ rest = l) by (rewrite <- app_assoc; exact E). rewrite (IH _ E'). f_equal.
    destruct (teqb (wbase s) x) eqn:T; [|reflexivity]. apply teqb_eq in T. subst x. cbn [orb]. destruct (existsb (teqb (wbase s)) P); [reflexivity|].
    unfold final. assert (Hs : In s l) by (rewrite <- E; apply in_or_app; right; left; reflexivity). rewrite <- occ_occurrences by (try assumption; apply incl_refl). apply Nat.leb_le in Hc. rewrite Hc. reflexivity.
  Qed.

  Lemma number_all : forall todo P, NoDup todo -> (forall x, In x todo -> In x (map wbase l) /\ existsb (teqb x) P = false) ->
    fold_left number_duplicates todo (st P [] l) = st (rev todo ++ P) [] l.
  Proof.
    induction todo as [|x todo IH]; intros P N H; [reflexivity|]. cbn [fold_left rev]. inversion N as [|? ? N1 N2]; subst.
    destruct (H x (or_introl eq_refl)) as [Hx HP].
    assert (Q : number_duplicates (st P [] l) x = st (x :: P) [] l).
    { unfold number_duplicates. rewrite (count_st P x Hx HP l [] eq_refl). destruct (1 <? occ x l) eqn:L.
      - apply Nat.ltb_lt in L. apply (number_step P x Hx HP L l []). reflexivity.
      - apply Nat.ltb_ge in L. apply single_step; [exact Hx|exact L|reflexivity]. }
    rewrite Q, <- app_assoc. cbn [app]. apply IH; [exact N2|]. intros y Hy. destruct (H y (or_intror Hy)) as [H1 H2]. split; [exact H1|]. cbn [existsb].
    rewrite H2. replace (teqb y x) with false; [reflexivity|]. symmetry. apply teqb_neq. intros ->. exact (N1 Hy).
  Qed.

  Lemma st_all P : (forall x, In x (map wbase l) -> In x P) -> forall rest pre, pre ++ rest = l ->
    st P pre rest = map (fun p => written (named l (fst p) (snd p))) (combine (seq (length pre) (length rest)) rest).
  Proof.
    intros HP. induction rest as [|s rest IH]; intros pre E; [reflexivity|]. cbn [st length seq combine map fst snd].
    assert (E' : (pre ++ [s]) ++ rest = l) by (rewrite <- app_assoc; exact E).
    assert (Hs : In s l) by (rewrite <- E; apply in_or_app; right; left; reflexivity).
    replace (existsb (teqb (wbase s)) P) with true.
    2:{ symmetry. apply existsb_exists. exists (wbase s). split; [apply HP, in_map, Hs|apply teqb_refl]. }
    f_equal.
    - unfold final, named. destruct (occurrences s l <=? 1); [reflexivity|]. replace (firstn (S (length pre)) l) with (pre ++ [s]).
      + rewrite base_with. reflexivity.
      + rewrite <- E', firstn_app, app_length. cbn [length]. replace (S (length pre) - (length pre + 1)) with 0 by lia. rewrite firstn_all2 by (rewrite app_length; cbn; lia). cbn [firstn]. symmetry. apply app_nil_r.
    - rewrite (IH _ E'). rewrite app_length. cbn [length]. rewrite Nat.add_1_r. reflexivity.
  Qed.
End Number.
