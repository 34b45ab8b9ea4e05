(** Proofs about files that are read line by line: particular files. *)
From Coq Require Import Qabs Lia.
From Verif Require Import Text TextProofs NmlModel NmlProofs TabModel TabSpec TabProofs.
From Verif Require ProjModel XmlModel XmlProofs QuadProofs WinProofs PwoProofs PwoProofs2 PwoProofs3.
From Coq Require Import List.
Import ListNotations.
Local Open Scope nat_scope.

Definition nl (t : text) : text := t ++ [newline].
Definition plain (w : text) : Prop := w <> [] /\ Forall (fun c => separator c = false) w.
Lemma tokens_plain w : forall cur, Forall (fun c => separator c = false) w -> tokens_from cur w = match cur ++ w with [] => [] | _ => [cur ++ w] end.
Proof.
  induction w as [|c w IH]; intros cur H; cbn [tokens_from].
  - rewrite app_nil_r. reflexivity.
  - inversion H as [|? ? Hc Hw]. rewrite Hc, IH by exact Hw. rewrite <- app_assoc. reflexivity.
Qed.
Lemma tokens_one w c rest : plain w -> separator c = true -> tokens (w ++ c :: rest) = w :: tokens rest.
Proof. intros [N H] C. unfold tokens. rewrite tokens_cut by exact C. rewrite tokens_plain by exact H. destruct w; [contradiction|reflexivity]. Qed.
Lemma tokens_blanks n t : tokens (repeat blank n ++ t) = tokens t.
Proof. induction n as [|n IH]; [reflexivity|]. exact IH. Qed.
Lemma plain_f d x : plain (fmt_f d x).
Proof.
  split; [apply word_fmt_f|]. apply fmt_f_all; [|reflexivity|reflexivity].
  intros k K. destruct (digit_cases k K) as [->|[->|[->|[->|[->|[->|[->|[->|[->| ->]]]]]]]]]; reflexivity.
Qed.
Lemma tokens_nl t : tokens (nl t) = tokens t.
Proof. unfold nl, tokens. rewrite tokens_cut by reflexivity. cbn. apply app_nil_r. Qed.
Lemma label_end k : exists a, label k = a ++ ["="%char].
Proof. exists (removelast (label k)). destruct k; reflexivity. Qed.
Lemma tokens_energy k x : tokens (nl (entry_line (Energy k x))) = tokens (label k) ++ [fmt_f 8 x; §"Ry"].
Proof.
  rewrite tokens_nl. cbn [entry_line]. destruct (label_end k) as (a & ->). rewrite <- app_assoc. cbn [app]. unfold tokens at 1 2. rewrite !tokens_cut by reflexivity. rewrite <- app_assoc. f_equal.
  unfold F, pad. rewrite <- app_assoc, tokens_blanks. cbn [app str list_ascii_of_string]. rewrite tokens_one by (apply plain_f || reflexivity). reflexivity.
Qed.
Definition word_of (k : kind) : text := match k with Bands => §"sum" | Total => §"!" | k => name k end.
Definition place (k : kind) : nat := match k with Smearing | Total => 3 | _ => 2 end.
Lemma kind_in k : In (word_of k, name k, place k) quantities.
Proof. destruct k; cbn; tauto. Qed.
Lemma kind_all w n m : In (w, n, m) quantities -> exists k, w = word_of k /\ n = name k /\ m = place k.
Proof.
  cbn [quantities In]. intros H. repeat (destruct H as [H|H]; [injection H as <- <- <-|]); [exists Bands|exists One_electron|exists Hartree|exists Xc|exists Ewald|exists Smearing|exists Total|contradiction]; repeat split; reflexivity.
Qed.
Lemma label_tokens k : exists ws, tokens (label k) = word_of k :: ws /\ length ws + 1 = place k.
Proof. exists (tl (tokens (label k))). destruct k; vm_compute; split; reflexivity. Qed.
Lemma words_differ k k' : word_of k = word_of k' -> k = k'.
Proof. destruct k, k'; intros H; try reflexivity; discriminate H. Qed.
Lemma energy_first k x w : first_token (nl (entry_line (Energy k x))) w <-> w = word_of k.
Proof.
  unfold first_token. rewrite tokens_energy. destruct (label_tokens k) as (ws & -> & _). cbn [app]. split; [intros (? & [= ? ?]); congruence|intros ->; eexists; reflexivity].
Qed.
Lemma energy_value k x : nth_error (tokens (nl (entry_line (Energy k x)))) (place k) = Some (fmt_f 8 x).
Proof. rewrite tokens_energy. destruct (label_tokens k) as (ws & -> & <-). rewrite nth_error_app2; cbn [length]; [|lia]. replace (length ws + 1 - S (length ws)) with 0 by lia. reflexivity. Qed.
Lemma quiet_first t w n m : quiet t -> In (w, n, m) quantities -> ~ first_token (nl t) w.
Proof. intros [_ H] J X. apply (H w n m J). unfold first_token in *. rewrite tokens_nl in X. exact X. Qed.

Lemma map_split {A B} (f : A -> B) : forall l l1 y l2, map f l = l1 ++ y :: l2 -> exists m1 x m2, l = m1 ++ x :: m2 /\ l1 = map f m1 /\ y = f x /\ l2 = map f m2.
Proof.
  induction l as [|a l IH]; intros l1 y l2 E; [destruct l1; discriminate|]. destruct l1 as [|b l1]; cbn [map app] in E; injection E as Ea El.
  - exists [], a, l. repeat split; congruence.
  - destruct (IH l1 y l2 El) as (m1 & x & m2 & -> & -> & -> & ->). exists (a :: m1), x, m2. repeat split. cbn [map]. congruence.
Qed.
Lemma last_line_energy l k v : (forall t, In (Other t) l -> quiet t) ->
  (last_line (map (fun e => nl (entry_line e)) l) (word_of k) (place k) v <-> exists x, last_energy l k x /\ v = fmt_f 8 x).
Proof.
  intros H. split.
  - intros (l1 & y & l2 & E & Ft & Nt & O). apply map_split in E as (m1 & e & m2 & -> & -> & -> & ->). destruct e as [t|k' x].
    + exfalso. apply (quiet_first t (word_of k) (name k) (place k)); [apply H, in_or_app; right; left; reflexivity|apply kind_in|exact Ft].
    + apply energy_first, words_differ in Ft. subst k'. rewrite energy_value in Nt. injection Nt as <-. exists x. split; [|reflexivity]. exists m1, m2. split; [reflexivity|].
      intros z J. apply (O (nl (entry_line (Energy k z)))); [apply in_map_iff; exists (Energy k z); split; [reflexivity|exact J]|apply energy_first; reflexivity].
  - intros (x & (m1 & m2 & -> & O) & ->). exists (map (fun e => nl (entry_line e)) m1), (nl (entry_line (Energy k x))), (map (fun e => nl (entry_line e)) m2).
    split; [rewrite map_app; reflexivity|]. split; [apply energy_first; reflexivity|]. split; [apply energy_value|].
    intros y J X. apply in_map_iff in J as (e & <- & J). destruct e as [t|k' z].
    + apply (quiet_first t (word_of k) (name k) (place k)); [apply H, in_or_app; right; right; exact J|apply kind_in|exact X].
    + apply energy_first, words_differ in X. subst k'. exact (O z J).
Qed.
Lemma energy_enough l : (forall t, In (Other t) l -> quiet t) -> Forall enough (map (fun e => nl (entry_line e)) l).
Proof.
  intros H. apply Forall_forall. intros y J w n m Q X. apply in_map_iff in J as (e & <- & J). destruct e as [t|k x].
  - exfalso. apply (quiet_first t w n m); [apply H, J|exact Q|exact X].
  - apply energy_first in X. subst w. destruct (kind_all _ _ _ Q) as (k' & Ek & _ & ->). apply words_differ in Ek. subst k'. apply nth_error_Some. rewrite energy_value. discriminate.
Qed.
Lemma single_app a b : single a -> single b -> single (a ++ b).
Proof. unfold single. intros A B J. apply in_app_iff in J. tauto. Qed.
Lemma no_newline_single t : no_newline t -> single t.
Proof. intros H J. unfold no_newline in H. rewrite Forall_forall in H. exact (H _ J eq_refl). Qed.
Lemma single_F w d x : single (F w d x).
Proof. apply no_newline_single, PwoProofs3.no_newline_F. Qed.
Lemma single_I w z : single (I w z).
Proof. apply no_newline_single, PwoProofs3.no_newline_I. Qed.
Lemma single_str s : forallb (fun c => negb (Ascii.eqb c newline)) (str s) = true -> single (str s).
Proof. intros H. apply no_newline_single, PwoProofs3.no_newline_str, H. Qed.
Lemma single_label k : single (label k).
Proof. destruct k; apply single_str; reflexivity. Qed.
Lemma entries_lines l : (forall t, In (Other t) l -> quiet t) -> lines (file_of (map entry_line l)) = map (fun e => nl (entry_line e)) l.
Proof.
  intros H. rewrite lines_file, map_map; [reflexivity|]. intros y J. apply in_map_iff in J as (e & <- & J). destruct e as [t|k x]; [apply (H t J)|].
  cbn [entry_line]. apply single_app; [apply single_label|]. apply single_app; [apply single_F|apply single_str; reflexivity].
Qed.

(** ** Symmetry points *)
Lemma points_quiet l : forall acc t ls, l = nl t -> ~ occurs §"x coordinate" t -> symmetry_points acc (l :: ls) = symmetry_points acc ls.
Proof.
  intros acc t ls -> H. cbn [symmetry_points]. destruct (inside §"x coordinate" (nl t)) eqn:E; [|reflexivity]. exfalso. unfold inside in E. apply WinProofs.contains_iff in E. destruct E as (a & b & E).
  apply H. unfold nl in E. destruct b as [|c b] using rev_ind; [|clear IHb].
  - rewrite app_nil_r in E. assert (X := f_equal (fun t => last t blank) E). cbn beta in X. rewrite last_last in X. change §"x coordinate" with (§"x coordinat" ++ ["e"%char]) in X. rewrite app_assoc, last_last in X. discriminate X.
  - rewrite !app_assoc in E. apply app_inj_tail in E as [-> _]. exists a, b. rewrite <- app_assoc. reflexivity.
Qed.
Lemma split_point q x : fits 9 4 x -> exists ws, str_split (nl (mark_line (Point q x))) = ws ++ [fmt_f 4 x].
Proof.
  intros H. destruct q as [[a b] c]. unfold nl. cbn [mark_line]. rewrite <- !app_assoc. eexists.
  rewrite !app_assoc. rewrite <- (app_assoc _ (F 9 4 x) [newline]). rewrite PwoProofs.split_cut by (apply PwoProofs.starts_F, H). rewrite PwoProofs.split_F by reflexivity. reflexivity.
Qed.
Lemma has_point q x : inside §"x coordinate" (nl (mark_line (Point q x))) = true.
Proof.
  apply WinProofs.contains_iff. destruct q as [[a b] c]. unfold nl. cbn [mark_line].
  exists (§"     high-symmetry point: " ++ F 7 4 a ++ F 7 4 b ++ F 7 4 c ++ §"   "), (F 9 4 x ++ [newline]). change §"   x coordinate" with (§"   " ++ §"x coordinate"). rewrite <- !app_assoc. reflexivity.
Qed.
Lemma points_all l : forall acc, (forall m, In m l -> good_mark m) -> symmetry_points acc (map (fun m => nl (mark_line m)) l) = Ok (acc ++ map (rounded 4) (positions l)).
Proof.
  induction l as [|m l IH]; intros acc H; [cbn; rewrite app_nil_r; reflexivity|]. cbn [map positions flat_map]. pose proof (H m (or_introl eq_refl)) as G. destruct m as [t|q x].
  - rewrite (points_quiet _ acc t _ eq_refl) by apply G. apply IH. intros m J. apply H. right. exact J.
  - cbn [symmetry_points]. rewrite has_point. destruct (split_point q x G) as (ws & ->). rewrite rev_app_distr. cbn [rev app item nth_error bind]. unfold item. cbn [nth_error bind]. rewrite to_float_fmt by lia. cbn [bind].
    rewrite IH by (intros m J; apply H; right; exact J). cbn [app map]. fold (positions l). rewrite <- app_assoc. reflexivity.
Qed.
Lemma marks_lines l : (forall m, In m l -> good_mark m) -> lines (file_of (map mark_line l)) = map (fun m => nl (mark_line m)) l.
Proof.
  intros H. rewrite lines_file, map_map; [reflexivity|]. intros y J. apply in_map_iff in J as (m & <- & J). specialize (H m J). destruct m as [t|[[a b] c] x]; [apply H|].
  cbn [mark_line]. repeat (apply single_app; [first [apply single_F|apply single_str; reflexivity]|]). apply single_F.
Qed.
Lemma printed_rounded d x : printed d x (rounded d x).
Proof. unfold printed. rewrite Qabs_Qminus. apply rounded_near. Qed.

(** ** Energies for Wannier90 *)
Lemma digits_small z w : 0 < w -> (0 <= z < 10 ^ Z.of_nat w)%Z -> length (fmt_d z) <= w.
Proof. intros W H. unfold fmt_d. destruct (Z.ltb_spec z 0); [lia|]. apply nonneg_length; assumption. Qed.
Lemma split_eig n k e : (Z.of_nat k < 10 ^ 4)%Z -> fits 18 12 e -> str_split (nl (eig_line (n, k, e))) = [fmt_d (Z.of_nat n); fmt_d (Z.of_nat k); fmt_f 12 e].
Proof.
  intros K E. unfold nl. cbn [eig_line]. rewrite <- !app_assoc. rewrite PwoProofs.split_I; [|apply PwoProofs.starts_I; pose proof (digits_small (Z.of_nat k) 4 ltac:(lia) ltac:(lia)); lia].
  rewrite PwoProofs.split_I by (apply PwoProofs.starts_F, E). rewrite PwoProofs.split_F by reflexivity. reflexivity.
Qed.
Lemma index_ok n i : 1 <= i <= n -> index n (Z.of_nat i - 1) = Ok (i - 1).
Proof. intros H. unfold index. destruct (Z.leb_spec 0 (Z.of_nat i - 1)); [|lia]. destruct (Z.ltb_spec (Z.of_nat i - 1) (Z.of_nat n)); [|lia]. cbn [andb]. f_equal. lia. Qed.
Lemma eig_all nb nk e : (Z.of_nat nk < 10 ^ 4)%Z -> forall l, (forall n k x, In (n, k, x) l -> 1 <= n <= nb /\ 1 <= k <= nk /\ x = e (n - 1) (k - 1) /\ fits 18 12 x) -> forall eig,
  exists eig', eig_lines nb nk eig (map (fun x => nl (eig_line x)) l) = Ok eig' /\ forall i j, (In (S i, S j, e i j) l -> eig' i j = Some (rounded 12 (e i j))) /\ (eig i j = Some (rounded 12 (e i j)) -> eig' i j = Some (rounded 12 (e i j))).
Proof.
  intros K. induction l as [|[[n k] x] l IH]; intros H eig.
  - exists eig. split; [reflexivity|]. intros i j. split; [intros []|tauto].
  - destruct (H n k x (or_introl eq_refl)) as (Hn & Hk & Hx & Fx). cbn [map eig_lines]. rewrite split_eig by (lia || exact Fx). rewrite !to_int_word. cbn [bind]. rewrite !index_ok by assumption. cbn [bind]. rewrite to_float_fmt by lia. cbn [bind].
    destruct (IH (fun n k x J => H n k x (or_intror J)) (fun i' j' => if (i' =? n - 1) && (j' =? k - 1) then Some (rounded 12 x) else eig i' j')) as (eig' & E & S). exists eig'. split; [exact E|].
    intros i j. destruct (S i j) as [S1 S2]. split.
    + intros [[= -> -> ->]|J]; [|exact (S1 J)]. apply S2. cbn [Nat.sub]. rewrite !Nat.sub_0_r, !Nat.eqb_refl. reflexivity.
    + intros X. apply S2. destruct (Nat.eqb_spec i (n - 1)) as [->|]; [|exact X]. destruct (Nat.eqb_spec j (k - 1)) as [->|]; [|exact X]. cbn [andb]. rewrite Hx. reflexivity.
Qed.
Lemma eig_file l : lines (file_of (map eig_line l)) = map (fun x => nl (eig_line x)) l.
Proof.
  rewrite lines_file, map_map; [reflexivity|]. intros y J. apply in_map_iff in J as ([[n k] x] & <- & _). cbn [eig_line]. repeat (apply single_app; [apply single_I|]). apply single_F.
Qed.
(** Numbers of five digits are joined with the number before. *)
Lemma nonneg_long z : (10 ^ 4 <= z < 10 ^ 5)%Z -> length (fmt_d z) = 5.
Proof.
  intros H. unfold fmt_d. destruct (Z.ltb_spec z 0); [lia|]. apply Nat.le_antisymm; [apply nonneg_length; lia|].
  assert (G : forall fuel n w, (10 ^ Z.of_nat w <= n < 10 ^ (Z.of_nat fuel + 1))%Z -> w < length (digits fuel n)).
  { induction fuel as [|fuel IH]; intros n w B.
    - destruct w as [|w]; [cbn; lia|]. exfalso. assert (10 ^ 1 <= 10 ^ Z.of_nat (S w))%Z by (apply Z.pow_le_mono_r; lia). lia.
    - cbn [digits]. destruct (Z.ltb_spec n 10) as [L|L].
      + destruct w as [|w]; [cbn; lia|]. exfalso. assert (10 ^ 1 <= 10 ^ Z.of_nat (S w))%Z by (apply Z.pow_le_mono_r; lia). lia.
      + rewrite app_length. cbn [length]. destruct w as [|w]; [lia|]. enough (w < length (digits fuel (n / 10))) by lia. apply IH.
        rewrite Nat2Z.inj_succ, Z.pow_succ_r in B by lia. rewrite Nat2Z.inj_succ in B. replace (Z.succ (Z.of_nat fuel) + 1)%Z with (Z.succ (Z.of_nat fuel + 1)) in B by lia. rewrite Z.pow_succ_r in B by lia.
        split; [apply Z.div_le_lower_bound; lia|apply Z.div_lt_upper_bound; lia]. }
  apply (G _ z 4). split; [lia|]. apply fuel_enough. lia.
Qed.
Lemma split_eig_long n k e : (10 ^ 4 <= Z.of_nat k < 10 ^ 5)%Z -> fits 18 12 e -> exists w, str_split (nl (eig_line (n, k, e))) = [w; fmt_f 12 e].
Proof.
  intros K E. exists (fmt_d (Z.of_nat n) ++ fmt_d (Z.of_nat k)). unfold nl. cbn [eig_line]. unfold I at 2, pad at 1. rewrite nonneg_long by exact K. cbn [Nat.sub repeat app].
  unfold I, pad at 1. rewrite <- !app_assoc. rewrite (app_assoc (fmt_d _)). rewrite split_word; [|apply spaces_blank| |apply PwoProofs.starts_F, E].
  - rewrite PwoProofs.split_F by reflexivity. reflexivity.
  - apply PwoProofs.word_more; [apply word_fmt_d|apply word_fmt_d].
Qed.
Lemma eig_fails nb nk e : (Z.of_nat nk < 10 ^ 5)%Z -> forall l, (forall n k x, In (n, k, x) l -> 1 <= n <= nb /\ 1 <= k <= nk /\ x = e (n - 1) (k - 1) /\ fits 18 12 x) ->
  (exists n k x, In (n, k, x) l /\ (10 ^ 4 <= Z.of_nat k)%Z) -> forall eig, eig_lines nb nk eig (map (fun x => nl (eig_line x)) l) = Raise ValueError.
Proof.
  intros K. induction l as [|[[n k] x] l IH]; intros H X eig; [destruct X as (? & ? & ? & [] & _)|].
  destruct (H n k x (or_introl eq_refl)) as (Hn & Hk & Hx & Fx). cbn [map eig_lines]. destruct (Z_lt_dec (Z.of_nat k) (10 ^ 4)) as [L|L].
  - rewrite split_eig by (lia || exact Fx). rewrite !to_int_word. cbn [bind]. rewrite !index_ok by assumption. cbn [bind]. rewrite to_float_fmt by lia. cbn [bind].
    apply IH; [intros n' k' x' J; apply H; right; exact J|]. destruct X as (n' & k' & x' & [[= <- <- <-]|J] & B); [lia|]. exists n', k', x'. split; assumption.
  - destruct (split_eig_long n k x ltac:(lia) Fx) as (w & ->). reflexivity.
Qed.
