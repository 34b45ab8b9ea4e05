(** Proofs about files with q points and quadrupole tensors. *)
From Coq Require Import Qabs Lia Lqa.
From Verif Require Import Text TextProofs HrProofs CoulModel CoulProofs QuadModel QuadSpec.
Local Open Scope nat_scope.

Lemma replace_length {A} (x : A) : forall l n, length (replace n x l) = length l.
Proof. induction l as [|y l IH]; intros [|n]; cbn [replace length]; auto. Qed.
Lemma replace_same {A} (x d : A) : forall l n, n < length l -> nth n (replace n x l) d = x.
Proof. induction l as [|y l IH]; intros [|n] H; cbn in *; try lia; [reflexivity|apply IH; lia]. Qed.
Lemma replace_other {A} (x d : A) : forall l n m, m <> n -> nth m (replace n x l) d = nth m l d.
Proof. induction l as [|y l IH]; intros [|n] [|m] H; cbn; try reflexivity; try lia. apply IH. lia. Qed.
Lemma nth_extended T k n : nth n (T ++ repeat zeros k) zeros = nth n T zeros.
Proof.
  destruct (Nat.lt_ge_cases n (length T)); [apply app_nth1; assumption|]. rewrite app_nth2 by assumption. rewrite (nth_overflow T) by assumption.
  generalize (n - length T) as m. induction k as [|k IH]; intros [|m]; cbn; auto.
Qed.

Lemma row_step line n i v T : lists_row line n i v -> exists T', quadrupole_row T (str_split line) = Ok T' /\ length T' = Nat.max (length T) (n + 1) /\
  (forall j k x, component v j k x -> nth n T' zeros i j k = x) /\
  (forall n' i' j k, (n', i') <> (n, i) -> nth n' T' zeros i' j k = nth n' T zeros i' j k).
Proof.
  intros H. destruct H as [line w1 w2 u1 u2 u3 u4 u5 u6 n i v -> W1 W2 Hi F1 F2 F3 F4 F5 F6]. unfold quadrupole_row. cbn [firstn skipn map_res].
  rewrite W1, W2. cbn [bind]. rewrite F1, F2, F3, F4, F5, F6. cbn [bind]. replace (Z.of_nat n + 1 - 1)%Z with (Z.of_nat n) by lia. replace (Z.of_nat i + 1 - 1)%Z with (Z.of_nat i) by lia.
  replace (Z.to_nat (Z.of_nat n + 1)) with (n + 1) by lia. set (T1 := T ++ repeat zeros (n + 1 - length T)).
  assert (L : length T1 = Nat.max (length T) (n + 1)) by (unfold T1; rewrite app_length, repeat_length; lia).
  rewrite (position_in (length T1) n) by lia. cbn [bind]. unfold set_row. rewrite (position_in 3 i Hi). cbn [bind]. eexists. split; [reflexivity|]. rewrite replace_length. split; [exact L|]. split.
  - intros j k x C. rewrite replace_same by lia. rewrite Nat.eqb_refl. destruct C; reflexivity.
  - intros n' i' j k D. destruct (Nat.eq_dec n' n) as [->|N].
    + rewrite replace_same by lia. destruct (Nat.eqb_spec i' i) as [->|_]; [contradiction|]. unfold T1. rewrite nth_extended. reflexivity.
    + rewrite replace_other by exact N. unfold T1. rewrite nth_extended. reflexivity.
Qed.

Lemma split_spaces line : blank_line line <-> str_split line = [].
Proof.
  split.
  - intros H. rewrite <- (app_nil_r line). rewrite words_spaces by exact H. reflexivity.
  - unfold str_split, blank_line. intros H.
    assert (G : forall t cur, words_from cur t = [] -> cur = [] /\ Forall (fun c => is_space c = true) t).
    { induction t as [|c t IH]; intros cur E; cbn in E; [destruct cur; [auto|discriminate]|]. destruct (is_space c) eqn:S.
      - destruct cur; [|discriminate]. cbn [emit app] in E. split; [reflexivity|]. constructor; [exact S|apply (IH [] E)].
      - apply IH in E as [E _]. destruct cur; discriminate. }
    apply (G line [] H).
Qed.

Lemma row_words line n i v : lists_row line n i v -> str_split line <> [].
Proof. intros H. destruct H as [? ? ? ? ? ? ? ? ? ? ? ? E]. rewrite E. discriminate. Qed.

Lemma rows_step T line n i v ls : lists_row line n i v -> quadrupole_rows T (line :: ls) = do T <- quadrupole_row T (str_split line) ;; quadrupole_rows T ls.
Proof. intros H. apply row_words in H. cbn [quadrupole_rows]. destruct (str_split line); [contradiction|reflexivity]. Qed.

Lemma rows_ok : forall ls T, (forall line, In line ls -> blank_line line \/ exists n i v, lists_row line n i v) ->
  exists T', quadrupole_rows T ls = Ok T' /\ length T <= length T' /\
    (forall line n i v, In line ls -> lists_row line n i v -> n < length T') /\
    (length T' = length T \/ exists line n i v, In line ls /\ lists_row line n i v /\ length T' = n + 1) /\
    forall n i,
      (forall before line after v, ls = before ++ line :: after -> lists_row line n i v -> (forall line', In line' after -> ~ exists v', lists_row line' n i v') ->
        forall j k x, component v j k x -> nth n T' zeros i j k = x) /\
      ((forall line, In line ls -> ~ exists v, lists_row line n i v) -> forall j k, nth n T' zeros i j k = nth n T zeros i j k).
Proof.
  induction ls as [|line ls IH]; intros T H.
  - exists T. split; [reflexivity|]. split; [lia|]. split; [intros ? ? ? ? []|]. split; [left; reflexivity|]. intros n i. split; [intros [|? ?] ? ? ? E; discriminate|reflexivity].
  - specialize (fun T => IH T (fun l Hl => H l (or_intror Hl))). destruct (H line (or_introl eq_refl)) as [B|(n & i & v & R)].
    + destruct (IH T) as (T' & E & L & A & M & V). exists T'. pose proof (proj1 (split_spaces _) B) as Sp. split; [cbn [quadrupole_rows]; rewrite Sp; exact E|]. split; [exact L|].
      assert (NB : forall n i v, ~ lists_row line n i v) by (intros n i v R; apply (row_words _ _ _ _ R), Sp).
      split; [intros l n i v [<-|I] R; [destruct (NB _ _ _ R)|apply (A l n i v I R)]|]. split.
      * destruct M as [M|(l & n & i & v & I & R & M)]; [left; exact M|right; exists l, n, i, v; split; [right; exact I|auto]].
      * intros n i. destruct (V n i) as [V1 V2]. split.
        -- intros [|b before] l after v E' R; injection E' as <- E'; [destruct (NB _ _ _ R)|apply (V1 before l after v E' R)].
        -- intros N. apply V2. intros l I. apply N. right. exact I.
    + destruct (row_step line n i v T R) as (T1 & E1 & L1 & C1 & O1). destruct (IH T1) as (T' & E & L & A & M & V). exists T'.
      split; [rewrite (rows_step _ _ _ _ _ _ R), E1; exact E|]. split; [lia|]. 
      assert (U : forall n' i' v', lists_row line n' i' v' -> n' = n /\ i' = i).
      { intros n' i' v' R'. destruct R' as [line w1 w2 u1 u2 u3 u4 u5 u6 n' i' v' Sp W1 W2]. destruct R as [line w1' w2' ? ? ? ? ? ? n i v Sp' W1' W2']. rewrite Sp in Sp'. injection Sp' as <- <- _ _ _ _ _ _.
        rewrite W1 in W1'. rewrite W2 in W2'. injection W1' as W1'. injection W2' as W2'. lia. }
      split.
      * intros l n' i' v' [<-|I] R'; [destruct (U _ _ _ R') as [-> ->]; lia|apply (A l n' i' v' I R')].
      * split.
        -- destruct M as [M|(l & n' & i' & v' & I & R' & M)]; [|right; exists l, n', i', v'; split; [right; exact I|auto]].
           destruct (Nat.le_gt_cases (n + 1) (length T)); [left; lia|right; exists line, n, i, v; split; [left; reflexivity|]; split; [exact R|lia]].
        -- intros n' i'. destruct (V n' i') as [V1 V2]. split.
           ++ intros [|b before] l after v' E' R' N; injection E' as <- E'; [|apply (V1 before l after v' E' R' N)]. subst. intros j k x C. rewrite V2 by exact N.
              destruct (U _ _ _ R') as [-> ->]. destruct (row_step line n i v' T R') as (T2 & E2 & _ & C2 & _). rewrite E1 in E2. injection E2 as <-. apply C2, C.
           ++ intros N j k. rewrite V2 by (intros l I; apply N; right; exact I). apply O1. intros D. injection D as -> ->. apply (N line (or_introl eq_refl)). exists v. exact R.
Qed.

(** Lines that cannot be read *)
Definition eight_numbers (line : text) : Prop := exists w1 w2 us z1 z2 xs, str_split line = w1 :: w2 :: us /\ length us = 6 /\ to_int w1 = Ok z1 /\ to_int w2 = Ok z2 /\ map_res to_float us = Ok xs.

Lemma row_malformed T line : ~ blank_line line -> ~ eight_numbers line -> quadrupole_row T (str_split line) = Raise ValueError.
Proof.
  intros B N. unfold quadrupole_row. destruct (map_res _ (firstn 2 (str_split line))) as [l|e] eqn:E; cbn [bind].
  - pose proof (map_res_length _ _ _ E) as L. destruct l as [|na [|i [|? l]]]; try reflexivity. apply map_res_2 in E as (w1 & w2 & E & W1 & W2).
    destruct (map_res to_float _) as [xs|e] eqn:X; cbn [bind].
    + pose proof (map_res_length _ _ _ X) as LX. assert (G : length xs <> 6).
      { intros G. apply N. destruct (to_int w1) as [z1|] eqn:Z1; [|discriminate]. destruct (to_int w2) as [z2|] eqn:Z2; [|discriminate]. exists w1, w2, (skipn 2 (str_split line)), z1, z2, xs.
        split; [rewrite <- (firstn_skipn 2 (str_split line)) at 1; rewrite E; reflexivity|]. split; [lia|auto]. }
      destruct xs as [|? [|? [|? [|? [|? [|? [|? ?]]]]]]]; try reflexivity. cbn in G. lia.
    + f_equal. apply (map_res_error _ _ to_float_error _ _ X).
  - f_equal. revert E. apply map_res_error. intros w e'. destruct (to_int w) eqn:W; cbn [bind]; [discriminate|]. intros E. injection E as <-. apply (to_int_error _ _ W).
Qed.

Lemma rows_malformed : forall ls T line ls', (forall line, In line ls -> blank_line line \/ exists n i v, lists_row line n i v) -> ~ blank_line line -> ~ eight_numbers line ->
  quadrupole_rows T (ls ++ line :: ls') = Raise ValueError.
Proof.
  induction ls as [|l ls IH]; intros T line ls' H B N.
  - cbn [app quadrupole_rows]. destruct (str_split line) eqn:Sp; [apply split_spaces in Sp; contradiction|]. rewrite <- Sp, row_malformed by assumption. reflexivity.
  - cbn [app]. destruct (H l (or_introl eq_refl)) as [Bl|(n & i & v & R)].
    + cbn [quadrupole_rows]. apply split_spaces in Bl. rewrite Bl. apply IH; try assumption. intros l' Hl. apply H. right. exact Hl.
    + rewrite (rows_step _ _ _ _ _ _ R). destruct (row_step _ _ _ _ T R) as (T1 & E & _). rewrite E. cbn [bind]. apply IH; try assumption. intros l' Hl. apply H. right. exact Hl.
Qed.

(** ** Written files *)
Definition voigt_rounded (A : atom) (i : nat) : voigt :=
  Voigt (rounded 10 (A i 0 0)) (rounded 10 (A i 1 1)) (rounded 10 (A i 2 2)) (rounded 10 (A i 1 2)) (rounded 10 (A i 0 2)) (rounded 10 (A i 0 1)).

Lemma line_row n A i : i < 3 -> lists_row (quadrupole_line n A i) n i (voigt_rounded A i).
Proof.
  intros Hi. unfold quadrupole_line. cbn [map concat app]. rewrite !Nat2Z.inj_add. change (Z.of_nat 1) with 1%Z. repeat (progress (rewrite <- ?app_assoc; cbn [app])).
  eapply row; [|apply to_int_word|apply to_int_word|exact Hi|apply to_float_fmt; lia..].
  rewrite split_pad; [|apply word_fmt_d|exact eq_refl]. rewrite split_blank_pad; [|apply word_fmt_d|exact eq_refl]. rewrite !split_blank_pad by first [apply word_fmt_f|exact eq_refl]. reflexivity.
Qed.

Lemma line_end n A i : exists l, quadrupole_line n A i = l ++ [newline] /\ no_newline l.
Proof.
  unfold quadrupole_line. set (a := pad 4 _). set (b := pad 3 _). set (c := concat _). exists (a ++ blank :: b ++ c). split; [repeat (progress (rewrite <- ?app_assoc; cbn [app])); reflexivity|].
  assert (Nc : no_newline c).
  { unfold c. cbn [map concat app]. repeat first [apply Forall_nil|apply no_newline_f|apply Forall_cons; [discriminate|]|apply no_newline_pad, no_newline_f|apply no_newline_app]. }
  apply no_newline_app; [apply no_newline_pad, no_newline_d|]. constructor; [discriminate|]. apply no_newline_app; [apply no_newline_pad, no_newline_d|exact Nc].
Qed.

Lemma lines_concat : forall ts rest, (forall t, In t ts -> exists l, t = l ++ [newline] /\ no_newline l) -> lines (concat ts ++ rest) = ts ++ lines rest.
Proof.
  induction ts as [|t ts IH]; intros rest H; [reflexivity|]. destruct (H t (or_introl eq_refl)) as (l & -> & N). cbn [concat]. rewrite <- !app_assoc. cbn [app].
  rewrite lines_app by exact N. f_equal. apply IH. intros t' Ht. apply H. right. exact Ht.
Qed.

Fixpoint all_lines (n : nat) (T : list atom) : list text := match T with [] => [] | A :: T => map (quadrupole_line n A) (seq 0 3) ++ all_lines (S n) T end.

Lemma lines_written n T : lines (quadrupole_lines n T) = all_lines n T.
Proof.
  revert n. induction T as [|A T IH]; intros n; [reflexivity|]. cbn [quadrupole_lines all_lines]. rewrite lines_concat; [rewrite IH; reflexivity|].
  intros t I. apply in_map_iff in I as (i & <- & _). apply line_end.
Qed.

Lemma in_all_lines : forall T n line, In line (all_lines n T) -> exists m A i, nth_error T m = Some A /\ i < 3 /\ line = quadrupole_line (n + m) A i.
Proof.
  induction T as [|A T IH]; intros n line I; [destruct I|]. cbn [all_lines] in I. apply in_app_iff in I as [I|I].
  - apply in_map_iff in I as (i & <- & Hi). apply in_seq in Hi. exists 0, A, i. split; [reflexivity|]. split; [lia|]. rewrite Nat.add_0_r. reflexivity.
  - apply IH in I as (m & B & i & E & Hi & ->). exists (S m), B, i. split; [exact E|]. split; [exact Hi|]. f_equal. lia.
Qed.

Lemma row_unique line n i v n' i' v' : lists_row line n i v -> lists_row line n' i' v' -> n = n' /\ i = i'.
Proof.
  intros R R'. destruct R as [line w1 w2 u1 u2 u3 u4 u5 u6 n i v Sp W1 W2]. destruct R' as [line w1' w2' ? ? ? ? ? ? n' i' v' Sp' W1' W2']. rewrite Sp in Sp'. injection Sp' as <- <- _ _ _ _ _ _.
  rewrite W1 in W1'. rewrite W2 in W2'. injection W1' as W1'. injection W2' as W2'. lia.
Qed.

Lemma all_lines_split : forall T n m A i, nth_error T m = Some A -> i < 3 -> exists before after, all_lines n T = before ++ quadrupole_line (n + m) A i :: after /\
  forall line, In line after -> ~ exists v, lists_row line (n + m) i v.
Proof.
  induction T as [|B T IH]; intros n [|m] A i E Hi; try discriminate; cbn [nth_error] in E.
  - injection E as ->. rewrite Nat.add_0_r. exists (map (quadrupole_line n A) (seq 0 i)), (map (quadrupole_line n A) (seq (S i) (2 - i)) ++ all_lines (S n) T). split.
    + cbn [all_lines]. replace (seq 0 3) with (seq 0 i ++ i :: seq (S i) (2 - i)); [rewrite map_app, <- app_assoc; reflexivity|]. destruct i as [|[|[|?]]]; try reflexivity. lia.
    + intros line I (v & R). apply in_app_iff in I as [I|I].
      * apply in_map_iff in I as (i' & <- & Hi'). apply in_seq in Hi'. destruct (row_unique _ _ _ _ _ _ _ R (line_row n A i' ltac:(lia))). lia.
      * apply in_all_lines in I as (m & B' & i' & _ & Hi' & ->). destruct (row_unique _ _ _ _ _ _ _ R (line_row (S n + m) B' i' Hi')). lia.
  - destruct (IH (S n) m A i E Hi) as (b & a & Eq & N). exists (map (quadrupole_line n B) (seq 0 3) ++ b), a. replace (n + S m) with (S n + m) by lia. split; [|exact N].
    cbn [all_lines]. rewrite Eq, app_assoc. reflexivity.
Qed.

Lemma header_lines T : exists h, lines (write_quadrupole_fmt T) = h :: all_lines 0 T.
Proof.
  unfold write_quadrupole_fmt, quadrupole_header. eexists. rewrite <- lines_written, <- !app_assoc.
  assert (G : forall t rest, no_newline t -> lines (t ++ newline :: rest) = (t ++ [newline]) :: lines rest) by (intros; apply lines_app; assumption).
  match goal with |- lines ?x = _ => let y := eval vm_compute in quadrupole_header in assert (Hx : x = removelast y ++ newline :: quadrupole_lines 0 T) by reflexivity end.
  rewrite Hx, G; [reflexivity|]. cbn [removelast]. repeat (constructor; [discriminate|]). constructor.
Qed.

(** ** q points *)
Definition narrow (x : Q) : Prop := length (fmt_f 15 x) < 19.
Lemma narrow_ok x : (-9 <= x <= 99)%Q -> narrow x.
Proof.
  intros [L U]. unfold narrow, fmt_f. rewrite !app_length, fraction_length. cbn [str list_ascii_of_string length].
  pose proof (scaled_nonneg 15 x) as N. destruct x as [a b]. unfold Qle in L, U. cbn [Qnum Qden] in *.
  change (Z.of_nat 15) with 15%Z. change (10 ^ 15)%Z with 1000000000000000%Z.
  assert (G : forall m, (Z.abs a * 1000000000000000 <= m * Z.pos b)%Z -> (scaled 15 (a # b) <= m)%Z) by (intros m Hm; unfold scaled; cbn [Qnum Qden]; apply round_div_le; [lia|exact Hm]).
  destruct (Z.ltb_spec a 0).
  - specialize (G 9000000000000000%Z ltac:(lia)). pose proof (Z.div_le_upper_bound (scaled 15 (a # b)) 1000000000000000 9 ltac:(lia) ltac:(lia)). pose proof (Z.div_pos (scaled 15 (a # b)) 1000000000000000 N ltac:(lia)).
    pose proof (nonneg_length (scaled 15 (a # b) / 1000000000000000) 1 ltac:(lia) ltac:(change (Z.of_nat 1) with 1%Z; lia)). cbn [length]. lia.
  - specialize (G 99000000000000000%Z ltac:(lia)). pose proof (Z.div_le_upper_bound (scaled 15 (a # b)) 1000000000000000 99 ltac:(lia) ltac:(lia)). pose proof (Z.div_pos (scaled 15 (a # b)) 1000000000000000 N ltac:(lia)).
    pose proof (nonneg_length (scaled 15 (a # b) / 1000000000000000) 2 ltac:(lia) ltac:(change (Z.of_nat 2) with 2%Z; lia)). cbn [length]. lia.
Qed.

Definition q_line (qxy : Q * Q) : text := pad 19 (fmt_f 15 (fst qxy)) ++ pad 19 (fmt_f 15 (snd qxy)) ++ pad 19 (fmt_f 15 0) ++ [newline].
Lemma q_line_read qxy : narrow (snd qxy) -> map_res to_float (str_split (q_line qxy)) = Ok [rounded 15 (fst qxy); rounded 15 (snd qxy); rounded 15 0].
Proof.
  intros H. unfold q_line. rewrite split_pad; [|apply word_fmt_f|apply pad_starts, H]. rewrite split_pad; [|apply word_fmt_f|apply pad_starts; vm_compute; lia]. rewrite split_pad; [|apply word_fmt_f|exact eq_refl].
  rewrite split_end. cbn [map_res]. rewrite !to_float_fmt by lia. reflexivity.
Qed.
Lemma q_line_end qxy : exists l, q_line qxy = l ++ [newline] /\ no_newline l.
Proof.
  unfold q_line. eexists (pad 19 _ ++ pad 19 _ ++ pad 19 _). split; [rewrite <- !app_assoc; reflexivity|]. repeat first [apply no_newline_pad, no_newline_f|apply no_newline_app].
Qed.

Lemma q_lines q nq : lines (write_q q nq) = (pad 4 (fmt_d nq) ++ pad 4 (fmt_d nq) ++ pad 4 (fmt_d 1) ++ [newline]) :: (pad 4 (fmt_d (Z.of_nat (length q))) ++ [newline]) :: map q_line q.
Proof.
  unfold write_q. change (map _ q) with (map q_line q). rewrite !app_assoc. rewrite lines_app by (repeat first [apply no_newline_pad, no_newline_d|apply no_newline_app]).
  rewrite <- !app_assoc. f_equal. rewrite lines_app by (apply no_newline_pad, no_newline_d). f_equal. rewrite <- (app_nil_r (concat _)), lines_concat; [apply app_nil_r|].
  intros t I. apply in_map_iff in I as (qxy & <- & _). apply q_line_end.
Qed.
