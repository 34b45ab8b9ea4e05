(** Proofs about files that are read line by line. *)
From Coq Require Import Qabs Lia.
From Verif Require Import Text TextProofs NmlModel NmlProofs TabModel TabSpec.
From Verif Require ProjModel XmlModel XmlProofs QuadProofs WinProofs PwoProofs PwoProofs3.
From Coq Require Import List.
Import ListNotations.
Local Open Scope nat_scope.

Lemma lines_file ls : (forall l, In l ls -> single l) -> lines (file_of ls) = map (fun l => l ++ [newline]) ls.
Proof.
  intros H. unfold file_of. rewrite <- (app_nil_r (concat _)), QuadProofs.lines_concat; [apply app_nil_r|].
  intros t J. apply in_map_iff in J as (l & <- & J). exists l. split; [reflexivity|]. apply PwoProofs3.in_newline, H, J.
Qed.

(** ** Tokens *)
Lemma tokens_cut a : forall cur c b, separator c = true -> tokens_from cur (a ++ c :: b) = tokens_from cur a ++ tokens b.
Proof.
  induction a as [|d a IH]; intros cur c b H; cbn [app tokens_from].
  - rewrite H. reflexivity.
  - destruct (separator d); [rewrite IH by exact H; rewrite app_assoc; reflexivity|apply IH, H].
Qed.
Lemma tokens_word w : forall cur, Forall (fun c => is_space c = false) w -> filter (fun w => negb (teqb w [])) (XmlModel.split_from "=" cur w) = tokens_from cur w.
Proof.
  induction w as [|c w IH]; intros cur H; cbn [XmlModel.split_from tokens_from].
  - destruct cur; reflexivity.
  - inversion H as [|? ? Hc Hw]. unfold separator. rewrite Hc. cbn [orb]. destruct (Ascii.eqb c "="); [|apply IH, Hw].
    cbn [filter]. rewrite (IH [] Hw). destruct cur; reflexivity.
Qed.
Lemma split_words_from t : forall cur, Forall (fun c => is_space c = false) cur ->
  flat_map (fun column => filter (fun w => negb (teqb w [])) (XmlModel.split_at "=" column)) (words_from cur t) = tokens (cur ++ t).
Proof.
  assert (E : forall cur, Forall (fun c => is_space c = false) cur -> flat_map (fun column => filter (fun w => negb (teqb w [])) (XmlModel.split_at "=" column)) (emit cur) = tokens cur).
  { intros cur H. destruct cur as [|c cur]; [reflexivity|]. cbn [emit flat_map]. rewrite app_nil_r. apply tokens_word, H. }
  induction t as [|c t IH]; intros cur H; cbn [words_from].
  - rewrite app_nil_r. apply E, H.
  - destruct (is_space c) eqn:S.
    + rewrite flat_map_app, E, (IH []) by (exact H || constructor). unfold tokens. rewrite tokens_cut; [reflexivity|]. unfold separator. rewrite S. reflexivity.
    + rewrite IH; [rewrite <- app_assoc; reflexivity|]. apply Forall_app. split; [exact H|]. constructor; [exact S|constructor].
Qed.
Lemma split_tokens t : split_words t = tokens t.
Proof. apply (split_words_from t []). constructor. Qed.

(** ** One line *)
Definition stores (d : dict text) (ws : list text) (name : text) (n : nat) : res (dict text) := do v <- item ws n ;; Ok (dset d name v).
Definition lookup (w : text) : option (text * nat) := match find (fun q => teqb (fst (fst q)) w) quantities with Some (_, name, n) => Some (name, n) | None => None end.
Lemma contribution_lookup d l : contribution d l = match tokens l with [] => Ok d | w :: _ => match lookup w with Some (name, n) => stores d (tokens l) name n | None => Ok d end end.
Proof.
  unfold contribution. rewrite split_tokens. destruct (tokens l) as [|w ws] eqn:E; [reflexivity|].
  unfold lookup, quantities. cbn [find fst].
  repeat match goal with |- context [teqb ?k w] => destruct (teqb k w) eqn:?; [match goal with H : teqb k w = true |- _ => apply teqb_eq in H; subst w; vm_compute; reflexivity end|] end.
  repeat match goal with H : teqb ?k w = false |- _ => let H' := fresh in assert (H' : teqb w k = false) by (apply teqb_neq; apply teqb_neq in H; congruence); clear H end.
  repeat match goal with H : teqb w ?k = false |- _ => rewrite H; clear H end.
  repeat match goal with |- context [if ?b then _ else _] => destruct b end; reflexivity.
Qed.
Lemma lookup_spec w name n : lookup w = Some (name, n) <-> In (w, name, n) quantities.
Proof.
  unfold lookup, quantities. cbn [find fst]. split.
  - repeat match goal with |- context [teqb ?k w] => destruct (teqb k w) eqn:?; [match goal with H : teqb k w = true |- _ => apply teqb_eq in H; subst w; intros [= <- <-]; cbn [In]; tauto end|] end. discriminate.
  - cbn [In]. intros H. repeat (destruct H as [H|H]; [injection H as <- <- <-; reflexivity|]). contradiction.
Qed.
Lemma names_distinct w n m w' m' : In (w, n, m) quantities -> In (w', n, m') quantities -> w = w' /\ m = m'.
Proof.
  unfold quantities. cbn [In]. intros H H'.
  repeat (destruct H as [H|H]; [injection H as <- <- <-; repeat (destruct H' as [H'|H']; [solve [injection H' as <- <-; split; reflexivity | clear -H'; exfalso; inversion H']|]); contradiction|]). contradiction.
Qed.

Definition enough (l : text) : Prop := forall w name n, In (w, name, n) quantities -> first_token l w -> n < length (tokens l).
Definition value_of (ls : list text) (d : dict text) (name v : text) : Prop := (exists w n, In (w, name, n) quantities /\ last_line ls w n v).

Lemma last_snoc ls l w n v : last_line (ls ++ [l]) w n v <-> first_token l w /\ nth_error (tokens l) n = Some v \/ ~ first_token l w /\ last_line ls w n v.
Proof.
  split.
  - intros (l1 & x & l2 & E & Fx & Nx & O). destruct (rev l2) as [|y r] eqn:R.
    + assert (l2 = []) by (rewrite <- (rev_involutive l2), R; reflexivity). subst l2. apply app_inj_tail in E as [-> ->]. left. split; assumption.
    + assert (l2 = rev r ++ [y]) by (rewrite <- (rev_involutive l2), R; reflexivity). subst l2. rewrite app_comm_cons, app_assoc in E. apply app_inj_tail in E as [-> ->].
      right. split; [apply O, in_or_app; right; left; reflexivity|]. exists l1, x, (rev r). repeat split; try assumption. intros l' J. apply O, in_or_app. left. exact J.
  - intros [[A B]|[A (l1 & x & l2 & -> & Fx & Nx & O)]].
    + exists ls, l, []. repeat split; try assumption. intros l' [].
    + exists l1, x, (l2 ++ [l]). split; [rewrite <- app_assoc; reflexivity|]. repeat split; try assumption. intros l' J. apply in_app_iff in J as [J|[<-|[]]]; [apply O, J|exact A].
Qed.
Lemma first_token_dec l w : first_token l w \/ ~ first_token l w.
Proof.
  unfold first_token. destruct (tokens l) as [|x ws]; [right; intros (? & ?); discriminate|]. destruct (list_eq_dec Ascii.ascii_dec x w) as [->|N]; [left; eexists; reflexivity|right; intros (? & [= ? ?]); contradiction].
Qed.

Lemma contribution_one pre l d : enough l -> (forall name v, dget d name = Some v <-> value_of pre d name v) ->
  exists d', contribution d l = Ok d' /\ forall name v, dget d' name = Some v <-> value_of (pre ++ [l]) d' name v.
Proof.
  intros En H. rewrite contribution_lookup. destruct (tokens l) as [|w ws] eqn:T.
  - exists d. split; [reflexivity|]. intros name v. rewrite H. unfold value_of. split; intros (w & n & J & L); exists w, n; (split; [exact J|]).
    + apply last_snoc. right. split; [|exact L]. unfold first_token. rewrite T. intros (? & ?). discriminate.
    + apply last_snoc in L as [[(? & X) _]|[_ L]]; [rewrite T in X; discriminate|exact L].
  - assert (FT : forall w', first_token l w' <-> w' = w). { intros w'. unfold first_token. rewrite T. split; [intros (? & [= ? ?]); congruence|intros ->; eexists; reflexivity]. }
    destruct (lookup w) as [[name n]|] eqn:Lw.
    + apply lookup_spec in Lw. specialize (En w name n Lw (proj2 (FT w) eq_refl)). rewrite T in En. unfold stores, item. destruct (nth_error (w :: ws) n) as [v|] eqn:N; [|apply nth_error_None in N; lia].
      cbn [bind]. exists (dset d name v). split; [reflexivity|]. intros name' v'. rewrite dget_dset. destruct (teqb name name') eqn:Q.
      * apply teqb_eq in Q. subst name'. split.
        -- intros [= <-]. exists w, n. split; [exact Lw|]. apply last_snoc. left. split; [apply FT; reflexivity|rewrite T; exact N].
        -- intros (w' & n' & J & L). destruct (names_distinct _ _ _ _ _ Lw J) as [<- <-]. apply last_snoc in L as [[_ L]|[L _]]; [rewrite T, N in L; exact L|exfalso; apply L, FT; reflexivity].
      * apply teqb_neq in Q. rewrite H. unfold value_of. split; intros (w' & n' & J & L); exists w', n'; (split; [exact J|]).
        -- apply last_snoc. right. split; [|exact L]. rewrite FT. intros ->. apply Q. apply lookup_spec in Lw, J. congruence.
        -- apply last_snoc in L as [[L _]|[_ L]]; [|exact L]. exfalso. apply FT in L. subst w'. apply Q. apply lookup_spec in Lw, J. congruence.
    + exists d. split; [reflexivity|]. intros name v. rewrite H. unfold value_of. split; intros (w' & n & J & L); exists w', n; (split; [exact J|]).
      * apply last_snoc. right. split; [|exact L]. rewrite FT. intros ->. apply lookup_spec in J. congruence.
      * apply last_snoc in L as [[L _]|[_ L]]; [|exact L]. exfalso. apply FT in L. subst w'. apply lookup_spec in J. congruence.
Qed.
Lemma contributions_all ls : forall pre d, Forall enough ls -> (forall name v, dget d name = Some v <-> value_of pre d name v) ->
  exists d', contributions d ls = Ok d' /\ forall name v, dget d' name = Some v <-> value_of (pre ++ ls) d' name v.
Proof.
  induction ls as [|l ls IH]; intros pre d En H.
  - exists d. rewrite app_nil_r. split; [reflexivity|exact H].
  - inversion En as [|? ? El Els]. destruct (contribution_one pre l d El H) as (d' & E & H'). cbn [contributions]. rewrite E. cbn [bind]. destruct (IH (pre ++ [l]) d' Els H') as (d'' & E' & H''). exists d''. split; [exact E'|]. rewrite <- app_assoc in H''. exact H''.
Qed.
Lemma contributions_short ls : forall d, ~ Forall enough ls -> contributions d ls = Raise IndexError.
Proof.
  induction ls as [|l ls IH]; intros d N; [exfalso; apply N; constructor|]. cbn [contributions]. rewrite contribution_lookup.
  destruct (tokens l) as [|w ws] eqn:T.
  - cbn [bind]. apply IH. intros X. apply N. constructor; [|exact X]. intros w' ? ? _ (? & E). rewrite T in E. discriminate.
  - destruct (lookup w) as [[name n]|] eqn:Lw.
    + unfold stores, item. destruct (nth_error (w :: ws) n) as [v|] eqn:E; [|reflexivity]. cbn [bind]. apply IH. intros X. apply N. constructor; [|exact X].
      intros w' name' n' J (ws' & E'). rewrite T in E'. injection E' as <- <-. apply lookup_spec in J. rewrite Lw in J. injection J as <- <-. rewrite T. apply nth_error_Some. congruence.
    + cbn [bind]. apply IH. intros X. apply N. constructor; [|exact X]. intros w' name' n' J (ws' & E'). rewrite T in E'. injection E' as <- <-. apply lookup_spec in J. congruence.
Qed.
