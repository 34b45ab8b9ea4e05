(** Proofs about the output of pw.x: too many k points. *)
From Coq Require Import Lia.
From Verif Require Import Common CommonProofs Text TextProofs QuadProofs NmlModel XmlProofs PwoModel PwoSpec PwoProofs PwoProofs2 PwoProofs3.
From Verif Require ProjModel QeModel.
Local Open Scope nat_scope.

Lemma digits_many fuel : forall n, (0 <= n)%Z -> (n < 10 ^ (Z.of_nat fuel + 1))%Z -> (n < 10 ^ Z.of_nat (length (digits fuel n)))%Z.
Proof.
  induction fuel as [|fuel IH]; intros n H0 H.
  - cbn [digits]. change (10 ^ (Z.of_nat 0 + 1))%Z with 10%Z in H. destruct (Z.ltb_spec n 10); cbn [length]; lia.
  - cbn [digits]. destruct (Z.ltb_spec n 10) as [L|L]; [cbn [length]; change (10 ^ Z.of_nat 1)%Z with 10%Z; exact L|].
    rewrite app_length. cbn [length]. rewrite Nat2Z.inj_add, Z.pow_add_r by lia. change (10 ^ Z.of_nat 1)%Z with 10%Z.
    assert (B : (n / 10 < 10 ^ (Z.of_nat fuel + 1))%Z).
    { apply Z.div_lt_upper_bound; [lia|]. replace (10 * 10 ^ (Z.of_nat fuel + 1))%Z with (10 ^ (Z.of_nat (S fuel) + 1))%Z; [exact H|].
      rewrite Nat2Z.inj_succ. replace (Z.succ (Z.of_nat fuel) + 1)%Z with (1 + (Z.of_nat fuel + 1))%Z by lia. rewrite Z.pow_add_r by lia. reflexivity. }
    assert (C := IH (n / 10)%Z ltac:(apply Z.div_pos; lia) B). assert (D := Z.div_mod n 10 ltac:(lia)). assert (E := Z.mod_pos_bound n 10 ltac:(lia)). lia.
Qed.
Lemma fmt_d_many n w : (10 ^ Z.of_nat w <= Z.of_nat n)%Z -> w < length (fmt_d (Z.of_nat n)).
Proof.
  intros H. unfold fmt_d. destruct (Z.ltb_spec (Z.of_nat n) 0) as [L|L]; [lia|]. unfold nonneg_to_text.
  assert (B := digits_many _ _ L (fuel_enough _ L)). assert (C : (10 ^ Z.of_nat w < 10 ^ Z.of_nat (length (digits (fuel_of (Z.of_nat n)) (Z.of_nat n))))%Z) by lia.
  apply Z.pow_lt_mono_r_iff in C; lia.
Qed.
Lemma k_point_many n x y z w : (10 ^ 4 <= Z.of_nat n)%Z -> fits 12 7 x -> fits 12 7 y -> fits 12 7 z -> fits 12 7 w ->
  k_point (nl (point_line n (x, y, z, w))) = Raise ValueError.
Proof.
  intros H X Y Z W. unfold k_point. enough (E : length (str_split (nl (point_line n (x, y, z, w)))) = 9).
  { destruct (str_split _) as [|? [|? [|? [|? [|? [|? [|? [|? [|? [|? [|? ?]]]]]]]]]]]; try reflexivity; discriminate E. }
  unfold nl, point_line. rewrite <- !app_assoc. assert (L := fmt_d_many n 4 H). unfold I, pad. replace (5 - length (fmt_d (Z.of_nat n))) with 0 by lia. cbn [repeat app].
  change §") = (" with (§")" ++ §" = ("). change §"        k(" with (§"        " ++ §"k("). rewrite <- !app_assoc, (app_assoc (fmt_d _)), (app_assoc §"k("), split_word.
  2: repeat constructor. 2: { split; [discriminate|]. apply Forall_app. split; [repeat constructor|]. apply Forall_app. split; [apply word_fmt_d|repeat constructor]. } 2: reflexivity.
  rewrite (split_cut §" = (") by (apply starts_F, X). rewrite split_F by (apply starts_F, Y). rewrite split_F by (apply starts_F, Z).
  unfold F at 1, pad. change §"), wk =" with (§")," ++ §" wk ="). rewrite <- !app_assoc, (app_assoc (fmt_f 7 z)), split_word.
  2: apply spaces_blank. 2: { apply word_more; [apply word_fmt_f|repeat constructor]. } 2: reflexivity.
  rewrite (split_cut §" wk =") by (apply starts_F, W). rewrite split_F by reflexivity. reflexivity.
Qed.
Lemma map_res_raise {A B} (f : A -> res B) h e : forall l1 x l2, (forall y, In y l1 -> f y = Ok (h y)) -> f x = Raise e -> map_res f (l1 ++ x :: l2) = Raise e.
Proof.
  induction l1 as [|y l1 IH]; intros x l2 H E; cbn [app map_res]; [rewrite E; reflexivity|]. rewrite (H y (or_introl eq_refl)). cbn [bind]. rewrite IH; [reflexivity| |exact E]. intros z J. apply H. right. exact J.
Qed.

Section Run.
  Variable r : run.
  Hypothesis G : good r.
  Ltac calms := first [exact (calm_points r)|exact (calm_blocks r G)|apply (calm_of r G); cbn; tauto].
  Lemma eps_start : exists A B, lines (output_file r) = A ++ nl (points_line (length (points r)) (smearing r)) :: nl (header r) :: map nl (point_lines r) ++ B /\
    last_index "     number of k points=" 0 None (lines (output_file r)) = Some (length A).
  Proof.
    rewrite (lines_output r G).
    assert (Sp := sig_points (length (points r)) (smearing r) (fun n w E => proj1 (good_smearing r G n w E))). apply sig_all in Sp. destruct Sp as (_ & _ & _ & _ & _ & _ & _ & _ & Sp1 & _ & _).
    set (B := map nl (o3 r) ++ nl end_line :: flat_map block_lines (bands r) ++ map nl (o4 r) ++ nl (level_line (fermi r)) :: map nl (o5 r) ++ nl (total_line (total r)) :: map nl (o6 r)).
    set (A := map nl (o0 r) ++ nl (electrons_line (electrons r)) :: map nl (o1 r) ++ nl (states_line (nbnd r)) :: map nl (o2 r)).
    assert (D : all_lines r = A ++ nl (points_line (length (points r)) (smearing r)) :: nl (header r) :: map nl (point_lines r) ++ B).
    { unfold all_lines, A, B. rewrite <- !app_assoc. cbn [app]. rewrite <- ?app_assoc. reflexivity. }
    exists A, B. split; [exact D|]. rewrite D. apply (last_index_at _ _ _ Sp1).
    assert (Ch : signature (nl (header r)) = nothing) by (assert (C := calm_of r G [header r] ltac:(cbn; tauto)); apply (Forall_inv C)).
    assert (K : forall ls, calm ls -> Forall (fun l => starts "     number of k points=" l = false) ls) by (intros ls; apply calm_starts; cbn; tauto).
    constructor; [apply (Forall_inv (K [nl (header r)] (Forall_cons _ Ch (Forall_nil _))))|].
    apply Forall_app. split; [apply K; calms|]. unfold B. apply Forall_app. split; [apply K; calms|].
    constructor. { assert (S := sig_end). apply sig_all in S. destruct S as (_ & _ & _ & _ & _ & _ & _ & _ & S & _ & _). exact S. }
    apply Forall_app. split; [apply K; calms|]. apply Forall_app. split; [apply K; calms|].
    constructor. { assert (S := sig_level (fermi r)). destruct (fermi r); apply sig_all in S; destruct S as (_ & _ & _ & _ & _ & _ & _ & _ & S & _ & _); exact S. }
    apply Forall_app. split; [apply K; calms|].
    constructor. { assert (S := sig_total (total r)). apply sig_all in S. destruct S as (_ & _ & _ & _ & _ & _ & _ & _ & S & _ & _). exact S. }
    apply K; calms.
  Qed.
  Variable Ry : Q.
  Variable known : text -> bool.
  Lemma eps_no_smearing : smearing r = None -> read_eps Ry known (output_file r) = Raise IndexError.
  Proof.
    intros S. destruct eps_start as (A & B & D & L). unfold read_eps. rewrite L. cbn [bound bind]. rewrite D, <- (Nat.add_0_r (length A)), item_at.
    unfold item at 1. cbn [nth_error bind]. rewrite (words_points _ _ (good_count r G) (good_smearing r G)), S. unfold item at 1 2. cbn [app nth_error bind]. rewrite to_int_word. reflexivity.
  Qed.
  Lemma eps_many name width : smearing r = Some (name, width) -> (10 ^ 4 <= Z.of_nat (length (points r)))%Z -> read_eps Ry known (output_file r) = Raise ValueError.
  Proof.
    intros Sm H. destruct eps_start as (A & B & D & L). unfold read_eps. rewrite L. cbn [bound bind]. rewrite D. assert (I0 : forall l, item (A ++ l) (length A) = item l 0) by (intros l; rewrite <- (Nat.add_0_r (length A)) at 1; apply item_at). rewrite I0.
    unfold item at 1. cbn [nth_error bind]. rewrite (words_points _ _ (good_count r G) (good_smearing r G)), Sm. unfold item at 1 2 3. cbn [app nth_error bind]. rewrite to_int_word. cbn [bind].
    rewrite (to_float_fmt 4 width (Nat.lt_0_succ 3)). cbn [bind]. destruct (Z.ltb_spec (Z.of_nat (length (points r))) 0) as [Z1|_]; [lia|]. rewrite Nat2Z.id.
    assert (P := good_points r G). assert (PL : forall n, (Z.of_nat n < 10 ^ 4)%Z -> forall k, In k (points r) -> k_point (nl (point_line n k)) = Ok (rounded_k k)) by (intros; apply (k_point_line r G); assumption).
    set (i := Z.to_nat 9999). destruct (nth_error (points r) i) as [k|] eqn:Ek; [|apply nth_error_None in Ek; unfold i in Ek; lia].
    assert (Li : i < length (points r)) by (apply nth_error_Some; congruence).
    replace (seq 0 (length (points r))) with (seq 0 i ++ i :: seq (S i) (length (points r) - S i)).
    2: { clearbody i. transitivity (seq 0 (i + S (length (points r) - S i))); [rewrite seq_app; reflexivity|f_equal; lia]. }
    assert (It : forall j x, nth_error (points r) j = Some x -> item (A ++ nl (points_line (length (points r)) (Some (name, width))) :: nl (header r) :: map nl (point_lines r) ++ B) (length A + 2 + j) = Ok (nl (point_line (S j) x))).
    { intros j x J. rewrite <- Nat.add_assoc, item_at. cbn [Nat.add]. unfold item. cbn [nth_error].
      rewrite nth_error_app1.
      - erewrite map_nth_error; [reflexivity|]. unfold point_lines. erewrite map_nth_error; [|apply nth_error_combine_seq; exact J]. reflexivity.
      - rewrite map_length. unfold point_lines. rewrite map_length, combine_length, seq_length, Nat.min_id. apply nth_error_Some. congruence. }
    rewrite (map_res_raise _ (fun j => rounded_k (nth j (points r) (0, 0, 0, 0)%Q)) ValueError); [reflexivity| |].
    - intros j J. apply in_seq in J. assert (Lj : j < length (points r)) by lia. rewrite (It j (nth j (points r) (0, 0, 0, 0)%Q)) by (apply nth_error_nth'; exact Lj). cbn [bind].
      apply PL; [unfold i in J; lia|apply nth_In; exact Lj].
    - rewrite (It i k Ek). cbn [bind]. destruct k as [[[x y] z] w]. destruct (P x y z w (nth_error_In _ _ Ek)) as (X & Y & Z & W). apply k_point_many; try assumption. unfold i. lia.
  Qed.
End Run.
