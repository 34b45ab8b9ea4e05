From Coq Require Import Reals Lra Lia Psatz Permutation.
From Verif Require Import Common MPIModel MPIProofs LatModel LatSpec LatProofs Cx CxProofs HermSpec HermProofs UnfoldModel UnfoldSpec.
Local Open Scope C_scope.

Lemma cis_plus x y : cis (x + y) = cis x * cis y.
Proof. unfold cis. rewrite cos_plus, sin_plus. apply c_ext; cbn; ring. Qed.
Lemma cis_0 : cis 0 = RtoC 1.
Proof. unfold cis. rewrite cos_0, sin_0. reflexivity. Qed.
Lemma cis_conj x : conj (cis x) = cis (- x).
Proof. unfold cis, conj. cbn. rewrite cos_neg, sin_neg. reflexivity. Qed.
Lemma cis_abs2 x : abs2 (cis x) = 1%R.
Proof. unfold abs2, cis. cbn. pose proof (sin2_cos2 x). unfold Rsqr in H. lra. Qed.

Lemma rdot_scalar u : forall v, rdot u v = scalar u v.
Proof. induction u as [|x u IH]; intros [|y v]; cbn [rdot scalar]; [reflexivity..|]. rewrite IH. reflexivity. Qed.

Lemma csum_app n m f : csum (n + m) f = csum n f + csum m (fun i => f (n + i)%nat).
Proof. induction m as [|m IH]; [rewrite Nat.add_0_r; cbn; ring|]. rewrite Nat.add_succ_r. cbn [csum]. rewrite IH. ring. Qed.
Lemma rsum_app n m f : rsum (n + m) f = (rsum n f + rsum m (fun i => f (n + i)%nat))%R.
Proof. induction m as [|m IH]; [rewrite Nat.add_0_r; cbn; ring|]. rewrite Nat.add_succ_r. cbn [rsum]. rewrite IH. ring. Qed.

Lemma rsum_blocks n b f : rsum (n * b) f = rsum n (fun i => rsum b (fun a => f (i * b + a)%nat)).
Proof. induction n as [|n IH]; [reflexivity|]. replace (S n * b)%nat with (n * b + b)%nat by lia. rewrite rsum_app, IH. reflexivity. Qed.
Lemma csum_blocks n b f : csum (n * b) f = csum n (fun i => csum b (fun a => f (i * b + a)%nat)).
Proof. induction n as [|n IH]; [reflexivity|]. replace (S n * b)%nat with (n * b + b)%nat by lia. rewrite csum_app, IH. reflexivity. Qed.

Lemma abs2_csum_le n z : (abs2 (csum n z) <= INR n * rsum n (fun i => abs2 (z i)))%R.
Proof.
  induction n as [|n IH]; [cbn; unfold abs2; cbn; lra|]. cbn [csum rsum]. rewrite S_INR.
  set (S := csum n z) in *. set (Q := rsum n _) in *. set (x := z n).
  assert (H : (INR n * abs2 (Cplus S x) <= (INR n + 1) * abs2 S + INR n * (INR n + 1) * abs2 x)%R).
  { unfold abs2. cbn. pose proof (pow2_ge_0 (fst S - INR n * fst x)). pose proof (pow2_ge_0 (snd S - INR n * snd x)). nra. }
  destruct n as [|n].
  - unfold S, Q. cbn. unfold abs2. cbn. lra.
  - pose proof (lt_0_INR (Datatypes.S n) ltac:(lia)) as HN. set (N := INR (Datatypes.S n)) in *.
    apply (Rmult_le_reg_l N); [exact HN|]. eapply Rle_trans; [exact H|]. pose proof (Rmult_le_compat_l (N + 1) _ _ ltac:(lra) IH). lra.
Qed.

(** ** The weights in terms of amplitudes *)

Lemma default_blocks_ok orbs0 nR ir : (ir < nR)%nat -> default_blocks orbs0 (nR * orbs0) ir = seq (ir * orbs0) orbs0.
Proof.
  intros H. unfold default_blocks. assert (F : forall l, (forall i, In i l -> (i < nR * orbs0)%nat) -> filter (fun i => i <? nR * orbs0)%nat l = l).
  { induction l as [|x l IH]; intros Hl; [reflexivity|]. cbn [filter]. destruct (Nat.ltb_spec x (nR * orbs0)) as [|G]; [f_equal; apply IH; intros; apply Hl; right; assumption|].
    specialize (Hl x (or_introl eq_refl)). lia. }
  apply F. intros i Hi. apply in_seq in Hi. nia.
Qed.

Section Weight.
  Variables (k : list R) (Rs : list (list R)) (b : nat) (U0 U : nat -> nat -> C) (sgn : R).
  Let nR := length Rs.
  Hypothesis Hb : (0 < b)%nat.
  Hypothesis HR : (0 < nR)%nat.
  Hypothesis HU0 : unitary b U0.

  Definition ph (ir : nat) : C := cis (sgn * rdot k (nth ir Rs [])).
  (** Projection of state n onto the Bloch sum of orbital a *)
  Definition amp (a n : nat) : C := csum nR (fun ir => ph ir * U (ir * b + a)%nat n).

  Definition weight (n : nat) : R := unfold_weight k Rs b (nR * b) U0 U (default_blocks0 b) (default_blocks b (nR * b)) sgn n.

  Lemma norm_factor : (INR (nR * b) / INR b = INR nR)%R.
  Proof. rewrite mult_INR. field. apply not_0_INR. lia. Qed.

  Lemma conj_div z (s : R) : (s <> 0)%R -> conj (z / RtoC s) = RtoC (/ s) * conj z.
  Proof.
    intros H. replace (z / RtoC s) with (RtoC (/ s) * z); [rewrite conj_mult, conj_R; reflexivity|].
    unfold Cdiv. rewrite RtoC_inv by exact H. ring.
  Qed.

  Lemma weight_amp n : weight n = (rsum b (fun a => abs2 (amp a n)) / INR nR)%R.
  Proof.
    unfold weight, unfold_weight. fold nR. rewrite norm_factor. set (s := sqrt (INR nR)).
    assert (P : (0 < INR nR)%R) by (apply lt_0_INR, HR).
    assert (Ps : (0 < s)%R) by (apply sqrt_lt_R0, P). assert (Es : (s * s = INR nR)%R) by (apply sqrt_sqrt; lra).
    transitivity (rsum b (fun m => (/ INR nR * abs2 (ip b (col U0 m) (fun a => amp a n)))%R)).
    - apply rsum_ext. intros m Hm. rewrite <- Es. replace (/ (s * s))%R with (abs2 (RtoC (/ s))) by (rewrite abs2_R; field; lra).
      rewrite <- abs2_mult. f_equal. unfold ip, amp. rewrite <- csum_scal.
      transitivity (csum nR (fun ir => csum b (fun a => RtoC (/ s) * (conj (U0 a m) * (ph ir * U (ir * b + a)%nat n))))).
      + apply csum_ext. intros ir Hir. rewrite (default_blocks_ok b nR ir Hir). unfold default_blocks0. rewrite seq_length. fold (ph ir). rewrite <- csum_scal.
        apply csum_ext. intros a Ha. rewrite !seq_nth by exact Ha. rewrite conj_div by lra. cbn [Nat.add]. ring.
      + rewrite csum_swap. apply csum_ext. intros a Ha. unfold col. rewrite csum_scal, csum_scal. reflexivity.
    - rewrite rsum_scal, parseval by exact HU0. unfold Rdiv. ring.
  Qed.

  Lemma weight_nonneg n : (0 <= weight n)%R.
  Proof. unfold weight, unfold_weight. apply rsum_nonneg. intros. apply abs2_nonneg. Qed.

  Lemma weight_le n : (rsum (nR * b) (fun i => abs2 (U i n)) = 1)%R -> (weight n <= 1)%R.
  Proof.
    intros H. assert (P : (0 < INR nR)%R) by (apply lt_0_INR, HR). rewrite weight_amp. apply (Rmult_le_reg_l (INR nR)); [exact P|].
    replace (INR nR * (rsum b (fun a => abs2 (amp a n)) / INR nR))%R with (rsum b (fun a => abs2 (amp a n))) by (field; lra).
    rewrite <- H, rsum_blocks, rsum_swap, <- rsum_scal. apply rsum_le. intros a Ha. eapply Rle_trans; [apply abs2_csum_le|].
    apply Req_le. f_equal. apply rsum_ext. intros ir Hir. unfold ph. rewrite abs2_mult, cis_abs2. ring.
  Qed.

  Lemma weight_sum : unitary (nR * b) U -> rsum (nR * b) weight = INR b.
  Proof.
    intros HU. assert (P : (0 < INR nR)%R) by (apply lt_0_INR, HR).
    rewrite (rsum_ext _ _ (fun n => / INR nR * rsum b (fun a => abs2 (amp a n)))%R) by (intros n _; rewrite weight_amp; unfold Rdiv; ring).
    rewrite rsum_scal, rsum_swap.
    rewrite (rsum_ext b _ (fun _ => INR nR)); [rewrite rsum_const; field; lra|]. intros a Ha.
    set (y := fun j => if (j mod b =? a)%nat then conj (ph (j / b)) else RtoC 0).
    assert (D : forall ir a', (a' < b)%nat -> ((ir * b + a') mod b = a')%nat /\ ((ir * b + a') / b = ir)%nat).
    { intros ir a' Ha'. split; [rewrite Nat.add_comm, Nat.mod_add by lia; apply Nat.mod_small, Ha'|].
      rewrite Nat.div_add_l by lia. rewrite Nat.div_small by exact Ha'. lia. }
    transitivity (rsum (nR * b) (fun n => abs2 (ip (nR * b) (col U n) y))).
    - apply rsum_ext. intros n Hn. rewrite <- (abs2_of_conj (amp a n)). f_equal. unfold amp. rewrite csum_conj. unfold ip. rewrite csum_blocks.
      apply csum_ext. intros ir Hir. symmetry.
      transitivity (csum b (fun a' => if (a' =? a)%nat then conj (ph ir * U (ir * b + a')%nat n) else RtoC 0)); [|rewrite csum_delta by exact Ha; reflexivity].
      apply csum_ext. intros a' Ha'. unfold y, col. destruct (D ir a' Ha') as [-> ->]. rewrite conj_mult.
      destruct (a' =? a)%nat; [|rewrite Cmult_0_r; reflexivity]. apply Cmult_comm.
    - rewrite parseval by exact HU. rewrite rsum_blocks.
      rewrite (rsum_ext nR _ (fun _ => 1%R)); [rewrite rsum_const; ring|]. intros ir Hir.
      transitivity (rsum b (fun a' => if (a' =? a)%nat then 1%R else 0%R)); [|rewrite rsum_delta by exact Ha; reflexivity].
      apply rsum_ext. intros a' Ha'. unfold y. destruct (D ir a' Ha') as [-> ->]. destruct (a' =? a)%nat; [|unfold abs2; cbn; ring].
      rewrite abs2_of_conj. apply cis_abs2.
  Qed.

  Lemma weight_bloch n q : (rsum (nR * b) (fun i => abs2 (U i n)) = 1)%R -> bloch sgn q Rs b U n ->
    weight n = abs2 (csum nR (fun ir => turn (sgn * (scalar k (nth ir Rs []) - scalar q (nth ir Rs []))) / RtoC (INR nR))).
  Proof.
    intros H1 (c & Hc). assert (P : (0 < INR nR)%R) by (apply lt_0_INR, HR). fold nR in Hc.
    set (S := csum nR (fun ir => turn (sgn * (scalar k (nth ir Rs []) - scalar q (nth ir Rs []))))).
    assert (Nc : (INR nR * rsum b (fun a => abs2 (c a)) = 1)%R).
    { rewrite <- H1, rsum_blocks, <- rsum_const. apply rsum_ext. intros ir Hir. apply rsum_ext. intros a Ha. rewrite Hc by assumption.
      change (turn (- sgn * scalar q (nth ir Rs []))) with (cis (- sgn * scalar q (nth ir Rs []))). rewrite abs2_mult, cis_abs2. ring. }
    assert (A : forall a, (a < b)%nat -> amp a n = S * c a).
    { intros a Ha. unfold amp, S. rewrite <- csum_scal_r. apply csum_ext. intros ir Hir. rewrite Hc by assumption. unfold ph. rewrite rdot_scalar.
      change turn with cis. rewrite Cmult_assoc, <- cis_plus. f_equal. f_equal. ring. }
    rewrite weight_amp, (rsum_ext b _ (fun a => abs2 S * abs2 (c a))%R) by (intros a Ha; rewrite A by exact Ha; apply abs2_mult).
    rewrite rsum_scal.
    replace (csum nR (fun ir => turn (sgn * (scalar k (nth ir Rs []) - scalar q (nth ir Rs []))) / RtoC (INR nR))) with (RtoC (/ INR nR) * S).
    - rewrite abs2_mult, abs2_R. apply (Rmult_eq_reg_l (INR nR * INR nR)); [|nra].
      transitivity (abs2 S * (INR nR * rsum b (fun a => abs2 (c a))))%R; [field; lra|]. rewrite Nc. field. lra.
    - unfold S. rewrite <- csum_scal. apply csum_ext. intros ir Hir. unfold Cdiv. rewrite RtoC_inv by lra. apply Cmult_comm.
  Qed.
End Weight.

Lemma weights_complete ks Rs b (U0 : nat -> nat -> nat -> C) U sgn n : (0 < b)%nat -> (0 < length Rs)%nat ->
  (sgn = 1 \/ sgn = -1)%R -> (forall ik, (ik < length ks)%nat -> unitary b (U0 ik)) -> complete_set ks Rs ->
  rsum (length ks) (fun ik => weight (nth ik ks []) Rs b (U0 ik) U sgn n) = rsum (length Rs * b) (fun i => abs2 (U i n)).
Proof.
  intros Hb HR Hs HU0 HC. set (nR := length Rs). assert (P : (0 < INR nR)%R) by (apply lt_0_INR, HR).
  apply RtoC_inj'.
  rewrite (rsum_ext (length ks) _ (fun ik => / INR nR * rsum b (fun a => abs2 (amp (nth ik ks []) Rs b U sgn a n)))%R)
    by (intros ik Hik; rewrite weight_amp by auto; fold nR; unfold Rdiv; ring).
  fold nR. rewrite rsum_scal, (rsum_swap (length ks) b), rsum_blocks, (rsum_swap nR b), RtoC_mult', !RtoC_rsum, <- csum_scal. apply csum_ext. intros a Ha.
  rewrite !RtoC_rsum.
  assert (S : forall ir jr, (ir < nR)%nat -> (jr < nR)%nat ->
    csum (length ks) (fun ik => conj (ph (nth ik ks []) Rs sgn ir) * ph (nth ik ks []) Rs sgn jr) = RtoC (if (ir =? jr)%nat then INR nR else 0%R)).
  { intros ir jr Hi Hj.
    assert (E : forall ik, conj (ph (nth ik ks []) Rs sgn ir) * ph (nth ik ks []) Rs sgn jr = cis (sgn * (rdot (nth ik ks []) (nth jr Rs []) - rdot (nth ik ks []) (nth ir Rs [])))).
    { intros ik. unfold ph. rewrite cis_conj, <- cis_plus. f_equal. ring. }
    rewrite (csum_ext _ _ _ (fun ik _ => E ik)). destruct Hs as [->| ->].
    - rewrite Nat.eqb_sym. transitivity (csum (length ks) (fun ik => turn (scalar (nth ik ks nil) (nth jr Rs nil) - scalar (nth ik ks nil) (nth ir Rs nil)))); [|exact (HC jr ir Hj Hi)]. apply csum_ext. intros ik Hik. change rdot with scalar. change turn with cis. f_equal. ring.
    - transitivity (csum (length ks) (fun ik => turn (scalar (nth ik ks nil) (nth ir Rs nil) - scalar (nth ik ks nil) (nth jr Rs nil)))); [|exact (HC ir jr Hi Hj)]. apply csum_ext. intros ik Hik. change rdot with scalar. change turn with cis. f_equal. ring. }
  transitivity (RtoC (/ INR nR) * csum nR (fun ir => csum nR (fun jr => conj (U (ir * b + a)%nat n) * U (jr * b + a)%nat n *
    csum (length ks) (fun ik => conj (ph (nth ik ks []) Rs sgn ir) * ph (nth ik ks []) Rs sgn jr)))).
  - f_equal. transitivity (csum (length ks) (fun ik => csum nR (fun ir => csum nR (fun jr => conj (U (ir * b + a)%nat n) * U (jr * b + a)%nat n *
      (conj (ph (nth ik ks []) Rs sgn ir) * ph (nth ik ks []) Rs sgn jr))))).
    + apply csum_ext. intros ik Hik. rewrite abs2_conj. unfold amp. fold nR. rewrite csum_conj, <- csum_scal_r. apply csum_ext. intros ir Hi.
      rewrite <- csum_scal. apply csum_ext. intros jr Hj. rewrite conj_mult. ring.
    + rewrite csum_swap. apply csum_ext. intros ir Hi. rewrite csum_swap. apply csum_ext. intros jr Hj. rewrite csum_scal. reflexivity.
  - rewrite <- csum_scal. apply csum_ext. intros ir Hi.
    rewrite (csum_ext nR _ (fun jr => if (jr =? ir)%nat then conj (U (ir * b + a)%nat n) * U (jr * b + a)%nat n * RtoC (INR nR) else RtoC 0)).
    + rewrite csum_delta by exact Hi. rewrite abs2_conj. rewrite RtoC_inv by lra. field. intros E. apply RtoC_inj in E. lra.
    + intros jr Hj. rewrite S by assumption. rewrite (Nat.eqb_sym jr ir). destruct (ir =? jr)%nat; [reflexivity|apply Cmult_0_r].
Qed.

(** ** Sums of characters *)

Definition csuml {A} (f : A -> C) (l : list A) : C := fold_right (fun x s => f x + s) (RtoC 0) l.

Lemma csuml_perm {A} (f : A -> C) l l' : Permutation l l' -> csuml f l = csuml f l'.
Proof. induction 1; cbn [csuml fold_right]; [reflexivity|fold (csuml f l) (csuml f l'); rewrite IHPermutation; reflexivity|ring|congruence]. Qed.
Lemma csuml_app {A} (f : A -> C) l l' : csuml f (l ++ l') = csuml f l + csuml f l'.
Proof. induction l as [|x l IH]; cbn [app csuml fold_right]; [symmetry; apply Cplus_0_l|]. fold (csuml f (l ++ l')) (csuml f l). rewrite IH. ring. Qed.

Lemma csum_csuml {A} (f : A -> C) (l : list A) d : csum (length l) (fun i => f (nth i l d)) = csuml f l.
Proof.
  induction l as [|x l IH] using rev_ind; [reflexivity|]. rewrite app_length, Nat.add_1_r, csuml_app. cbn [csum csuml fold_right]. rewrite <- IH.
  rewrite app_nth2, Nat.sub_diag by lia. cbn [nth]. f_equal; [|ring]. apply csum_ext. intros i Hi. rewrite app_nth1 by exact Hi. reflexivity.
Qed.

Lemma character_sum (L : vec -> Prop) (chi : vec -> C) cells r :
  (forall u v, chi (vadd u v) = chi u * chi v) -> (forall v, L v -> chi v = RtoC 1) ->
  (forall u v, L u -> L v -> L (vadd u v)) -> (forall u, L u -> L (vopp u)) ->
  representatives L cells -> chi r <> RtoC 1 -> csuml chi cells = RtoC 0.
Proof.
  intros M T LA LO [ND Rp] Hr.
  assert (Hf : forall c, exists c', In c' cells /\ L (vsub (vadd c r) c')) by (intros c; destruct (Rp (vadd c r)) as (c' & H & _); exists c'; exact H).
  assert (P : exists cells', Forall2 (fun c c' => In c' cells /\ L (vsub (vadd c r) c')) cells cells').
  { clear -Hf. generalize cells at 2. intros l. induction l as [|c l (l' & IH)]; [exists []; constructor|].
    destruct (Hf c) as (c' & H). exists (c' :: l'). constructor; assumption. }
  destruct P as (cells' & F).
  assert (U : forall x y, In x cells -> In y cells -> L (vsub x y) -> x = y).
  { intros x y Ix Iy H. destruct (Rp x) as (z & _ & Uz). rewrite <- (Uz x), <- (Uz y); [reflexivity|split; assumption|split; [exact Ix|]].
    assert (E : vsub x x = vadd (vsub x y) (vopp (vsub x y))) by (destruct x, y; unfold vsub, vadd, vopp; cbn; f_equal; lia).
    rewrite E. apply LA; [exact H|apply LO, H]. }
  assert (Perm : Permutation cells' cells).
  { apply NoDup_Permutation_bis.
    - assert (G : forall l l', NoDup l -> (forall x, In x l -> In x cells) -> Forall2 (fun c c' => In c' cells /\ L (vsub (vadd c r) c')) l l' -> NoDup l').
      { clear F ND. intros l l' NDl Sub F. induction F as [|c c' l l' [H1 H2] F IH]; [constructor|]. apply NoDup_cons_iff in NDl as [Nc NDl]. constructor.
        - intros I. assert (X : exists c2, In c2 l /\ L (vsub (vadd c2 r) c')).
          { clear -F I. induction F as [|a a' l l' [G1 G2] F IH]; [destruct I|]. destruct I as [<-|I]; [exists a; split; [left; reflexivity|exact G2]|].
            destruct (IH I) as (c2 & I2 & H2). exists c2. split; [right; exact I2|exact H2]. }
          destruct X as (c2 & I2 & H3). apply Nc. rewrite (U c c2); [exact I2|apply Sub; left; reflexivity|apply Sub; right; exact I2|].
          assert (E : vsub c c2 = vadd (vsub (vadd c r) c') (vopp (vsub (vadd c2 r) c'))) by (destruct c, c2, r, c'; unfold vsub, vadd, vopp; cbn; f_equal; lia).
          rewrite E. apply LA; [exact H2|apply LO, H3].
        - apply IH; [exact NDl|intros; apply Sub; right; assumption]. }
      exact (G cells cells' ND (fun x H => H) F).
    - clear -F. assert (E : length cells = length cells') by (induction F; cbn; congruence). lia.
    - intros x I. clear -F I. revert F I. generalize cells at 2. intros l0 F. induction F as [|a a' l l' [G1 G2] F IH]; intros I; [destruct I|].
      destruct I as [<-|I]; [exact G1|apply IH, I]. }
  assert (E : chi r * csuml chi cells = csuml chi cells').
  { clear -F M T. revert F. generalize cells at 2 3. intros l0 F. induction F as [|c c' l l' [G1 G2] F IH]; cbn [csuml fold_right]; [apply Cmult_0_r|].
    fold (csuml chi l) (csuml chi l'). rewrite <- IH. rewrite Cmult_plus_distr_l. f_equal.
    rewrite Cmult_comm, <- M. assert (E : vadd c r = vadd (vsub (vadd c r) c') c') by (destruct c, r, c'; unfold vsub, vadd; cbn; f_equal; lia).
    rewrite E, M, (T _ G2). ring. }
  rewrite (csuml_perm _ _ _ Perm) in E. set (S := csuml chi cells) in *.
  assert (Z : (chi r - RtoC 1) * S = RtoC 0) by (rewrite <- (Cplus_opp_r S); rewrite <- E at 2; ring).
  destruct (Ceq_dec S (RtoC 0)) as [|N]; [assumption|]. exfalso. apply Hr.
  assert (Z' : chi r - RtoC 1 = RtoC 0).
  { replace (chi r - RtoC 1) with ((chi r - RtoC 1) * S * / S) by (field; exact N). rewrite Z. ring. }
  replace (chi r) with (chi r - RtoC 1 + RtoC 1) by ring. rewrite Z'. ring.
Qed.
