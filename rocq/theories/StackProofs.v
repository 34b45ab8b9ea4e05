(** Proofs about StackModel.v. *)
From Coq Require Import Permutation Sorting.Sorted Lqa Psatz.
From Verif Require Import Common CommonProofs StackModel StackSpec.
Local Open Scope Q_scope.

(** ** Variance *)

Definition dev (m : Q) (l : list Q) : Q := qsum (map (fun x => (x - m) * (x - m)) l).

Lemma qlen_cons x l : qlen (x :: l) == 1 + qlen l.
Proof. unfold qlen. cbn [length]. rewrite Nat2Z.inj_succ, <- Z.add_1_l, inject_Z_plus. reflexivity. Qed.

Lemma qlen_nonneg l : 0 <= qlen l.
Proof. unfold qlen. change 0 with (inject_Z 0). rewrite <- Zle_Qle. lia. Qed.

Lemma qlen_pos l : l <> [] -> 0 < qlen l.
Proof. destruct l; [congruence|]. intros _. rewrite qlen_cons. pose proof (qlen_nonneg l). lra. Qed.

Lemma dev_expand m l : dev m l == dev 0 l - 2 * m * qsum l + qlen l * m * m.
Proof.
  unfold dev. induction l as [|x l IH].
  - unfold qlen. cbn. ring.
  - cbn [map qsum]. rewrite IH, qlen_cons. ring.
Qed.

Lemma mean_mul l : l <> [] -> qlen l * mean l == qsum l.
Proof. intros H. unfold mean. field. pose proof (qlen_pos l H). lra. Qed.

Lemma var_mul l : l <> [] -> qlen l * var l == dev (mean l) l.
Proof.
  intros H. unfold var. unfold mean at 1. unfold qlen at 2. rewrite map_length. fold (qlen l). unfold dev. field.
  pose proof (qlen_pos l H). lra.
Qed.

Lemma dev_min m l : l <> [] -> dev (mean l) l <= dev m l.
Proof.
  intros H. rewrite (dev_expand m), (dev_expand (mean l)), <- (mean_mul l H).
  pose proof (qlen_pos l H). set (N := qlen l) in *. set (u := mean l).
  assert (0 <= N * ((u - m) * (u - m))).
  { apply Qmult_le_0_compat; [lra|]. destruct (Qlt_le_dec (u - m) 0); nra. }
  nra.
Qed.

Lemma var_le a b : a <> [] -> length a = length b -> (exists m, dev m a <= dev (mean b) b) -> var a <= var b.
Proof.
  intros Ha Hl (m & H). assert (Hb : b <> []) by (destruct a, b; cbn in *; congruence).
  pose proof (dev_min m a Ha) as H1. pose proof (var_mul a Ha) as Va. pose proof (var_mul b Hb) as Vb.
  unfold qlen in Va. rewrite Hl in Va. fold (qlen b) in Va. pose proof (qlen_pos b Hb).
  apply (Qmult_lt_0_le_reg_r _ _ (qlen b)); [assumption|]. rewrite !(Qmult_comm _ (qlen b)), Va, Vb. lra.
Qed.

Lemma dev_shift m c l : dev (m + c) (map (fun x => x + c) l) == dev m l.
Proof. unfold dev. rewrite map_map. induction l as [|x l IH]; cbn; [reflexivity|]. rewrite IH. ring. Qed.

(** ** Remainders *)

Lemma qmod_bound x p : 0 < p -> 0 <= qmod x p < p.
Proof.
  intros Hp. unfold qmod. pose proof (Qfloor_le (x / p)) as H1. pose proof (Qlt_floor (x / p)) as H2.
  rewrite inject_Z_plus in H2. change (inject_Z 1) with 1 in H2. set (f := inject_Z (Qfloor (x / p))) in *.
  assert (E : x == p * (x / p)) by (field; lra). set (q := x / p) in *. split.
  - assert (p * f <= p * q) by nra. lra.
  - assert (p * q < p * (f + 1)) by nra. lra.
Qed.

Lemma qmod_shift x p : exists n : Z, qmod x p == x + inject_Z n * p.
Proof. exists (- Qfloor (x / p))%Z. unfold qmod. rewrite inject_Z_opp. ring. Qed.

(** ** Stackings *)

Lemma nth_add_at c d l : forall i j, (j < length l)%nat ->
  nth j (add_at i c l) d = if Nat.eq_dec j i then nth j l d + c else nth j l d.
Proof.
  induction l as [|x l IH]; intros i j Hj; cbn in Hj; [lia|].
  destruct i as [|i], j as [|j]; cbn [add_at nth]; try reflexivity.
  rewrite IH by lia. destruct (Nat.eq_dec j i), (Nat.eq_dec (S j) (S i)); congruence.
Qed.

Lemma add_at_length c l : forall i, length (add_at i c l) = length l.
Proof. induction l as [|x l IH]; intros [|i]; cbn; auto. Qed.

Definition raise_all (p : Q) (idx : list nat) (l : list Q) : list Q :=
  fold_left (fun l i => add_at i p l) idx l.

Lemma raise_all_length p idx : forall l, length (raise_all p idx l) = length l.
Proof. induction idx as [|i idx IH]; intros l; cbn; [reflexivity|]. unfold raise_all in IH. rewrite IH, add_at_length. reflexivity. Qed.

Lemma nth_raise_all p d idx : NoDup idx -> forall l j, (j < length l)%nat ->
  nth j (raise_all p idx l) d = if in_dec Nat.eq_dec j idx then nth j l d + p else nth j l d.
Proof.
  induction 1 as [|i idx Hi Hnd IH]; intros l j Hj; [reflexivity|].
  unfold raise_all. cbn [fold_left]. fold (raise_all p idx (add_at i p l)).
  rewrite IH by (rewrite add_at_length; exact Hj). rewrite nth_add_at by exact Hj.
  destruct (in_dec Nat.eq_dec j idx) as [H|H], (Nat.eq_dec j i) as [E|E], (in_dec Nat.eq_dec j (i :: idx)) as [H'|H'];
    try reflexivity; exfalso; cbn in H'; subst; intuition congruence.
Qed.

Lemma in_stackings p order : forall points s,
  In s (stackings p points order) <-> exists n, (n <= length order)%nat /\ s = raise_all p (firstn n order) points.
Proof.
  induction order as [|i order IH]; intros points s; cbn [stackings In].
  - split.
    + intros [<-|[]]. exists O. cbn. auto.
    + intros (n & Hn & ->). left. destruct n; reflexivity.
  - rewrite IH. split.
    + intros [<-|(n & Hn & ->)]; [exists O; cbn; split; [lia|reflexivity]|].
      exists (S n). cbn. split; [lia|reflexivity].
    + intros (n & Hn & ->). destruct n as [|n]; [left; reflexivity|right].
      exists n. cbn in *. split; [lia|reflexivity].
Qed.

Lemma first_min_spec l : forall best,
  (In (first_min best l) (best :: l)) /\ forall s, In s (best :: l) -> var (first_min best l) <= var s.
Proof.
  induction l as [|a l IH]; intros best; cbn [first_min].
  - split; [left; reflexivity|]. intros s [<-|[]]. apply Qle_refl.
  - destruct (Qlt_le_dec (var a) (var best)) as [H|H].
    + destruct (IH a) as [H1 H2]. split; [right; exact H1|]. intros s [<-|Hs].
      * apply Qle_trans with (var a); [apply H2; left; reflexivity|lra].
      * apply H2; exact Hs.
    + destruct (IH best) as [H1 H2]. split; [destruct H1 as [H1|H1]; [left; exact H1|right; right; exact H1]|].
      intros s [<-|[<-|Hs]].
      * apply H2; left; reflexivity.
      * apply Qle_trans with (var best); [apply H2; left; reflexivity|exact H].
      * apply H2; right; exact Hs.
Qed.

Lemma sorted_split (R : nat -> nat -> Prop) (f : nat -> bool) l :
  (forall i j, R i j -> f j = true -> f i = true) -> StronglySorted R l ->
  firstn (length (filter f l)) l = filter f l.
Proof.
  intros Hf. induction 1 as [|i l Hl IH Hi]; [reflexivity|]. cbn [filter].
  destruct (f i) eqn:E; [cbn; f_equal; exact IH|].
  replace (filter f l) with (@nil nat); [reflexivity|].
  symmetry. clear IH Hl. rewrite Forall_forall in Hi. induction l as [|j l IHl]; [reflexivity|]. cbn.
  destruct (f j) eqn:Ej.
  - rewrite (Hf i j) in E; [discriminate|apply Hi; left; reflexivity|exact Ej].
  - apply IHl. intros x Hx. apply Hi. right; exact Hx.
Qed.

Lemma nth_map_in {A B} (f : A -> B) l d d' : forall i, (i < length l)%nat -> nth i (map f l) d' = f (nth i l d).
Proof. induction l as [|x l IH]; intros [|i] H; cbn in *; try lia; [reflexivity|]. apply IH. lia. Qed.

Section Stack.
  Context (p : Q).
  Hypothesis Hp : 0 < p.

  (** All points below a threshold raised. *)
  Definition cut (r : Q) (l : list Q) : list Q := map (fun x => if Qlt_le_dec x r then x + p else x) l.

  Lemma cut_stacking r l order : l <> [] -> Permutation order (seq 0 (length l)) ->
    StronglySorted (fun i j => nth i l 0 <= nth j l 0) order ->
    (In (cut r l) (stackings p l (removelast order))) \/ cut r l = map (fun x => x + p) l.
  Proof.
    intros Hl Hperm Hs.
    assert (Hnd : NoDup order) by (apply (Permutation_NoDup (Permutation_sym Hperm)), seq_NoDup).
    assert (Hlen : length order = length l) by (rewrite (Permutation_length Hperm); apply seq_length).
    set (f := fun i => if Qlt_le_dec (nth i l 0) r then true else false).
    assert (Hf : firstn (length (filter f order)) order = filter f order).
    { apply (sorted_split (fun i j => nth i l 0 <= nth j l 0)); [|exact Hs].
      intros i j Hij. unfold f. destruct (Qlt_le_dec (nth j l 0) r), (Qlt_le_dec (nth i l 0) r); try congruence. lra. }
    set (n := length (filter f order)) in *.
    assert (E : cut r l = raise_all p (firstn n order) l).
    { apply (nth_ext _ _ 0 0); [rewrite raise_all_length; apply map_length|].
      unfold cut. rewrite map_length. intros j Hj. rewrite (nth_map_in _ l 0) by exact Hj.
      rewrite Hf, nth_raise_all; [|apply NoDup_filter; exact Hnd|exact Hj].
      destruct (Qlt_le_dec (nth j l 0) r) as [H|H], (in_dec Nat.eq_dec j (filter f order)) as [Hi|Hi]; try reflexivity.
      - exfalso. apply Hi. apply filter_In. split.
        + apply (Permutation_in _ (Permutation_sym Hperm)). apply in_seq. lia.
        + unfold f. destruct (Qlt_le_dec (nth j l 0) r); [reflexivity|lra].
      - exfalso. apply filter_In in Hi. destruct Hi as [_ Hi]. unfold f in Hi.
        destruct (Qlt_le_dec (nth j l 0) r); [lra|discriminate]. }
    assert (Hn : (n <= length order)%nat).
    { unfold n. generalize order. intros o. induction o as [|a o IHo]; cbn; [lia|]. destruct (f a); cbn; lia. }
    destruct (Nat.eq_dec n (length order)) as [En|En].
    - right. rewrite E, En, firstn_all. apply (nth_ext _ _ 0 0); [rewrite raise_all_length; symmetry; apply map_length|].
      rewrite raise_all_length. intros j Hj. rewrite (nth_map_in _ l 0) by exact Hj.
      rewrite nth_raise_all by assumption. destruct (in_dec Nat.eq_dec j order) as [|H]; [reflexivity|].
      exfalso. apply H. apply (Permutation_in _ (Permutation_sym Hperm)). apply in_seq. lia.
    - left. apply in_stackings. exists n. rewrite removelast_firstn_len, firstn_length, firstn_firstn.
      rewrite (Nat.min_l n) by lia. split; [lia|exact E].
  Qed.

  Lemma nearest a k : - (p / 2) <= a < p / 2 -> a * a <= (a + inject_Z k * p) * (a + inject_Z k * p).
  Proof.
    intros [H1 H2]. assert (E : p / 2 == (1 # 2) * p) by field. rewrite E in *.
    destruct (Z.lt_trichotomy k 0) as [Hk|[->|Hk]].
    - assert (Hq : inject_Z k <= -1) by (change (-1) with (inject_Z (-1)); rewrite <- Zle_Qle; lia).
      set (q := inject_Z k) in *. assert (H3 : q * p <= - p) by nra. set (b := q * p) in *. nra.
    - change (inject_Z 0) with 0. nra.
    - assert (Hq : 1 <= inject_Z k) by (change 1 with (inject_Z 1); rewrite <- Zle_Qle; lia).
      set (q := inject_Z k) in *. assert (H3 : p <= q * p) by nra. set (b := q * p) in *. nra.
  Qed.

  (** Cutting at the right place is at least as good as any shift. *)
  Lemma cut_best l z : Forall (fun x => 0 <= x < p) l -> shifted p l z -> l <> [] ->
    exists r, var (cut r l) <= var z.
  Proof.
    intros Hl Hz Hne. set (m := mean z). set (c := m - p / 2).
    exists (qmod c p). destruct (qmod_shift c p) as [j Hj]. pose proof (qmod_bound c p Hp) as [B1 B2].
    set (r := qmod c p) in *.
    apply var_le.
    - destruct l; [congruence|discriminate].
    - unfold cut. rewrite map_length. clear - Hz. induction Hz; cbn; congruence.
    - exists (m + inject_Z j * p). fold m. unfold dev, cut. clearbody m r.
      induction Hz as [|x y l z (k & Hk) Hz IH]; [apply Qle_refl|].
      assert (Hx : 0 <= x < p) by (inversion Hl; assumption). assert (Hl' : Forall (fun x => 0 <= x < p) l) by (inversion Hl; assumption).
      cbn [map qsum].
      assert (H0 : (if Qlt_le_dec x r then x + p else x) == x + p \/ (if Qlt_le_dec x r then x + p else x) == x) by
        (destruct (Qlt_le_dec x r); [left|right]; reflexivity).
      assert (IH' : qsum (map (fun x => (x - (m + inject_Z j * p)) * (x - (m + inject_Z j * p)))
          (map (fun x => if Qlt_le_dec x r then x + p else x) l)) <= qsum (map (fun x => (x - m) * (x - m)) z)).
      { destruct l as [|x' l']; [inversion Hz; subst; apply Qle_refl|]. apply IH; [exact Hl'|discriminate]. }
      apply Qplus_le_compat; [|exact IH'].
      assert (Ec : c == m - p / 2) by reflexivity. clearbody c.
      set (t := if Qlt_le_dec x r then x + p else x).
      assert (Ht : - (p / 2) <= t - (m + inject_Z j * p) < p / 2).
      { assert (E : p / 2 == (1 # 2) * p) by field. rewrite E in *. unfold t. destruct (Qlt_le_dec x r); lra. }
      assert (Hy : exists n, y - m == (t - (m + inject_Z j * p)) + inject_Z n * p).
      { unfold t. destruct (Qlt_le_dec x r).
        - exists (k + j - 1)%Z. unfold Z.sub. rewrite !inject_Z_plus. change (inject_Z (- (1))) with (-1). rewrite Hk. ring.
        - exists (k + j)%Z. rewrite inject_Z_plus, Hk. ring. }
      destruct Hy as [n Hy]. rewrite Hy. apply nearest. exact Ht.
  Qed.
End Stack.

Lemma shifted_refl p l : shifted p l l.
Proof. induction l; constructor; [|assumption]. exists 0%Z. change (inject_Z 0) with 0. ring. Qed.

Lemma shifted_trans p a b c : shifted p a b -> shifted p b c -> shifted p a c.
Proof.
  unfold shifted. intros H. revert c. induction H as [|x y a b (n & Hn) Hab IH]; intros c Hc; inversion Hc as [|? z ? c' (k & Hk) Hbc]; subst; constructor.
  - exists (n + k)%Z. rewrite Hk, Hn, inject_Z_plus. ring.
  - apply IH; assumption.
Qed.

Lemma shifted_sym p a b : shifted p a b -> shifted p b a.
Proof.
  unfold shifted. induction 1 as [|x y a b (n & Hn) Hab IH]; constructor; [|exact IH].
  exists (- n)%Z. rewrite Hn, inject_Z_opp. ring.
Qed.

Lemma shifted_qmod p l : shifted p l (map (fun x => qmod x p) l).
Proof. induction l; constructor; [apply qmod_shift|assumption]. Qed.

Lemma shifted_add_at p l : forall i, shifted p l (add_at i p l).
Proof.
  induction l as [|x l IH]; intros i; [destruct i; constructor|]. destruct i as [|i]; constructor.
  - exists 1%Z. change (inject_Z 1) with 1. ring.
  - apply shifted_refl.
  - exists 0%Z. change (inject_Z 0) with 0. ring.
  - apply IH.
Qed.

Lemma shifted_raise p idx : forall l, shifted p l (raise_all p idx l).
Proof.
  induction idx as [|i idx IH]; intros l; [apply shifted_refl|].
  apply shifted_trans with (add_at i p l); [apply shifted_add_at|apply IH].
Qed.

Lemma stack_spec argsort points p : sorts argsort -> 0 < p -> points <> [] ->
  exists y, stack argsort points p = Ok y /\ shifted p points y /\
    forall z, shifted p points z -> var y <= var z.
Proof.
  intros Hsort Hp Hne. unfold stack. set (l := map (fun x => qmod x p) points).
  assert (Hl : l <> []) by (destruct points; [congruence|discriminate]).
  destruct (Hsort l) as [Hperm Hs].
  assert (E : (match l with [] => Raise ValueError | _ :: _ => match stackings p l (removelast (argsort l)) with
     | [] => Raise ValueError | s :: l0 => Ok (first_min s l0) end end) =
     match stackings p l (removelast (argsort l)) with [] => Raise ValueError | s :: l0 => Ok (first_min s l0) end)
    by (destruct l; [congruence|reflexivity]).
  cbn zeta. rewrite E. clear E.
  destruct (stackings p l (removelast (argsort l))) as [|s ss] eqn:Es.
  { exfalso. destruct (removelast (argsort l)); discriminate Es. }
  exists (first_min s ss). split; [reflexivity|]. destruct (first_min_spec ss s) as [H1 H2].
  rewrite <- Es in H1, H2. split.
  - apply in_stackings in H1. destruct H1 as (n & _ & ->).
    apply shifted_trans with l; [apply shifted_qmod|apply shifted_raise].
  - intros z Hz. assert (Hlz : shifted p l z) by (apply shifted_trans with points; [apply shifted_sym, shifted_qmod|exact Hz]).
    destruct (cut_best p Hp l z) as [r Hr]; [|exact Hlz|exact Hl|].
    { unfold l. apply Forall_forall. intros x Hx. apply in_map_iff in Hx. destruct Hx as (y & <- & _). apply qmod_bound; exact Hp. }
    apply Qle_trans with (var (cut p r l)); [|exact Hr].
    destruct (cut_stacking p r l (argsort l) Hl Hperm Hs) as [Hin|Heq]; [apply H2; exact Hin|].
    rewrite Heq. apply Qle_trans with (var l).
    + apply H2. apply in_stackings. exists O. split; [lia|reflexivity].
    + apply var_le; [exact Hl|symmetry; apply map_length|].
      set (t := map (fun x => x + p) l). exists (mean t - p).
      rewrite <- (dev_shift (mean t - p) p l). fold t.
      assert (Em : mean t - p + p == mean t) by ring.
      rewrite (dev_expand (mean t - p + p)), (dev_expand (mean t)), Em. lra.
Qed.
