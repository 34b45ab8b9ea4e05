(** Ordering of bands. *)
From Coq Require Import QArith Qabs Lqa Lia List Permutation Sorted.
From Verif Require Import Common CommonProofs BandModel BandSpec.
Import ListNotations.
Local Open Scope Q_scope.

Lemma Qle_bool_false x y : Qle_bool x y = false <-> y < x.
Proof.
  split; intros H.
  - apply Qnot_le_lt. intros L. apply Qle_bool_iff in L. congruence.
  - destruct (Qle_bool x y) eqn:E; [apply Qle_bool_iff in E; lra|reflexivity].
Qed.

Lemma overlap2_overlap bands V m a n b : overlap2 bands V m a n b = overlap bands (vec V m a) (vec V n b).
Proof.
  unfold overlap2, overlap, cabs2, re_dot, im_dot, vec. 
  assert (E : forall l, fold_right cplus (0, 0) (map (fun r => cmulc (V m r a) (V n r b)) l) =
    (fold_right Qplus 0 (map (fun r => fst (V m r a) * fst (V n r b) + snd (V m r a) * snd (V n r b)) l),
     fold_right Qplus 0 (map (fun r => snd (V m r a) * fst (V n r b) - fst (V m r a) * snd (V n r b)) l))).
  { induction l as [|r l IH]; [reflexivity|]. cbn [map fold_right]. rewrite IH. reflexivity. }
  rewrite E. reflexivity.
Qed.

Lemma max_key_spec key l : l <> [] -> exists j, max_key key l = Ok j /\ In j l /\ forall k, In k l -> key k <= key j.
Proof.
  destruct l as [|j l]; [congruence|]. intros _. unfold max_key. eexists. split; [reflexivity|].
  assert (K : forall l j, let b := fold_left (fun b j => if Qle_bool (key j) (key b) then b else j) l j in
    (b = j \/ In b l) /\ key j <= key b /\ forall k, In k l -> key k <= key b).
  { clear. induction l as [|i l IH]; intros j; cbn [fold_left].
    - split; [left; reflexivity|]. split; [lra|intros k []].
    - destruct (Qle_bool (key i) (key j)) eqn:E.
      + apply Qle_bool_iff in E. destruct (IH j) as (I & L & A). split; [destruct I; [left; assumption|right; right; assumption]|]. split; [exact L|].
        intros k [<-|H]; [lra|apply A, H].
      + apply Qle_bool_false in E. destruct (IH i) as (I & L & A). split; [right; destruct I; [left; congruence|right; assumption]|]. split; [lra|].
        intros k [<-|H]; [exact L|apply A, H]. }
  destruct (K l j) as (I & L & A). split.
  - destruct I as [->|I]; [left; reflexivity|right; exact I].
  - intros k [<-|H]; [exact L|apply A, H].
Qed.

Lemma remove_one_perm j l : NoDup l -> In j l -> Permutation l (j :: remove_one j l).
Proof.
  induction l as [|i l IH]; intros N I; [destruct I|]. inversion N as [|? ? Ni N']; subst. unfold remove_one. cbn [filter].
  destruct (Nat.eqb_spec i j) as [->|D]; cbn [negb].
  - apply perm_skip. replace (filter _ l) with l; [reflexivity|]. clear - Ni. induction l as [|k l IH]; [reflexivity|]. cbn [filter].
    destruct (Nat.eqb_spec k j) as [->|]; [exfalso; apply Ni; left; reflexivity|]. cbn [negb]. f_equal. apply IH. intros H. apply Ni. right. exact H.
  - destruct I as [->|I]; [congruence|]. eapply perm_trans; [apply perm_skip, (IH N' I)|apply perm_swap].
Qed.

Lemma remove_one_in j l k : In k (remove_one j l) <-> In k l /\ k <> j.
Proof. unfold remove_one. rewrite filter_In, Bool.negb_true_iff, Nat.eqb_neq. reflexivity. Qed.

Lemma greedy_spec key is : forall l, NoDup l -> length is = length l ->
  exists row, greedy key is l = Ok row /\ Permutation row l /\
    forall p d e, (p < length is)%nat -> forall j, In j l -> ~ In j (firstn p row) -> key (nth p is d) j <= key (nth p is d) (nth p row e).
Proof.
  induction is as [|i is IH]; intros l N L; cbn [greedy].
  - exists []. split; [reflexivity|]. destruct l; [|discriminate]. split; [reflexivity|]. intros p d e Hp. cbn in Hp. lia.
  - destruct (max_key_spec (key i) l) as (j & E & I & M); [destruct l; [discriminate|congruence]|]. rewrite E. cbn [bind].
    pose proof (remove_one_perm j l N I) as P.
    assert (N' : NoDup (remove_one j l)) by (apply (Permutation_NoDup P) in N; inversion N; assumption).
    destruct (IH (remove_one j l) N') as (row & Er & Pr & Mr). { apply Permutation_length in P. cbn [length] in *. lia. }
    rewrite Er. cbn [bind]. exists (j :: row). split; [reflexivity|]. split; [rewrite P; apply perm_skip, Pr|].
    intros [|p] d e Hp k Ik Nk; cbn [nth].
    + apply M, Ik.
    + cbn [length] in Hp. apply Mr; [lia| |].
      * apply remove_one_in. split; [exact Ik|]. intros ->. apply Nk. left. reflexivity.
      * intros H. apply Nk. right. exact H.
Qed.

Lemma nth_firstn_lt {A} (l : list A) d : forall p q, (q < p)%nat -> nth q (firstn p l) d = nth q l d.
Proof.
  induction l as [|x l IH]; intros [|p] [|q] H; try lia; try reflexivity. cbn [firstn nth]. apply IH. lia.
Qed.

(** Two sequences of choices with strictly dominating keys agree. *)
Lemma greedy_dominant key bands row target :
  greedy key (seq 0 bands) (seq 0 bands) = Ok row -> Permutation target (seq 0 bands) ->
  (forall i j, (i < bands)%nat -> (j < bands)%nat -> j <> nth i target 0%nat -> key i j < key i (nth i target 0%nat)) -> row = target.
Proof.
  intros G P D. destruct (greedy_spec key (seq 0 bands) (seq 0 bands) (seq_NoDup _ _) eq_refl) as (row' & G' & P' & M).
  rewrite G in G'. injection G' as <-. rewrite seq_length in M.
  assert (Lt : length target = bands) by (rewrite (Permutation_length P); apply seq_length).
  assert (Lr : length row = bands) by (rewrite (Permutation_length P'); apply seq_length).
  assert (Nt : NoDup target) by (apply (Permutation_NoDup (Permutation_sym P)), seq_NoDup).
  assert (K : forall p, (p <= bands)%nat -> firstn p row = firstn p target).
  { induction p as [|p IH]; intros Hp; [reflexivity|]. specialize (IH ltac:(lia)).
    assert (F : forall (l : list nat), length l = bands -> firstn (S p) l = firstn p l ++ [nth p l 0%nat]).
    { intros l Ll. clear - Ll Hp. revert l Ll. revert bands Hp. induction p as [|p IH]; intros bands Hp l Ll; (destruct l as [|x l]; [cbn in Ll; lia|]); [reflexivity|].
      cbn [firstn nth app] in *. f_equal. apply (IH (bands - 1)%nat); cbn in Ll; lia. }
    rewrite (F row Lr), (F target Lt), IH. f_equal. f_equal.
    set (a := nth p row 0%nat). set (b := nth p target 0%nat).
    destruct (Nat.eq_dec a b) as [E|NE]; [exact E|exfalso].
    assert (Ia : (a < bands)%nat). { assert (In a row) by (apply nth_In; lia). apply (Permutation_in _ P') in H. apply in_seq in H. lia. }
    assert (Ib : In b (seq 0 bands)). { apply (Permutation_in _ P). apply nth_In. lia. }
    pose proof (D p a ltac:(lia) Ia NE) as Dab.
    assert (Nb : ~ In b (firstn p row)).
    { rewrite IH. intros H. destruct (In_nth _ _ 0%nat H) as (q & Hq & Eq). rewrite firstn_length in Hq.
      assert (nth q target 0%nat = b) by (rewrite <- Eq; symmetry; apply nth_firstn_lt; lia).
      assert (q = p) by (apply (proj1 (NoDup_nth target 0%nat) Nt); [lia|lia|exact H0]). lia. }
    pose proof (M p 0%nat 0%nat ltac:(lia) b Ib Nb) as Mb. rewrite seq_nth in Mb by lia. cbn [Nat.add] in Mb. fold a in Mb. fold b in Dab. lra. }
  specialize (K bands (Nat.le_refl _)). rewrite !firstn_all2 in K by lia. exact K.
Qed.

(** ** The loop over points *)

Lemma nondegenerate_iff bands v eps n : nondegenerate bands v eps n = true <-> resolved bands v eps n.
Proof.
  unfold nondegenerate, resolved. rewrite forallb_forall. split; intros H i Hi.
  - specialize (H i). rewrite Bool.negb_true_iff, Qle_bool_false in H. apply H, in_seq. lia.
  - apply in_seq in Hi. rewrite Bool.negb_true_iff, Qle_bool_false. apply H. lia.
Qed.

Section Loop.
  Variables (bands : nat) (v : nat -> nat -> Q) (V : nat -> nat -> nat -> cplx) (dv : option Q) (eps : Q).

  Definition loop (n : nat) : res (list (list nat) * nat) :=
    fold_left (band_step bands v V dv eps) (seq 1 n) (Ok ([seq 0 bands], 0%nat)).

  (** After point n. *)
  Definition loop_inv (n : nat) (o : list (list nat)) (n0 : nat) : Prop :=
    length o = S n /\ reference bands v eps (S n) n0 /\ nth 0 o [] = seq 0 bands /\
    (forall m, (m <= n)%nat -> Permutation (nth m o []) (seq 0 bands)) /\
    forall k, (0 < k <= n)%nat -> exists m, reference bands v eps k m /\
      greedy (band_key bands v V dv m (nth m o []) k) (seq 0 bands) (seq 0 bands) = Ok (nth k o []).

  Lemma loop_spec n : exists o n0, loop n = Ok (o, n0) /\ loop_inv n o n0.
  Proof.
    induction n as [|n IH].
    - exists [seq 0 bands], 0%nat. split; [reflexivity|]. unfold loop_inv. cbn [length nth].
      split; [reflexivity|]. split; [unfold reference; split; [lia|split; [left; reflexivity|intros; lia]]|].
      split; [reflexivity|]. split; [intros m Hm; replace m with 0%nat by lia; reflexivity|intros; lia].
    - destruct IH as (o & n0 & E & Hl & Hr & H0 & Hp & Hg). unfold loop in *. rewrite seq_S, fold_left_app, E. cbn [fold_left band_step bind].
      destruct (greedy_spec (band_key bands v V dv n0 (nth n0 o []) (1 + n)) (seq 0 bands) (seq 0 bands) (seq_NoDup _ _) eq_refl) as (row & G & P & _).
      rewrite G. cbn [bind]. eexists _, _. split; [reflexivity|].
      assert (A1 : forall m, (m <= n)%nat -> nth m (o ++ [row]) [] = nth m o []) by (intros m Hm; apply app_nth1; lia).
      assert (A2 : nth (S n) (o ++ [row]) [] = row) by (rewrite app_nth2, Hl, Nat.sub_diag by lia; reflexivity).
      split; [rewrite app_length, Hl; cbn; lia|]. split; [|split; [rewrite A1 by lia; exact H0|split]].
      + destruct Hr as (R1 & R2 & R3). change (1 + n)%nat with (S n). destruct (nondegenerate bands v eps (S n)) eqn:N.
        * apply nondegenerate_iff in N. split; [lia|]. split; [right; exact N|intros; lia].
        * split; [lia|]. split; [exact R2|]. intros m' Hm'. destruct (Nat.eq_dec m' (S n)) as [->|]; [|apply R3; lia].
          intros H. apply nondegenerate_iff in H. congruence.
      + intros m Hm. destruct (Nat.eq_dec m (S n)) as [->|]; [rewrite A2; exact P|rewrite A1 by lia; apply Hp; lia].
      + intros k Hk. destruct (Nat.eq_dec k (S n)) as [->|].
        * exists n0. split; [exact Hr|]. rewrite A2, A1 by (destruct Hr; lia). exact G.
        * destruct (Hg k ltac:(lia)) as (m & Rm & Gm). exists m. split; [exact Rm|]. rewrite !A1 by (destruct Rm; lia). exact Gm.
  Qed.
End Loop.

Lemma reference_unique bands v eps n m m' : reference bands v eps n m -> reference bands v eps n m' -> m = m'.
Proof.
  intros (A1 & A2 & A3) (B1 & B2 & B3). destruct (Nat.lt_trichotomy m m') as [H|[H|H]]; [exfalso|exact H|exfalso].
  - destruct B2 as [->|B2]; [lia|]. exact (A3 m' ltac:(lia) B2).
  - destruct A2 as [->|A2]; [lia|]. exact (B3 m ltac:(lia) A2).
Qed.

(** ** Sorting by mean *)

Lemma insert_by_perm key i l : Permutation (i :: l) (insert_by key i l).
Proof.
  induction l as [|j l IH]; [reflexivity|]. cbn [insert_by]. destruct (Qle_bool (key i) (key j)); [reflexivity|].
  eapply perm_trans; [apply perm_swap|apply perm_skip, IH].
Qed.

Lemma sort_by_perm key l : Permutation l (sort_by key l).
Proof. induction l as [|i l IH]; [reflexivity|]. cbn [sort_by fold_right]. eapply perm_trans; [apply perm_skip, IH|apply insert_by_perm]. Qed.

Lemma insert_by_sorted key i l : StronglySorted (fun a b => key a <= key b) l -> StronglySorted (fun a b => key a <= key b) (insert_by key i l).
Proof.
  induction 1 as [|j l S IH F]; cbn [insert_by]; [repeat constructor|].
  destruct (Qle_bool (key i) (key j)) eqn:E.
  - apply Qle_bool_iff in E. constructor; [constructor; assumption|]. constructor; [exact E|]. eapply Forall_impl; [|exact F]. cbn. intros; lra.
  - apply Qle_bool_false in E. constructor; [exact IH|]. rewrite Forall_forall in *. intros k Hk.
    apply (Permutation_in _ (Permutation_sym (insert_by_perm key i l))) in Hk. destruct Hk as [<-|Hk]; [lra|apply F, Hk].
Qed.

Lemma sort_by_sorted key l : StronglySorted (fun a b => key a <= key b) (sort_by key l).
Proof. induction l as [|i l IH]; [constructor|]. apply insert_by_sorted, IH. Qed.

Lemma nth_perm_compose bands (perm row : list nat) : Permutation perm (seq 0 bands) -> Permutation row (seq 0 bands) ->
  Permutation (map (fun i => nth i row 0%nat) perm) (seq 0 bands).
Proof.
  intros P R. rewrite (Permutation_map _ P). assert (L : length row = bands) by (rewrite (Permutation_length R); apply seq_length).
  replace (map (fun i => nth i row 0%nat) (seq 0 bands)) with row; [exact R|].
  rewrite <- L. clear. induction row as [|a row IH]; [reflexivity|]. cbn [length seq map nth]. f_equal. rewrite <- seq_shift, map_map. exact IH.
Qed.

Lemma overlap_nonneg dim u w : 0 <= overlap dim u w.
Proof.
  assert (S : forall a : Q, 0 <= a * a).
  { intros a. destruct (Qlt_le_dec a 0); [setoid_replace (a * a) with ((- a) * (- a)) by ring; apply Qmult_le_0_compat; lra|apply Qmult_le_0_compat; lra]. }
  unfold overlap. pose proof (S (re_dot dim u w)). pose proof (S (im_dot dim u w)). lra.
Qed.

Lemma band_key_within bands v V dv m om n i j : within dv (v m (nth i om 0%nat)) (v n j) ->
  band_key bands v V dv m om n i j = overlap bands (vec V m (nth i om 0%nat)) (vec V n j).
Proof.
  intros W. unfold band_key, within in *. rewrite overlap2_overlap. destruct dv as [dv|]; [|reflexivity].
  apply Qle_bool_false in W. rewrite W. reflexivity.
Qed.

Lemma band_key_le bands v V dv m om n i j : band_key bands v V dv m om n i j <= overlap bands (vec V m (nth i om 0%nat)) (vec V n j).
Proof.
  unfold band_key. rewrite overlap2_overlap. destruct (match dv with None => _ | Some dv => _ end); [lra|apply overlap_nonneg].
Qed.

Lemma loop_follows bands v V dv eps b n o n0 : loop_inv bands v V dv eps n o n0 ->
  b 0%nat = seq 0 bands -> (forall k, Permutation (b k) (seq 0 bands)) ->
  (forall k m i, (k <= n)%nat -> reference bands v eps k m -> (i < bands)%nat ->
     within dv (v m (nth i (b m) 0%nat)) (v k (nth i (b k) 0%nat)) /\
     forall j, (j < bands)%nat -> j <> nth i (b k) 0%nat ->
       overlap bands (vec V m (nth i (b m) 0%nat)) (vec V k j) < overlap bands (vec V m (nth i (b m) 0%nat)) (vec V k (nth i (b k) 0%nat))) ->
  o = map b (seq 0 (S n)).
Proof.
  intros (Hl & Hr & H0 & Hp & Hg) B0 BP D.
  assert (K : forall k, (k <= n)%nat -> nth k o [] = b k).
  { induction k as [k IH] using lt_wf_ind. intros Hk. destruct k as [|k]; [rewrite H0, B0; reflexivity|].
    destruct (Hg (S k) ltac:(lia)) as (m & Rm & Gm). assert (Lm : (m < S k)%nat) by apply Rm. rewrite (IH m Lm ltac:(lia)) in Gm.
    apply (greedy_dominant _ _ _ _ Gm (BP (S k))). intros i j Hi Hj NE. destruct (D (S k) m i Hk Rm Hi) as [W Dj].
    rewrite (band_key_within _ _ _ _ _ _ _ _ _ W). eapply Qle_lt_trans; [apply band_key_le|]. apply Dj; assumption. }
  apply (nth_ext _ _ [] []); [rewrite map_length, seq_length; exact Hl|]. intros k Hk. rewrite Hl in Hk. rewrite K by lia.
  rewrite (nth_indep _ [] (b 0%nat)) by (rewrite map_length, seq_length; lia). rewrite (map_nth b), seq_nth by lia. reflexivity.
Qed.

Lemma band_order_false points bands v V dv eps : (0 < points)%nat ->
  exists o n0, band_order points bands v V false dv eps = Ok o /\ loop_inv bands v V dv eps (points - 1) o n0.
Proof.
  intros H. destruct (loop_spec bands v V dv eps (points - 1)) as (o & n0 & E & I). exists o, n0. split; [|exact I].
  unfold band_order. destruct points; [lia|]. unfold loop in E. rewrite E. reflexivity.
Qed.

Lemma band_order_true points bands v V dv eps o : band_order points bands v V false dv eps = Ok o ->
  band_order points bands v V true dv eps =
    Ok (map (fun om => map (fun i => nth i om 0%nat) (sort_by (mean_key points v o) (seq 0 bands))) o).
Proof.
  unfold band_order. destruct points; [discriminate|]. destruct (fold_left _ _ _) as [[o' n0]|]; [|discriminate]. cbn [bind].
  intros E. apply (f_equal (get_ok [])) in E. cbn [get_ok] in E. subst o'. reflexivity.
Qed.
