(** Proofs about SymModel.v. *)
From Coq Require Import Znumtheory Permutation.
From Verif Require Import Common CommonProofs LatModel LatProofs SymModel SymSpec.
Local Open Scope Z_scope.

Lemma pt_mem_iff p l : pt_mem p l = true <-> In p l.
Proof. unfold pt_mem. destruct (in_dec pt_eq_dec p l); intuition congruence. Qed.

Lemma pt_mem_false p l : pt_mem p l = false <-> ~ In p l.
Proof. unfold pt_mem. destruct (in_dec pt_eq_dec p l); intuition congruence. Qed.

Lemma pt_ext (p q : pt) : fst p = fst q -> snd p = snd q -> p = q.
Proof. destruct p, q; cbn; intros -> ->; reflexivity. Qed.

(** ** Residues *)

Lemma mod_sub_iff n a b : n <> 0 -> ((a - b) mod n = 0 <-> a mod n = b mod n).
Proof.
  intros Hn. split; intros H.
  - apply Z.mod_divide in H; [|exact Hn]. destruct H as [c Hc].
    replace a with (b + c * n) by lia. apply Z.mod_add; exact Hn.
  - rewrite Zminus_mod, H, Z.sub_diag. apply Z.mod_0_l; exact Hn.
Qed.

Lemma pmod_eq_iff nk p q : nk <> 0 ->
  (pmod nk p = pmod nk q <-> (fst p - fst q) mod nk = 0 /\ (snd p - snd q) mod nk = 0).
Proof.
  intros Hn. rewrite !mod_sub_iff by exact Hn. unfold pmod. split.
  - intros H. split; [apply (f_equal fst) in H|apply (f_equal snd) in H]; exact H.
  - intros [-> ->]. reflexivity.
Qed.

Lemma pmod_in nk p : 0 < nk -> in_mesh nk (pmod nk p).
Proof. intros H. split; cbn; apply Z.mod_pos_bound; exact H. Qed.

Lemma pmod_id nk p : in_mesh nk p -> pmod nk p = p.
Proof. intros [H1 H2]. apply pt_ext; cbn; apply Z.mod_small; assumption. Qed.

Lemma lin_mod a b x y n : (a * (x mod n) + b * (y mod n)) mod n = (a * x + b * y) mod n.
Proof.
  rewrite Zplus_mod, !Zmult_mod_idemp_r, <- Zplus_mod. reflexivity.
Qed.

Lemma act_pmod nk M k : pmod nk (act M (pmod nk k)) = pmod nk (act M k).
Proof. unfold pmod, act. cbn [fst snd]. rewrite !lin_mod. reflexivity. Qed.

(** ** The point group *)

Definition rotM (angle : Z) : mat2 :=
  if angle =? 60 then M2 0 (-1) 1 1 else if angle =? 90 then M2 0 (-1) 1 0
  else if angle =? 120 then M2 1 (-1) 1 0 else M2 1 0 0 1.

Definition mulM (A B : mat2) : mat2 :=
  M2 (m11 A * m11 B + m12 A * m21 B) (m11 A * m12 B + m12 A * m22 B)
     (m21 A * m11 B + m22 A * m21 B) (m21 A * m12 B + m22 A * m22 B).

Definition unitM : mat2 := M2 1 0 0 1.
Definition swapM : mat2 := M2 0 1 1 0.

Fixpoint powM (A : mat2) (n : nat) : mat2 :=
  match n with O => unitM | S n => mulM A (powM A n) end.

Lemma act_mul A B k : act (mulM A B) k = act A (act B k).
Proof. unfold act, mulM. cbn. apply pt_ext; cbn; ring. Qed.

Lemma act_unit k : act unitM k = k.
Proof. apply pt_ext; unfold act, unitM; cbn -[Z.add Z.mul]; ring. Qed.

Lemma act_rot angle k : act (rotM angle) k = rot angle k.
Proof.
  destruct k as [k1 k2]. unfold rot, rotM.
  destruct (angle =? 60); [|destruct (angle =? 90); [|destruct (angle =? 120)]];
    apply pt_ext; unfold act; cbn [fst snd m11 m12 m21 m22]; ring.
Qed.

Lemma act_rot_n angle n k : act (powM (rotM angle) n) k = rot_n angle n k.
Proof. induction n; cbn [powM rot_n]; [apply act_unit|]. rewrite act_mul, IHn, act_rot. reflexivity. Qed.

Definition order (angle : Z) : nat := if angle =? 90 then 4%nat else 6%nat.

Definition rotations (angle : Z) : list mat2 := map (powM (rotM angle)) (seq 0 (order angle)).
Definition group (angle : Z) : list mat2 := rotations angle ++ map (mulM swapM) (rotations angle).

Ltac angles H := destruct H as [-> | [-> | ->]].

Lemma sq1 x y : x * x + y * y + x * y = 1 -> -1 <= x <= 1 /\ -1 <= y <= 1.
Proof. intros H. assert (3 * (x * x) <= 4) by nia. assert (3 * (y * y) <= 4) by nia. nia. Qed.

Lemma sq2 x y : x * x + y * y + - (x * y) = 1 -> -1 <= x <= 1 /\ -1 <= y <= 1.
Proof. intros H. assert (3 * (x * x) <= 4) by nia. assert (3 * (y * y) <= 4) by nia. nia. Qed.

Lemma sq3 x y : x * x + y * y + 0 = 1 -> -1 <= x <= 1 /\ -1 <= y <= 1.
Proof. intros H. nia. Qed.

Lemma three x : -1 <= x <= 1 -> x = -1 \/ x = 0 \/ x = 1.
Proof. lia. Qed.

Lemma sqnorm1 angle p : allowed_angle angle -> sqnorm angle p = 1 ->
  -1 <= fst p <= 1 /\ -1 <= snd p <= 1.
Proof.
  intros Ha. destruct p as [x y]. unfold sqnorm. cbn [fst snd].
  angles Ha; cbn -[Z.add Z.mul Z.opp]; intros H; [apply sq1|apply sq3|apply sq2]; exact H.
Qed.

Definition isoA (angle : Z) (M : mat2) : bool :=
  (sqnorm angle (act M (1, 0)) =? 1) && (sqnorm angle (act M (0, 1)) =? 1)
  && (sqnorm angle (act M (1, 1)) =? sqnorm angle (1, 1)).

Lemma isometry_isoA angle M : isometry angle M -> isoA angle M = true.
Proof.
  intros H. unfold isoA. rewrite !H, !Z.eqb_refl, !andb_true_r.
  unfold sqnorm. cbn. destruct (angle =? 60); destruct (angle =? 120); reflexivity.
Qed.

Lemma isometry_group angle M : allowed_angle angle -> isometry angle M <-> In M (group angle).
Proof.
  intros Ha. split.
  - intros H. pose proof (isometry_isoA _ _ H) as HA.
    assert (H1 : sqnorm angle (act M (1, 0)) = 1).
    { unfold isoA in HA. apply andb_true_iff in HA. destruct HA as [HA _].
      apply andb_true_iff in HA. destruct HA as [HA _]. lia. }
    assert (H2 : sqnorm angle (act M (0, 1)) = 1).
    { unfold isoA in HA. apply andb_true_iff in HA. destruct HA as [HA _].
      apply andb_true_iff in HA. destruct HA as [_ HA]. lia. }
    apply sqnorm1 in H1; [|exact Ha]. apply sqnorm1 in H2; [|exact Ha].
    destruct M as [a b c d]. unfold act in H1, H2. cbn [fst snd m11 m12 m21 m22] in H1, H2.
    rewrite !Z.mul_1_r, !Z.mul_0_r, !Z.add_0_r, ?Z.add_0_l in *. destruct H1 as [A C], H2 as [B D].
    apply three in A. apply three in B. apply three in C. apply three in D. clear H.
    angles Ha; angles A; angles B; angles C; angles D;
      (vm_compute in HA; discriminate HA) || (vm_compute; tauto).
  - intros H k. destruct k as [x y].
    angles Ha; vm_compute in H;
    repeat (destruct H as [<-|H]; [unfold sqnorm, act; cbn -[Z.add Z.mul Z.opp]; ring|]); contradiction.
Qed.

Lemma isometry_unit angle : isometry angle unitM.
Proof. intros k. rewrite act_unit. reflexivity. Qed.

Lemma isometry_mul angle A B : isometry angle A -> isometry angle B -> isometry angle (mulM A B).
Proof. intros HA HB k. rewrite act_mul, HA. apply HB. Qed.

Lemma group_inverse angle M : allowed_angle angle -> In M (group angle) ->
  exists M', In M' (group angle) /\ mulM M' M = unitM.
Proof.
  intros Ha H.
  assert (E : forallb (fun M => existsb (fun M' =>
      (m11 (mulM M' M) =? 1) && (m12 (mulM M' M) =? 0) && (m21 (mulM M' M) =? 0) && (m22 (mulM M' M) =? 1))
    (group angle)) (group angle) = true) by (angles Ha; vm_compute; reflexivity).
  rewrite forallb_forall in E. specialize (E M H). apply existsb_exists in E.
  destruct E as (M' & HM' & E). exists M'. split; [exact HM'|].
  rewrite !andb_true_iff, !Z.eqb_eq in E. destruct E as [[[E1 E2] E3] E4].
  destruct (mulM M' M); cbn in *; subst; reflexivity.
Qed.

Lemma equivalent_iff angle nk k k' : allowed_angle angle -> 0 < nk ->
  (equivalent angle nk k k' <-> exists M, In M (group angle) /\ pmod nk k' = pmod nk (act M k)).
Proof.
  intros Ha Hn. split; intros (M & HM & H); exists M; (split; [apply isometry_group; assumption|]).
  - apply pmod_eq_iff; [lia|exact H].
  - apply pmod_eq_iff in H; [exact H|lia].
Qed.

Lemma equivalent_refl angle nk k : 0 < nk -> equivalent angle nk k k.
Proof. intros Hn. exists unitM. rewrite act_unit, !Z.sub_diag. split; [apply isometry_unit|]. split; apply Z.mod_0_l; lia. Qed.

Lemma equivalent_trans angle nk a b c : allowed_angle angle -> 0 < nk ->
  equivalent angle nk a b -> equivalent angle nk b c -> equivalent angle nk a c.
Proof.
  intros Ha Hn. rewrite !equivalent_iff by assumption. intros (A & HA & EA) (B & HB & EB).
  exists (mulM B A). split.
  - apply isometry_group; [exact Ha|]. apply isometry_mul; apply isometry_group; assumption.
  - rewrite EB, act_mul, <- act_pmod, EA, act_pmod. reflexivity.
Qed.

Lemma equivalent_sym angle nk a b : allowed_angle angle -> 0 < nk ->
  equivalent angle nk a b -> equivalent angle nk b a.
Proof.
  intros Ha Hn. rewrite !equivalent_iff by assumption. intros (A & HA & EA).
  destruct (group_inverse _ _ Ha HA) as (B & HB & E). exists B. split; [exact HB|].
  rewrite <- act_pmod, EA, act_pmod, <- act_mul, E, act_unit. reflexivity.
Qed.

(** ** images *)

Section Images.
  Context (angle nk : Z) (k0 : pt).
  Hypothesis Ha : allowed_angle angle.
  Hypothesis Hn : 0 < nk.

  Let f (k : pt) := pmod nk (rot angle k).
  Let p (i : nat) := pmod nk (rot_n angle i k0).

  Lemma f_p i : f (p i) = p (S i).
  Proof. unfold f, p. rewrite <- !act_rot, act_pmod, act_rot. reflexivity. Qed.

  Lemma rot_order k : rot_n angle (order angle) k = k.
  Proof.
    rewrite <- act_rot_n.
    replace (powM (rotM angle) (order angle)) with unitM by (angles Ha; reflexivity). apply act_unit.
  Qed.

  Lemma rot_n_add m n k : rot_n angle (m + n) k = rot_n angle m (rot_n angle n k).
  Proof. induction m; cbn [rot_n plus]; [reflexivity|]. rewrite IHm. reflexivity. Qed.

  Lemma p_order i : p (order angle + i) = p i.
  Proof. unfold p. rewrite rot_n_add, rot_order. reflexivity. Qed.

  Lemma order_le : (4 <= order angle <= 6)%nat.
  Proof. unfold order. destruct (angle =? 90); lia. Qed.

  (** Invariant of the loop. *)
  Lemma images_loop_spec : forall fuel j k points,
    (j <= order angle)%nat -> (fuel + j >= 7)%nat ->
    points = map p (seq 1 j) -> NoDup points -> f k = p (S j) ->
    exists m, (1 <= m <= order angle)%nat /\
      images_loop fuel angle nk k points = Some (map p (seq 1 m)) /\
      NoDup (map p (seq 1 m)) /\ In (p (S m)) (map p (seq 1 m)).
  Proof.
    pose proof order_le as Ho.
    induction fuel as [|fuel IH]; intros j k points Hj Hf Hp Hnd Hk; [lia|].
    cbn [images_loop]. fold (f k). rewrite Hk. destruct (pt_mem (p (S j)) points) eqn:E.
    - apply pt_mem_iff in E. exists j. subst points. split; [|tauto].
      destruct j; [destruct E|lia].
    - apply pt_mem_false in E.
      assert (Hj' : (S j <= order angle)%nat).
      { destruct (le_lt_dec (order angle) j) as [Hle|]; [exfalso|lia].
        apply E. subst points. replace j with (order angle) in * by lia.
        replace (S (order angle)) with (order angle + 1)%nat by lia. rewrite p_order.
        apply in_map. apply in_seq. lia. }
      apply (IH (S j)); [exact Hj'|lia| | |].
      + subst points. rewrite seq_S, map_app. reflexivity.
      + apply NoDup_app'; [exact Hnd|repeat constructor; easy|].
        intros x Hx [<-|[]]. contradiction.
      + rewrite f_p. reflexivity.
  Qed.

  (** The points visited by the loop are the full orbit under rotations. *)
  Lemma orbit_closed m : (1 <= m)%nat -> In (p (S m)) (map p (seq 1 m)) ->
    forall i, (1 <= i)%nat -> In (p i) (map p (seq 1 m)).
  Proof.
    intros Hm Hc.
    assert (Hcl : forall x, In x (map p (seq 1 m)) -> In (f x) (map p (seq 1 m))).
    { intros x Hx. apply in_map_iff in Hx. destruct Hx as (i & <- & Hi). apply in_seq in Hi.
      rewrite f_p. destruct (Nat.eq_dec i m) as [->|]; [exact Hc|]. apply in_map, in_seq. lia. }
    induction i as [|i IH]; intros Hi; [lia|].
    destruct i as [|i]; [apply in_map, in_seq; lia|].
    rewrite <- f_p. apply Hcl, IH. lia.
  Qed.

  Lemma images_loop_ok fuel : (7 <= fuel)%nat ->
    exists l, images_loop fuel angle nk k0 [] = Some l /\ NoDup l /\
      forall q, In q l <-> exists i, (i < order angle)%nat /\ q = p i.
  Proof.
    intros Hfuel. pose proof order_le as Ho.
    destruct (images_loop_spec fuel 0 k0 [] ltac:(lia) ltac:(lia) eq_refl (NoDup_nil _) eq_refl)
      as (m & Hm & E & Hnd & Hc).
    exists (map p (seq 1 m)). split; [exact E|]. split; [exact Hnd|]. intros q. split.
    - intros Hq. apply in_map_iff in Hq. destruct Hq as (i & <- & Hi). apply in_seq in Hi.
      destruct (Nat.eq_dec i (order angle)) as [->|].
      + exists 0%nat. split; [lia|]. rewrite <- (p_order 0), Nat.add_0_r. reflexivity.
      + exists i. split; [lia|reflexivity].
    - intros (i & Hi & ->). destruct i as [|i].
      + rewrite <- p_order. apply orbit_closed; [lia|exact Hc|lia].
      + apply orbit_closed; [lia|exact Hc|lia].
  Qed.

  Lemma images_loop_stable fuel : (7 <= fuel)%nat ->
    images_loop fuel angle nk k0 [] = images_loop 7 angle nk k0 [].
  Proof.
    intros H. replace fuel with (7 + (fuel - 7))%nat by lia. generalize (fuel - 7)%nat as e. clear H. intros e.
    destruct (images_loop_ok 7 (le_n _)) as (l & El & _). rewrite El. revert El.
    generalize (@nil pt) as ps, k0 as k. generalize 7%nat as n.
    induction n as [|n IH]; intros ps k; cbn [images_loop plus]; [discriminate|].
    destruct (pt_mem _ ps); [tauto|]. apply IH.
  Qed.

  Lemma images_spec : exists l, images k0 nk angle = Ok l /\ NoDup l /\
    forall k', In k' l <-> in_mesh nk k' /\ equivalent angle nk k0 k'.
  Proof.
    unfold images. rewrite (proj2 (Z.eqb_neq nk 0)) by lia.
    destruct (images_loop_ok 7 (le_n _)) as (l & -> & Hnd & Hl).
    exists (reflect l). split; [reflexivity|].
    set (swap := fun k : pt => (snd k, fst k)).
    assert (Hin : forall q, In q (reflect l) <-> In q l \/ In (swap q) l).
    { intros q. unfold reflect. rewrite in_app_iff, filter_In, in_map_iff. split.
      - intros [H|[(x & <- & Hx) _]]; [tauto|right]. destruct x; exact Hx.
      - intros [H|H]; [tauto|]. destruct (pt_mem q l) eqn:E.
        + left. apply pt_mem_iff; exact E.
        + right. split; [|reflexivity]. exists (swap q). split; [destruct q; reflexivity|exact H]. }
    split.
    - unfold reflect. apply NoDup_app'; [exact Hnd| |].
      + apply NoDup_filter. apply NoDup_map_inj; [|exact Hnd].
        intros [a b] [c d]; cbn; intros E; injection E; congruence.
      + intros x Hx H. apply filter_In in H. destruct H as [_ H].
        apply (proj2 (pt_mem_iff _ _)) in Hx. rewrite Hx in H. discriminate.
    - intros k'. rewrite Hin, !Hl, equivalent_iff by assumption. split.
      + intros H. assert (Hm : in_mesh nk k').
        { destruct H as [(i & _ & ->)|(i & _ & H)]; [apply pmod_in; exact Hn|].
          destruct (pmod_in nk (rot_n angle i k0) Hn) as [H1 H2].
          fold (p i) in H1, H2. rewrite <- H in H1, H2. split; assumption. }
        split; [exact Hm|]. rewrite (pmod_id _ _ Hm). destruct H as [(i & Hi & ->)|(i & Hi & H)].
        * exists (powM (rotM angle) i). split; [|unfold p; rewrite act_rot_n; reflexivity].
          apply in_app_iff. left. apply in_map, in_seq. lia.
        * exists (mulM swapM (powM (rotM angle) i)). split.
          -- apply in_app_iff. right. apply in_map, in_map, in_seq. lia.
          -- rewrite act_mul, act_rot_n.
             pose proof (f_equal fst H) as H1. pose proof (f_equal snd H) as H2. unfold p, pmod in H1, H2. cbn in H1, H2.
             unfold pmod, act, swapM. cbn [fst snd m11 m12 m21 m22].
             rewrite !Z.mul_0_l, !Z.mul_1_l, ?Z.add_0_r, ?Z.add_0_l. apply pt_ext; cbn; congruence.
      + intros (Hm & M & HM & E). rewrite (pmod_id _ _ Hm) in E. apply in_app_iff in HM. destruct HM as [HM|HM].
        * left. apply in_map_iff in HM. destruct HM as (i & <- & Hi). apply in_seq in Hi.
          exists i. split; [lia|]. rewrite E, act_rot_n. reflexivity.
        * right. apply in_map_iff in HM. destruct HM as (M' & <- & HM).
          apply in_map_iff in HM. destruct HM as (i & <- & Hi). apply in_seq in Hi.
          exists i. split; [lia|]. rewrite E, act_mul, act_rot_n. unfold swap, p, pmod, act, swapM.
          cbn [fst snd m11 m12 m21 m22].
          rewrite !Z.mul_0_l, !Z.mul_1_l, ?Z.add_0_r, ?Z.add_0_l. reflexivity.
  Qed.
End Images.

(** ** irreducibles *)

Lemma equivalent_dec angle nk k k' : allowed_angle angle -> 0 < nk ->
  {equivalent angle nk k k'} + {~ equivalent angle nk k k'}.
Proof.
  intros Ha Hn.
  destruct (existsb (fun M => if pt_eq_dec (pmod nk k') (pmod nk (act M k)) then true else false) (group angle)) eqn:E.
  - left. apply equivalent_iff; [assumption..|]. apply existsb_exists in E. destruct E as (M & HM & E).
    exists M. split; [exact HM|]. destruct (pt_eq_dec _ _); [assumption|discriminate].
  - right. intros H. apply equivalent_iff in H; [|assumption..]. destruct H as (M & HM & H).
    assert (T : existsb (fun M => if pt_eq_dec (pmod nk k') (pmod nk (act M k)) then true else false) (group angle) = true).
    { apply existsb_exists. exists M. split; [exact HM|]. destruct (pt_eq_dec _ _); [reflexivity|contradiction]. }
    congruence.
Qed.

Lemma in_mesh2 nk k : In k (mesh2 nk) <-> in_mesh nk k.
Proof. destruct k as [a b]. unfold in_mesh. cbn [fst snd]. rewrite <- !in_zrange. apply in_prod_iff. Qed.

Lemma before_trans a b c : before a b -> before b c -> before a c.
Proof. unfold before. lia. Qed.

Lemma before_irrefl a : ~ before a a.
Proof. unfold before. lia. Qed.

Lemma before_total a b : before a b \/ a = b \/ before b a.
Proof.
  unfold before. destruct a as [a1 a2], b as [b1 b2]; cbn.
  destruct (Z.lt_trichotomy a1 b1) as [?|[->|?]]; [auto| |auto].
  destruct (Z.lt_trichotomy a2 b2) as [?|[->|?]]; auto.
Qed.

From Coq Require Import Sorting.Sorted.

Lemma zrange_sorted lo hi : StronglySorted Z.lt (zrange lo hi).
Proof.
  unfold zrange. generalize (Z.to_nat (hi - lo)) as n. intros n. generalize 0%nat as k.
  induction n as [|n IH]; intros k; cbn [seq map]; constructor; [apply IH|].
  apply Forall_forall. intros x Hx. apply in_map_iff in Hx. destruct Hx as (i & <- & Hi). apply in_seq in Hi. lia.
Qed.

Lemma list_prod_sorted l l' : StronglySorted Z.lt l -> StronglySorted Z.lt l' ->
  StronglySorted before (list_prod l l').
Proof.
  intros Hl Hl'. induction Hl as [|x l Hl IH Hx]; cbn; [constructor|].
  assert (Hm : StronglySorted before (map (fun y => (x, y)) l')).
  { clear - Hl'. induction Hl' as [|y l' H IH Hy]; cbn; constructor; [exact IH|].
    rewrite Forall_forall in *. intros q Hq. apply in_map_iff in Hq. destruct Hq as (z & <- & Hz).
    right. cbn. split; [reflexivity|]. apply Hy; exact Hz. }
  clear Hl'. rewrite Forall_forall in Hx.
  assert (Hc : forall p q, In p (map (fun y => (x, y)) l') -> In q (list_prod l l') -> before p q).
  { intros p q Hp Hq. apply in_map_iff in Hp. destruct Hp as (y & <- & Hy). destruct q as [q1 q2].
    apply in_prod_iff in Hq. left. cbn. apply Hx. tauto. }
  revert Hm Hc. generalize (map (fun y => (x, y)) l') as m. intros m Hm Hc.
  induction Hm as [|p m Hm IHm Hp]; cbn; [exact IH|]. constructor.
  - apply IHm. intros; apply Hc; [right|]; assumption.
  - rewrite Forall_forall in *. intros q Hq. apply in_app_iff in Hq. destruct Hq as [Hq|Hq]; [auto|].
    apply Hc; [left; reflexivity|exact Hq].
Qed.

Lemma mesh2_sorted nk : StronglySorted before (mesh2 nk).
Proof. apply list_prod_sorted; apply zrange_sorted. Qed.

Lemma sorted_NoDup l : StronglySorted before l -> NoDup l.
Proof.
  induction 1 as [|x l H IH Hx]; constructor; [|exact IH].
  rewrite Forall_forall in Hx. intros Hin. exact (before_irrefl _ (Hx x Hin)).
Qed.

Lemma mesh2_NoDup nk : NoDup (mesh2 nk).
Proof. apply sorted_NoDup, mesh2_sorted. Qed.

Section Irr.
  Context (angle nk : Z).
  Hypothesis Ha : allowed_angle angle.
  Hypothesis Hn : 0 < nk.
  Let eqv := equivalent angle nk.

  Definition first_among (p : list pt) (q : pt) : Prop :=
    forall k, In k p -> before k q -> ~ eqv k q.

  Lemma irr_fold : forall p' p I,
    StronglySorted before (p ++ p') -> NoDup I ->
    (forall q, In q I <-> in_mesh nk q /\ first_among p q) ->
    (forall q, In q (p ++ p') <-> in_mesh nk q) ->
    exists I', fold_left (irr_step nk angle) p' (Ok I) = Ok I' /\ NoDup I' /\
      (forall q, In q I' <-> in_mesh nk q /\ first_among (p ++ p') q).
  Proof.
    induction p' as [|k p' IH]; intros p I Hs Hnd HI Hall; cbn [fold_left].
    { exists I. rewrite app_nil_r. auto. }
    assert (Hbef : forall q, In q p -> before q k).
    { intros q Hq. clear - Hs Hq. induction p as [|x p IHp]; [destruct Hq|]. cbn in Hs. inversion Hs as [|? ? H1 H2]; subst.
      destruct Hq as [->|Hq]; [|auto]. rewrite Forall_forall in H2. apply H2, in_app_iff. right; left; reflexivity. }
    assert (Hkm : in_mesh nk k) by (apply Hall, in_app_iff; right; left; reflexivity).
    replace (p ++ k :: p') with ((p ++ [k]) ++ p') in * by (rewrite <- app_assoc; reflexivity).
    unfold irr_step at 2. cbn [bind]. destruct (pt_mem k I) eqn:E.
    - apply pt_mem_iff in E. apply HI in E. destruct E as [_ Hfirst].
      destruct (images_spec angle nk k Ha Hn) as (im & -> & _ & Him). cbn [bind].
      apply IH; [exact Hs|apply NoDup_filter; exact Hnd| |exact Hall].
      intros q. rewrite filter_In, HI, negb_true_iff, pt_mem_false, filter_In, Him. split.
      + intros [[Hq Hf] Hr]. split; [exact Hq|]. intros x Hx Hxq. apply in_app_iff in Hx.
        destruct Hx as [Hx|[<-|[]]]; [apply Hf; assumption|].
        intros Heq. apply Hr. split; [split; assumption|].
        destruct (pt_eq_dec q k) as [->|]; [exfalso; exact (before_irrefl _ Hxq)|reflexivity].
      + intros [Hq Hf]. split; [split; [exact Hq|]|].
        * intros x Hx. apply Hf, in_app_iff. left; exact Hx.
        * intros [[_ Heq] Hne]. destruct (pt_eq_dec q k) as [->|Hne']; [discriminate|].
          destruct (before_total q k) as [Hb|[?|Hb]]; [|contradiction|].
          -- assert (Hqp : In q p).
             { assert (Hin : In q ((p ++ [k]) ++ p')) by (apply Hall; exact Hq).
               rewrite !in_app_iff in Hin. destruct Hin as [[?|[->|[]]]|Hin]; [assumption|contradiction|exfalso].
               rewrite <- app_assoc in Hs. cbn in Hs. clear - Hs Hin Hb.
               induction p as [|x p IHp]; cbn in Hs; inversion Hs as [|? ? H1 H2]; subst; [|auto].
               rewrite Forall_forall in H2. exact (before_irrefl _ (before_trans _ _ _ Hb (H2 q Hin))). }
             apply (Hfirst q Hqp Hb). apply equivalent_sym; assumption.
          -- apply (Hf k); [apply in_app_iff; right; left; reflexivity|exact Hb|exact Heq].
    - apply pt_mem_false in E. apply IH; [exact Hs|exact Hnd| |exact Hall].
      intros q. rewrite HI. split; intros [Hq Hf]; (split; [exact Hq|]).
      + intros x Hx Hxq. apply in_app_iff in Hx. destruct Hx as [Hx|[<-|[]]]; [apply Hf; assumption|].
        intros Heq. apply E, HI. split; [exact Hkm|]. intros y Hy Hyk Heqy.
        apply (Hf y Hy (before_trans _ _ _ Hyk Hxq)). apply equivalent_trans with k; assumption.
      + intros x Hx. apply Hf, in_app_iff. left; exact Hx.
  Qed.

  Lemma irreducibles_spec : exists irr, irreducibles nk angle = Ok irr /\ NoDup irr /\
    forall q, In q irr <-> in_mesh nk q /\ forall k, in_mesh nk k -> before k q -> ~ equivalent angle nk k q.
  Proof.
    destruct (irr_fold (mesh2 nk) [] (mesh2 nk) (mesh2_sorted nk) (mesh2_NoDup nk)) as (I & E & Hnd & HI).
    - intros q. rewrite in_mesh2. split; [|tauto]. intros H. split; [exact H|]. intros k [].
    - intros q. apply in_mesh2.
    - exists I. split; [exact E|]. split; [exact Hnd|]. intros q. rewrite HI.
      unfold first_among. cbn [app]. split; intros [Hq Hf]; (split; [exact Hq|]); intros k Hk; apply Hf; apply in_mesh2; exact Hk.
  Qed.

  Lemma first_representative k : in_mesh nk k ->
    exists r, in_mesh nk r /\ eqv r k /\ forall x, in_mesh nk x -> before x r -> ~ eqv x r.
  Proof.
    intros Hk. assert (H : exists r, In r (mesh2 nk) /\ eqv r k /\ forall x, In x (mesh2 nk) -> before x r -> ~ eqv x k).
    { assert (Hin : exists y, In y (mesh2 nk) /\ eqv y k).
      { exists k. split; [apply in_mesh2; exact Hk|apply equivalent_refl; exact Hn]. }
      revert Hin. generalize (mesh2_sorted nk). generalize (mesh2 nk) as l. induction 1 as [|x l Hl IH Hx]; intros Hin.
      - destruct Hin as (y & [] & _).
      - rewrite Forall_forall in Hx. destruct (equivalent_dec angle nk x k Ha Hn) as [He|He].
        + exists x. split; [left; reflexivity|]. split; [exact He|]. intros z [->|Hz] Hb; exfalso.
          * exact (before_irrefl _ Hb).
          * exact (before_irrefl _ (before_trans _ _ _ Hb (Hx z Hz))).
        + destruct IH as (r & Hr & Hrk & Hf).
          { destruct Hin as (y & [->|Hy] & Hyk); [contradiction|]. exists y; auto. }
          exists r. split; [right; exact Hr|]. split; [exact Hrk|].
          intros z [->|Hz] Hb; [exact He|apply Hf; assumption]. }
    destruct H as (r & Hr & Hrk & Hf). exists r. rewrite in_mesh2 in Hr. split; [exact Hr|]. split; [exact Hrk|].
    intros x Hx Hb Hxr. apply (Hf x); [apply in_mesh2; exact Hx|exact Hb|]. apply equivalent_trans with r; assumption.
  Qed.

  Lemma irreducibles_unique irr k : irreducibles nk angle = Ok irr -> in_mesh nk k ->
    exists! r, In r irr /\ equivalent angle nk r k.
  Proof.
    intros E Hk. destruct irreducibles_spec as (irr' & E' & _ & Hirr). rewrite E in E'. injection E' as <-.
    destruct (first_representative k Hk) as (r & Hr & Hrk & Hf). exists r. split.
    - split; [apply Hirr; split; assumption|exact Hrk].
    - intros r' [Hr' Hrk']. apply Hirr in Hr'. destruct Hr' as [Hr' Hf'].
      assert (He : eqv r r') by (apply equivalent_trans with k; [assumption..|apply equivalent_sym; assumption]).
      destruct (before_total r r') as [Hb|[He'|Hb]]; [|exact He'|]; exfalso.
      + exact (Hf' r Hr Hb He).
      + apply (Hf r' Hr' Hb). apply equivalent_sym; assumption.
  Qed.

  Definition images_list (k : pt) : list pt := match images k nk angle with Ok l => l | Raise _ => [] end.

  Lemma images_list_spec k : NoDup (images_list k) /\ forall q, In q (images_list k) <-> in_mesh nk q /\ eqv k q.
  Proof. unfold images_list. destruct (images_spec angle nk k Ha Hn) as (l & -> & H). exact H. Qed.

  (** The orbits of the irreducible points partition the mesh. *)
  Lemma orbits_partition irr : irreducibles nk angle = Ok irr ->
    Permutation (flat_map images_list irr) (mesh2 nk).
  Proof.
    intros E. pose proof (irreducibles_unique irr) as Hu. destruct irreducibles_spec as (irr' & E' & Hnd & Hirr).
    rewrite E in E'. injection E' as <-.
    apply NoDup_Permutation; [|apply mesh2_NoDup|].
    - assert (Hinc : forall r r' q, In r irr -> In r' irr -> In q (images_list r) -> In q (images_list r') -> r = r').
      { intros r r' q Hr Hr' Hq Hq'. apply images_list_spec in Hq, Hq'.
        destruct (Hu q E (proj1 Hq)) as (x & _ & Hx). transitivity x; [symmetry|]; apply Hx; tauto. }
      clear Hu Hirr E. induction Hnd as [|r irr Hr Hnd IH]; cbn; [constructor|].
      apply NoDup_app'; [apply images_list_spec|apply IH; intros; eapply Hinc; try (right; eassumption); eassumption|].
      intros q Hq Hq'. apply in_flat_map in Hq'. destruct Hq' as (r' & Hr' & Hq').
      apply Hr. rewrite (Hinc r r' q); [exact Hr'|left; reflexivity|right; exact Hr'|exact Hq|exact Hq'].
    - intros q. rewrite in_flat_map, in_mesh2. split.
      + intros (r & _ & Hq). apply images_list_spec in Hq. tauto.
      + intros Hq. destruct (Hu q E Hq) as (r & [Hr Hrq] & _). exists r. split; [exact Hr|]. apply images_list_spec. auto.
  Qed.
End Irr.
