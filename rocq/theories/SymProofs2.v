(** Proofs about SymModel.v: completion of data by symmetry. *)
From Coq Require Import Permutation.
From Verif Require Import Common CommonProofs LatModel LatProofs SymModel SymSpec SymProofs.
Local Open Scope Z_scope.

Definition reflM (angle : Z) : mat2 :=
  if angle =? 60 then M2 (-1) 0 1 1 else if angle =? 90 then M2 (-1) 0 0 1 else M2 (-1) 0 (-1) 1.

Definition symM (angle : Z) (sym : bool * nat) : mat2 :=
  let R := powM (rotM angle) (snd sym) in if fst sym then mulM (reflM angle) R else R.

Lemma act_refl angle k : act (reflM angle) k = refl angle k.
Proof.
  destruct k as [k1 k2]. unfold refl, reflM.
  destruct (angle =? 60); [|destruct (angle =? 90)];
    apply pt_ext; unfold act; cbn [fst snd m11 m12 m21 m22]; ring.
Qed.

Lemma get_image_act angle nk sym k : get_image angle nk sym k = pmod nk (act (symM angle sym) k).
Proof.
  unfold get_image, symM. destruct (fst sym).
  - rewrite act_mul, act_rot_n, act_refl. reflexivity.
  - rewrite act_rot_n. reflexivity.
Qed.

Definition mat2_eqb (A B : mat2) : bool :=
  (m11 A =? m11 B) && (m12 A =? m12 B) && (m21 A =? m21 B) && (m22 A =? m22 B).

Lemma mat2_eqb_eq A B : mat2_eqb A B = true -> A = B.
Proof.
  unfold mat2_eqb. rewrite !andb_true_iff, !Z.eqb_eq. intros [[[H1 H2] H3] H4].
  destruct A, B; cbn in *; congruence.
Qed.

Lemma syms_group angle sym b : allowed_angle angle -> In sym (syms angle b) -> In (symM angle sym) (group angle).
Proof.
  intros Ha H.
  assert (E : forallb (fun s => existsb (mat2_eqb (symM angle s)) (group angle)) (syms angle b) = true)
    by (destruct b; angles Ha; vm_compute; reflexivity).
  rewrite forallb_forall in E. specialize (E sym H). apply existsb_exists in E.
  destruct E as (M & HM & E). apply mat2_eqb_eq in E. rewrite E. exact HM.
Qed.

Lemma group_syms angle M : allowed_angle angle -> In M (group angle) ->
  M = unitM \/ exists sym, In sym (syms angle false) /\ symM angle sym = M.
Proof.
  intros Ha H.
  assert (E : forallb (fun M => mat2_eqb M unitM || existsb (fun s => mat2_eqb (symM angle s) M) (syms angle false)) (group angle) = true)
    by (angles Ha; vm_compute; reflexivity).
  rewrite forallb_forall in E. specialize (E M H). apply orb_true_iff in E. destruct E as [E|E].
  - left. apply mat2_eqb_eq; exact E.
  - right. apply existsb_exists in E. destruct E as (s & Hs & E). exists s. split; [exact Hs|apply mat2_eqb_eq; exact E].
Qed.

Lemma get_image_in angle nk sym k : 0 < nk -> in_mesh nk (get_image angle nk sym k).
Proof. intros H. rewrite get_image_act. apply pmod_in; exact H. Qed.

Lemma get_image_equivalent angle nk sym b k : allowed_angle angle -> 0 < nk -> In sym (syms angle b) ->
  equivalent angle nk k (get_image angle nk sym k).
Proof.
  intros Ha Hn Hs. apply equivalent_iff; [assumption..|]. exists (symM angle sym).
  split; [apply syms_group with b; assumption|]. rewrite pmod_id by (apply get_image_in; exact Hn). apply get_image_act.
Qed.

Section Complete.
  Context {V : Type} (eqV : V -> V -> bool).
  Hypothesis eqV_ok : forall x y, eqV x y = true <-> x = y.
  Context (angle nk : Z).
  Hypothesis Ha : allowed_angle angle.
  Hypothesis Hn : 0 < nk.

  Definition extends (d d' : @data V) : Prop := forall k v, d k = Some v -> d' k = Some v.

  Lemma fulfilled_iff d sym : fulfilled eqV angle nk d sym = true <->
    forall k v w, in_mesh nk k -> d k = Some v -> d (get_image angle nk sym k) = Some w -> v = w.
  Proof.
    unfold fulfilled. rewrite forallb_forall. split.
    - intros H k v w Hk Ev Ew. specialize (H k (proj2 (in_mesh2 nk k) Hk)). rewrite Ev, Ew in H. cbn in H.
      rewrite negb_involutive in H. apply eqV_ok; exact H.
    - intros H k Hk. apply in_mesh2 in Hk. destruct (d k) as [v|] eqn:Ev; [|reflexivity].
      destruct (d (get_image angle nk sym k)) as [w|] eqn:Ew; [|reflexivity]. cbn. rewrite negb_involutive.
      apply eqV_ok. exact (H k v w Hk Ev Ew).
  Qed.

  Section Step.
    Context (irr : list pt) (d : @data V) (sym : bool * nat).
    Hypothesis Hirr : forall k, In k irr -> in_mesh nk k /\ d k <> None.
    Hypothesis Hf : fulfilled eqV angle nk d sym = true.

    Lemma step_fold l : incl l irr -> forall e, extends d e ->
      (forall q, e q = d q \/ exists k, In k irr /\ q = get_image angle nk sym k /\ e q = d k) ->
      let e' := fold_left (fun d k => update d (get_image angle nk sym k) (d k)) l e in
      extends d e' /\ extends d e' /\
      (forall q, e' q = d q \/ exists k, In k irr /\ q = get_image angle nk sym k /\ e' q = d k) /\
      (forall q, e q <> None -> e' q <> None) /\
      (forall k, In k l -> e' (get_image angle nk sym k) <> None).
    Proof.
      induction l as [|k l IH]; intros Hl e He Hs; cbn [fold_left].
      { cbn. repeat split; auto. }
      assert (Hk : In k irr) by (apply Hl; left; reflexivity).
      destruct (Hirr k Hk) as [Hm Hne]. destruct (d k) as [v|] eqn:Ev; [|congruence].
      assert (Eek : e k = Some v) by (apply He; exact Ev).
      set (e1 := update e (get_image angle nk sym k) (e k)).
      assert (He1 : extends d e1).
      { intros q w Hq. unfold e1, update. destruct (pt_eq_dec q _) as [->|]; [|apply He; exact Hq].
        rewrite Eek. f_equal. exact (proj1 (fulfilled_iff d sym) Hf k v w Hm Ev Hq). }
      destruct (IH (fun x Hx => Hl x (or_intror Hx)) e1 He1) as (H1 & _ & H2 & H3 & H4).
      { intros q. unfold e1, update. destruct (pt_eq_dec q _) as [->|]; [|apply Hs].
        right. exists k. rewrite Eek, Ev. auto. }
      cbn. split; [exact H1|]. split; [exact H1|]. split; [exact H2|].
      assert (H5 : forall q, e q <> None -> e1 q <> None).
      { intros q Hq. unfold e1, update. destruct (pt_eq_dec q _); [congruence|exact Hq]. }
      split; [intros q Hq; apply H3, H5; exact Hq|].
      intros x [<-|Hx]; [|apply H4; exact Hx]. apply H3. unfold e1, update.
      destruct (pt_eq_dec _ _); congruence.
    Qed.

    Lemma apply_sym_spec :
      let e := apply_sym angle nk irr d sym in
      extends d e /\
      (forall q, e q = d q \/ exists k, In k irr /\ q = get_image angle nk sym k /\ e q = d k) /\
      (forall k, In k irr -> e (get_image angle nk sym k) <> None).
    Proof.
      destruct (step_fold irr (fun x H => H) d (fun _ _ H => H) (fun q => or_introl eq_refl)) as (H1 & _ & H2 & _ & H3).
      auto.
    Qed.
  End Step.

  (** Values come from equivalent points. *)
  Definition sourced (d0 d : @data V) : Prop :=
    forall q v, d q = Some v -> d0 q = Some v \/ exists k, in_mesh nk k /\ equivalent angle nk k q /\ d0 k = Some v.

  Lemma complete_loop_spec d0 irr l : incl l (syms angle false) ->
    (forall k, In k irr -> in_mesh nk k /\ d0 k <> None) ->
    forall d, extends d0 d -> sourced d0 d ->
    extends d (complete_loop eqV angle nk irr l d) /\ sourced d0 (complete_loop eqV angle nk irr l d).
  Proof.
    intros Hl Hirr. induction l as [|sym l IH]; intros d He Hs; cbn [complete_loop].
    { split; [intros k v H; exact H|exact Hs]. }
    assert (Hl' : incl l (syms angle false)) by (intros x Hx; apply Hl; right; exact Hx).
    specialize (IH Hl').
    destruct (fulfilled eqV angle nk d sym) eqn:Hf; [|apply IH; assumption].
    assert (Hirr' : forall k, In k irr -> in_mesh nk k /\ d k <> None).
    { intros k Hk. destruct (Hirr k Hk) as [Hm Hne]. split; [exact Hm|].
      destruct (d0 k) as [v|] eqn:E; [|congruence]. rewrite (He k v E). discriminate. }
    destruct (apply_sym_spec irr d sym Hirr' Hf) as (H1 & H2 & _).
    set (e := apply_sym angle nk irr d sym) in *.
    assert (He' : extends d0 e) by (intros k v H; apply H1, He; exact H).
    assert (Hs' : sourced d0 e).
    { intros q v Hq. destruct (H2 q) as [E|(k & Hk & Eq & E)].
      - rewrite E in Hq. apply Hs; exact Hq.
      - right. exists k. destruct (Hirr k Hk) as [Hm Hne]. split; [exact Hm|]. split.
        + rewrite Eq. apply get_image_equivalent with false; try assumption. apply Hl; left; reflexivity.
        + rewrite E in Hq. destruct (d0 k) as [w|] eqn:Ew; [|congruence]. rewrite (He k w Ew) in Hq. exact Hq. }
    destruct (existsb _ _).
    - destruct (IH e He' Hs') as [H3 H4]. split; [intros k v H; apply H3, H1; exact H|exact H4].
    - split; [exact H1|exact Hs'].
  Qed.

  Let irr0 (d : @data V) := filter (fun k => negb (isnan (d k))) (mesh2 nk).

  Lemma irr0_spec d k : In k (irr0 d) <-> in_mesh nk k /\ d k <> None.
  Proof.
    unfold irr0. rewrite filter_In, in_mesh2. destruct (d k); cbn; intuition congruence.
  Qed.

  Lemma sourced_refl d : sourced d d.
  Proof. intros q v H. left; exact H. Qed.

  Lemma complete_extends d k v : d k = Some v -> complete eqV angle nk d k = Some v.
  Proof.
    unfold complete. fold (irr0 d). destruct (_ =? _)%nat; [auto|].
    apply (complete_loop_spec d (irr0 d) (syms angle false) (fun x H => H) (fun k => proj1 (irr0_spec d k))
             d (fun _ _ H => H) (sourced_refl d)).
  Qed.

  Lemma complete_source d k v : in_mesh nk k -> complete eqV angle nk d k = Some v ->
    exists k0, in_mesh nk k0 /\ equivalent angle nk k0 k /\ d k0 = Some v.
  Proof.
    intros Hk. assert (H0 : d k = Some v -> exists k0, in_mesh nk k0 /\ equivalent angle nk k0 k /\ d k0 = Some v).
    { intros H. exists k. split; [exact Hk|]. split; [apply equivalent_refl; exact Hn|exact H]. }
    unfold complete. fold (irr0 d). destruct (_ =? _)%nat; [exact H0|].
    intros H. apply (complete_loop_spec d (irr0 d) (syms angle false) (fun x H => H) (fun k => proj1 (irr0_spec d k))
             d (fun _ _ H => H) (sourced_refl d)) in H. destruct H as [H|H]; [exact (H0 H)|exact H].
  Qed.

  (** Data from a symmetric function. *)
  Section Symmetric.
    Context (g : pt -> V).
    Hypothesis Hg : forall k k', in_mesh nk k -> in_mesh nk k' -> equivalent angle nk k k' -> g k = g k'.

    Definition agrees (d : @data V) : Prop := forall k v, in_mesh nk k -> d k = Some v -> v = g k.

    Lemma agrees_fulfilled d sym : agrees d -> In sym (syms angle false) -> fulfilled eqV angle nk d sym = true.
    Proof.
      intros Hd Hs. apply fulfilled_iff. intros k v w Hk Hv Hw.
      rewrite (Hd k v Hk Hv), (Hd _ w (get_image_in angle nk sym k Hn) Hw).
      apply Hg; [exact Hk|apply get_image_in; exact Hn|apply get_image_equivalent with false; assumption].
    Qed.

    Lemma complete_loop_fills d0 irr l : agrees d0 -> incl l (syms angle false) ->
      (forall k, In k irr -> in_mesh nk k /\ d0 k <> None) ->
      forall d, extends d0 d -> sourced d0 d ->
      let e := complete_loop eqV angle nk irr l d in
      (forall q, in_mesh nk q -> e q <> None) \/
      (forall sym k, In sym l -> In k irr -> e (get_image angle nk sym k) <> None).
    Proof.
      intros Hd0 Hl Hirr. induction l as [|sym l IH]; intros d He Hs; cbn [complete_loop].
      { right. intros sym k []. }
      assert (Hl' : incl l (syms angle false)) by (intros x Hx; apply Hl; right; exact Hx).
      specialize (IH Hl').
      assert (Hin : In sym (syms angle false)) by (apply Hl; left; reflexivity).
      assert (Hd : agrees d).
      { intros k v Hk Hv. destruct (Hs k v Hv) as [H|(k' & Hk' & Heq & H)]; [apply Hd0; assumption|].
        rewrite (Hd0 k' v Hk' H). apply Hg; assumption. }
      rewrite (agrees_fulfilled d sym Hd Hin).
      assert (Hirr' : forall k, In k irr -> in_mesh nk k /\ d k <> None).
      { intros k Hk. destruct (Hirr k Hk) as [Hm Hne]. split; [exact Hm|].
        destruct (d0 k) as [v|] eqn:E; [|congruence]. rewrite (He k v E). discriminate. }
      destruct (apply_sym_spec irr d sym Hirr' (agrees_fulfilled d sym Hd Hin)) as (H1 & H2 & H3).
      set (e := apply_sym angle nk irr d sym) in *.
      assert (He' : extends d0 e) by (intros k v H; apply H1, He; exact H).
      assert (Hs' : sourced d0 e).
      { intros q v Hq. destruct (H2 q) as [E|(k & Hk & Eq & E)].
        - rewrite E in Hq. apply Hs; exact Hq.
        - right. exists k. destruct (Hirr k Hk) as [Hm Hne]. split; [exact Hm|]. split.
          + rewrite Eq. apply get_image_equivalent with false; assumption.
          + rewrite E in Hq. destruct (d0 k) as [w|] eqn:Ew; [|congruence]. rewrite (He k w Ew) in Hq. exact Hq. }
      destruct (existsb (fun k => isnan (e k)) (mesh2 nk)) eqn:Ex.
      - destruct (IH e He' Hs') as [H|H]; [left; exact H|right].
        intros s k [<-|Hs0] Hk; [|apply H; assumption].
        destruct (complete_loop_spec d0 irr l Hl' Hirr e He' Hs') as [H4 _].
        specialize (H3 k Hk). destruct (e (get_image angle nk sym k)) as [v|] eqn:E; [|congruence].
        rewrite (H4 _ v E). discriminate.
      - left. intros q Hq Hnone. apply in_mesh2 in Hq.
        assert (T : existsb (fun k => isnan (e k)) (mesh2 nk) = true).
        { apply existsb_exists. exists q. split; [exact Hq|]. rewrite Hnone. reflexivity. }
        congruence.
    Qed.

    Lemma filter_length_le {A} (f : A -> bool) l : (length (filter f l) <= length l)%nat.
    Proof. induction l as [|a l IH]; cbn; [lia|]. destruct (f a); cbn; lia. Qed.

    Lemma filter_full {A} (f : A -> bool) l : length (filter f l) = length l -> forall x, In x l -> f x = true.
    Proof.
      induction l as [|a l IH]; cbn; intros H x []; subst.
      - destruct (f x) eqn:E; [reflexivity|exfalso]. pose proof (filter_length_le f l). lia.
      - destruct (f a); cbn in H; [apply IH; [lia|assumption]|]. pose proof (filter_length_le f l). lia.
    Qed.

    Lemma complete_symmetric d k k0 : agrees d -> in_mesh nk k -> in_mesh nk k0 ->
      equivalent angle nk k0 k -> d k0 <> None -> complete eqV angle nk d k = Some (g k).
    Proof.
      intros Hd Hk Hk0 Heq Hne.
      assert (Hval : forall v, complete eqV angle nk d k = Some v -> v = g k).
      { intros v Hv. destruct (complete_source d k v Hk Hv) as (q & Hq & Hqk & E).
        rewrite (Hd q v Hq E). apply Hg; assumption. }
      enough (Hnn : complete eqV angle nk d k <> None).
      { destruct (complete eqV angle nk d k) as [v|]; [|congruence]. f_equal. apply Hval. reflexivity. }
      unfold complete. fold (irr0 d). destruct (length (irr0 d) =? length (mesh2 nk))%nat eqn:E.
      - apply Nat.eqb_eq in E. pose proof (filter_full _ _ E k (proj2 (in_mesh2 nk k) Hk)) as H. cbn in H.
        destruct (d k); [discriminate|discriminate H].
      - destruct (complete_loop_fills d (irr0 d) (syms angle false) Hd (fun x H => H) (fun k => proj1 (irr0_spec d k))
             d (fun _ _ H => H) (sourced_refl d)) as [H|H]; [apply H; exact Hk|].
        apply equivalent_iff in Heq; [|assumption..]. destruct Heq as (M & HM & EM).
        rewrite (pmod_id nk k Hk) in EM. destruct (group_syms angle M Ha HM) as [->|(sym & Hs & <-)].
        + rewrite act_unit, (pmod_id nk k0 Hk0) in EM. subst k0.
          destruct (d k) as [v|] eqn:Ev; [|congruence].
          rewrite (proj1 (complete_loop_spec d (irr0 d) (syms angle false) (fun x H => H) (fun k => proj1 (irr0_spec d k))
             d (fun _ _ H => H) (sourced_refl d)) k v Ev). discriminate.
        + rewrite <- get_image_act in EM. rewrite EM. apply H; [exact Hs|]. apply irr0_spec. split; assumption.
    Qed.

    Lemma complete_irreducible d irr : agrees d -> irreducibles nk angle = Ok irr ->
      (forall k, In k irr -> d k <> None) -> forall k, in_mesh nk k -> complete eqV angle nk d k = Some (g k).
    Proof.
      intros Hd E Hirr k Hk. destruct (irreducibles_unique angle nk Ha Hn irr k E Hk) as (r & [Hr Hrk] & _).
      destruct (irreducibles_spec angle nk Ha Hn) as (irr' & E' & _ & H). rewrite E in E'. injection E' as <-.
      apply (complete_symmetric d k r); [exact Hd|exact Hk|apply H; exact Hr|exact Hrk|apply Hirr; exact Hr].
    Qed.
  End Symmetric.
End Complete.
