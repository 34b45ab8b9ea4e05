(** Proofs about SymModel.v: completion of the k dependence. *)
From Coq Require Import Permutation.
From Verif Require Import Common CommonProofs LatModel LatProofs SymModel SymSpec SymProofs SymProofs2.
Local Open Scope Z_scope.

Lemma a60 : allowed_angle 60.
Proof. left; reflexivity. Qed.

Lemma group_syms_all angle M : allowed_angle angle -> In M (group angle) ->
  exists sym, In sym (syms angle true) /\ symM angle sym = M.
Proof.
  intros Ha H.
  assert (E : forallb (fun M => existsb (fun s => mat2_eqb (symM angle s) M) (syms angle true)) (group angle) = true)
    by (angles Ha; vm_compute; reflexivity).
  rewrite forallb_forall in E. specialize (E M H).
  apply existsb_exists in E. destruct E as (s & Hs & E). exists s. split; [exact Hs|apply mat2_eqb_eq; exact E].
Qed.

(** Symmetries are onto. *)
Lemma get_image_onto angle nk sym b K : allowed_angle angle -> 0 < nk -> In sym (syms angle b) -> in_mesh nk K ->
  exists k, in_mesh nk k /\ get_image angle nk sym k = K.
Proof.
  intros Ha Hn Hs HK. pose proof (syms_group angle sym b Ha Hs) as HM.
  destruct (group_inverse angle _ Ha HM) as (B & HB & E).
  destruct (group_inverse angle _ Ha HB) as (C & HC & E').
  assert (EC : C = symM angle sym).
  { assert (H1 : forall A, mulM A unitM = A) by (intros []; unfold mulM, unitM; cbn -[Z.add Z.mul]; f_equal; ring).
    assert (H2 : forall A, mulM unitM A = A) by (intros []; unfold mulM, unitM; cbn -[Z.add Z.mul]; f_equal; ring).
    assert (H3 : forall X Y Z', mulM X (mulM Y Z') = mulM (mulM X Y) Z') by (intros [] [] []; unfold mulM; cbn -[Z.add Z.mul]; f_equal; ring).
    rewrite <- (H1 C), <- E, H3, E', H2. reflexivity. }
  exists (pmod nk (act B K)). split; [apply pmod_in; exact Hn|].
  rewrite get_image_act, act_pmod, <- act_mul, <- EC, E', act_unit. apply pmod_id; exact HK.
Qed.

Section CompleteK.
  Context {V : Type} (nq nk : Z) (F : pt -> pt -> V).
  Hypothesis Hq : 0 < nq.
  Hypothesis Hk : 0 < nk.
  Hypothesis HF : forall sym q k, In sym (syms 60 true) -> in_mesh nq q -> in_mesh nk k ->
    F (get_image 60 nq sym q) (get_image 60 nk sym k) = F q k.

  Definition good (st : list pt * @mesh4 V) : Prop :=
    (forall Q K v, snd st Q K = Some v -> in_mesh nq Q /\ in_mesh nk K /\ v = F Q K) /\
    (forall Q K, In Q (fst st) -> in_mesh nk K -> snd st Q K <> None).

  Lemma fill_fold sym q (Hs : In sym (syms 60 true)) (Hqm : in_mesh nq q) l : (forall k, In k l -> in_mesh nk k) ->
    forall m : mesh4, (forall Q K v, m Q K = Some v -> in_mesh nq Q /\ in_mesh nk K /\ v = F Q K) ->
    let m' := fold_left (fun m k => update4 m (get_image 60 nq sym q) (get_image 60 nk sym k) (F q k)) l m in
    (forall Q K v, m' Q K = Some v -> in_mesh nq Q /\ in_mesh nk K /\ v = F Q K) /\
    (forall Q K, m Q K <> None -> m' Q K <> None) /\
    (forall k, In k l -> m' (get_image 60 nq sym q) (get_image 60 nk sym k) <> None).
  Proof.
    induction l as [|k l IH]; intros Hl m Hm; cbn [fold_left].
    { cbn. repeat split; try apply (Hm _ _ _ H); tauto. }
    set (m1 := update4 m _ _ _).
    assert (Hm1 : forall Q K v, m1 Q K = Some v -> in_mesh nq Q /\ in_mesh nk K /\ v = F Q K).
    { intros Q K v. unfold m1, update4. destruct (pt_eq_dec Q _) as [->|]; [|apply Hm].
      destruct (pt_eq_dec K _) as [->|]; [|apply Hm]. intros H. injection H as <-.
      split; [apply get_image_in; exact Hq|]. split; [apply get_image_in; exact Hk|].
      symmetry. apply HF; [exact Hs|exact Hqm|]. apply Hl. left; reflexivity. }
    destruct (IH (fun x Hx => Hl x (or_intror Hx)) m1 Hm1) as (H1 & H2 & H3). cbn. split; [exact H1|].
    assert (H4 : forall Q K, m Q K <> None -> m1 Q K <> None).
    { intros Q K H. unfold m1, update4. destruct (pt_eq_dec Q _); [|exact H]. destruct (pt_eq_dec K _); [discriminate|exact H]. }
    split; [intros Q K H; apply H2, H4; exact H|].
    intros x [<-|Hx]; [|apply H3; exact Hx]. apply H2. unfold m1, update4.
    destruct (pt_eq_dec _ _); [|congruence]. destruct (pt_eq_dec _ _); [discriminate|congruence].
  Qed.

  Lemma step_good wedge sym x st : In sym (syms 60 true) -> in_mesh nq (snd x) ->
    (forall k, wedge (fst x) k = F (snd x) k) -> good st ->
    let st' := complete_k_step nq nk wedge sym st x in
    good st' /\ incl (fst st) (fst st') /\ In (get_image 60 nq sym (snd x)) (fst st').
  Proof.
    intros Hs Hx Hw [G1 G2]. destruct st as [done m]. unfold complete_k_step. cbn [fst snd] in *.
    destruct (pt_mem _ done) eqn:E.
    - apply pt_mem_iff in E. cbn. split; [split; assumption|]. split; [intros y Hy; exact Hy|exact E].
    - cbn [fst snd].
      assert (EE : fold_left (fun m k => update4 m (get_image 60 nq sym (snd x)) (get_image 60 nk sym k) (wedge (fst x) k)) (mesh2 nk) m
        = fold_left (fun m k => update4 m (get_image 60 nq sym (snd x)) (get_image 60 nk sym k) (F (snd x) k)) (mesh2 nk) m).
      { clear G1 G2 E. revert m. induction (mesh2 nk) as [|k l IH]; intros m; cbn [fold_left]; [reflexivity|]. rewrite Hw. apply IH. }
      rewrite EE.
      destruct (fill_fold sym (snd x) Hs Hx (mesh2 nk) (fun k => proj1 (in_mesh2 nk k)) m G1) as (H1 & H2 & H3).
      split; [split|split].
      + exact H1.
      + cbn [fst snd]. intros Q K [<-|HQ] HK.
        * destruct (get_image_onto 60 nk sym true K a60 Hk Hs HK) as (k & Hkm & <-). apply H3, in_mesh2; exact Hkm.
        * apply H2, G2; assumption.
      + intros y Hy. right; exact Hy.
      + left; reflexivity.
  Qed.

  Lemma fold_good wedge sym l : In sym (syms 60 true) ->
    (forall x, In x l -> in_mesh nq (snd x) /\ forall k, wedge (fst x) k = F (snd x) k) ->
    forall st, good st ->
    let st' := fold_left (complete_k_step nq nk wedge sym) l st in
    good st' /\ incl (fst st) (fst st') /\ forall x, In x l -> In (get_image 60 nq sym (snd x)) (fst st').
  Proof.
    intros Hs. induction l as [|x l IH]; intros Hl st G; cbn [fold_left].
    { cbn. split; [exact G|]. split; [intros y Hy; exact Hy|]. intros x []. }
    destruct (Hl x (or_introl eq_refl)) as [Hx Hw].
    destruct (step_good wedge sym x st Hs Hx Hw G) as (G1 & I1 & J1).
    destruct (IH (fun y Hy => Hl y (or_intror Hy)) _ G1) as (G2 & I2 & J2).
    cbn. split; [exact G2|]. split; [intros y Hy; apply I2, I1; exact Hy|].
    intros y [<-|Hy]; [apply I2; exact J1|apply J2; exact Hy].
  Qed.

  Lemma fold_syms wedge en l : incl l (syms 60 true) ->
    (forall x, In x en -> in_mesh nq (snd x) /\ forall k, wedge (fst x) k = F (snd x) k) ->
    forall st, good st ->
    let st' := fold_left (fun st sym => fold_left (complete_k_step nq nk wedge sym) en st) l st in
    good st' /\ incl (fst st) (fst st') /\
    forall sym x, In sym l -> In x en -> In (get_image 60 nq sym (snd x)) (fst st').
  Proof.
    intros Hl Hen. induction l as [|s l IH]; intros st G; cbn [fold_left].
    { cbn. split; [exact G|]. split; [intros y Hy; exact Hy|]. intros sym x []. }
    destruct (fold_good wedge s en (Hl s (or_introl eq_refl)) Hen st G) as (G1 & I1 & J1).
    destruct (IH (fun y Hy => Hl y (or_intror Hy)) _ G1) as (G2 & I2 & J2).
    cbn. split; [exact G2|]. split; [intros y Hy; apply I2, I1; exact Hy|].
    intros sym x [<-|Hs] Hx; [apply I2, J1; exact Hx|apply J2; assumption].
  Qed.

  Lemma sorted_points_in l q : In q (sorted_points nq l) <-> in_mesh nq q /\ In q l.
  Proof. unfold sorted_points. rewrite filter_In, in_mesh2, pt_mem_iff. reflexivity. Qed.

  Lemma complete_k_spec wedge irr : irreducibles nq 60 = Ok irr ->
    (forall i q, nth_error (sorted_points nq irr) i = Some q -> forall k, wedge i k = F q k) ->
    exists m, complete_k nq nk wedge = Ok m /\
      forall Q K, in_mesh nq Q -> in_mesh nk K -> m Q K = Some (F Q K).
  Proof.
    intros E Hw. unfold complete_k. rewrite E. cbn [bind].
    set (qs := sorted_points nq irr) in *. set (en := combine (seq 0 (length qs)) qs).
    assert (Hen : forall x, In x en -> nth_error qs (fst x) = Some (snd x)).
    { intros [i q] Hx. cbn. unfold en in Hx. apply In_nth_error in Hx. destruct Hx as [n Hn].
      revert Hn. generalize qs. clear. intros l. assert (H : forall s n, nth_error (combine (seq s (length l)) l) n = Some (i, q) ->
        i = (s + n)%nat /\ nth_error l n = Some q).
      { induction l as [|y l IH]; intros s m Hm; [destruct m; discriminate|]. destruct m as [|m]; cbn in Hm.
        - injection Hm as <- <-. split; [lia|reflexivity].
        - destruct (IH (S s) m Hm) as [-> H]. split; [lia|exact H]. }
      intros Hn. destruct (H 0%nat n Hn) as [-> H']. exact H'. }
    assert (Hen' : forall x, In x en -> in_mesh nq (snd x) /\ forall k, wedge (fst x) k = F (snd x) k).
    { intros x Hx. split; [|apply Hw, Hen; exact Hx].
      apply Hen, nth_error_In in Hx. apply sorted_points_in in Hx. tauto. }
    assert (G0 : good ([], fun _ _ => None)) by (split; cbn; [discriminate|tauto]).
    destruct (fold_syms wedge en (syms 60 true) (fun x H => H) Hen' _ G0) as (G & _ & J).
    eexists. split; [reflexivity|]. intros Q K HQ HK.
    set (st := fold_left _ (syms 60 true) _) in *. destruct G as [G1 G2].
    assert (Hd : In Q (fst st)).
    { destruct (irreducibles_unique 60 nq a60 Hq irr Q E HQ) as (r & [Hr HrQ] & _).
      assert (Hrm : in_mesh nq r).
      { destruct (irreducibles_spec 60 nq a60 Hq) as (irr' & E' & _ & H). rewrite E in E'. injection E' as <-. apply H; exact Hr. }
      apply equivalent_iff in HrQ; [|apply a60|exact Hq]. destruct HrQ as (M & HM & EM). rewrite (pmod_id nq Q HQ) in EM.
      destruct (group_syms_all 60 M a60 HM) as (sym & Hs & <-). rewrite <- get_image_act in EM. subst Q.
      assert (Hin : In r qs) by (apply sorted_points_in; split; assumption).
      apply In_nth_error in Hin. destruct Hin as [i Hi].
      apply (J sym (i, r) Hs). unfold en. clear - Hi.
      assert (H : forall s, In ((s + i)%nat, r) (combine (seq s (length qs)) qs)).
      { revert i Hi. generalize qs. intros l. induction l as [|y l IH]; intros i Hi s; [destruct i; discriminate|].
        destruct i as [|i]; cbn in *.
        - injection Hi as ->. left. f_equal. lia.
        - right. replace (s + S i)%nat with (S s + i)%nat by lia. apply IH; exact Hi. }
      apply (H 0%nat). }
    specialize (G2 Q K Hd HK). destruct (snd st Q K) as [v|] eqn:Ev; [|congruence].
    f_equal. apply (G1 Q K v Ev).
  Qed.
End CompleteK.
