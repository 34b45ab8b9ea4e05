(** Proofs about MiscModel.v. *)
From Coq Require Import QArith Qabs Qfield Permutation Lqa Relations.
From Verif Require Import Common CommonProofs MiscModel MiscSpec.
Local Open Scope nat_scope.

(** ** vector_index *)
Lemma row_match_true v r : row_match v r = true <-> r = v.
Proof. unfold row_match. destruct (list_eq_dec Z.eq_dec r v); split; congruence. Qed.

Lemma vector_index_Some vectors vector i :
  vector_index vectors vector = Some i <->
  nth_error vectors i = Some vector /\
  (forall j, j < i -> nth_error vectors j <> Some vector).
Proof.
  unfold vector_index.
  assert (Hf : find_index (fun b => b) (map (row_match vector) vectors) = Some i <->
    nth_error vectors i = Some vector /\
    (forall j, j < i -> nth_error vectors j <> Some vector)).
  { rewrite find_index_Some. split.
    - intros [(b & Hb & Ht) H2]. split.
      + apply nth_error_map_Some in Hb. destruct Hb as (r & Hr & <-).
        apply row_match_true in Ht. congruence.
      + intros j Hj Hv.
        assert (Hm : nth_error (map (row_match vector) vectors) j = Some true)
          by (apply nth_error_map_Some; exists vector; split; [exact Hv|apply row_match_true; reflexivity]).
        specialize (H2 j true Hj Hm). discriminate.
    - intros [H1 H2]. split.
      + exists true. split; [|reflexivity]. apply nth_error_map_Some. exists vector.
        split; [exact H1|apply row_match_true; reflexivity].
      + intros j y Hj Hy. apply nth_error_map_Some in Hy. destruct Hy as (r & Hr & <-).
        destruct (row_match vector r) eqn:E; [|reflexivity].
        apply row_match_true in E. subst r. destruct (H2 j Hj Hr). }
  destruct (existsb (fun b => b) (map (row_match vector) vectors)) eqn:E.
  - unfold argmax_bool.
    destruct (find_index (fun b => b) (map (row_match vector) vectors)) as [k|] eqn:Ek.
    + exact Hf.
    + exfalso. apply existsb_exists in E. destruct E as (b & Hb & Ht).
      rewrite (proj1 (find_index_None _ _) Ek b Hb) in Ht. discriminate.
  - split; [discriminate|]. intros [H1 _]. exfalso.
    assert (existsb (fun b => b) (map (row_match vector) vectors) = true); [|congruence].
    apply existsb_exists. exists true. split; [|reflexivity].
    apply in_map_iff. exists vector. split; [apply row_match_true; reflexivity|].
    eapply nth_error_In; eauto.
Qed.

Lemma vector_index_None vectors vector :
  vector_index vectors vector = None <-> ~ In vector vectors.
Proof.
  unfold vector_index.
  destruct (existsb (fun b => b) (map (row_match vector) vectors)) eqn:E.
  - split; [discriminate|]. intros H. exfalso. apply H.
    apply existsb_exists in E. destruct E as (b & Hb & Ht). apply in_map_iff in Hb.
    destruct Hb as (r & <- & Hr). apply row_match_true in Ht. congruence.
  - split; [|reflexivity]. intros _ Hin.
    assert (existsb (fun b => b) (map (row_match vector) vectors) = true); [|congruence].
    apply existsb_exists. exists true. split; [|reflexivity].
    apply in_map_iff. exists vector. split; [apply row_match_true; reflexivity|exact Hin].
Qed.

(** ** group *)
Section Group.
  Variables (eps : Q) (points : list (list Q)).
  Let n := length points.

  Definition pairs : list (nat * nat) :=
    flat_map (fun i => map (fun j => (i, j)) (seq (S i) (n - S i))) (seq 0 n).

  Definition close (i j : nat) : bool :=
    match nth_error points i, nth_error points j with
    | Some p, Some q => near eps p q
    | _, _ => false
    end.

  Definition gstep (groups : list nat) (ij : nat * nat) : list nat :=
    if close (fst ij) (snd ij) then relabel groups (fst ij) (snd ij) else groups.

  Lemma fold_left_flat_map {A B C} (f : A -> B -> A) (g : C -> list B) (l : list C) a :
    fold_left f (flat_map g l) a = fold_left (fun a c => fold_left f (g c) a) l a.
  Proof. revert a; induction l as [|c l IH]; intros a; cbn; [reflexivity|]. rewrite fold_left_app. apply IH. Qed.

  Lemma fold_left_map' {A B C} (f : A -> B -> A) (g : C -> B) (l : list C) a :
    fold_left f (map g l) a = fold_left (fun a c => f a (g c)) l a.
  Proof. revert a; induction l as [|c l IH]; intros a; cbn; [reflexivity|]. apply IH. Qed.

  Lemma fold_left_ext {A B} (f g : A -> B -> A) l a :
    (forall a b, f a b = g a b) -> fold_left f l a = fold_left g l a.
  Proof. intros H; revert a; induction l as [|b l IH]; intros a; cbn; [reflexivity|]. rewrite H. apply IH. Qed.

  Lemma group_labels_fold : group_labels eps points = fold_left gstep pairs (seq 0 n).
  Proof.
    unfold pairs. rewrite fold_left_flat_map. unfold group_labels. fold n.
    apply fold_left_ext. intros g i. rewrite fold_left_map'. apply fold_left_ext.
    intros g' j. unfold gstep, close. cbn [fst snd].
    destruct (nth_error points i); [|reflexivity]. destruct (nth_error points j); reflexivity.
  Qed.

  (** Equivalence closure of the close pairs among those processed. *)
  Definition R (done : list (nat * nat)) (a b : nat) : Prop :=
    In (a, b) done /\ close a b = true.

  Definition GInv (done : list (nat * nat)) (g : list nat) : Prop :=
    length g = n /\
    forall a b ga gb, nth_error g a = Some ga -> nth_error g b = Some gb ->
      (ga = gb <-> clos_refl_sym_trans nat (R done) a b).

  Lemma GInv_init : GInv [] (seq 0 n).
  Proof.
    split; [apply seq_length|]. intros a b ga gb Ha Hb.
    apply nth_error_seq in Ha, Hb. destruct Ha as [_ ->], Hb as [_ ->]. cbn.
    split.
    - intros ->. apply rst_refl.
    - intros H. induction H as [x y [[] _]|x|x y _ IH|x y z _ IH1 _ IH2]; congruence.
  Qed.

  Lemma clos_mono {A} (S T : A -> A -> Prop) a b :
    (forall x y, S x y -> T x y) ->
    clos_refl_sym_trans A S a b -> clos_refl_sym_trans A T a b.
  Proof.
    intros H HS. induction HS as [x y HS|x|x y _ IH|x y z _ IH1 _ IH2].
    - apply rst_step, H, HS.
    - apply rst_refl.
    - apply rst_sym, IH.
    - eapply rst_trans; eauto.
  Qed.

  Lemma clos_bound (S : nat -> nat -> Prop) m (H : forall x y, S x y -> x < m /\ y < m) x y :
    clos_refl_sym_trans nat S x y -> x <> y -> x < m /\ y < m.
  Proof.
    induction 1 as [u v HR|u|u v Huv IH|u v w Huv IH1 Hvw IH2]; intros Hne.
    - apply H, HR.
    - congruence.
    - assert (v < m /\ u < m) by (split; apply IH; congruence). tauto.
    - destruct (Nat.eq_dec u v) as [->|Nuv]; [apply IH2, Hne|].
      destruct (Nat.eq_dec v w) as [->|Nvw]; [apply IH1, Hne|].
      split; [apply IH1, Nuv|apply IH2, Nvw].
  Qed.

  Lemma GInv_step done g ij : GInv done g -> fst ij < n -> snd ij < n ->
    GInv (done ++ [ij]) (gstep g ij).
  Proof.
    destruct ij as [i j]. cbn [fst snd]. intros [Hlen HI] Hi Hj. unfold gstep. cbn [fst snd].
    destruct (close i j) eqn:Hc.
    - unfold relabel.
      destruct (nth_error g i) as [gi|] eqn:Egi; [|apply nth_error_None in Egi; lia].
      destruct (nth_error g j) as [gj|] eqn:Egj; [|apply nth_error_None in Egj; lia].
      assert (Hmono : forall a b, clos_refl_sym_trans nat (R done) a b ->
        clos_refl_sym_trans nat (R (done ++ [(i, j)])) a b).
      { intros a b. apply clos_mono. intros x y [Hin Hxy]. split; [apply in_or_app; auto|exact Hxy]. }
      assert (Hij : clos_refl_sym_trans nat (R (done ++ [(i, j)])) i j).
      { apply rst_step. split; [apply in_or_app; right; left; reflexivity|exact Hc]. }
      split; [rewrite map_length; exact Hlen|].
      intros a b ga' gb' Ha Hb.
      apply nth_error_map_Some in Ha, Hb.
      destruct Ha as (ga & Ha & <-), Hb as (gb & Hb & <-).
      split.
      + intros He.
        destruct (Nat.eqb_spec ga gj) as [->|Ea]; destruct (Nat.eqb_spec gb gj) as [->|Eb].
        * apply Hmono, (HI a b gj gj Ha Hb); reflexivity.
        * subst gb. apply rst_trans with j; [apply Hmono, (HI a j gj gj Ha Egj); reflexivity|].
          apply rst_trans with i; [apply rst_sym, Hij|]. apply Hmono, (HI i b gi gi Egi Hb). reflexivity.
        * subst ga. apply rst_trans with i; [apply Hmono, (HI a i gi gi Ha Egi); reflexivity|].
          apply rst_trans with j; [exact Hij|]. apply Hmono, (HI j b gj gj Egj Hb). reflexivity.
        * subst gb. apply Hmono, (HI a b ga ga Ha Hb). reflexivity.
      + (* soundness of labels along the closure *)
        intros Hclos.
        assert (Hgen : forall a b, clos_refl_sym_trans nat (R (done ++ [(i, j)])) a b ->
          a < n \/ b < n \/ a = b -> (a < n -> b < n) /\ (b < n -> a < n) /\
          forall ga gb, nth_error g a = Some ga -> nth_error g b = Some gb ->
          (if ga =? gj then gi else ga) = (if gb =? gj then gi else gb)).
        { clear a b ga gb Ha Hb Hclos. intros a b H.
          assert (H' : forall x y, R (done ++ [(i, j)]) x y -> x < n /\ y < n).
          { intros x y [_ Hxy]. unfold close in Hxy.
            destruct (nth_error points x) eqn:Ex; [|discriminate].
            destruct (nth_error points y) eqn:Ey; [|discriminate].
            split; unfold n; apply nth_error_Some; congruence. }
          induction H as [x y HR|x|x y Hxy IH|x y z Hxy IH1 Hyz IH2]; intros Hor.
          - destruct (H' x y HR) as [Hx Hy]. split; [auto|]. split; [auto|].
            intros ga gb Ha Hb. destruct HR as [Hin Hcl]. apply in_app_or in Hin.
            destruct Hin as [Hin|[Hin|[]]].
            + assert (ga = gb) by (apply (HI x y ga gb Ha Hb); apply rst_step; split; assumption).
              subst gb. reflexivity.
            + injection Hin as <- <-.
              assert (ga = gi) by congruence. assert (gb = gj) by congruence. subst ga gb.
              rewrite Nat.eqb_refl. destruct (gi =? gj); reflexivity.
          - split; [auto|]. split; [auto|]. intros ga gb Ha Hb. assert (ga = gb) by congruence. subst gb. reflexivity.
          - destruct IH as (IH1 & IH2 & IH3); [destruct Hor as [Ho|[Ho|Ho]]; auto|].
            split; [auto|]. split; [auto|]. intros ga gb Ha Hb. symmetry. apply IH3; assumption.
          - destruct (Nat.eq_dec x y) as [->|Hxne].
            { apply IH2. exact Hor. }
            destruct (Nat.eq_dec y z) as [->|Hyne].
            { apply IH1. exact Hor. }
            assert (Hxy' : x < n \/ y < n \/ x = y) by (left; apply (clos_bound _ _ H' _ _ Hxy Hxne)).
            assert (Hyz' : y < n \/ z < n \/ y = z) by (left; apply (clos_bound _ _ H' _ _ Hyz Hyne)).
            destruct (IH1 Hxy') as (A1 & A2 & A3). destruct (IH2 Hyz') as (B1 & B2 & B3).
            split; [auto|]. split; [auto|]. intros ga gb Ha Hb.
            assert (Hx : x < n) by (rewrite <- Hlen; apply nth_error_Some; congruence).
            assert (Hy : y < n) by auto. rewrite <- Hlen in Hy.
            destruct (nth_error g y) as [gy|] eqn:Ey; [|apply nth_error_None in Ey; lia].
            rewrite (A3 ga gy Ha eq_refl). apply B3; auto. }
        assert (Ha' : a < n) by (rewrite <- Hlen; apply nth_error_Some; congruence).
        apply (Hgen a b Hclos); auto.
    - split; [exact Hlen|]. intros a b ga gb Ha Hb. rewrite (HI a b ga gb Ha Hb).
      split; apply clos_mono; intros x y [Hin Hxy]; split; auto.
      + apply in_or_app; auto.
      + apply in_app_or in Hin. destruct Hin as [Hin|[Hin|[]]]; [exact Hin|].
        injection Hin as <- <-. congruence.
  Qed.

  Lemma GInv_fold l done g : GInv done g ->
    (forall ij, In ij l -> fst ij < n /\ snd ij < n) ->
    GInv (done ++ l) (fold_left gstep l g).
  Proof.
    revert done g; induction l as [|ij l IH]; intros done g HI Hl; cbn [fold_left].
    - rewrite app_nil_r. exact HI.
    - replace (done ++ ij :: l) with ((done ++ [ij]) ++ l) by (rewrite <- app_assoc; reflexivity).
      apply IH.
      + apply GInv_step; [exact HI|apply Hl; left; reflexivity|apply Hl; left; reflexivity].
      + intros kl Hkl. apply Hl. right; exact Hkl.
  Qed.

  Lemma in_pairs i j : In (i, j) pairs <-> i < j < n.
  Proof.
    unfold pairs. rewrite in_flat_map. split.
    - intros (k & Hk & Hin). apply in_map_iff in Hin. destruct Hin as (l & He & Hl).
      injection He as -> ->. apply in_seq in Hk, Hl. lia.
    - intros H. exists i. split; [apply in_seq; lia|]. apply in_map_iff. exists j.
      split; [reflexivity|apply in_seq; lia].
  Qed.

  Lemma group_labels_spec :
    length (group_labels eps points) = n /\
    forall a b ga gb, nth_error (group_labels eps points) a = Some ga ->
      nth_error (group_labels eps points) b = Some gb ->
      (ga = gb <-> clos_refl_sym_trans nat (R pairs) a b).
  Proof.
    rewrite group_labels_fold. apply (GInv_fold pairs []).
    - apply GInv_init.
    - intros [i j] H. apply in_pairs in H. cbn. lia.
  Qed.

  Hypothesis dim : nat.
  Hypothesis Hdim : Forall (fun p => length p = dim) points.

  Lemma Qltb_lt x y : Qltb x y = true <-> (x < y)%Q.
  Proof.
    unfold Qltb. rewrite negb_true_iff. split; intros H.
    - apply Qnot_le_lt. intros Hle. apply Qle_bool_iff in Hle. congruence.
    - destruct (Qle_bool y x) eqn:E; [|reflexivity]. apply Qle_bool_iff in E.
      exfalso. apply (Qlt_not_le _ _ H E).
  Qed.

  Lemma near_neighbours p q : length p = length q ->
    near eps p q = true <-> neighbours eps p q.
  Proof.
    unfold near, neighbours. revert q; induction p as [|x p IH]; intros [|y q] Hl; cbn in Hl; try discriminate; cbn.
    - split; [constructor|reflexivity].
    - rewrite andb_true_iff, Qltb_lt, IH by lia. split.
      + intros [H1 H2]. constructor; assumption.
      + intros H. inversion H; subst. auto.
  Qed.

  Lemma neighbours_sym p q : neighbours eps p q -> neighbours eps q p.
  Proof.
    unfold neighbours. induction 1 as [|x y p q Hxy _ IH]; constructor; [|exact IH].
    rewrite Qabs_Qminus. exact Hxy.
  Qed.

  Lemma dim_of i p : nth_error points i = Some p -> length p = dim.
  Proof. intros H. rewrite Forall_forall in Hdim. eapply Hdim, nth_error_In, H. Qed.

  Lemma linked_bound i j : linked eps points i j -> i < n /\ j < n.
  Proof.
    unfold n. induction 1 as [i p Hp|i j k p q _ IH Hp Hq _].
    - split; apply nth_error_Some; congruence.
    - split; [apply IH|apply nth_error_Some; congruence].
  Qed.

  Lemma linked_trans i j k : linked eps points i j -> linked eps points j k -> linked eps points i k.
  Proof.
    intros Hij Hjk. revert i Hij. induction Hjk as [j p Hp|j k l p q Hjk IH Hp Hq Hn]; intros i Hij; [exact Hij|].
    eapply linked_step; [apply IH, Hij|exact Hp|exact Hq|exact Hn].
  Qed.

  Lemma linked_sym i j : linked eps points i j -> linked eps points j i.
  Proof.
    induction 1 as [i p Hp|i j k p q Hij IH Hp Hq Hn].
    - eapply linked_refl; eauto.
    - eapply linked_trans; [|exact IH].
      eapply linked_step; [eapply linked_refl; exact Hq|exact Hq|exact Hp|apply neighbours_sym, Hn].
  Qed.

  Lemma clos_linked a b : a < n -> b < n ->
    clos_refl_sym_trans nat (R pairs) a b <-> linked eps points a b.
  Proof.
    intros Ha Hb. split.
    - intros H.
      assert (Hg : a < n -> linked eps points a b).
      { clear Ha Hb. assert (Hg2 : (a < n -> linked eps points a b) /\ (b < n -> linked eps points a b)); [|apply Hg2].
        induction H as [x y [Hin Hc]|x|x y _ IH|x y z _ IH1 _ IH2].
        - assert (linked eps points x y); [|auto].
          unfold close in Hc.
          destruct (nth_error points x) as [p|] eqn:Ex; [|discriminate].
          destruct (nth_error points y) as [q|] eqn:Ey; [|discriminate].
          eapply linked_step; [eapply linked_refl; exact Ex|exact Ex|exact Ey|].
          apply near_neighbours; [|exact Hc]. rewrite (dim_of _ _ Ex), (dim_of _ _ Ey). reflexivity.
        - assert (x < n -> linked eps points x x); [|auto]. intros Hx.
          destruct (nth_error points x) as [p|] eqn:Ex; [eapply linked_refl; exact Ex|].
          apply nth_error_None in Ex. unfold n in Hx. lia.
        - destruct IH as [I1 I2]. split; intros H; apply linked_sym; auto.
        - destruct IH1 as [I1 I2], IH2 as [J1 J2]. split; intros H.
          + specialize (I1 H). eapply linked_trans; [exact I1|]. apply J1. eapply linked_bound; exact I1.
          + specialize (J2 H). eapply linked_trans; [|exact J2]. apply I2. exact (proj1 (linked_bound _ _ J2)). }
      exact (Hg Ha).
    - induction 1 as [i p Hp|i j k p q Hij IH Hp Hq Hn]; [apply rst_refl|].
      assert (Hj : j < n) by (eapply linked_bound; exact Hij).
      eapply rst_trans; [apply IH; auto|].
      destruct (Nat.lt_trichotomy j k) as [Hjk|[->|Hjk]].
      + apply rst_step. split; [apply in_pairs; lia|]. unfold close. rewrite Hp, Hq.
        apply near_neighbours; [rewrite (dim_of _ _ Hp), (dim_of _ _ Hq); reflexivity|exact Hn].
      + apply rst_refl.
      + apply rst_sym, rst_step. split; [apply in_pairs; lia|]. unfold close. rewrite Hp, Hq.
        apply near_neighbours; [rewrite (dim_of _ _ Hp), (dim_of _ _ Hq); reflexivity|apply neighbours_sym, Hn].
  Qed.

  Lemma group_linked i j : i < n -> j < n ->
    (exists g, In g (group eps points) /\ In i g /\ In j g) <-> linked eps points i j.
  Proof.
    intros Hi Hj. destruct group_labels_spec as [Hlen Hsp].
    unfold group. set (gs := group_labels eps points) in *.
    destruct (nth_error gs i) as [gi|] eqn:Egi; [|apply nth_error_None in Egi; lia].
    destruct (nth_error gs j) as [gj|] eqn:Egj; [|apply nth_error_None in Egj; lia].
    rewrite <- (clos_linked i j Hi Hj), <- (Hsp i j gi gj Egi Egj). split.
    - intros (g & Hg & Hig & Hjg). apply in_map_iff in Hg. destruct Hg as (l & <- & _).
      apply filter_In in Hig, Hjg. rewrite Egi in Hig. rewrite Egj in Hjg.
      destruct Hig as [_ Hig], Hjg as [_ Hjg]. apply Nat.eqb_eq in Hig, Hjg. congruence.
    - intros <-. eexists. split.
      + apply in_map_iff. exists gi. split; [reflexivity|]. apply nodup_In. eapply nth_error_In; exact Egi.
      + split; apply filter_In; (split; [apply in_seq; lia|]); rewrite ?Egi, ?Egj; apply Nat.eqb_refl.
  Qed.

  Lemma filter_classes {A} (f : A -> nat) labels (xs : list A) :
    NoDup labels -> (forall x, In x xs -> In (f x) labels) ->
    Permutation (concat (map (fun g => filter (fun x => f x =? g) xs) labels)) xs.
  Proof.
    intros Hnd. revert xs; induction Hnd as [|l labels Hnl Hnd IH]; intros xs Hxs; cbn.
    - destruct xs as [|x xs]; [constructor|destruct (Hxs x (or_introl eq_refl))].
    - transitivity (filter (fun x => f x =? l) xs ++ filter (fun x => negb (f x =? l)) xs).
      + apply Permutation_app_head.
        rewrite (map_ext_in _ (fun g => filter (fun x => f x =? g) (filter (fun x => negb (f x =? l)) xs))).
        * apply IH. intros x Hx. apply filter_In in Hx. destruct Hx as [Hx Hf].
          destruct (Hxs x Hx) as [He|Hin]; [|exact Hin]. rewrite He, Nat.eqb_refl in Hf. discriminate.
        * intros g Hg. clear IH Hxs. induction xs as [|x xs IHx]; cbn; [reflexivity|].
          destruct (Nat.eqb_spec (f x) l) as [E|E]; cbn.
          -- destruct (Nat.eqb_spec (f x) g) as [E'|E']; [congruence|exact IHx].
          -- destruct (f x =? g); [f_equal|]; exact IHx.
      + clear. induction xs as [|x xs IH]; cbn; [constructor|].
        destruct (f x =? l); cbn; [constructor; exact IH|].
        eapply Permutation_trans; [apply Permutation_sym, Permutation_middle|]. constructor. exact IH.
  Qed.

  Lemma group_partition :
    Permutation (concat (group eps points)) (seq 0 n) /\
    Forall (fun g => g <> []) (group eps points).
  Proof.
    destruct group_labels_spec as [Hlen _]. unfold group.
    set (gs := group_labels eps points) in *. rewrite Hlen.
    set (f i := match nth_error gs i with Some h => h | None => n + sumN gs + 1 end).
    assert (Hf : forall i g, In i (seq 0 n) ->
      (match nth_error gs i with Some h => h =? g | None => false end) = (f i =? g)).
    { intros i g Hi. apply in_seq in Hi. unfold f.
      destruct (nth_error gs i) eqn:E; [reflexivity|]. apply nth_error_None in E. lia. }
    rewrite (map_ext_in _ (fun g => filter (fun i => f i =? g) (seq 0 n))).
    2: { intros g _. apply filter_ext_in. intros i Hi. apply Hf, Hi. }
    split.
    - apply filter_classes; [apply NoDup_nodup|].
      intros i Hi. apply in_seq in Hi. unfold f.
      destruct (nth_error gs i) eqn:E; [|apply nth_error_None in E; lia].
      apply nodup_In. eapply nth_error_In; exact E.
    - apply Forall_forall. intros g Hg. apply in_map_iff in Hg. destruct Hg as (l & <- & Hl).
      apply nodup_In in Hl. apply In_nth_error in Hl. destruct Hl as [i Hi].
      assert (Hi' : i < n) by (rewrite <- Hlen; apply nth_error_Some; congruence).
      intros He. assert (Hin : In i (filter (fun i => f i =? l) (seq 0 n))).
      { apply filter_In. split; [apply in_seq; lia|]. unfold f. rewrite Hi. apply Nat.eqb_refl. }
      rewrite He in Hin. destruct Hin.
  Qed.
End Group.

(** ** differential *)
Local Open Scope Q_scope.

Fixpoint mids (x : list Q) : list Q :=
  match x with
  | a :: ((b :: ((c :: _) as t2)) as t) => (c - a) :: mids t
  | _ => []
  end.

Fixpoint rest_w (a : Q) (x : list Q) : list Q :=
  match x with
  | [] => []
  | b :: t => match t with [] => [b - a] | c :: _ => (c - a) :: rest_w b t end
  end.

Lemma mids_combine x : map (fun ab => snd ab - fst ab)
  (combine (firstn (length x - 2) x) (skipn 2 x)) = mids x.
Proof.
  induction x as [|a x IH]; [reflexivity|].
  destruct x as [|b x]; [reflexivity|]. destruct x as [|c x]; [reflexivity|].
  cbn [length Nat.sub firstn skipn combine map mids fst snd] in *. f_equal.
  rewrite Nat.sub_0_r in IH. exact IH.
Qed.

Lemma rest_w_eq a b x y0 y1 n : n = length (a :: b :: x) ->
  nth_error (a :: b :: x) (n - 2) = Some y1 -> nth_error (a :: b :: x) (n - 1) = Some y0 ->
  mids (a :: b :: x) ++ [y0 - y1] = rest_w a (b :: x).
Proof.
  revert a b n; induction x as [|c x IH]; intros a b n -> H1 H0.
  - cbn in *. injection H1 as <-. injection H0 as <-. reflexivity.
  - cbn [mids rest_w app]. f_equal. eapply (IH b c); [reflexivity| |].
    + replace (length (a :: b :: c :: x) - 2)%nat with (S (length (b :: c :: x) - 2)) in H1 by (cbn; lia). exact H1.
    + replace (length (a :: b :: c :: x) - 1)%nat with (S (length (b :: c :: x) - 1)) in H0 by (cbn; lia). exact H0.
Qed.

Lemma rest_w_sum a b x f0 f : length x = length f ->
  dotQ (map (fun d => d / 2) (rest_w a (b :: x))) (f0 :: f) ==
  (b - a) * f0 / 2 + trapezoid (b :: x) (f0 :: f).
Proof.
  revert a b f0 f; induction x as [|c x IH]; intros a b f0 [|f1 f] Hl; cbn in Hl; try discriminate.
  - cbn. field.
  - change (rest_w a (b :: c :: x)) with ((c - a) :: rest_w b (c :: x)).
    change (trapezoid (b :: c :: x) (f0 :: f1 :: f)) with ((c - b) * (f0 + f1) / 2 + trapezoid (c :: x) (f1 :: f)).
    cbn [map dotQ]. rewrite IH by congruence. field.
Qed.

Lemma differential_trapezoid x f : (2 <= length x)%nat -> length f = length x ->
  exists dx, differential x = Ok dx /\ length dx = length x /\ dotQ dx f == trapezoid x f.
Proof.
  intros H2 Hf. destruct x as [|a [|b x]]; cbn in H2; try lia.
  unfold differential.
  set (n := length (a :: b :: x)).
  destruct (nth_error (a :: b :: x) (n - 2)) as [y1|] eqn:E1;
    [|apply nth_error_None in E1; unfold n in E1; cbn in E1; lia].
  destruct (nth_error (a :: b :: x) (n - 1)) as [y0|] eqn:E0;
    [|apply nth_error_None in E0; unfold n in E0; cbn in E0; lia].
  cbn [nth_error]. eexists. split; [reflexivity|].
  unfold n. rewrite mids_combine.
  assert (Er := rest_w_eq a b x y0 y1 n eq_refl E1 E0).
  change (map (fun d => d / 2) ((b - a) :: mids (a :: b :: x) ++ [y0 - y1]))
    with ((b - a) / 2 :: map (fun d => d / 2) (mids (a :: b :: x) ++ [y0 - y1])).
  rewrite Er. split.
  - cbn [length]. f_equal. rewrite map_length. clear. revert a b; induction x as [|c x IH]; intros a b; [reflexivity|].
    cbn [rest_w length]. f_equal. apply IH.
  - destruct f as [|f0 [|f1 f]]; cbn in Hf; try discriminate.
    change (dotQ ((b - a) / 2 :: map (fun d => d / 2) (rest_w a (b :: x))) (f0 :: f1 :: f))
      with ((b - a) / 2 * f0 + dotQ (map (fun d => d / 2) (rest_w a (b :: x))) (f1 :: f)).
    rewrite rest_w_sum by congruence.
    change (trapezoid (a :: b :: x) (f0 :: f1 :: f)) with ((b - a) * (f0 + f1) / 2 + trapezoid (b :: x) (f1 :: f)).
    field.
Qed.

Lemma differential_error x : (length x < 2)%nat -> differential x = Raise IndexError.
Proof.
  destruct x as [|a [|b x]]; cbn [length]; intros H; try lia; reflexivity.
Qed.

Lemma trapezoid_const x : forall d, trapezoid x (map (fun _ => 1) x) == last x d - hd d x.
Proof.
  intros d. induction x as [|a x IH]; cbn [hd]; [cbn; ring|].
  destruct x as [|b x]; [cbn; ring|].
  cbn [map] in *.
  change (trapezoid (a :: b :: x) (1 :: 1 :: map (fun _ => 1) x))
    with ((b - a) * (1 + 1) / 2 + trapezoid (b :: x) (1 :: map (fun _ => 1) x)).
  rewrite IH. change (last (a :: b :: x) d) with (last (b :: x) d). cbn [hd]. field.
Qed.

Lemma trapezoid_affine a b x : forall d,
  trapezoid x (map (fun t => a * t + b) x) ==
  a * (last x d ^ 2 - hd d x ^ 2) / 2 + b * (last x d - hd d x).
Proof.
  intros d. induction x as [|u x IH]; cbn [hd]; [cbn; field|].
  destruct x as [|v x]; [cbn; field|].
  cbn [map] in *.
  change (trapezoid (u :: v :: x) (a * u + b :: a * v + b :: map (fun t => a * t + b) x))
    with ((v - u) * ((a * u + b) + (a * v + b)) / 2 + trapezoid (v :: x) (a * v + b :: map (fun t => a * t + b) x)).
  rewrite IH. change (last (u :: v :: x) d) with (last (v :: x) d). cbn [hd]. field.
Qed.

Lemma dotQ_ones w : forall x, length w = length x -> dotQ w (map (fun _ : Q => 1) x) == fold_right Qplus 0 w.
Proof.
  induction w as [|u w IH]; intros [|v x] Hl; cbn in *; try discriminate; [reflexivity|].
  rewrite IH by lia. ring.
Qed.

Lemma differential_total x d : (2 <= length x)%nat ->
  exists dx, differential x = Ok dx /\ fold_right Qplus 0 dx == last x d - hd d x.
Proof.
  intros H. destruct (differential_trapezoid x (map (fun _ => 1) x) H (map_length _ _)) as (dx & H1 & H2 & H3).
  exists dx. split; [exact H1|]. rewrite <- (dotQ_ones dx x H2), H3. apply trapezoid_const.
Qed.

Lemma differential_affine x a b d : (2 <= length x)%nat ->
  exists dx, differential x = Ok dx /\
    dotQ dx (map (fun t => a * t + b) x) ==
    a * (last x d ^ 2 - hd d x ^ 2) / 2 + b * (last x d - hd d x).
Proof.
  intros H. destruct (differential_trapezoid x (map (fun t => a * t + b) x) H (map_length _ _)) as (dx & H1 & H2 & H3).
  exists dx. split; [exact H1|]. rewrite H3. apply trapezoid_affine.
Qed.

(** ** minimum *)
Lemma minimum_api args argv : six args <> None ->
  (match argv with Some a => six a = None | None => True end) ->
  minimum args argv = Raise SystemExit.
Proof. intros _ H. unfold minimum. destruct argv as [a|]; [rewrite H|]; reflexivity. Qed.

Lemma extremum_parabola a b c x1 x2 x3 y1 y2 y3 :
  ~ x1 == x2 -> ~ x2 == x3 -> ~ x1 == x3 ->
  y1 == a * x1 ^ 2 + b * x1 + c -> y2 == a * x2 ^ 2 + b * x2 + c -> y3 == a * x3 ^ 2 + b * x3 + c ->
  match extremum x1 x2 x3 y1 y2 y3 with
  | Some x0 => ~ a == 0 /\ 2 * a * x0 + b == 0
  | None => a == 0
  end.
Proof.
  intros H12 H23 H13 E1 E2 E3. unfold extremum.
  set (deno := x1 * 2 * (y2 - y3) + x2 * 2 * (y3 - y1) + x3 * 2 * (y1 - y2)).
  set (enum := x1 ^ 2 * (y2 - y3) + x2 ^ 2 * (y3 - y1) + x3 ^ 2 * (y1 - y2)).
  assert (Hd : deno == - 2 * a * ((x2 - x1) * (x3 - x2) * (x1 - x3))).
  { unfold deno. rewrite E1, E2, E3. ring. }
  assert (He : enum == b * ((x2 - x1) * (x3 - x2) * (x1 - x3))).
  { unfold enum. rewrite E1, E2, E3. ring. }
  assert (Hp : ~ (x2 - x1) * (x3 - x2) * (x1 - x3) == 0).
  { intros H. apply Qmult_integral in H. destruct H as [H|H]; [apply Qmult_integral in H; destruct H as [H|H]|].
    - apply H12. rewrite <- (Qplus_0_l x1), <- H. ring.
    - apply H23. rewrite <- (Qplus_0_l x2), <- H. ring.
    - apply H13. rewrite <- (Qplus_0_l x3), <- H. ring. }
  destruct (Qeq_bool deno 0) eqn:E.
  - apply Qeq_bool_iff in E. rewrite Hd in E. apply Qmult_integral in E. destruct E as [E|E]; [|contradiction].
    apply Qmult_integral in E. destruct E as [E|E]; [discriminate|exact E].
  - assert (Hne : ~ deno == 0) by (intros H; apply Qeq_bool_iff in H; congruence).
    assert (Ha : ~ a == 0) by (intros H; apply Hne; rewrite Hd, H; ring).
    split; [exact Ha|]. rewrite Hd, He. field.
    repeat split; try exact Ha; intros H; apply Hp; rewrite H; ring.
Qed.

Lemma minimum_command_line args a b c x1 x2 x3 y1 y2 y3 :
  ~ x1 == x2 -> ~ x2 == x3 -> ~ x1 == x3 ->
  y1 == a * x1 ^ 2 + b * x1 + c -> y2 == a * x2 ^ 2 + b * x2 + c -> y3 == a * x3 ^ 2 + b * x3 + c ->
  exists r, minimum args (Some [x1; x2; x3; y1; y2; y3]) = Ok r /\
  match r with
  | Some x0 => ~ a == 0 /\ 2 * a * x0 + b == 0
  | None => a == 0
  end.
Proof.
  intros. eexists. split; [reflexivity|]. apply (extremum_parabola a b c); assumption.
Qed.

(** ** StatusBar *)
Local Open Scope Z_scope.

Lemma columns_of_app a b : columns_of (a ++ b) = columns_of a + columns_of b.
Proof. induction a as [|e a IH]; cbn [columns_of fold_right app]; [reflexivity|]. fold columns_of in *. destruct e; unfold columns_of in *; lia. Qed.

Lemma updates_of_app b x y : updates_of b (x ++ y) = updates_of b x + updates_of b y.
Proof.
  induction x as [|o x IH]; cbn [updates_of fold_right app]; [reflexivity|].
  unfold updates_of in *. destruct o; [|destruct (b0 =? b)%nat]; lia.
Qed.

Lemma updates_of_nonneg b x : 0 <= updates_of b x.
Proof. induction x as [|o x IH]; cbn; [lia|]. unfold updates_of in *. destruct o; [|destruct (b0 =? b)%nat]; lia. Qed.

Definition Bar_at (s0 s : bars) (me : nat) (c w k : Z) : Prop :=
  foreign s = false /\ (me < created s)%nat /\
  active s = Some (me, {| counter := k; count := c; width := w; progress := w * k / c |}) /\
  exists ev, out s = out s0 ++ Title me :: ev /\ Forall (my_columns me) ev /\ columns_of ev = w * k / c.

Lemma progress_mono w c k : 0 < c -> 0 <= w -> w * k / c <= w * (k + 1) / c.
Proof. intros Hc Hw. apply Z.div_le_mono; nia. Qed.

Lemma bar_update_cols me w c k ev : 0 < c -> 0 <= w ->
  Forall (my_columns me) ev -> columns_of ev = w * k / c ->
  let p := w * (k + 1) / c in
  let cols := if (p =? w * k / c) then [] else [Columns me (Z.max 0 (p - w * k / c))] in
  Forall (my_columns me) (ev ++ cols) /\ columns_of (ev ++ cols) = p.
Proof.
  intros Hc Hw Hev Hcol p cols. pose proof (progress_mono w c k Hc Hw) as Hm. fold p in Hm.
  unfold cols. destruct (Z.eqb_spec p (w * k / c)) as [E|E].
  - rewrite app_nil_r. split; [exact Hev|congruence].
  - split.
    + apply Forall_app. split; [exact Hev|]. constructor; [|constructor]. cbn. split; [reflexivity|lia].
    + rewrite columns_of_app, Hcol. cbn. lia.
Qed.

Lemma Bar_at_step s0 s me c w k op : 0 < c -> 0 <= w ->
  Bar_at s0 s me c w k -> k + updates_of me [op] < c ->
  Bar_at s0 (bar_step true s op) me c w (k + updates_of me [op]).
Proof.
  intros Hc Hw (Hf & Hcr & Ha & ev & Ho & Hev & Hcol) Hk.
  destruct op as [c' w'|b]; cbn [bar_step].
  - rewrite Hf, Ha. cbn [orb negb]. rewrite orb_true_r. cbn [orb].
    cbn [updates_of fold_right]. rewrite Z.add_0_r.
    split; [reflexivity|]. split; [cbn; lia|]. split; [reflexivity|]. exists ev. auto.
  - rewrite Ha. cbn [updates_of fold_right] in *.
    rewrite (Nat.eqb_sym b me) in *.
    destruct (Nat.eqb_spec me b) as [<-|Hne].
    + cbn [counter count width progress]. replace (k + (0 + 1)) with (k + 1) in * by lia.
      destruct (Z.eqb_spec (k + 1) c) as [E|E]; [lia|].
      destruct (bar_update_cols me w c k ev Hc Hw Hev Hcol) as [H1 H2].
      set (p := w * (k + 1) / c) in *.
      split; [exact Hf|]. split; [exact Hcr|]. split.
      * cbn [active]. destruct (Z.eqb_spec p (w * k / c)) as [E'|E']; [rewrite <- E'|]; reflexivity.
      * cbn [out]. eexists. split; [rewrite Ho, <- app_assoc; reflexivity|]. split; assumption.
    + rewrite Z.add_0_r. split; [exact Hf|]. split; [exact Hcr|]. split; [exact Ha|]. exists ev; auto.
Qed.

Lemma Bar_at_run s0 me c w ops : 0 < c -> 0 <= w -> forall s k,
  Bar_at s0 s me c w k -> k + updates_of me ops < c ->
  Bar_at s0 (bar_run true s ops) me c w (k + updates_of me ops).
Proof.
  intros Hc Hw. induction ops as [|o ops IH]; intros s k Hs Hk.
  - cbn [updates_of fold_right]. rewrite Z.add_0_r. exact Hs.
  - change (o :: ops) with ([o] ++ ops) in *. rewrite updates_of_app in *.
    pose proof (updates_of_nonneg me ops).
    unfold bar_run. rewrite fold_left_app. cbn [fold_left].
    rewrite Z.add_assoc in *. apply IH; [|exact Hk]. apply Bar_at_step; auto; lia.
Qed.

Lemma Bar_at_new s c w : 0 < c -> foreign s = false -> active s = None ->
  Bar_at s (bar_step true s (New c w)) (created s) c w 0.
Proof.
  intros Hc Hf Ha. cbn [bar_step]. rewrite Hf, Ha. cbn [orb negb].
  destruct (Z.eqb_spec c 0) as [E|E]; [lia|]. cbn [orb].
  split; [reflexivity|]. split; [cbn; lia|]. rewrite Z.mul_0_r, Z.div_0_l by lia.
  split; [reflexivity|]. exists []. cbn. auto.
Qed.

Lemma bar_running s c w ops : foreign s = false -> active s = None -> 0 < c -> 0 <= w ->
  updates_of (created s) ops < c ->
  (exists x, active (bar_run true s (New c w :: ops)) = Some (created s, x)) /\
  exists ev, out (bar_run true s (New c w :: ops)) = out s ++ Title (created s) :: ev /\
    Forall (my_columns (created s)) ev /\ columns_of ev = w * updates_of (created s) ops / c.
Proof.
  intros Hf Ha Hc Hw Hu.
  assert (H := Bar_at_run s (created s) c w ops Hc Hw _ 0 (Bar_at_new s c w Hc Hf Ha)).
  rewrite Z.add_0_l in H. specialize (H Hu). cbn [bar_run fold_left].
  destruct H as (_ & _ & H & Hev). split; [eexists; exact H|exact Hev].
Qed.

Lemma bar_finishing s c w ops : foreign s = false -> active s = None -> 0 < c -> 0 <= w ->
  updates_of (created s) ops = c - 1 ->
  active (bar_run true s (New c w :: ops ++ [Update (created s)])) = None /\
  exists ev, out (bar_run true s (New c w :: ops ++ [Update (created s)])) =
    out s ++ Title (created s) :: ev ++ [Newline (created s)] /\
    Forall (my_columns (created s)) ev /\ columns_of ev = w.
Proof.
  intros Hf Ha Hc Hw Hu.
  assert (H := Bar_at_run s (created s) c w ops Hc Hw _ 0 (Bar_at_new s c w Hc Hf Ha)).
  rewrite Z.add_0_l, Hu in H. specialize (H ltac:(lia)).
  cbn [bar_run fold_left]. rewrite fold_left_app. cbn [fold_left].
  fold (bar_run true (bar_step true s (New c w)) ops).
  set (s' := bar_run true (bar_step true s (New c w)) ops) in *.
  destruct H as (Hf' & Hcr & Ha' & ev & Ho & Hev & Hcol).
  cbn [bar_step]. rewrite Ha', Nat.eqb_refl. cbn [counter count width progress].
  replace (c - 1 + 1) with c by lia. rewrite Z.eqb_refl. cbn [active out].
  split; [reflexivity|].
  destruct (bar_update_cols (created s) w c (c - 1) ev Hc Hw Hev Hcol) as [H1 H2].
  replace (c - 1 + 1) with c in H1, H2 by lia.
  eexists. split; [rewrite Ho, <- app_assoc; cbn [app]; rewrite (app_assoc ev); reflexivity|].
  split; [exact H1|]. rewrite H2. apply Z.div_mul. lia.
Qed.

Lemma bar_silent verbose s ops : foreign s = true \/ verbose = false -> active s = None ->
  out (bar_run verbose s ops) = out s /\ active (bar_run verbose s ops) = None.
Proof.
  intros Hs. revert s Hs; induction ops as [|o ops IH]; intros s Hs Ha; [split; [reflexivity|exact Ha]|].
  cbn [bar_run fold_left]. fold (bar_run verbose (bar_step verbose s o) ops).
  destruct o as [c w|b]; cbn [bar_step].
  - replace ((c =? 0) || foreign s || match active s with Some _ => true | None => false end || negb verbose)%bool with true.
    + apply (IH {| foreign := foreign s; active := active s; created := S (created s); out := out s |}); [destruct Hs as [Hs|Hs]; [left; exact Hs|right; exact Hs]|exact Ha].
    + destruct Hs as [-> | ->]; rewrite ?orb_true_r; reflexivity.
  - rewrite Ha. apply IH; assumption.
Qed.

(** ** xsf *)
Local Open Scope nat_scope.
Section GridProofs.
  Context {V : Type}.

  Lemma write_values_concat size i (cur vs : list V) :
    concat (write_values size i cur vs) = cur ++ vs.
  Proof.
    revert i cur; induction vs as [|v vs IH]; intros i cur; cbn [write_values].
    - destruct cur; cbn; rewrite ?app_nil_r; reflexivity.
    - destruct ((S i mod 6 =? 0) || (S i =? size)); cbn [concat]; rewrite IH, <- app_assoc; reflexivity.
  Qed.

  Lemma write_values_nonempty size i (cur vs : list V) :
    Forall (fun l => l <> [] /\ length l <= length cur + length vs) (write_values size i cur vs).
  Proof.
    revert i cur; induction vs as [|v vs IH]; intros i cur; cbn [write_values length].
    - destruct cur; constructor; [split; [discriminate|lia]|constructor].
    - destruct ((S i mod 6 =? 0) || (S i =? size)).
      + constructor; [split; [destruct cur; discriminate|rewrite app_length; cbn; lia]|].
        eapply Forall_impl; [|apply IH]. cbn. intros l [H1 H2]. split; [exact H1|lia].
      + eapply Forall_impl; [|apply IH]. cbn. intros l [H1 H2]. rewrite app_length in H2. cbn in H2. split; [exact H1|lia].
  Qed.

  Lemma read_values_concat (vs got : list V) lines :
    got ++ concat lines = vs -> Forall (fun l => l <> []) lines ->
    read_values (length vs) got lines = Ok vs.
  Proof.
    revert got; induction lines as [|l lines IH]; intros got <- Hl; cbn [read_values concat].
    - rewrite app_nil_r, Nat.leb_refl, Nat.eqb_refl. reflexivity.
    - inversion Hl as [|? ? Hne Hl']; subst.
      destruct (Nat.leb_spec (length (got ++ l ++ concat lines)) (length got)) as [H|H].
      + rewrite app_length, app_length in H. destruct l; [congruence|]. cbn in H. lia.
      + apply IH; [rewrite <- app_assoc; reflexivity|exact Hl'].
  Qed.

  Lemma length_concat_const {A} (l : list (list A)) m : Forall (fun x => length x = m) l ->
    length (concat l) = length l * m.
  Proof. induction 1 as [|x l Hx _ IH]; cbn; [reflexivity|]. rewrite app_length, IH, Hx. reflexivity. Qed.

  Lemma nth_error_concat_const {A} (l : list (list A)) m i j x : Forall (fun x => length x = m) l ->
    j < m -> nth_error l i = Some x -> nth_error (concat l) (i * m + j) = nth_error x j.
  Proof.
    intros Hl Hj. revert i; induction Hl as [|y l Hy Hl IH]; intros i Hi; [destruct i; discriminate|].
    destruct i as [|i]; cbn [nth_error] in Hi; cbn [concat].
    - injection Hi as ->. cbn [Nat.mul Nat.add]. apply nth_error_app1. lia.
    - rewrite nth_error_app2 by (cbn; lia). replace (S i * m + j - length y) with (i * m + j) by (cbn; lia).
      apply IH, Hi.
  Qed.

  Lemma flat_length n1 n2 n3 (data : nat -> nat -> nat -> V) : length (flat n1 n2 n3 data) = n1 * n2 * n3.
  Proof.
    unfold flat. rewrite (length_concat_const _ (n2 * n3)).
    - rewrite map_length, seq_length. lia.
    - apply Forall_forall. intros x Hx. apply in_map_iff in Hx. destruct Hx as (i & <- & _).
      rewrite (length_concat_const _ n3); [rewrite map_length, seq_length; reflexivity|].
      apply Forall_forall. intros y Hy. apply in_map_iff in Hy. destruct Hy as (j & <- & _).
      rewrite map_length, seq_length. reflexivity.
  Qed.

  Lemma flat_nth n1 n2 n3 (data : nat -> nat -> nat -> V) i j k : i < n1 -> j < n2 -> k < n3 ->
    nth_error (flat n1 n2 n3 data) ((i * n2 + j) * n3 + k) = Some (data i j k).
  Proof.
    intros Hi Hj Hk. unfold flat.
    replace ((i * n2 + j) * n3 + k) with (i * (n2 * n3) + (j * n3 + k)) by lia.
    erewrite (nth_error_concat_const _ (n2 * n3)); [| |nia|apply nth_error_map_Some; exists i; split; [apply nth_error_seq; split; [exact Hi|reflexivity]|reflexivity]].
    - erewrite (nth_error_concat_const _ n3); [| |exact Hk|apply nth_error_map_Some; exists j; split; [apply nth_error_seq; split; [exact Hj|reflexivity]|reflexivity]].
      + apply nth_error_map_Some. exists k. split; [apply nth_error_seq; split; [exact Hk|reflexivity]|reflexivity].
      + apply Forall_forall. intros y Hy. apply in_map_iff in Hy. destruct Hy as (j' & <- & _).
        rewrite map_length, seq_length. reflexivity.
    - apply Forall_forall. intros x Hx. apply in_map_iff in Hx. destruct Hx as (i' & <- & _).
      rewrite (length_concat_const _ n3); [rewrite map_length, seq_length; reflexivity|].
      apply Forall_forall. intros y Hy. apply in_map_iff in Hy. destruct Hy as (j' & <- & _).
      rewrite map_length, seq_length. reflexivity.
  Qed.

  Lemma xsf_values n1 n2 n3 (data : nat -> nat -> nat -> V) :
    read_values (n1 * n2 * n3) [] (write_values (n1 * n2 * n3) 0 [] (flat n1 n2 n3 data)) =
    Ok (flat n1 n2 n3 data).
  Proof.
    rewrite <- (flat_length n1 n2 n3 data) at 1. apply read_values_concat.
    - cbn [app]. apply (write_values_concat _ 0 []).
    - eapply Forall_impl; [|apply write_values_nonempty]. cbn. tauto.
  Qed.

  Lemma xsf_permuted n1 n2 n3 (data : nat -> nat -> nat -> V) i j k i' j' k' :
    i' < n1 -> j' < n2 -> k' < n3 ->
    (i' * n2 + j') * n3 + k' = (k * n2 + j) * n1 + i ->
    xsf_round_trip n1 n2 n3 data i j k = Ok (Some (data i' j' k')).
  Proof.
    intros Hi Hj Hk He. unfold xsf_round_trip. rewrite xsf_values. cbn [bind].
    unfold xsf_read_at. rewrite <- He, flat_nth by assumption. reflexivity.
  Qed.
End GridProofs.

(** ** Wmat files *)
Section WmatProofs.
  Context {V : Type}.
  Notation field := (@field V).

  Definition entry (W : nat -> nat -> V * V) (ab : nat * nat) : list field :=
    [I (Z.of_nat (fst ab + 1)); I (Z.of_nat (snd ab + 1));
     F (fst (W (fst ab) (snd ab))); F (snd (W (fst ab) (snd ab)))].

  Lemma entries_prod size (W : nat -> nat -> V * V) la :
    concat (map (fun a => map (fun b =>
      [I (Z.of_nat (a + 1)); I (Z.of_nat (b + 1)); F (fst (W a b)); F (snd (W a b))])
      (seq 0 size)) la) = map (entry W) (list_prod la (seq 0 size)).
  Proof.
    induction la as [|a la IH]; cbn [map concat list_prod]; [reflexivity|].
    rewrite map_app, map_map, IH. reflexivity.
  Qed.

  Lemma Wmat_lines_app nR size (s : @Wmat_state V) l1 l2 s' :
    Wmat_lines nR size s l1 = Ok s' ->
    Wmat_lines nR size s (l1 ++ l2) = Wmat_lines nR size s' l2.
  Proof.
    revert s; induction l1 as [|l l1 IH]; intros s H; cbn [Wmat_lines app] in *; [congruence|].
    destruct (Wmat_line nR size s l) as [s1|e]; cbn [bind] in *; [apply IH, H|discriminate].
  Qed.

  Lemma Wmat_entries nR size W ps : forall (s : @Wmat_state V), Rcount s < nR ->
    Forall (fun ab => fst ab < size /\ snd ab < size) ps ->
    exists s', Wmat_lines nR size s (map (entry W) ps) = Ok s' /\
      Rcount s' = Rcount s /\ (forall n, Rarr s' n = Rarr s n) /\
      (forall n i j, (n = Rcount s /\ In (i, j) ps -> Warr s' n i j = Some (W i j)) /\
                     (~ (n = Rcount s /\ In (i, j) ps) -> Warr s' n i j = Warr s n i j)).
  Proof.
    induction ps as [|[a b] ps IH]; intros s Hs Hps.
    - exists s. cbn. split; [reflexivity|]. repeat split; intros; tauto.
    - inversion Hps as [|? ? [Ha Hb] Hps']; subst. cbn [fst snd] in Ha, Hb.
      cbn [map Wmat_lines entry fst snd Wmat_line].
      destruct (Nat.ltb_spec (Rcount s) nR) as [_|Hlt]; [|lia].
      destruct (Z.leb_spec 1 (Z.of_nat (a + 1))) as [_|?]; [|lia].
      destruct (Z.leb_spec (Z.of_nat (a + 1)) (Z.of_nat size)) as [_|?]; [|lia].
      destruct (Z.leb_spec 1 (Z.of_nat (b + 1))) as [_|?]; [|lia].
      destruct (Z.leb_spec (Z.of_nat (b + 1)) (Z.of_nat size)) as [_|?]; [|lia].
      cbn [andb bind].
      replace (Z.to_nat (Z.of_nat (a + 1) - 1)) with a by lia.
      replace (Z.to_nat (Z.of_nat (b + 1) - 1)) with b by lia.
      set (s1 := {| Rcount := Rcount s; Rarr := Rarr s; Warr := _ |}).
      destruct (IH s1 Hs Hps') as (s' & H1 & H2 & H3 & H4).
      exists s'. split; [exact H1|]. split; [exact H2|]. split; [exact H3|].
      intros n i j. destruct (H4 n i j) as [H5 H6]. cbn [s1 Rcount] in H5, H6.
      assert (Hdec : In (i, j) ps \/ ~ In (i, j) ps).
      { destruct (in_dec (fun x y : nat * nat => ltac:(decide equality; apply Nat.eq_dec)) (i, j) ps); auto. }
      split.
      + intros [Hn Hin]. destruct Hdec as [Hd|Hd]; [apply H5; auto|].
        rewrite H6 by tauto. destruct Hin as [Hin|Hin]; [|contradiction]. injection Hin as -> ->.
        subst n. cbn [s1 Warr]. rewrite !Nat.eqb_refl. cbn [andb]. destruct (W i j); reflexivity.
      + intros Hn. rewrite H6 by (intros [Hx Hy]; apply Hn; split; [exact Hx|right; exact Hy]).
        cbn [s1 Warr]. destruct (Nat.eqb_spec n (Rcount s)) as [En|En]; [|reflexivity].
        destruct (Nat.eqb_spec i a) as [Ei|Ei]; [|reflexivity].
        destruct (Nat.eqb_spec j b) as [Ej|Ej]; [|reflexivity].
        exfalso. apply Hn. split; [exact En|left; congruence].
  Qed.

  Lemma Wmat_block_read nR size (s : @Wmat_state V) R W : Rcount s < nR ->
    exists s', Wmat_lines nR size s (Wmat_block size R W) = Ok s' /\
      Rcount s' = S (Rcount s) /\
      (forall n, Rarr s' n = if n =? Rcount s then Some R else Rarr s n) /\
      (forall n i j, Warr s' n i j =
         if (n =? Rcount s) && (i <? size) && (j <? size) then Some (W i j) else Warr s n i j).
  Proof.
    intros Hs. destruct R as [[r1 r2] r3]. cbn [Wmat_block Wmat_lines Wmat_line app].
    destruct (Nat.ltb_spec (Rcount s) nR) as [_|Hlt]; [|lia]. cbn [bind].
    set (s1 := {| Rcount := Rcount s; Rarr := _; Warr := Warr s |}).
    rewrite entries_prod.
    destruct (Wmat_entries nR size W (list_prod (seq 0 size) (seq 0 size)) s1 Hs) as (s2 & H1 & H2 & H3 & H4).
    { apply Forall_forall. intros [a b] Hab. apply in_prod_iff in Hab. rewrite !in_seq in Hab. cbn. lia. }
    rewrite (Wmat_lines_app _ _ _ _ _ _ H1). cbn [Wmat_lines Wmat_line bind].
    eexists. split; [reflexivity|]. cbn [Rcount Rarr Warr].
    split; [rewrite H2; reflexivity|]. split; [intros n; rewrite H3; reflexivity|].
    intros n i j. destruct (H4 n i j) as [H5 H6]. cbn [s1 Rcount] in H5, H6.
    rewrite in_prod_iff, !in_seq in H5, H6.
    destruct (Nat.eqb_spec n (Rcount s)) as [En|En]; cbn [andb]; [|rewrite H6 by tauto; reflexivity].
    destruct (Nat.ltb_spec i size) as [Ei|Ei]; cbn [andb]; [|rewrite H6 by lia; reflexivity].
    destruct (Nat.ltb_spec j size) as [Ej|Ej]; [|rewrite H6 by lia; reflexivity].
    apply H5. lia.
  Qed.

  Lemma Wmat_blocks_read nR size Rs data : forall k (s : @Wmat_state V),
    Rcount s = k -> k + length Rs <= nR ->
    exists s', Wmat_lines nR size s
        (concat (map (fun nr => Wmat_block size (snd nr) (data (fst nr))) (combine (seq k (length Rs)) Rs))) = Ok s' /\
      (forall n, Rarr s' n = if (k <=? n) && (n <? k + length Rs) then nth_error Rs (n - k) else Rarr s n) /\
      (forall n i j, Warr s' n i j =
         if (k <=? n) && (n <? k + length Rs) && (i <? size) && (j <? size) then Some (data n i j) else Warr s n i j).
  Proof.
    induction Rs as [|r Rs IH]; intros k s Hk Hn; cbn [length seq combine map concat fst snd] in *.
    - exists s. split; [reflexivity|]. rewrite Nat.add_0_r. split; intros n; intros;
      destruct (Nat.leb_spec k n), (Nat.ltb_spec n k); cbn; try reflexivity; lia.
    - destruct (Wmat_block_read nR size s r (data k)) as (s1 & H1 & H2 & H3 & H4); [lia|].
      destruct (IH (S k) s1) as (s' & H5 & H6 & H7); [lia|lia|].
      exists s'. rewrite (Wmat_lines_app _ _ _ _ _ _ H1). split; [exact H5|]. split.
      + intros n. rewrite H6, H3, Hk.
        destruct (Nat.leb_spec (S k) n), (Nat.ltb_spec n (S k + length Rs)),
          (Nat.leb_spec k n), (Nat.ltb_spec n (k + S (length Rs))), (Nat.eqb_spec n k); cbn [andb]; try lia; try reflexivity.
        * replace (n - k) with (S (n - S k)) by lia. reflexivity.
        * subst n. rewrite Nat.sub_diag. reflexivity.
      + intros n i j. rewrite H7, H4, Hk.
        destruct (Nat.leb_spec (S k) n), (Nat.ltb_spec n (S k + length Rs)),
          (Nat.leb_spec k n), (Nat.ltb_spec n (k + S (length Rs))), (Nat.eqb_spec n k); cbn [andb]; try lia; try reflexivity;
        subst; destruct (i <? size), (j <? size); cbn [andb]; reflexivity.
  Qed.

  Lemma to_Wmat_blocks size Rs (data : nat -> nat -> nat -> V * V) k :
    concat (map (fun n => match nth_error Rs (n - k) with
      | Some r => Wmat_block size r (data n) | None => [] end) (seq k (length Rs))) =
    concat (map (fun nr => Wmat_block size (snd nr) (data (fst nr))) (combine (seq k (length Rs)) Rs)).
  Proof.
    revert k; induction Rs as [|r Rs IH]; intros k; cbn [length seq map concat combine]; [reflexivity|].
    rewrite Nat.sub_diag. cbn [nth_error fst snd]. f_equal. rewrite <- IH. f_equal.
    apply map_ext_in. intros n Hn. apply in_seq in Hn.
    replace (n - k) with (S (n - S k)) by lia. reflexivity.
  Qed.

  Lemma entries_length W ps : length (map (@entry W) ps) = length ps.
  Proof. apply map_length. Qed.

  Lemma Wmat_block_length size R (W : nat -> nat -> V * V) : length (Wmat_block size R W) = size ^ 2 + 2.
  Proof.
    destruct R as [[r1 r2] r3]. cbn [Wmat_block length]. rewrite entries_prod, app_length, map_length, prod_length, !seq_length.
    cbn. lia.
  Qed.

  Lemma find_num_wann_entries prev ls (W : nat -> nat -> V * V) ps a b rest :
    ls = map (entry W) (ps ++ [(a, b)]) ->
    find_num_wann prev (ls ++ [] :: rest) = Some (Ok (a + 1)).
  Proof.
    intros ->. revert prev; induction ps as [|p ps IH]; intros prev.
    - cbn. do 2 f_equal. lia.
    - cbn [map app]. unfold entry at 1. cbn [find_num_wann]. apply IH.
  Qed.

  Lemma square_last size : 1 <= size ->
    exists ps, list_prod (seq 0 size) (seq 0 size) = ps ++ [(size - 1, size - 1)].
  Proof.
    intros H. destruct size as [|m]; [lia|].
    replace (S m - 1) with m by lia.
    assert (Es : seq 0 (S m) = seq 0 m ++ [m]) by (rewrite seq_S; reflexivity).
    assert (Hp : forall (l1 l2 l : list nat), list_prod (l1 ++ l2) l = list_prod l1 l ++ list_prod l2 l).
    { intros l1 l2 l; induction l1 as [|x l1 IH]; cbn; [reflexivity|]. rewrite IH, app_assoc. reflexivity. }
    rewrite Es, Hp. cbn [list_prod]. rewrite app_nil_r, map_app. cbn [map].
    eexists. rewrite app_assoc. reflexivity.
  Qed.

  Lemma Wmat_round_trip size R (data : nat -> nat -> nat -> V * V) : 1 <= size -> R <> [] ->
    exists Ra Wa, read_dat_mat (to_Wmat size R data) = Ok (length R, size, Ra, Wa) /\
      (forall n, Ra n = nth_error R n) /\
      (forall n a b, n < length R -> a < size -> b < size -> Wa n a b = Some (data n a b)) /\
      (forall n a b, ~ (n < length R /\ a < size /\ b < size) -> Wa n a b = None).
  Proof.
    intros Hsz HR. unfold read_dat_mat, to_Wmat.
    assert (Hb := to_Wmat_blocks size R data 0).
    rewrite (map_ext _ (fun n => match nth_error R n with
      | Some r => Wmat_block size r (data n) | None => [] end)) in Hb
      by (intros n; rewrite Nat.sub_0_r; reflexivity).
    rewrite Hb. clear Hb.
    set (blocks := concat _).
    assert (Hlen : length blocks = length R * (size ^ 2 + 2)).
    { unfold blocks. rewrite (length_concat_const _ (size ^ 2 + 2)).
      - rewrite map_length, combine_length, seq_length. lia.
      - apply Forall_forall. intros x Hx. apply in_map_iff in Hx. destruct Hx as (nr & <- & _). apply Wmat_block_length. }
    change (skipn 3 ([[Word]; [Word]; [Word]] ++ blocks)) with blocks.
    change (nth 2 ([[Word]; [Word]; [Word]] ++ blocks) []) with ([@Word V]).
    assert (Hf : find_num_wann [Word] blocks = Some (Ok size)).
    { unfold blocks. destruct R as [|[[r1 r2] r3] R]; [congruence|].
      cbn [length seq combine map concat fst snd Wmat_block app find_num_wann].
      rewrite entries_prod. destruct (square_last size Hsz) as [ps Hps]. rewrite Hps.
      rewrite <- app_assoc. cbn [app].
      rewrite (find_num_wann_entries _ _ (data 0) ps (size - 1) (size - 1)) by reflexivity.
      do 2 f_equal. lia. }
    rewrite Hf.
    replace ((length ([[Word]; [Word]; [Word]] ++ blocks) - 3) / (1 + size ^ 2 + 1)) with (length R).
    2: { rewrite app_length. cbn [length]. rewrite Hlen.
         replace (3 + length R * (size ^ 2 + 2) - 3) with (length R * (1 + size ^ 2 + 1)) by lia.
         rewrite Nat.div_mul by lia. reflexivity. }
    destruct (Wmat_blocks_read (length R) size R data 0
      {| Rcount := 0; Rarr := fun _ => None; Warr := fun _ _ _ => None |} eq_refl (le_n _)) as (s' & H1 & H2 & H3).
    unfold blocks. rewrite H1. cbn [bind]. do 2 eexists. split; [reflexivity|]. split; [|split].
    - intros n. rewrite H2. cbn [Rarr Nat.leb andb Nat.add]. rewrite Nat.sub_0_r.
      destruct (Nat.ltb_spec n (length R)) as [H|H]; [reflexivity|]. symmetry. apply nth_error_None. exact H.
    - intros n a b Hn Ha Hbb. rewrite H3. cbn [Nat.add].
      destruct (Nat.leb_spec 0 n), (Nat.ltb_spec n (length R)), (Nat.ltb_spec a size), (Nat.ltb_spec b size); try lia. reflexivity.
    - intros n a b Hn. rewrite H3. cbn [Nat.add Warr].
      destruct (Nat.leb_spec 0 n), (Nat.ltb_spec n (length R)), (Nat.ltb_spec a size), (Nat.ltb_spec b size); try reflexivity. lia.
  Qed.

  Lemma Wmat_empty size (data : nat -> nat -> nat -> V * V) :
    read_dat_mat (to_Wmat size [] data) = Raise UnboundLocalError.
  Proof. reflexivity. Qed.
End WmatProofs.
