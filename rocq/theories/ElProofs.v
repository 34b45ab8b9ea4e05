(** Proofs about ElModel.v. *)
From Coq Require Import Permutation Sorted.
From Verif Require Import Common CommonProofs LatModel LatSpec LatProofs Num NumProofs ElModel ElSpec.

Section ElProofs.
  Context {F : num}.
  Add Ring F_ring2 : (n_ring F).
  Local Open Scope num_scope.
  Notation mat := (@mat F).
  Notation el := (@el F).

  Implicit Types (d h : list (vec * mat)) (m : el).

  Definition keys (d : list (vec * mat)) : list vec := map fst d.

  (** ** Dictionaries *)
  Lemma dget_In d R (m : mat) : dget d R = Some m -> In (R, m) d.
  Proof.
    induction d as [|[Q x] d IH]; cbn; [discriminate|]. destruct (veqb Q R) eqn:E.
    - apply veqb_eq in E. intros H. injection H as ->. left. congruence.
    - intros H. right. apply IH, H.
  Qed.

  Lemma dget_None d R : dget d R = None <-> ~ In R (keys d).
  Proof.
    induction d as [|[Q x] d IH]; cbn; [tauto|]. destruct (veqb Q R) eqn:E.
    - apply veqb_eq in E. split; [discriminate|]. intros H. exfalso. auto.
    - rewrite IH. split; [|tauto]. intros H [H'|H']; [|contradiction].
      subst Q. rewrite veqb_refl in E. discriminate.
  Qed.

  Lemma dget_nodup d R (m : mat) : NoDup (keys d) -> In (R, m) d -> dget d R = Some m.
  Proof.
    induction d as [|[Q x] d IH]; cbn; [intros _ []|]. intros Hnd [H|H].
    - injection H as -> ->. rewrite veqb_refl. reflexivity.
    - inversion Hnd as [|? ? Hn Hnd']; subst. destruct (veqb Q R) eqn:E; [|apply IH; assumption].
      apply veqb_eq in E. subst Q. exfalso. apply Hn. apply (in_map fst) in H. exact H.
  Qed.

  Lemma dget_dset d R (m : mat) Q : dget (dset d R m) Q = if veqb R Q then Some m else dget d Q.
  Proof.
    induction d as [|[S x] d IH]; cbn.
    - reflexivity.
    - destruct (veqb S R) eqn:E.
      + apply veqb_eq in E. subst S. cbn. destruct (veqb R Q); reflexivity.
      + cbn. destruct (veqb S Q) eqn:E2; [|exact IH].
        apply veqb_eq in E2. subst S. destruct (veqb R Q) eqn:E3; [|reflexivity].
        apply veqb_eq in E3. subst R. rewrite veqb_refl in E. discriminate.
  Qed.

  Lemma keys_dset d R (m : mat) : keys (dset d R m) = if dget d R then keys d else keys d ++ [R].
  Proof.
    induction d as [|[S x] d IH]; cbn; [reflexivity|].
    destruct (veqb S R) eqn:E; cbn; [reflexivity|]. unfold keys in IH. rewrite IH.
    destruct (dget d R); reflexivity.
  Qed.

  Lemma NoDup_dset d R (m : mat) : NoDup (keys d) -> NoDup (keys (dset d R m)).
  Proof.
    intros H. rewrite keys_dset. destruct (dget d R) eqn:E; [exact H|].
    apply dget_None in E. apply NoDup_app'; [exact H|repeat constructor; intros []|].
    intros x Hx [<-|[]]. contradiction.
  Qed.

  Lemma in_keys_dset d R (m : mat) Q : In Q (keys (dset d R m)) <-> Q = R \/ In Q (keys d).
  Proof.
    rewrite keys_dset. destruct (dget d R) eqn:E.
    - apply dget_In in E. apply (in_map fst) in E. cbn in E. split; [auto|]. intros [->|H]; [exact E|exact H].
    - rewrite in_app_iff. cbn. intuition.
  Qed.

  Lemma in_keys_dadd d R (m : mat) Q : In Q (keys (dadd d R m)) <-> Q = R \/ In Q (keys d).
  Proof. unfold dadd. destruct (dget d R); apply in_keys_dset. Qed.

  Lemma NoDup_dadd d R (m : mat) : NoDup (keys d) -> NoDup (keys (dadd d R m)).
  Proof. intros H. unfold dadd. destruct (dget d R); apply NoDup_dset, H. Qed.

  (** ** Linear functionals of the hopping *)
  Definition Gsum (g : vec -> mat -> F) (h : list (vec * mat)) : F := nsum (fun x => g (fst x) (snd x)) h.

  Definition additive (g : vec -> mat -> F) : Prop :=
    forall R x y, g R (madd x y) = g R x + g R y.

  (** [g] only looks at elements of orbitals below [sz]. *)
  Definition local (sz : nat) (g : vec -> mat -> F) : Prop :=
    forall R x, (forall a b, a < sz -> b < sz -> x a b = n0) -> g R x = n0.

  Lemma Gsum_dset g d R x (m : mat) : dget d R = Some x ->
    Gsum g (dset d R m) = Gsum g d - g R x + g R m.
  Proof.
    unfold Gsum. induction d as [|[Q y] d IH]; cbn; [discriminate|].
    destruct (veqb Q R) eqn:E; cbn.
    - apply veqb_eq in E. subst Q. intros H. injection H as ->. ring.
    - intros H. rewrite IH by exact H. ring.
  Qed.

  Lemma Gsum_dset_new g d R (m : mat) : dget d R = None -> Gsum g (dset d R m) = Gsum g d + g R m.
  Proof.
    unfold Gsum. induction d as [|[Q y] d IH]; cbn; [intros _; ring|].
    destruct (veqb Q R) eqn:E; cbn; [discriminate|]. intros H. rewrite IH by exact H. ring.
  Qed.

  Lemma Gsum_dadd g d R (m : mat) : additive g -> Gsum g (dadd d R m) = Gsum g d + g R m.
  Proof.
    intros Hg. unfold dadd. destruct (dget d R) as [x|] eqn:E.
    - rewrite (Gsum_dset g d R x) by exact E. rewrite Hg. ring.
    - apply Gsum_dset_new, E.
  Qed.

  Lemma nonzero_false sz (m : mat) : nonzero sz m = false <-> (forall a b, a < sz -> b < sz -> m a b = n0).
  Proof.
    unfold nonzero. split.
    - intros H a b Ha Hb. destruct (neqb (m a b) n0) eqn:E; [apply n_eqb, E|].
      assert (existsb (fun a => existsb (fun b => negb (neqb (m a b) n0)) (seq 0 sz)) (seq 0 sz) = true); [|congruence].
      apply existsb_exists. exists a. split; [apply in_seq; lia|]. apply existsb_exists. exists b.
      split; [apply in_seq; lia|]. rewrite E. reflexivity.
    - intros H. destruct (existsb _ _) eqn:E; [|reflexivity].
      apply existsb_exists in E. destruct E as (a & Ha & E). apply existsb_exists in E. destruct E as (b & Hb & E).
      apply in_seq in Ha, Hb. rewrite H, neqb_refl in E by lia. discriminate.
  Qed.

  (** ** standardize *)
  Lemma std_fold g sz h : additive g -> local sz g -> forall d,
    Gsum g (fold_left (std_step sz false) h d) = Gsum g d + Gsum g h.
  Proof.
    intros Ha Hl. induction h as [|x h IH]; intros d; cbn [fold_left]; [cbn; ring|].
    rewrite IH. change (Gsum g (x :: h)) with (g (fst x) (snd x) + Gsum g h).
    unfold std_step. destruct (nonzero sz (snd x)) eqn:E.
    - rewrite Gsum_dadd by exact Ha. ring.
    - rewrite (Hl (fst x) (snd x)) by (apply nonzero_false, E). ring.
  Qed.

  Lemma std_fold_sym g sz h : additive g -> local sz g -> forall d,
    Gsum g (fold_left (std_step sz true) h d) =
    Gsum g d + Gsum (fun R y => g R y + g (vopp R) (mdag y)) h.
  Proof.
    intros Ha Hl. induction h as [|x h IH]; intros d; cbn [fold_left]; [cbn; ring|].
    rewrite IH. change (Gsum (fun R y => g R y + g (vopp R) (mdag y)) (x :: h)) with
      (g (fst x) (snd x) + g (vopp (fst x)) (mdag (snd x)) + Gsum (fun R y => g R y + g (vopp R) (mdag y)) h).
    unfold std_step. destruct (nonzero sz (snd x)) eqn:E.
    - rewrite !Gsum_dadd by exact Ha. ring.
    - rewrite (Hl (fst x) (snd x)) by (apply nonzero_false, E).
      rewrite (Hl (vopp (fst x)) (mdag (snd x))).
      + ring.
      + intros a b Ha' Hb'. unfold mdag. rewrite (proj1 (nonzero_false sz (snd x)) E b a) by assumption.
        apply n_conj_0.
  Qed.

  Lemma insert_hop_perm x (d : list (vec * mat)) : Permutation (insert_hop x d) (x :: d).
  Proof.
    induction d as [|y d IH]; cbn; [reflexivity|]. destruct (vleb (fst x) (fst y)); [reflexivity|].
    rewrite IH. apply perm_swap.
  Qed.

  Lemma sort_hop_perm (d : list (vec * mat)) : Permutation (sort_hop d) d.
  Proof.
    induction d as [|x d IH]; cbn; [constructor|]. etransitivity; [apply insert_hop_perm|].
    constructor. exact IH.
  Qed.

  Lemma vleb_true u v : vleb u v = true <-> vlt u v \/ u = v.
  Proof.
    assert (H : vleb u v = true <-> vlt u v \/ (vx u = vx v /\ vy u = vy v /\ vz u = vz v)).
    { unfold vleb, vlt.
      rewrite !orb_true_iff, !andb_true_iff, !orb_true_iff, !andb_true_iff, !Z.ltb_lt, !Z.eqb_eq, Z.leb_le. lia. }
    rewrite H. split; intros [H'|H']; auto.
    - right. apply vec_ext; apply H'.
    - subst v. auto.
  Qed.

  Lemma vleb_false u v : vleb u v = false -> vlt v u.
  Proof.
    unfold vleb, vlt.
    destruct (Z.ltb_spec (vx u) (vx v)), (Z.eqb_spec (vx u) (vx v)), (Z.ltb_spec (vy u) (vy v)),
      (Z.eqb_spec (vy u) (vy v)), (Z.leb_spec (vz u) (vz v)); cbn; intros; try discriminate; lia.
  Qed.

  Lemma vlt_trans u v w : vlt u v -> vlt v w -> vlt u w.
  Proof. unfold vlt. lia. Qed.

  Lemma vlt_irrefl u : ~ vlt u u.
  Proof. unfold vlt. lia. Qed.

  Lemma insert_hop_sorted x d : ~ In (fst x) (keys d) ->
    StronglySorted vlt (keys d) -> StronglySorted vlt (keys (insert_hop x d)).
  Proof.
    induction d as [|y d IH]; cbn; intros Hn Hs; [repeat constructor|].
    apply StronglySorted_inv in Hs. destruct Hs as [Hs Hy].
    destruct (vleb (fst x) (fst y)) eqn:E; cbn.
    - apply vleb_true in E. destruct E as [E|E]; [|exfalso; auto].
      constructor; [constructor; assumption|]. constructor; [exact E|].
      eapply Forall_impl; [|exact Hy]. intros z Hz. eapply vlt_trans; eassumption.
    - apply vleb_false in E. constructor; [apply IH; auto|].
      apply Forall_forall. intros z Hz.
      assert (Hz' : In z (keys (x :: d))).
      { unfold keys in *. rewrite in_map_iff in *. destruct Hz as (w & <- & Hw). exists w. split; [reflexivity|].
        apply (Permutation_in _ (insert_hop_perm x d)), Hw. }
      destruct Hz' as [<-|Hz']; [exact E|]. rewrite Forall_forall in Hy. apply Hy, Hz'.
  Qed.

  Lemma sort_hop_sorted d : NoDup (keys d) -> StronglySorted vlt (keys (sort_hop d)).
  Proof.
    induction d as [|x d IH]; cbn; intros H; [constructor|]. inversion H as [|? ? Hn Hd]; subst.
    apply insert_hop_sorted; [|apply IH, Hd]. intros Hin. apply Hn.
    unfold keys in *. rewrite in_map_iff in *. destruct Hin as (w & Hw & Hw'). exists w. split; [exact Hw|].
    apply (Permutation_in _ (sort_hop_perm d)), Hw'.
  Qed.

  Lemma Gsum_perm g h h' : Permutation h h' -> Gsum g h = Gsum g h'.
  Proof. apply nsum_perm. Qed.

  Lemma standardize_G g m : additive g -> local (size m) g ->
    Gsum g (hop (standardize (fun x => x) None false m)) = Gsum g (hop m).
  Proof.
    intros Ha Hl. unfold standardize. cbn [set_hop hop].
    rewrite (Gsum_perm _ _ _ (sort_hop_perm _)), std_fold by assumption. cbn. ring.
  Qed.

  Lemma NoDup_std sz sym h : forall d, NoDup (keys d) -> NoDup (keys (fold_left (std_step sz sym) h d)).
  Proof.
    induction h as [|x h IH]; intros d Hd; cbn [fold_left]; [exact Hd|]. apply IH.
    unfold std_step. destruct (nonzero sz (snd x)); [|exact Hd].
    destruct sym; repeat apply NoDup_dadd; exact Hd.
  Qed.

  (** The functionals used in the statements. *)
  Lemma hopping_G h R a b : hopping h R a b = Gsum (fun Q y => if veqb Q R then y a b else n0) h.
  Proof. reflexivity. Qed.

  Lemma hopping_additive R a b : additive (fun Q y => if veqb Q R then y a b else n0).
  Proof. intros Q x y. destruct (veqb Q R); [reflexivity|ring]. Qed.

  Lemma hopping_local sz R a b : a < sz -> b < sz -> local sz (fun Q y => if veqb Q R then y a b else n0).
  Proof. intros Ha Hb Q x H. rewrite H by assumption. destruct (veqb Q R); reflexivity. Qed.

  Lemma H_G e m a b : H e m a b = Gsum (fun R x => x a b * e R) (hop m).
  Proof. reflexivity. Qed.

  Lemma H_additive (e : vec -> F) a b : additive (fun R x => x a b * e R).
  Proof. intros R x y. unfold madd. ring. Qed.

  Lemma H_local (e : vec -> F) sz a b : a < sz -> b < sz -> local sz (fun R x => x a b * e R).
  Proof. intros Ha Hb R x H. rewrite H by assumption. ring. Qed.

  Lemma standardize_hopping m R a b : a < size m -> b < size m ->
    hopping (hop (standardize (fun x => x) None false m)) R a b = hopping (hop m) R a b.
  Proof. intros Ha Hb. rewrite !hopping_G. apply standardize_G; [apply hopping_additive|apply hopping_local; assumption]. Qed.

  Lemma standardize_H e m a b : a < size m -> b < size m ->
    H e (standardize (fun x => x) None false m) a b = H e m a b.
  Proof. intros Ha Hb. rewrite !H_G. apply standardize_G; [apply H_additive|apply H_local; assumption]. Qed.

  Lemma keys_map_snd (f : mat -> mat) h : keys (map (fun x => (fst x, f (snd x))) h) = keys h.
  Proof. unfold keys. rewrite map_map. reflexivity. Qed.

  Lemma standardize_sorted half small sym m :
    StronglySorted vlt (keys (hop (standardize half small sym m))).
  Proof.
    unfold standardize. cbn [set_hop hop].
    destruct sym; [rewrite (keys_map_snd (fun y a b => half (y a b)))|]; apply sort_hop_sorted, NoDup_std; constructor.
  Qed.

  Lemma in_keys_perm d d' R : Permutation d d' -> In R (keys d) -> In R (keys d').
  Proof. intros Hp. apply Permutation_in. apply Permutation_map, Hp. Qed.

  (** Keys come from nonzero entries. *)
  Lemma std_keys sz h R : forall d, In R (keys (fold_left (std_step sz false) h d)) <->
    In R (keys d) \/ exists x, In (R, x) h /\ nonzero sz x = true.
  Proof.
    induction h as [|[Q y] h IH]; intros d; cbn [fold_left].
    - split; [auto|]. intros [H|(x & [] & _)]. exact H.
    - rewrite IH. unfold std_step. cbn [fst snd]. destruct (nonzero sz y) eqn:E.
      + rewrite in_keys_dadd. split.
        * intros [[->|H]|(x & Hx & Hn)]; [right|left|right]; eauto.
          -- exists y. split; [left; reflexivity|exact E].
          -- exists x. split; [right; exact Hx|exact Hn].
        * intros [H|(x & [Hx|Hx] & Hn)]; [auto| |right; eauto].
          injection Hx as -> ->. left. left. reflexivity.
      + split.
        * intros [H|(x & Hx & Hn)]; [auto|]. right. exists x. split; [right; exact Hx|exact Hn].
        * intros [H|(x & [Hx|Hx] & Hn)]; [auto| |right; eauto].
          injection Hx as -> ->. congruence.
  Qed.

  Lemma standardize_keys m R :
    In R (keys (hop (standardize (fun x => x) None false m))) <->
    exists x, In (R, x) (hop m) /\ nonzero (size m) x = true.
  Proof.
    unfold standardize. cbn [set_hop hop]. split.
    - intros H. apply (in_keys_perm _ _ _ (sort_hop_perm _)) in H. apply std_keys in H.
      destruct H as [[]|H]. exact H.
    - intros H. apply (in_keys_perm _ _ _ (Permutation_sym (sort_hop_perm _))). apply std_keys. right. exact H.
  Qed.

  (** Already standardized models are not changed. *)
  Lemma std_fold_id sz h : forall d, NoDup (keys d ++ keys h) ->
    Forall (fun x => nonzero sz (snd x) = true) h ->
    fold_left (std_step sz false) h d = d ++ h.
  Proof.
    induction h as [|[R x] h IH]; intros d Hnd Hnz; cbn [fold_left]; [rewrite app_nil_r; reflexivity|].
    inversion Hnz as [|? ? Hx Hh]; subst. cbn [snd] in Hx.
    assert (HR : dget d R = None).
    { apply dget_None. intros Hin. cbn in Hnd. apply NoDup_remove_2 in Hnd. apply Hnd. apply in_or_app. auto. }
    assert (Hs : std_step sz false d (R, x) = d ++ [(R, x)]).
    { unfold std_step. cbn [fst snd]. rewrite Hx. unfold dadd. rewrite HR.
      clear - HR. induction d as [|[Q y] d IH]; cbn in *; [reflexivity|].
      destruct (veqb Q R); [discriminate|]. rewrite IH by exact HR. reflexivity. }
    rewrite Hs, IH.
    - rewrite <- app_assoc. reflexivity.
    - unfold keys in *. rewrite map_app, <- app_assoc. exact Hnd.
    - exact Hh.
  Qed.

  Lemma sort_hop_id d : StronglySorted vlt (keys d) -> sort_hop d = d.
  Proof.
    induction d as [|x d IH]; cbn; intros H; [reflexivity|]. apply StronglySorted_inv in H. destruct H as [Hs Hx].
    change (fold_right insert_hop [] d) with (sort_hop d). rewrite IH by exact Hs.
    destruct d as [|y d]; cbn; [reflexivity|]. inversion Hx as [|? ? Hxy _]; subst.
    rewrite (proj2 (vleb_true (fst x) (fst y))); auto.
  Qed.

  Lemma sorted_NoDup l : StronglySorted vlt l -> NoDup l.
  Proof.
    induction 1 as [|x l Hl IH Hx]; constructor; [|exact IH]. intros Hin. rewrite Forall_forall in Hx.
    apply (vlt_irrefl x), Hx, Hin.
  Qed.

  Lemma standardize_id m : StronglySorted vlt (keys (hop m)) ->
    Forall (fun x => nonzero (size m) (snd x) = true) (hop m) ->
    hop (standardize (fun x => x) None false m) = hop m.
  Proof.
    intros Hs Hn. unfold standardize. cbn [set_hop hop].
    rewrite std_fold_id; [|cbn; apply sorted_NoDup, Hs|exact Hn]. cbn [app]. apply sort_hop_id, Hs.
  Qed.

  (** ** symmetrize *)
  Lemma veqb_opp R Q : veqb (vopp R) Q = veqb R (vopp Q).
  Proof.
    destruct (veqb (vopp R) Q) eqn:E; symmetry.
    - apply veqb_eq in E. subst Q. apply veqb_eq. vring.
    - destruct (veqb R (vopp Q)) eqn:E2; [|reflexivity]. apply veqb_eq in E2. subst R.
      assert (veqb (vopp (vopp Q)) Q = true) by (apply veqb_eq; vring). congruence.
  Qed.

  Lemma vopp_opp R : vopp (vopp R) = R.
  Proof. vring. Qed.

  Definition dagger h R a b : F := hopping h R a b + nconj (hopping h (vopp R) b a).

  Lemma nconj_if (c : bool) (x : F) : nconj (if c then x else n0) = if c then nconj x else n0.
  Proof. destruct c; [reflexivity|apply n_conj_0]. Qed.

  Lemma sym_const m R a b : a < size m -> b < size m ->
    hopping (sort_hop (fold_left (std_step (size m) true) (hop m) [])) R a b = dagger (hop m) R a b.
  Proof.
    intros Ha Hb. rewrite hopping_G, (Gsum_perm _ _ _ (sort_hop_perm _)).
    rewrite std_fold_sym; [|apply hopping_additive|apply hopping_local; assumption].
    unfold dagger. rewrite !hopping_G. unfold Gsum. cbv beta. rewrite nsum_add, n_conj_sum. cbn [nsum].
    match goal with |- n0 + (?u + ?v) = _ => transitivity (u + v); [ring|] end.
    f_equal. apply nsum_ext. intros x _. rewrite veqb_opp, nconj_if. reflexivity.
  Qed.

  Lemma hopping_nodup h R a b : NoDup (keys h) ->
    hopping h R a b = match dget h R with Some x => x a b | None => n0 end.
  Proof.
    unfold hopping. induction h as [|[Q x] h IH]; cbn; [reflexivity|]. intros Hnd.
    inversion Hnd as [|? ? Hn Hnd']; subst. destruct (veqb Q R) eqn:E.
    - apply veqb_eq in E. subst Q. rewrite nsum_zero; [ring|]. intros y Hy.
      destruct (veqb (fst y) R) eqn:E; [|reflexivity]. apply veqb_eq in E. subst R.
      exfalso. apply Hn. apply in_map. exact Hy.
    - rewrite IH by exact Hnd'. ring.
  Qed.

  Lemma hopping_half (half : F -> F) h R a b : half n0 = n0 -> NoDup (keys h) ->
    hopping (map (fun x => (fst x, fun a b => half (snd x a b))) h) R a b = half (hopping h R a b).
  Proof.
    intros H0 Hnd. rewrite !hopping_nodup by (rewrite ?(keys_map_snd (fun y a b => half (y a b))); exact Hnd).
    clear Hnd. induction h as [|[Q x] h IH]; cbn; [symmetry; exact H0|].
    destruct (veqb Q R); [reflexivity|exact IH].
  Qed.

  Lemma symmetrize_hopping half m R a b : half n0 = n0 -> a < size m -> b < size m ->
    hopping (hop (standardize half None true m)) R a b = half (dagger (hop m) R a b).
  Proof.
    intros H0 Ha Hb. unfold standardize. cbn [set_hop hop].
    rewrite hopping_half; [|exact H0|apply sorted_NoDup, sort_hop_sorted, NoDup_std; constructor].
    rewrite sym_const by assumption. reflexivity.
  Qed.

  Lemma symmetrize_hermitian half m R a b : half n0 = n0 -> (forall x, half (nconj x) = nconj (half x)) ->
    a < size m -> b < size m ->
    hopping (hop (standardize half None true m)) (vopp R) b a =
    nconj (hopping (hop (standardize half None true m)) R a b).
  Proof.
    intros H0 Hc Ha Hb. rewrite !symmetrize_hopping by assumption. rewrite <- Hc. f_equal.
    unfold dagger. rewrite vopp_opp, n_conj_add, n_conj_conj. ring.
  Qed.

  Lemma symmetrize_id half m : (forall x, half (x + x) = x) ->
    (forall R a b, a < size m -> b < size m -> hopping (hop m) (vopp R) b a = nconj (hopping (hop m) R a b)) ->
    forall R a b, a < size m -> b < size m ->
    hopping (hop (standardize half None true m)) R a b = hopping (hop m) R a b.
  Proof.
    intros Hh Hm R a b Ha Hb. rewrite symmetrize_hopping; [|rewrite <- (Hh n0) at 2; f_equal; ring|assumption|assumption].
    unfold dagger. rewrite Hm, n_conj_conj by assumption. apply Hh.
  Qed.

  (** ** Thresholds *)
  Lemma chop_hopping (small : F -> bool) h R a b :
    hopping (chop small h) R a b =
    nsum (fun x => if veqb (fst x) R then (if small (snd x a b) then n0 else snd x a b) else n0) h.
  Proof. unfold hopping, chop. rewrite nsum_map. reflexivity. Qed.

  Lemma standardize_eps small m R a b : a < size m -> b < size m ->
    hopping (hop (standardize (fun x => x) (Some small) false m)) R a b =
    nsum (fun x => if veqb (fst x) R then (if small (snd x a b) then n0 else snd x a b) else n0) (hop m).
  Proof.
    intros Ha Hb. rewrite <- chop_hopping.
    change (hop (standardize (fun x => x) (Some small) false m)) with
      (hop (standardize (fun x => x) None false (set_hop m (chop small (hop m)) (flatR m)))).
    apply (standardize_hopping (set_hop m (chop small (hop m)) (flatR m))); assumption.
  Qed.

  (** ** shift_orbitals *)
  Lemma shift_H e s S m a b : (forall Q T, e (vadd Q T) = e Q * e T) -> a < size m -> b < size m ->
    H e (shift_orbitals s S m) a b = shift_phase e s S a b * H e m a b.
  Proof.
    intros He Ha Hb. unfold shift_orbitals. rewrite standardize_H by assumption.
    unfold H at 1. cbn [set_hop hop]. unfold shift_hop. rewrite !nsum_app, !nsum_map. cbn [fst snd].
    unfold shift_phase, H. rewrite <- nsum_mul_l, <- !nsum_add. apply nsum_ext. intros x _.
    replace (vsub (fst x) S) with (vadd (fst x) (vopp S)) by vring. rewrite !He.
    destruct (s a), (s b); cbn [negb andb]; ring.
  Qed.

  Lemma shift_hopping s S m R a b : a < size m -> b < size m ->
    hopping (hop (shift_orbitals s S m)) R a b =
    hopping (hop m) (if s a then (if s b then R else vsub R S) else (if s b then vadd R S else R)) a b.
  Proof.
    intros Ha Hb. unfold shift_orbitals. rewrite standardize_hopping by assumption.
    cbn [set_hop hop]. unfold hopping, shift_hop. rewrite !nsum_app, !nsum_map. cbn [fst snd].
    rewrite <- !nsum_add. apply nsum_ext. intros x _.
    assert (E1 : veqb (vsub (fst x) S) R = veqb (fst x) (vadd R S)).
    { destruct (veqb (fst x) (vadd R S)) eqn:E.
      - apply veqb_eq in E. rewrite E. apply veqb_eq. vring.
      - destruct (veqb (vsub (fst x) S) R) eqn:E2; [|reflexivity]. apply veqb_eq in E2.
        assert (veqb (fst x) (vadd R S) = true); [|congruence]. apply veqb_eq. rewrite <- E2. vring. }
    assert (E2 : veqb (vadd (fst x) S) R = veqb (fst x) (vsub R S)).
    { destruct (veqb (fst x) (vsub R S)) eqn:E.
      - apply veqb_eq in E. rewrite E. apply veqb_eq. vring.
      - destruct (veqb (vadd (fst x) S) R) eqn:E2; [|reflexivity]. apply veqb_eq in E2.
        assert (veqb (fst x) (vsub R S) = true); [|congruence]. apply veqb_eq. rewrite <- E2. vring. }
    rewrite E1, E2.
    destruct (s a), (s b); cbn [negb andb];
    destruct (veqb (fst x) R), (veqb (fst x) (vadd R S)), (veqb (fst x) (vsub R S)); ring.
  Qed.

  Lemma shift_back s S m R a b : a < size m -> b < size m ->
    hopping (hop (shift_orbitals s (vopp S) (shift_orbitals s S m))) R a b = hopping (hop m) R a b.
  Proof.
    intros Ha Hb. rewrite shift_hopping, shift_hopping by assumption. f_equal.
    destruct (s a), (s b); vring.
  Qed.

  (** ** order_orbitals *)
  Lemma order_Ok order m : Forall (fun a => a < size m) order ->
    exists m', order_orbitals order m = Ok m' /\ keys (hop m') = keys (hop m) /\
    (forall R a b a' b', nth_error order a = Some a' -> nth_error order b = Some b' ->
      hopping (hop m') R a b = hopping (hop m) R a' b') /\
    (forall e a b a' b', nth_error order a = Some a' -> nth_error order b = Some b' ->
      H e m' a b = H e m a' b') /\
    size m' = size m /\ flatR m' = flatR m.
  Proof.
    intros Ho. unfold order_orbitals.
    assert (Hf : forallb (fun a => a <? size m) order = true).
    { apply forallb_forall. rewrite Forall_forall in Ho. intros x Hx. apply Nat.ltb_lt, Ho, Hx. }
    rewrite Hf. eexists. split; [reflexivity|]. cbn [set_hop hop].
    split; [apply (keys_map_snd (fun y a b => match nth_error order a, nth_error order b with Some a', Some b' => y a' b' | _, _ => n0 end))|].
    split; [|split].
    - intros R a b a' b' Ha Hb. unfold hopping. rewrite nsum_map. cbn [fst snd]. rewrite Ha, Hb. reflexivity.
    - intros e a b a' b' Ha Hb. unfold H. cbn [set_hop hop]. rewrite nsum_map. cbn [fst snd]. rewrite Ha, Hb. reflexivity.
    - split; reflexivity.
  Qed.
End ElProofs.
