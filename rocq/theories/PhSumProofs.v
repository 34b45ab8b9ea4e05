(** Proofs about PhSumModel.v *)
From Coq Require Import Permutation Field Lia.
From Verif Require Import Common CommonProofs LatModel LatProofs OField PhSumModel.
Local Open Scope nat_scope.

Section Gram.
  Context {K : ofield} {I : Type} (idx : list I).
  Add Field K_field2 : (k_field K).
  Local Open Scope k_scope.
  Notation dot := (dot idx).
  Implicit Types (u v w F c : I -> K) (done : list ((I -> K) * K)) (eps : K) (cs : list (I -> K)) (p q : (I -> K) * K).

  Lemma dot_sym u v : dot u v = dot v u.
  Proof. apply ksum_ext. intros i _. ring. Qed.
  Lemma dot_ext u v w : (forall i, In i idx -> v i = w i) -> dot u v = dot u w.
  Proof. intros H. apply ksum_ext. intros i Hi. rewrite (H i Hi). reflexivity. Qed.
  Lemma dot_axpy u v w a : dot u (fun i => v i - a * w i) = dot u v - a * dot u w.
  Proof.
    unfold PhSumModel.dot. rewrite <- ksum_mul_l, <- ksum_sub. apply ksum_ext. intros i _. ring.
  Qed.

  Definition perp u (l : list (I -> K)) := forall c, In c l -> dot u c = k0.

  Lemma gs_inner_cons eps p done v : gs_inner idx eps (p :: done) v =
    gs_inner idx eps done (if kltb eps (snd p) then fun i => v i - dot (fst p) v / snd p * fst p i else v).
  Proof. reflexivity. Qed.

  (** Subtracting multiples of arrays does not change the product with whatever
      is orthogonal to them. *)
  Lemma gs_inner_perp eps done : forall u v, perp u (map fst done) -> dot u (gs_inner idx eps done v) = dot u v.
  Proof.
    induction done as [|p done IH]; intros u v H; [reflexivity|]. rewrite gs_inner_cons, IH.
    - destruct (kltb eps (snd p)); [|reflexivity]. rewrite dot_axpy, (H (fst p)) by (left; reflexivity). ring.
    - intros c Hc. apply H. right. exact Hc.
  Qed.

  (** What was there before is kept if nothing has to be subtracted. *)
  Lemma gs_inner_id eps done : (forall x, kltb eps x = true -> x <> k0) -> forall v w, (forall i, w i = v i) -> perp v (map fst done) -> forall i, gs_inner idx eps done w i = v i.
  Proof.
    intros He. induction done as [|p done IH]; intros v w Hw H i; [apply Hw|]. rewrite gs_inner_cons. apply IH.
    - intros j. destruct (kltb eps (snd p)) eqn:E; [|apply Hw]. apply He in E. rewrite (dot_ext _ w v), (dot_sym _ v), (H (fst p)) by (auto; left; reflexivity).
      rewrite Hw. field. exact E.
    - intros c Hc. apply H. right. exact Hc.
  Qed.

  Definition good (eps : K) (p : (I -> K) * K) := snd p = dot (fst p) (fst p) /\ (snd p = k0 \/ kltb eps (snd p) = true).
  Definition ortho done := ForallOrdPairs (fun p q => dot (fst p) (fst q) = k0) done.

  Lemma gs_inner_ortho eps done : (forall x, kltb eps x = true -> x <> k0) -> Forall (good eps) done -> ortho done ->
    forall v, perp (gs_inner idx eps done v) (map fst done).
  Proof.
    intros He. induction done as [|p done IH]; intros Hg Ho v; [intros c []|].
    inversion Hg as [|? ? [Hp1 Hp2] Hg']; subst. inversion Ho as [|? ? Hp3 Ho']; subst. rewrite gs_inner_cons. intros c [<-|Hc]; [|apply IH; assumption].
    rewrite dot_sym, gs_inner_perp.
    - destruct Hp2 as [Hp2|Hp2].
      + assert (Hz : forall w, dot (fst p) w = k0).
        { intros w. unfold PhSumModel.dot. apply ksum_zero. intros i Hi. rewrite Hp1 in Hp2.
          rewrite (ksum_sq_zero (fst p) idx Hp2 i Hi). ring. }
        apply Hz.
      + rewrite Hp2, dot_axpy, <- Hp1. field. apply He, Hp2.
    - intros c Hc. apply in_map_iff in Hc. destruct Hc as (q & <- & Hq). rewrite Forall_forall in Hp3. apply Hp3, Hq.
  Qed.

  (** *** The whole procedure *)
  Lemma gs_snoc eps (cs : list (I -> K)) v : gram_schmidt idx eps (cs ++ [v]) = gs_step idx eps (gram_schmidt idx eps cs) v.
  Proof. unfold gram_schmidt. rewrite fold_left_app. reflexivity. Qed.

  Lemma gs_perp eps cs : forall u, perp u cs <-> perp u (map fst (gram_schmidt idx eps cs)).
  Proof.
    induction cs as [|c cs IH] using rev_ind; intros u; [split; intros H c []|].
    rewrite gs_snoc. unfold gs_step. set (done := gram_schmidt idx eps cs) in *. rewrite map_app. cbn [map fst].
    assert (Hk : forall l (x : I -> K), perp u (l ++ [x]) <-> perp u l /\ dot u x = k0).
    { intros l x. split.
      - intros H. split; [intros y Hy; apply H, in_or_app; left; exact Hy|]. apply H, in_or_app. right. left. reflexivity.
      - intros [H1 H2] y Hy. apply in_app_or in Hy. destruct Hy as [Hy|[<-|[]]]; [apply H1, Hy|exact H2]. }
    rewrite !Hk, IH. split; intros [H1 H2]; (split; [exact H1|]); [rewrite gs_inner_perp by exact H1; exact H2|rewrite gs_inner_perp in H2 by exact H1; exact H2].
  Qed.

  Lemma gs_snd eps cs p : In p (gram_schmidt idx eps cs) -> snd p = dot (fst p) (fst p).
  Proof.
    induction cs as [|c cs IH] using rev_ind; [intros []|]. rewrite gs_snoc. unfold gs_step. intros H. apply in_app_or in H.
    destruct H as [H|[<-|[]]]; [apply IH, H|reflexivity].
  Qed.

  Lemma ortho_snoc done q : ortho done -> (forall p, In p done -> dot (fst p) (fst q) = k0) -> ortho (done ++ [q]).
  Proof.
    induction 1 as [|a l Ha Hl IH]; intros H; cbn [app]; constructor; [constructor|constructor|apply Forall_app; split; [exact Ha|]|apply IH; intros p Hp; apply H; right; exact Hp].
    constructor; [apply H; left; reflexivity|constructor].
  Qed.

  (** No residual lies strictly between zero and the smallest safe divisor. *)
  Definition resolved (eps : K) (done : list ((I -> K) * K)) := forall p, In p done -> snd p = k0 \/ kltb eps (snd p) = true.

  Lemma gs_ortho eps cs : (forall x, kltb eps x = true -> x <> k0) -> resolved eps (gram_schmidt idx eps cs) -> ortho (gram_schmidt idx eps cs).
  Proof.
    intros He. induction cs as [|c cs IH] using rev_ind; [intros _; constructor|]. rewrite gs_snoc. unfold gs_step. intros H.
    assert (H' : resolved eps (gram_schmidt idx eps cs)) by (intros p Hp; apply H, in_or_app; left; exact Hp).
    apply ortho_snoc; [apply IH, H'|]. intros p Hp. cbn [fst]. rewrite dot_sym. apply gs_inner_ortho; [exact He| |apply IH, H'|apply in_map, Hp].
    apply Forall_forall. intros q Hq. split; [apply (gs_snd eps cs), Hq|apply H', Hq].
  Qed.

  (** The last array after orthogonalization to all the ones before. *)
  Definition gs_last eps cs v := gs_inner idx eps (gram_schmidt idx eps cs) v.

  Lemma gs_last_eq eps cs v d : fst (last (gram_schmidt idx eps (cs ++ [v])) d) = gs_last eps cs v.
  Proof. rewrite gs_snoc. unfold gs_step. rewrite last_last. reflexivity. Qed.

  Lemma gs_last_perp eps cs v : (forall x, kltb eps x = true -> x <> k0) -> resolved eps (gram_schmidt idx eps cs) -> perp (gs_last eps cs v) cs.
  Proof.
    intros He H. apply (gs_perp eps). apply gs_inner_ortho; [exact He| |apply gs_ortho; assumption].
    apply Forall_forall. intros q Hq. split; [apply (gs_snd eps cs), Hq|apply H, Hq].
  Qed.

  Lemma gs_last_proj eps cs v F : perp F cs -> dot F (gs_last eps cs v) = dot F v.
  Proof. intros H. apply gs_inner_perp, gs_perp, H. Qed.

  Lemma gs_last_closest eps cs v F : (forall x, kltb eps x = true -> x <> k0) -> resolved eps (gram_schmidt idx eps cs) -> perp F cs ->
    let w := gs_last eps cs v in
    dot (fun i => F i - v i) (fun i => F i - v i) = dot (fun i => F i - w i) (fun i => F i - w i) + dot (fun i => w i - v i) (fun i => w i - v i).
  Proof.
    intros He Hr HF w. pose proof (gs_last_perp eps cs v He Hr) as Hw. fold w in Hw.
    pose proof (gs_last_proj eps cs v F HF) as H1. pose proof (gs_last_proj eps cs v w Hw) as H2. fold w in H1, H2.
    assert (H : forall a b : I -> K, dot (fun i => a i - b i) (fun i => a i - b i) = dot a a - dot a b - dot a b + dot b b).
    { intros a b. unfold PhSumModel.dot. rewrite <- !ksum_sub, <- ksum_add. apply ksum_ext. intros i _. ring. }
    rewrite !H, H1, <- H2. ring.
  Qed.

  (** Invariance of everything under a symmetry of the indices. *)
  Lemma gs_inner_inv (s : I -> I) eps done v : (forall p i, In p done -> In i idx -> fst p (s i) = fst p i) -> (forall i, In i idx -> v (s i) = v i) ->
    forall i, In i idx -> gs_inner idx eps done v (s i) = gs_inner idx eps done v i.
  Proof.
    revert v. induction done as [|p done IH]; intros v Hd Hv i Hi; [apply Hv, Hi|]. rewrite gs_inner_cons. apply IH; [|  |exact Hi].
    - intros q j Hq. apply Hd. right. exact Hq.
    - intros j Hj. destruct (kltb eps (snd p)); [|apply Hv, Hj]. rewrite (Hv j Hj), (Hd p j (or_introl eq_refl) Hj). reflexivity.
  Qed.

  Lemma gs_inv (s : I -> I) eps cs : (forall c i, In c cs -> In i idx -> c (s i) = c i) -> forall p i, In p (gram_schmidt idx eps cs) -> In i idx -> fst p (s i) = fst p i.
  Proof.
    induction cs as [|c cs IH] using rev_ind; [intros _ p i []|]. intros H p i. rewrite gs_snoc. unfold gs_step. intros Hp Hi.
    assert (H' : forall p i, In p (gram_schmidt idx eps cs) -> In i idx -> fst p (s i) = fst p i) by (apply IH; intros d j Hd; apply H, in_or_app; left; exact Hd).
    apply in_app_or in Hp. destruct Hp as [Hp|[<-|[]]]; [apply H'; assumption|]. cbn [fst].
    apply gs_inner_inv; [exact H'| |exact Hi]. intros j. apply H, in_or_app. right. left. reflexivity.
  Qed.

  Lemma gs_last_inv (s : I -> I) eps cs v : (forall c i, In c cs -> In i idx -> c (s i) = c i) -> (forall i, In i idx -> v (s i) = v i) ->
    forall i, In i idx -> gs_last eps cs v (s i) = gs_last eps cs v i.
  Proof. intros H Hv. apply gs_inner_inv; [apply gs_inv, H|exact Hv]. Qed.

  (** Symmetrization with an involution of the indices. *)
  Lemma dot_symmetrized (s : I -> I) c v : (forall i, In i idx -> In (s i) idx) -> (forall i, In i idx -> s (s i) = i) -> NoDup idx ->
    (forall i, In i idx -> v (s i) = v i) -> dot (fun i => c i + c (s i)) v = (k1 + k1) * dot c v.
  Proof.
    intros H1 H2 Hnd Hv. unfold PhSumModel.dot.
    rewrite (ksum_ext _ (fun i => c i * v i + c (s i) * v (s i))) by (intros i Hi; rewrite (Hv i Hi); ring).
    rewrite ksum_add, <- (ksum_map (fun i => c i * v i) s).
    rewrite (ksum_perm _ (map s idx) idx); [ring|].
    apply NoDup_Permutation; [|exact Hnd|].
    - clear Hv. assert (Hi : forall i j, In i idx -> In j idx -> s i = s j -> i = j) by (intros i j Hi Hj E; rewrite <- (H2 i Hi), <- (H2 j Hj), E; reflexivity).
      clear H1 H2. induction idx as [|a l IH]; [constructor|]. inversion Hnd; subst. cbn [map]. constructor.
      + intros E. apply in_map_iff in E. destruct E as (b & E & Hb). assert (b = a) by (apply Hi; [right; exact Hb|left; reflexivity|exact E]). subst. contradiction.
      + apply IH; [assumption|]. intros i j Ii Ij. apply Hi; right; assumption.
    - intros i. rewrite in_map_iff. split; [intros (j & <- & Hj); apply H1, Hj|]. intros Hi. exists (s i). auto.
  Qed.

  Lemma two_nz : (k1 + k1 : K) <> k0.
  Proof.
    intros E. destruct (k_field K) as [_ H10 _ _]. pose proof (knn_sq (k1 : K)) as H. replace (k1 * k1 : K) with (k1 : K) in H by ring.
    destruct (knn_add (k1 : K) k1 H H) as [_ G]. destruct (G E) as [G' _]. contradiction.
  Qed.
End Gram.

(** ** The constraints *)
From Verif Require Import PhSumSpec VorProofs.
Section Rules.
  Context {K : ofield}.
  Add Field K_field3 : (k_field K).
  Local Open Scope k_scope.
  Notation ifc := (cidx -> K) (only parsing).

  Lemma in_all_idx nR nat_ n k x l y : In (n, (k, x), (l, y)) (all_idx nR nat_) <-> (n < nR /\ k < nat_ /\ x < 3 /\ l < nat_ /\ y < 3)%nat.
  Proof. unfold all_idx. rewrite !in_prod_iff, !in_seq. lia. Qed.

  Lemma nodup_all_idx nR nat_ : NoDup (all_idx nR nat_).
  Proof. unfold all_idx. repeat apply NoDup_prod; apply seq_NoDup. Qed.

  Lemma ksum_all nR nat_ (f : cidx -> K) : ksum f (all_idx nR nat_) =
    ksum (fun n => ksum (fun k => ksum (fun x => ksum (fun l => ksum (fun y => f (n, (k, x), (l, y))) (seq 0 3)) (seq 0 nat_)) (seq 0 3)) (seq 0 nat_)) (seq 0 nR).
  Proof.
    unfold all_idx, cidx in *. rewrite ksum_prod, ksum_prod. apply ksum_ext. intros n _. cbn beta. rewrite ksum_prod. apply ksum_ext. intros k _. apply ksum_ext. intros x _.
    rewrite ksum_prod. reflexivity.
  Qed.

  Lemma ksum_pick (k n : nat) (f : nat -> K) : (k < n)%nat -> ksum (fun i => if (i =? k)%nat then f i else k0) (seq 0 n) = f k.
  Proof.
    intros H. rewrite (ksum_single _ _ k).
    - rewrite Nat.eqb_refl. reflexivity.
    - apply seq_NoDup.
    - apply in_seq. lia.
    - intros j _ Hj. apply Nat.eqb_neq in Hj. rewrite Hj. reflexivity.
  Qed.

  (** Sum over all the elements of one row (k, x) and column y. *)
  Lemma ksum_row nR nat_ k x y (f : nat -> nat -> K) : (k < nat_)%nat -> (x < 3)%nat -> (y < 3)%nat ->
    ksum (fun '(n, (k', x'), (l', y')) => if ((k' =? k) && (x' =? x) && (y' =? y))%nat then f n l' else k0) (all_idx nR nat_) =
    ksum (fun n => ksum (fun l => f n l) (seq 0 nat_)) (seq 0 nR).
  Proof.
    intros Hk Hx Hy. rewrite ksum_all. apply ksum_ext. intros n _.
    rewrite (ksum_ext _ (fun k' => if (k' =? k)%nat then ksum (fun l => f n l) (seq 0 nat_) else k0)); [apply (ksum_pick k nat_ (fun _ => ksum (fun l => f n l) (seq 0 nat_))), Hk|].
    intros k' _. destruct (k' =? k)%nat; cbn [andb].
    - rewrite (ksum_ext _ (fun x' => if (x' =? x)%nat then ksum (fun l => f n l) (seq 0 nat_) else k0)); [apply (ksum_pick x 3 (fun _ => ksum (fun l => f n l) (seq 0 nat_))), Hx|].
      intros x' _. destruct (x' =? x)%nat; cbn [andb].
      + apply ksum_ext. intros l _. apply (ksum_pick y 3 (fun _ => f n l)), Hy.
      + apply ksum_zero. intros l _. apply ksum_zero. reflexivity.
    - apply ksum_zero. intros x' _. apply ksum_zero. intros l _. apply ksum_zero. reflexivity.
  Qed.

  Lemma dot_acoustic nR nat_ k x y (C : ifc) : (k < nat_)%nat -> (x < 3)%nat -> (y < 3)%nat ->
    dot (all_idx nR nat_) (acoustic k x y) C = ksum (fun n => ksum (fun l => C (n, (k, x), (l, y))) (seq 0 nat_)) (seq 0 nR).
  Proof.
    intros Hk Hx Hy. rewrite <- (ksum_row nR nat_ k x y (fun n l => C (n, (k, x), (l, y)))) by assumption.
    apply ksum_ext. intros [[n [k' x']] [l' y']] _. unfold acoustic.
    destruct (Nat.eqb_spec k' k), (Nat.eqb_spec x' x), (Nat.eqb_spec y' y); cbn [andb]; subst; ring.
  Qed.

  Lemma dot_rotation pos nR nat_ k x1 x2 y (C : ifc) : (k < nat_)%nat -> (x1 < 3)%nat -> (x2 < 3)%nat -> (y < 3)%nat ->
    dot (all_idx nR nat_) (rotation pos k x1 x2 y) C =
    ksum (fun n => ksum (fun l => C (n, (k, x1), (l, y)) * pos n l x2 - C (n, (k, x2), (l, y)) * pos n l x1) (seq 0 nat_)) (seq 0 nR).
  Proof.
    intros Hk Hx1 Hx2 Hy.
    rewrite (ksum_ext _ (fun n => ksum (fun l => C (n, (k, x1), (l, y)) * pos n l x2) (seq 0 nat_) - ksum (fun l => C (n, (k, x2), (l, y)) * pos n l x1) (seq 0 nat_)))
      by (intros n _; apply ksum_sub).
    rewrite ksum_sub.
    rewrite <- (ksum_row nR nat_ k x1 y (fun n l => C (n, (k, x1), (l, y)) * pos n l x2)) by assumption.
    rewrite <- (ksum_row nR nat_ k x2 y (fun n l => C (n, (k, x2), (l, y)) * pos n l x1)) by assumption.
    rewrite <- ksum_sub. apply ksum_ext. intros [[n [k' x']] [l' y']] _. unfold rotation.
    destruct (Nat.eqb_spec k' k), (Nat.eqb_spec x' x1), (Nat.eqb_spec x' x2), (Nat.eqb_spec y' y); cbn [andb]; subst; try ring.
  Qed.

  Lemma in_constraints pos nat_ asr rsr c : In c (@constraints K pos nat_ asr rsr) <->
    (asr = true /\ exists k x y, (k < nat_ /\ x < 3 /\ y < 3)%nat /\ c = acoustic k x y) \/
    (rsr = true /\ exists k x1 x2 y, (k < nat_ /\ x1 < 3 /\ x2 < 3 /\ y < 3)%nat /\ c = rotation pos k x1 x2 y).
  Proof.
    unfold constraints. rewrite in_app_iff. apply ZifyClasses.or_morph.
    - destruct asr; [|split; [intros []|intros [H _]; discriminate]]. split.
      + intros H. split; [reflexivity|]. apply in_flat_map in H. destruct H as (k & Hk & H). apply in_flat_map in H. destruct H as (x & Hx & H).
        apply in_map_iff in H. destruct H as (y & <- & Hy). apply in_seq in Hk, Hx, Hy. exists k, x, y. split; [lia|reflexivity].
      + intros (_ & k & x & y & H & ->). apply in_flat_map. exists k. split; [apply in_seq; lia|]. apply in_flat_map. exists x. split; [apply in_seq; lia|].
        apply in_map_iff. exists y. split; [reflexivity|apply in_seq; lia].
    - destruct rsr; [|split; [intros []|intros [H _]; discriminate]]. split.
      + intros H. split; [reflexivity|]. apply in_flat_map in H. destruct H as (k & Hk & H). apply in_flat_map in H. destruct H as (x1 & Hx1 & H).
        apply in_flat_map in H. destruct H as (x2 & Hx2 & H). apply in_map_iff in H. destruct H as (y & <- & Hy). apply in_seq in Hk, Hx1, Hx2, Hy. exists k, x1, x2, y. split; [lia|reflexivity].
      + intros (_ & k & x1 & x2 & y & H & ->). apply in_flat_map. exists k. split; [apply in_seq; lia|]. apply in_flat_map. exists x1. split; [apply in_seq; lia|].
        apply in_flat_map. exists x2. split; [apply in_seq; lia|]. apply in_map_iff. exists y. split; [reflexivity|apply in_seq; lia].
  Qed.

  Lemma perp_constraints pos nR nat_ asr rsr (C : ifc) : perp (all_idx nR nat_) C (constraints pos nat_ asr rsr) <->
    (asr = true -> acoustic_rule nR nat_ C) /\ (rsr = true -> rotation_rule pos nR nat_ C).
  Proof.
    unfold perp. split.
    - intros H. split; intros E.
      + intros k x y Hk Hx Hy. rewrite <- dot_acoustic, dot_sym by assumption. apply H, in_constraints. left. split; [exact E|]. exists k, x, y. auto.
      + intros k x1 x2 y Hk Hx1 Hx2 Hy. rewrite <- dot_rotation, dot_sym by assumption. apply H, in_constraints. right. split; [exact E|]. exists k, x1, x2, y. auto.
    - intros [H1 H2] c Hc. apply in_constraints in Hc. rewrite dot_sym. destruct Hc as [(E & k & x & y & (Hk & Hx & Hy) & ->)|(E & k & x1 & x2 & y & (Hk & Hx1 & Hx2 & Hy) & ->)].
      + rewrite dot_acoustic by assumption. apply H1; assumption.
      + rewrite dot_rotation by assumption. apply H2; assumption.
  Qed.

  (** *** The index of -R *)
  Lemma find_index_spec {A} (f : A -> bool) l d m : find_index f l = Some m -> (m < length l)%nat /\ f (nth m l d) = true.
  Proof.
    revert m. induction l as [|a l IH]; intros m H; [discriminate|]. cbn [find_index] in H. destruct (f a) eqn:E.
    - injection H as <-. cbn [length nth]. split; [lia|exact E].
    - destruct (find_index f l) as [m'|] eqn:E'; [|discriminate]. injection H as <-. destruct (IH m' eq_refl). cbn [length nth]. split; [lia|assumption].
  Qed.
  Lemma find_index_none {A} (f : A -> bool) l : find_index f l = None -> forall a, In a l -> f a = false.
  Proof.
    induction l as [|a l IH]; intros H b Hb; [destruct Hb|]. cbn [find_index] in H. destruct (f a) eqn:E; [discriminate|].
    destruct (find_index f l); [discriminate|]. destruct Hb as [<-|Hb]; [exact E|apply IH; auto].
  Qed.

  Lemma minusR_spec R n : closed_under_negation R -> (n < length R)%nat -> (minusR R n < length R)%nat /\ nth (minusR R n) R vzero = vopp (nth n R vzero).
  Proof.
    intros Hc Hn. unfold minusR. destruct (find_index (fun T => veqb T (vopp (nth n R vzero))) R) as [m|] eqn:E.
    - apply (find_index_spec _ _ vzero) in E. destruct E as [H1 H2]. split; [exact H1|]. unfold veqb in H2. destruct (vec_eq_dec _ _); [assumption|discriminate].
    - pose proof (find_index_none _ _ E (vopp (nth n R vzero)) (Hc _ (nth_In _ _ Hn))) as H. cbn beta in H. unfold veqb in H.
      destruct (vec_eq_dec _ _); [discriminate|contradiction].
  Qed.

  Lemma minusR_unique R n m : NoDup R -> closed_under_negation R -> (n < length R)%nat -> (m < length R)%nat -> nth m R vzero = vopp (nth n R vzero) -> m = minusR R n.
  Proof.
    intros Hnd Hc Hn Hm H. destruct (minusR_spec R n Hc Hn) as [H1 H2]. apply (proj1 (NoDup_nth R vzero) Hnd); [exact Hm|exact H1|congruence].
  Qed.

  Lemma vopp_vopp v : vopp (vopp v) = v.
  Proof. apply vec_ext; unfold vopp; cbn [vx vy vz]; lia. Qed.

  Section Fixed.
    Variables (R : list vec) (nat_ : nat).
    Hypothesis Hnd : NoDup R.
    Hypothesis Hc : closed_under_negation R.
    Notation idx := (all_idx (length R) nat_).

    Lemma swap_in i : In i idx -> In (swap_idx R i) idx.
    Proof.
      destruct i as [[n [k x]] [l y]]. unfold swap_idx. rewrite !in_all_idx. intros (Hn & Hk & Hx & Hl & Hy).
      destruct (minusR_spec R n Hc Hn). tauto.
    Qed.
    Lemma swap_swap i : In i idx -> swap_idx R (swap_idx R i) = i.
    Proof.
      destruct i as [[n [k x]] [l y]]. unfold swap_idx. rewrite in_all_idx. intros (Hn & _).
      destruct (minusR_spec R n Hc Hn) as [H1 H2]. rewrite <- (minusR_unique R (minusR R n) n); auto. rewrite H2. symmetry. apply vopp_vopp.
    Qed.
    Lemma symmetric_swap (C : ifc) : symmetric R nat_ C <-> (forall i, In i idx -> C (swap_idx R i) = C i).
    Proof.
      split.
      - intros H [[n [k x]] [l y]] Hi. apply in_all_idx in Hi. destruct Hi as (Hn & Hk & Hx & Hl & Hy). destruct (minusR_spec R n Hc Hn) as [H1 H2].
        symmetry. apply H; assumption.
      - intros H n m k x l y Hn Hm Hnm Hk Hx Hl Hy. rewrite <- (H (n, (k, x), (l, y))) by (apply in_all_idx; auto). unfold swap_idx.
        rewrite <- (minusR_unique R n m) by assumption. reflexivity.
    Qed.

    Lemma perp_symmetrized pos asr rsr (C : ifc) : symmetric R nat_ C ->
      (perp idx C (map (symmetrized R) (constraints pos nat_ asr rsr)) <-> (asr = true -> acoustic_rule (length R) nat_ C) /\ (rsr = true -> rotation_rule pos (length R) nat_ C)).
    Proof.
      intros HC. rewrite <- perp_constraints. rewrite symmetric_swap in HC.
      assert (Hd : forall c, dot idx C (symmetrized R c) = (k1 + k1) * dot idx C c).
      { intros c. rewrite dot_sym. unfold symmetrized. rewrite (dot_symmetrized idx (swap_idx R)); [rewrite (dot_sym idx c); reflexivity|apply swap_in|apply swap_swap|apply nodup_all_idx|exact HC]. }
      unfold perp. split.
      - intros H c Hin. specialize (H _ (in_map (symmetrized R) _ _ Hin)). rewrite Hd in H. apply k_integral in H. destruct H as [H|H]; [|exact H].
        exfalso. exact (two_nz H).
      - intros H c' Hin. apply in_map_iff in Hin. destruct Hin as (c & <- & Hin). rewrite Hd, (H c Hin). ring.
    Qed.

    Lemma symmetrized_inv (c : ifc) i : In i idx -> symmetrized R c (swap_idx R i) = symmetrized R c i.
    Proof. intros Hi. unfold symmetrized. rewrite (swap_swap i Hi). ring. Qed.

    Lemma deviation_dot (C D : ifc) : deviation (length R) nat_ C D = dot idx (fun i => C i - D i) (fun i => C i - D i).
    Proof. unfold deviation, dot. rewrite ksum_all. reflexivity. Qed.

    (** The correction without masses. *)
    Definition correct eps pos asr rsr (C : ifc) := gs_last idx eps (map (symmetrized R) (constraints pos nat_ asr rsr)) C.

    Definition resolved_constraints eps pos asr rsr : Prop :=
      resolved eps (gram_schmidt idx eps (map (symmetrized R) (@constraints K pos nat_ asr rsr))).

    Lemma correct_sym eps pos asr rsr C : symmetric R nat_ C -> symmetric R nat_ (correct eps pos asr rsr C).
    Proof.
      intros HC. apply symmetric_swap. apply gs_last_inv; [|apply symmetric_swap, HC].
      intros c i Hin Hi. apply in_map_iff in Hin. destruct Hin as (c' & <- & _). apply symmetrized_inv, Hi.
    Qed.

    Lemma correct_rules eps pos asr rsr C : (forall x, kltb eps x = true -> x <> k0) -> resolved_constraints eps pos asr rsr -> symmetric R nat_ C ->
      rules pos R nat_ asr rsr (correct eps pos asr rsr C).
    Proof.
      intros He Hr HC. pose proof (correct_sym eps pos asr rsr C HC) as Hs. split; [exact Hs|]. apply perp_symmetrized; [exact Hs|]. apply gs_last_perp; assumption.
    Qed.

    Lemma correct_closest eps pos asr rsr C F : (forall x, kltb eps x = true -> x <> k0) -> resolved_constraints eps pos asr rsr -> 
      rules pos R nat_ asr rsr F ->
      kltb (deviation (length R) nat_ F C) (deviation (length R) nat_ (correct eps pos asr rsr C) C) = false.
    Proof.
      intros He Hr [HF1 HF2]. rewrite !deviation_dot. unfold correct. rewrite (gs_last_closest idx eps (map (symmetrized R) (constraints pos nat_ asr rsr)) C F); [|exact He|exact Hr|apply perp_symmetrized; assumption].
      set (w := gs_last idx eps _ C). 
      pose proof (ksum_nn (fun i => (F i - w i) * (F i - w i)) idx (fun i _ => knn_sq _)) as [Hp _].
      set (b := dot idx (fun i => w i - C i) (fun i => w i - C i)). set (a := dot idx (fun i => F i - w i) _). change (knn a) in Hp.
      destruct (kltb (a + b) b) eqn:E; [|reflexivity]. exfalso. apply (k_plus K _ _ (- b)) in E.
      replace (a + b + - b) with a in E by ring. replace (b + - b) with (@k0 K) in E by ring. unfold knn in Hp. rewrite Hp in E. discriminate.
    Qed.

    Lemma correct_id eps pos asr rsr C : (forall x, kltb eps x = true -> x <> k0) -> rules pos R nat_ asr rsr C ->
      forall i, correct eps pos asr rsr C i = C i.
    Proof.
      intros He [H1 H2] i. apply gs_inner_id; [exact He|reflexivity|]. apply gs_perp. apply perp_symmetrized; assumption.
    Qed.
  End Fixed.

  Lemma correct_ext R nat_ eps pos asr rsr (C D : ifc) : (forall i, C i = D i) -> forall i, correct R nat_ eps pos asr rsr C i = correct R nat_ eps pos asr rsr D i.
  Proof.
    unfold correct, gs_last. generalize (gram_schmidt (all_idx (length R) nat_) eps (map (symmetrized R) (constraints pos nat_ asr rsr))). intros done.
    revert C D. induction done as [|p done IH]; intros C D H i; [apply H|]. rewrite !gs_inner_cons. apply IH. intros j.
    destruct (kltb eps (snd p)); [|apply H]. rewrite H, (dot_ext _ (fst p) C D); auto.
  Qed.

  Lemma with_mass_physical (dm : bool) (sqM : nat -> K) (data : ifc) i : (if dm then with_mass sqM data else data) i = physical dm sqM data i.
  Proof. destruct i as [[n [k x]] [l y]]. destruct dm; unfold with_mass, physical; [ring|reflexivity]. Qed.

  Lemma src_eq eps R nat_ pos sqM dm asr rsr (data : ifc) : sum_rule_correction eps R nat_ pos sqM dm asr rsr data =
    let C := correct R nat_ eps pos asr rsr (if dm then with_mass sqM data else data) in if dm then without_mass sqM C else C.
  Proof. unfold sum_rule_correction. cbv zeta. rewrite gs_last_eq. reflexivity. Qed.

  Lemma src_physical eps R nat_ pos sqM dm asr rsr (data : ifc) : (dm = true -> forall k, (k < nat_)%nat -> sqM k <> k0) ->
    forall i, In i (all_idx (length R) nat_) ->
    physical dm sqM (sum_rule_correction eps R nat_ pos sqM dm asr rsr data) i = correct R nat_ eps pos asr rsr (physical dm sqM data) i.
  Proof.
    intros HM i Hi. rewrite src_eq. rewrite <- (correct_ext R nat_ eps pos asr rsr _ _ (with_mass_physical dm sqM data)).
    destruct i as [[n [k x]] [l y]]. apply in_all_idx in Hi. destruct Hi as (Hn & Hk & Hx & Hl & Hy).
    destruct dm; cbv zeta; unfold physical; [|reflexivity]. unfold without_mass at 1. field. split; apply HM; auto.
  Qed.

  Lemma rules_ext pos R nat_ asr rsr (C D : ifc) : (forall i, In i (all_idx (length R) nat_) -> C i = D i) -> rules pos R nat_ asr rsr C -> rules pos R nat_ asr rsr D.
  Proof.
    intros H [H1 [H2 H3]]. split; [|split].
    - intros n m k x l y Hn Hm Hnm Hk Hx Hl Hy. rewrite <- !H by (apply in_all_idx; auto). apply H1; assumption.
    - intros E k x y Hk Hx Hy. rewrite <- (H2 E k x y Hk Hx Hy). apply ksum_ext. intros n Hn. apply ksum_ext. intros l Hl. apply in_seq in Hn, Hl. symmetry. apply H, in_all_idx. lia.
    - intros E k x1 x2 y Hk Hx1 Hx2 Hy. rewrite <- (H3 E k x1 x2 y Hk Hx1 Hx2 Hy). apply ksum_ext. intros n Hn. apply ksum_ext. intros l Hl. apply in_seq in Hn, Hl.
      rewrite !H by (apply in_all_idx; lia). reflexivity.
  Qed.

  Lemma deviation_ext nR nat_ (C D E : ifc) : (forall i, In i (all_idx nR nat_) -> C i = D i) -> deviation nR nat_ C E = deviation nR nat_ D E.
  Proof.
    intros H. unfold deviation. apply ksum_ext. intros n Hn. apply ksum_ext. intros k Hk. apply ksum_ext. intros x Hx. apply ksum_ext. intros l Hl. apply ksum_ext. intros y Hy.
    apply in_seq in Hn, Hk, Hx, Hl, Hy. rewrite H by (apply in_all_idx; lia). reflexivity.
  Qed.

  (** *** Main results *)
  Section Main.
    Variables (eps : K) (R : list vec) (nat_ : nat) (pos : nat -> nat -> nat -> K) (sqM : nat -> K) (dm asr rsr : bool) (data : ifc).
    Hypothesis Heps : kltb eps k0 = false.
    Hypothesis Hnd : NoDup R.
    Hypothesis Hc : closed_under_negation R.
    Hypothesis HM : dm = true -> forall k, (k < nat_)%nat -> sqM k <> k0.
    Notation result := (sum_rule_correction eps R nat_ pos sqM dm asr rsr data).

    Lemma eps_nz : forall x, kltb eps x = true -> x <> k0.
    Proof. intros x H ->. rewrite Heps in H. discriminate. Qed.

    Lemma src_rules : resolved_constraints R nat_ eps pos asr rsr -> symmetric R nat_ (physical dm sqM data) ->
      rules pos R nat_ asr rsr (physical dm sqM result).
    Proof.
      intros Hr Hs. apply (rules_ext _ _ _ _ _ (correct R nat_ eps pos asr rsr (physical dm sqM data))).
      - intros i Hi. symmetry. apply src_physical; assumption.
      - apply correct_rules; try assumption. exact eps_nz.
    Qed.

    Lemma src_closest F : resolved_constraints R nat_ eps pos asr rsr -> rules pos R nat_ asr rsr F ->
      kltb (deviation (length R) nat_ F (physical dm sqM data)) (deviation (length R) nat_ (physical dm sqM result) (physical dm sqM data)) = false.
    Proof.
      intros Hr HF. rewrite (deviation_ext _ _ (physical dm sqM result) (correct R nat_ eps pos asr rsr (physical dm sqM data))) by (intros i Hi; apply src_physical; assumption).
      apply correct_closest; try assumption. exact eps_nz.
    Qed.

    Lemma src_sym : symmetric R nat_ (physical dm sqM data) -> symmetric R nat_ (physical dm sqM result).
    Proof.
      intros H. pose proof (correct_sym R nat_ Hnd Hc eps pos asr rsr _ H) as H'.
      intros n m k x l y Hn Hm Hnm Hk Hx Hl Hy. rewrite !src_physical by (try apply in_all_idx; auto). apply H'; assumption.
    Qed.

    Lemma src_id : rules pos R nat_ asr rsr (physical dm sqM data) -> forall i, In i (all_idx (length R) nat_) -> result i = data i.
    Proof.
      intros H i Hi. pose proof (src_physical eps R nat_ pos sqM dm asr rsr data HM i Hi) as Hp. rewrite correct_id in Hp; [|assumption|assumption|exact eps_nz|exact H].
      destruct i as [[n [k x]] [l y]]. apply in_all_idx in Hi. destruct Hi as (Hn & Hk & Hx & Hl & Hy). unfold physical in Hp. destruct dm; [|exact Hp].
      specialize (HM eq_refl). assert (H1 : sqM k <> k0) by auto. assert (H2 : sqM l <> k0) by auto.
      apply (f_equal (fun z => z / (sqM k * sqM l))) in Hp.
      set (a := sum_rule_correction _ _ _ _ _ _ _ _ _ _) in *. clearbody a.
      transitivity (sqM k * sqM l * a / (sqM k * sqM l)); [field; auto|]. rewrite Hp. field; auto.
    Qed.
  End Main.

  (** Without safety margin, nothing needs to be assumed about residuals. *)
  Lemma resolved_zero R nat_ pos asr rsr : resolved_constraints R nat_ (k0 : K) pos asr rsr.
  Proof.
    intros p Hp. apply gs_snd in Hp. destruct (kltb k0 (snd p)) eqn:E; [right; reflexivity|left].
    apply k_total; [|exact E]. rewrite Hp. apply (proj1 (ksum_nn (fun i => fst p i * fst p i) _ (fun i _ => knn_sq _))).
  Qed.
End Rules.
