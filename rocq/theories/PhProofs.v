(** Proofs about PhModel.v. *)
From Coq Require Import Permutation Reals Lra Lia.
From Verif Require Import Common CommonProofs LatModel LatProofs MPIModel MPIProofs VorModel Num NumProofs NumC RootsProofs ElModel WSModel WSSpec WSProofs WSProofs2 KrModel KrProofs PhModel.
Local Open Scope nat_scope.

Add Ring Cring4 : (@n_ring C).

(** ** asr *)
Section Asr.
  Context {F : num}.
  Add Ring F_ring : (n_ring F).

  Lemma asr_step_other nat_ nr (p : @ifc F) na i j m x y : ~ (i = na /\ j = na /\ m = vzero) -> asr_step nat_ nr p na i j m x y = p i j m x y.
  Proof.
    intros H. unfold asr_step, ifc_set. destruct ((i =? na) && (j =? na) && veqb m vzero) eqn:E; [|reflexivity].
    exfalso. apply H. apply andb_true_iff in E. destruct E as [E E3]. apply andb_true_iff in E. destruct E as [E1 E2].
    apply Nat.eqb_eq in E1, E2. unfold veqb in E3. destruct (vec_eq_dec m vzero); [auto|discriminate].
  Qed.

  Lemma asr_step_self nat_ nr (p : @ifc F) na x y : asr_step nat_ nr p na na na vzero x y =
    nopp (nsum (fun o => p na (fst o) (snd o) x y) (others nat_ nr na)).
  Proof. unfold asr_step, ifc_set. rewrite !Nat.eqb_refl. unfold veqb. destruct (vec_eq_dec vzero vzero); [reflexivity|congruence]. Qed.

  Lemma others_not_self nat_ nr na o : In o (others nat_ nr na) -> ~ (fst o = na /\ snd o = vzero).
  Proof.
    unfold others. rewrite filter_In. intros [_ H] [E1 E2]. rewrite E1, E2, Nat.eqb_refl in H. unfold veqb in H.
    destruct (vec_eq_dec vzero vzero); [discriminate|congruence].
  Qed.

  (** Every self term is determined by the original force constants. *)
  Lemma asr_fold nat_ nr l : forall p : @ifc F, NoDup l -> forall i j m x y,
    fold_left (asr_step nat_ nr) l p i j m x y =
    if (existsb (Nat.eqb i) l && (j =? i) && veqb m vzero) then nopp (nsum (fun o => p i (fst o) (snd o) x y) (others nat_ nr i)) else p i j m x y.
  Proof.
    induction l as [|na l IH]; intros p Hnd i j m x y; cbn [fold_left existsb]; [reflexivity|].
    inversion Hnd as [|? ? Hni Hnd']; subst. rewrite IH by exact Hnd'. clear IH.
    destruct (Nat.eqb_spec i na) as [->|Hne]; cbn [orb].
    - assert (existsb (Nat.eqb na) l = false) as ->.
      { destruct (existsb (Nat.eqb na) l) eqn:E; [|reflexivity]. exfalso. apply existsb_exists in E. destruct E as (z & Hz & E). apply Nat.eqb_eq in E. subst. contradiction. }
      cbn [andb]. destruct ((j =? na) && veqb m vzero) eqn:E.
      + apply andb_true_iff in E. destruct E as [E1 E2]. apply Nat.eqb_eq in E1. unfold veqb in E2. destruct (vec_eq_dec m vzero) as [->|]; [|discriminate].
        subst. apply asr_step_self.
      + apply asr_step_other. intros (_ & -> & ->). rewrite Nat.eqb_refl in E. unfold veqb in E. destruct (vec_eq_dec vzero vzero); [discriminate|congruence].
    - destruct (existsb (Nat.eqb i) l && (j =? i) && veqb m vzero).
      + f_equal. apply nsum_ext. intros o _. apply asr_step_other. tauto.
      + apply asr_step_other. tauto.
  Qed.

  Definition meshes (nr : vec) : Prop := (0 < vx nr /\ 0 < vy nr /\ 0 < vz nr)%Z.

  Lemma asr_Ok nat_ nr (p : @ifc F) : meshes nr -> exists q, asr nat_ nr p = Ok q /\ forall i j m x y,
    q i j m x y = if ((i <? nat_) && (j =? i) && veqb m vzero) then nopp (nsum (fun o => p i (fst o) (snd o) x y) (others nat_ nr i)) else p i j m x y.
  Proof.
    intros (H1 & H2 & H3). unfold asr. rewrite (proj2 (Z.ltb_lt _ _) H1), (proj2 (Z.ltb_lt _ _) H2), (proj2 (Z.ltb_lt _ _) H3).
    cbn [negb andb]. rewrite andb_false_r. eexists. split; [reflexivity|]. intros i j m x y. rewrite asr_fold by apply seq_NoDup.
    replace (existsb (Nat.eqb i) (seq 0 nat_)) with (i <? nat_); [reflexivity|].
    destruct (Nat.ltb_spec i nat_) as [H|H]; symmetry.
    - apply existsb_exists. exists i. rewrite in_seq, Nat.eqb_refl. split; [lia|reflexivity].
    - destruct (existsb (Nat.eqb i) (seq 0 nat_)) eqn:E; [|reflexivity]. apply existsb_exists in E. destruct E as (z & Hz & E). apply in_seq in Hz. apply Nat.eqb_eq in E. lia.
  Qed.

  Lemma nsum_prod' {A B} (f : A * B -> F) l l' : nsum f (list_prod l l') = nsum (fun a => nsum (fun b => f (a, b)) l') l.
  Proof. induction l as [|a l IH]; cbn [list_prod nsum]; [reflexivity|]. rewrite nsum_app, nsum_map, IH. reflexivity. Qed.

  (** All terms = self term + the others. *)
  Lemma nsum_others (f : nat * vec -> F) nat_ nr i : meshes nr -> i < nat_ ->
    nsum f (list_prod (seq 0 nat_) (ws_mesh nr)) = nadd (f (i, vzero)) (nsum f (others nat_ nr i)).
  Proof.
    intros Hm Hi. unfold others. set (g := fun x : nat * vec => negb (i =? fst x) || negb (veqb (snd x) vzero)).
    assert (E : nsum f (list_prod (seq 0 nat_) (ws_mesh nr)) =
      nadd (nsum f (filter (fun x => negb (g x)) (list_prod (seq 0 nat_) (ws_mesh nr)))) (nsum f (filter g (list_prod (seq 0 nat_) (ws_mesh nr))))).
    { generalize (list_prod (seq 0 nat_) (ws_mesh nr)). intros l. induction l as [|x l IH]; cbn [nsum filter]; [ring|].
      destruct (g x); cbn [negb nsum]; rewrite IH; ring. }
    rewrite E. f_equal.
    assert (Hnd : NoDup (list_prod (seq 0 nat_) (ws_mesh nr))) by (apply VorProofs.NoDup_prod; [apply seq_NoDup|apply nodup_ws_mesh]).
    assert (Hin : forall x, In x (filter (fun x => negb (g x)) (list_prod (seq 0 nat_) (ws_mesh nr))) <-> x = (i, vzero)).
    { intros [a v]. rewrite filter_In, in_prod_iff, in_seq, (in_ws_mesh nr). unfold g. cbn [fst snd]. rewrite negb_orb, !negb_involutive, andb_true_iff, Nat.eqb_eq.
      unfold veqb. split.
      - intros (_ & -> & E2). destruct (vec_eq_dec v vzero) as [->|]; [reflexivity|discriminate].
      - intros E2. injection E2 as -> ->. split; [|split; [reflexivity|destruct (vec_eq_dec vzero vzero); [reflexivity|congruence]]].
        split; [lia|]. destruct Hm as (A & B & C0). unfold on_mesh, vzero. cbn. lia. }
    apply (NoDup_filter (fun x => negb (g x))) in Hnd.
    assert (Hp : Permutation (filter (fun x => negb (g x)) (list_prod (seq 0 nat_) (ws_mesh nr))) [(i, vzero)]).
    { apply NoDup_Permutation; [exact Hnd|repeat constructor; intros []|]. intros x. rewrite Hin. cbn. split; [auto|intros [H|[]]; auto]. }
    rewrite (nsum_perm _ _ _ Hp). cbn [nsum]. ring.
  Qed.

  Lemma asr_sum nat_ nr (p : @ifc F) : meshes nr -> exists q, asr nat_ nr p = Ok q /\
    (forall i x y, i < nat_ -> nsum (fun j => nsum (fun m => q i j m x y) (ws_mesh nr)) (seq 0 nat_) = n0) /\
    (forall i j m x y, ~ (i < nat_ /\ i = j /\ m = vzero) -> q i j m x y = p i j m x y).
  Proof.
    intros Hm. destruct (asr_Ok nat_ nr p Hm) as (q & E & Hq). exists q. split; [exact E|]. split.
    - intros i x y Hi. rewrite <- (nsum_prod' (fun o => q i (fst o) (snd o) x y)). rewrite (nsum_others _ nat_ nr i Hm Hi). cbn [fst snd].
      rewrite Hq. rewrite (proj2 (Nat.ltb_lt _ _) Hi), Nat.eqb_refl. unfold veqb at 1. destruct (vec_eq_dec vzero vzero); [|congruence]. cbn [andb].
      rewrite (nsum_ext (fun o => q i (fst o) (snd o) x y) (fun o => p i (fst o) (snd o) x y)); [ring|].
      intros o Ho. rewrite Hq. destruct ((i <? nat_) && (fst o =? i) && veqb (snd o) vzero) eqn:E'; [|reflexivity]. exfalso. apply (others_not_self _ _ _ _ Ho).
      apply andb_true_iff in E'. destruct E' as [E1 E2]. apply andb_true_iff in E1. destruct E1 as [_ E1]. apply Nat.eqb_eq in E1.
      unfold veqb in E2. destruct (vec_eq_dec (snd o) vzero); [auto|discriminate].
    - intros i j m x y H. rewrite Hq. destruct ((i <? nat_) && (j =? i) && veqb m vzero) eqn:E'; [|reflexivity]. exfalso. apply H.
      apply andb_true_iff in E'. destruct E' as [E1 E2]. apply andb_true_iff in E1. destruct E1 as [E0 E1]. apply Nat.eqb_eq in E1. apply Nat.ltb_lt in E0.
      unfold veqb in E2. destruct (vec_eq_dec m vzero); [auto|discriminate].
  Qed.

  (** Data that satisfy the sum rule are not changed; idempotence. *)
  Lemma asr_id nat_ nr (p : @ifc F) : meshes nr ->
    (forall i x y, i < nat_ -> nsum (fun j => nsum (fun m => p i j m x y) (ws_mesh nr)) (seq 0 nat_) = n0) ->
    exists q, asr nat_ nr p = Ok q /\ forall i j m x y, q i j m x y = p i j m x y.
  Proof.
    intros Hm Hp. destruct (asr_Ok nat_ nr p Hm) as (q & E & Hq). exists q. split; [exact E|]. intros i j m x y. rewrite Hq.
    destruct ((i <? nat_) && (j =? i) && veqb m vzero) eqn:E'; [|reflexivity].
    apply andb_true_iff in E'. destruct E' as [E1 E2]. apply andb_true_iff in E1. destruct E1 as [E0 E1]. apply Nat.eqb_eq in E1. apply Nat.ltb_lt in E0.
    unfold veqb in E2. destruct (vec_eq_dec m vzero) as [->|]; [|discriminate]. subst j. specialize (Hp i x y E0).
    rewrite <- (nsum_prod' (fun o => p i (fst o) (snd o) x y)) in Hp. rewrite (nsum_others _ nat_ nr i Hm E0) in Hp. cbn [fst snd] in Hp.
    transitivity (nsub (nadd (p i i vzero x y) (nsum (fun o => p i (fst o) (snd o) x y) (others nat_ nr i))) (nsum (fun o => p i (fst o) (snd o) x y) (others nat_ nr i))); [|ring].
    rewrite Hp. ring.
  Qed.
End Asr.

(** ** Masses *)
Lemma in_group_div n a : in_group n a = (n =? a / 3).
Proof.
  unfold in_group. destruct (Nat.eqb_spec n (a / 3)) as [->|H].
  - pose proof (Nat.div_mod a 3 ltac:(lia)). pose proof (Nat.mod_upper_bound a 3 ltac:(lia)).
    apply andb_true_iff. rewrite Nat.leb_le, Nat.ltb_lt. lia.
  - destruct ((n * 3 <=? a) && (a <? (n + 1) * 3)) eqn:E; [|reflexivity]. exfalso. apply H.
    apply andb_true_iff in E. rewrite Nat.leb_le, Nat.ltb_lt in E.
    pose proof (Nat.div_mod a 3 ltac:(lia)). pose proof (Nat.mod_upper_bound a 3 ltac:(lia)). lia.
Qed.

Lemma two_factor_fold {X} (f : nat -> C) (ga gb : nat -> X -> bool) (ra rb : X -> nat) l :
  (forall n z, ga n z = (n =? ra z)) -> (forall n z, gb n z = (n =? rb z)) -> NoDup l -> forall (d : X -> C) z,
  fold_left (fun (d : X -> C) n =>
    let d := fun z => if ga n z then nmul (d z) (f n) else d z in
    fun z => if gb n z then nmul (d z) (f n) else d z) l d z =
  nmul (d z) (nmul (if existsb (Nat.eqb (ra z)) l then f (ra z) else n1) (if existsb (Nat.eqb (rb z)) l then f (rb z) else n1)).
Proof.
  intros Hga Hgb. induction l as [|n l IH]; intros Hnd d z; cbn [fold_left existsb].
  - ring.
  - inversion Hnd as [|? ? Hni Hnd']; subst. rewrite (IH Hnd'). cbv zeta. rewrite Hga, Hgb.
    assert (Hno : forall a, existsb (Nat.eqb a) l = true -> n <> a).
    { intros a E ->. apply existsb_exists in E. destruct E as (y & Hy & E). apply Nat.eqb_eq in E. subst. contradiction. }
    rewrite (Nat.eqb_sym (ra z) n), (Nat.eqb_sym (rb z) n).
    destruct (existsb (Nat.eqb (ra z)) l) eqn:Ea, (existsb (Nat.eqb (rb z)) l) eqn:Eb;
      try (apply Hno in Ea); try (apply Hno in Eb);
      destruct (Nat.eqb_spec n (ra z)) as [E1|E1], (Nat.eqb_spec n (rb z)) as [E2|E2]; cbn [orb]; try contradiction;
      try rewrite <- E1; try rewrite <- E2; ring.
Qed.

Lemma existsb_seq a n : a < n -> existsb (Nat.eqb a) (seq 0 n) = true.
Proof. intros H. apply existsb_exists. exists a. rewrite in_seq, Nat.eqb_refl. split; [lia|reflexivity]. Qed.

Lemma RtoC_mul x y : nmul (RtoC x) (RtoC y) = RtoC (x * y).
Proof. cbn. apply f_equal2; ring. Qed.

Lemma divide_by_mass_spec nat_ M d a b : a < nat_ * 3 -> b < nat_ * 3 ->
  divide_by_mass nat_ M d a b = nmul (d a b) (RtoC (/ sqrt (M (a / 3)) * / sqrt (M (b / 3)))).
Proof.
  intros Ha Hb. unfold divide_by_mass.
  pose proof (two_factor_fold (fun n => RtoC (/ sqrt (M n))) (fun n (z : nat * nat) => in_group n (fst z)) (fun n z => in_group n (snd z))
    (fun z => fst z / 3) (fun z => snd z / 3) (seq 0 nat_) (fun n z => in_group_div n (fst z)) (fun n z => in_group_div n (snd z)) (seq_NoDup _ _)
    (fun z => d (fst z) (snd z)) (a, b)) as E. cbv zeta in E. cbn [fst snd] in E.
  rewrite !existsb_seq in E by (apply Nat.div_lt_upper_bound; lia).
  rewrite <- RtoC_mul, <- E. clear E. generalize (seq 0 nat_). intros l. revert d.
  induction l as [|n l IH]; intros d; cbn [fold_left]; [reflexivity|]. rewrite IH. reflexivity.
Qed.

Lemma multiply_by_mass_spec nat_ M (p : @ifc C) i j m x y : i < nat_ -> j < nat_ ->
  multiply_by_mass nat_ M p i j m x y = nmul (p i j m x y) (RtoC (sqrt (M i) * sqrt (M j))).
Proof.
  intros Ha Hb. unfold multiply_by_mass.
  pose proof (two_factor_fold (fun n => RtoC (sqrt (M n))) (fun n (z : nat * nat * vec * nat * nat) => fst (fst (fst (fst z))) =? n)
    (fun n z => snd (fst (fst (fst z))) =? n)
    (fun z => fst (fst (fst (fst z)))) (fun z => snd (fst (fst (fst z)))) (seq 0 nat_) (fun n z => Nat.eqb_sym _ _) (fun n z => Nat.eqb_sym _ _) (seq_NoDup _ _)
    (fun z => p (fst (fst (fst (fst z)))) (snd (fst (fst (fst z)))) (snd (fst (fst z))) (snd (fst z)) (snd z)) (i, j, m, x, y)) as E. cbv zeta in E. cbn [fst snd] in E.
  rewrite !existsb_seq in E by lia.
  rewrite <- RtoC_mul, <- E. clear E. generalize (seq 0 nat_). intros l. revert p.
  induction l as [|n l IH]; intros p; cbn [fold_left]; [reflexivity|]. rewrite IH. reflexivity.
Qed.

(** ** sgnsqrt *)
Local Open Scope R_scope.
Lemma sgnsqrt_opp w : sgnsqrt (- w) = - sgnsqrt w.
Proof.
  unfold sgnsqrt, sign. rewrite Rabs_Ropp. destruct (Rlt_dec w 0), (Rlt_dec 0 w), (Rlt_dec (- w) 0), (Rlt_dec 0 (- w)); try lra; ring.
Qed.

Lemma sgnsqrt_square w : sgnsqrt w * Rabs (sgnsqrt w) = w.
Proof.
  unfold sgnsqrt, sign. pose proof (sqrt_pos (Rabs w)). pose proof (sqrt_sqrt (Rabs w) (Rabs_pos w)) as E.
  destruct (Rlt_dec w 0) as [H1|H1]; [|destruct (Rlt_dec 0 w) as [H2|H2]].
  - rewrite (Rabs_left w) in * by exact H1. rewrite Rabs_mult, (Rabs_left (-1)), (Rabs_pos_eq (sqrt _)) by lra. nra.
  - rewrite (Rabs_pos_eq w) in * by lra. rewrite Rabs_mult, (Rabs_pos_eq 1), (Rabs_pos_eq (sqrt _)) by lra. nra.
  - assert (w = 0) by lra. subst. rewrite !Rmult_0_l. ring.
Qed.

Lemma sgnsqrt_inverse x : sgnsqrt (x * Rabs x) = x.
Proof.
  unfold sgnsqrt, sign. rewrite Rabs_mult, Rabs_Rabsolu, sqrt_square by apply Rabs_pos.
  destruct (Rtotal_order x 0) as [H|[->|H]].
  - rewrite (Rabs_left x) by exact H. destruct (Rlt_dec (x * - x) 0); nra.
  - rewrite Rabs_R0, !Rmult_0_l. destruct (Rlt_dec 0 0); [lra|]. ring.
  - rewrite (Rabs_pos_eq x) by lra. destruct (Rlt_dec (x * x) 0); [nra|]. destruct (Rlt_dec 0 (x * x)); nra.
Qed.

(** ** zasr *)
Lemma Rsum_sub (f : nat -> R) c l : fold_right Rplus 0 (map (fun n => f n - c) l) = fold_right Rplus 0 (map f l) - INR (length l) * c.
Proof. induction l as [|x l IH]; cbn [map fold_right length]; [cbn; ring|]. rewrite IH, S_INR. ring. Qed.

Lemma zasr_sum nat_ Z e u : (0 < nat_)%nat -> fold_right Rplus 0 (map (fun n => zasr nat_ Z n e u) (seq 0 nat_)) = 0.
Proof.
  intros H. unfold zasr. rewrite (Rsum_sub (fun n => Z n e u)), seq_length. field. apply not_0_INR. lia.
Qed.

Lemma zasr_shift nat_ Z na na' e u : zasr nat_ Z na e u - zasr nat_ Z na' e u = Z na e u - Z na' e u.
Proof. unfold zasr. ring. Qed.

Lemma zasr_id nat_ Z na e u : fold_right Rplus 0 (map (fun n => Z n e u) (seq 0 nat_)) = 0 -> zasr nat_ Z na e u = Z na e u.
Proof. intros E. unfold zasr. rewrite E. unfold Rdiv. ring. Qed.
