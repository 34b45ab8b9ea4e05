(** Proofs about distances and sizes of matrix elements. *)
From Coq Require Import Reals Lra.
From Verif Require Import GeoModel PathModel Common LatModel MPIModel VorModel Num NumC WSModel WSProofs WSProofs2 WSSpec PhModel DecModel DecSpec.
Local Open Scope nat_scope.

Lemma all_res_all {A B} (f : A -> res B) (h : A -> B) l : (forall x, In x l -> f x = Ok (h x)) -> all_res f l = Ok (map h l).
Proof.
  induction l as [|x l IH]; intros H; [reflexivity|]. cbn [all_res map]. rewrite (H x) by (left; reflexivity). cbn [bind].
  rewrite IH by (intros y I; apply H; right; exact I). reflexivity.
Qed.

Lemma all_res_map {A B D} (f : B -> res D) (g : A -> B) l : all_res f (map g l) = all_res (fun x => f (g x)) l.
Proof. induction l as [|x l IH]; [reflexivity|]. cbn [all_res map]. rewrite IH. reflexivity. Qed.

(** Selection of positive numbers and of the corresponding elements of another array. *)
Lemma where_cons x l : where_gt0 (x :: l) = (if gt0 x then [0] else []) ++ map S (where_gt0 l).
Proof.
  unfold where_gt0. cbn [length seq]. rewrite <- seq_shift. cbn [filter].
  assert (E : forall s, filter (fun n => gt0 (nth n (x :: l) 0%R)) (map S s) = map S (filter (fun n => gt0 (nth n l 0%R)) s)).
  { induction s as [|n s IH]; [reflexivity|]. cbn [map filter]. rewrite IH. change (nth (S n) (x :: l) 0%R) with (nth n l 0%R). destruct (gt0 (nth n l 0%R)); reflexivity. }
  rewrite E. change (nth 0 (x :: l) 0%R) with x. destruct (gt0 x); reflexivity.
Qed.

Lemma select {A D} (f : A -> D) (g : A -> R) B :
  all_res (fun n => do x <- at_index (map f B) n ;; Ok (x, nth n (map g B) 0%R)) (where_gt0 (map g B)) =
  Ok (map (fun b => (f b, g b)) (filter (fun b => gt0 (g b)) B)).
Proof.
  induction B as [|b B IH]; [reflexivity|].
  change (map g (b :: B)) with (g b :: map g B). change (map f (b :: B)) with (f b :: map f B). rewrite where_cons. cbn [filter].
  assert (E : all_res (fun n => do x <- at_index (f b :: map f B) n ;; Ok (x, nth n (g b :: map g B) 0%R)) (map S (where_gt0 (map g B))) =
    Ok (map (fun b => (f b, g b)) (filter (fun b => gt0 (g b)) B))) by (rewrite all_res_map; exact IH).
  destruct (gt0 (g b)); cbn [app]; [|exact E].
  cbn [all_res]. rewrite E. reflexivity.
Qed.

Lemma gt0_iff x : gt0 x = true <-> (0 < x)%R.
Proof. unfold gt0. destruct (Rlt_dec 0 x); split; intros; try discriminate; auto; contradiction. Qed.

(** ** Blocks *)
Definition triples {A} (n : nat) (l : list A) : list (A * nat * nat) :=
  flat_map (fun x => flat_map (fun i => map (fun j => (x, i, j)) (seq 0 n)) (seq 0 n)) l.

Lemma in_triples {A} n (l : list A) x i j : In (x, i, j) (triples n l) <-> In x l /\ i < n /\ j < n.
Proof.
  unfold triples. rewrite in_flat_map. split.
  - intros (y & Hy & H). apply in_flat_map in H. destruct H as (i' & Hi & H). apply in_map_iff in H. destruct H as (j' & [= -> -> ->] & Hj).
    apply in_seq in Hi, Hj. split; [exact Hy|]. lia.
  - intros (Hx & Hi & Hj). exists x. split; [exact Hx|]. apply in_flat_map. exists i. split; [apply in_seq; lia|]. apply in_map. apply in_seq. lia.
Qed.

Lemma flatten_triples {A D} n (f : A -> nat -> nat -> D) l :
  flatten n (map f l) = map (fun t => f (fst (fst t)) (snd (fst t)) (snd t)) (triples n l).
Proof.
  unfold flatten, triples. induction l as [|x l IH]; [reflexivity|]. cbn [map flat_map]. rewrite map_app, IH. f_equal.
  clear. generalize (seq 0 n) at 2 4. intros s. induction s as [|i s IH]; [reflexivity|]. cbn [flat_map]. rewrite map_app, IH. f_equal.
  rewrite map_map. reflexivity.
Qed.

Lemma nodup_map_filter {A B} (f : A -> B) (p : A -> bool) l : NoDup (map f l) -> NoDup (map f (filter p l)).
Proof.
  induction l as [|x l IH]; intros H; cbn [map filter] in *; [constructor|]. apply NoDup_cons_iff in H. destruct H as [H1 H2].
  destruct (p x); [|apply IH; exact H2]. cbn [map]. constructor; [|apply IH; exact H2].
  intros I. apply H1. apply in_map_iff in I. destruct I as (y & E & I). apply filter_In in I. rewrite <- E. apply in_map, (proj1 I).
Qed.

Lemma nodup_app' {A} (l1 l2 : list A) : NoDup l1 -> NoDup l2 -> (forall x, In x l1 -> ~ In x l2) -> NoDup (l1 ++ l2).
Proof.
  induction l1 as [|x l1 IH]; intros H1 H2 H; [exact H2|]. apply NoDup_cons_iff in H1. destruct H1 as [Hx H1]. cbn [app]. constructor.
  - rewrite in_app_iff. intros [I|I]; [exact (Hx I)|]. exact (H x (or_introl eq_refl) I).
  - apply IH; auto. intros y I. apply H. right. exact I.
Qed.

Lemma nodup_triples {A B} n (key : A -> B) l : NoDup (map key l) ->
  NoDup (map (fun t : A * nat * nat => (key (fst (fst t)), snd (fst t), snd t)) (triples n l)).
Proof.
  intros H. induction l as [|x l IH]; [constructor|]. cbn [map] in H. apply NoDup_cons_iff in H. destruct H as [Hx H].
  unfold triples. cbn [flat_map]. fold (triples n l). rewrite map_app. apply nodup_app'; [|apply IH, H|].
  - assert (G : forall s, NoDup s -> NoDup (map (fun t : A * nat * nat => (key (fst (fst t)), snd (fst t), snd t))
      (flat_map (fun i => map (fun j => (x, i, j)) (seq 0 n)) s))).
    { induction s as [|i s IHs]; intros Hs; [constructor|]. apply NoDup_cons_iff in Hs. destruct Hs as [Hi Hs].
      cbn [flat_map]. rewrite map_app. apply nodup_app'; [|apply IHs, Hs|].
      - rewrite map_map. cbn [fst snd]. apply FinFun.Injective_map_NoDup; [|apply seq_NoDup]. intros a b [= ->]. reflexivity.
      - rewrite map_map. cbn [fst snd]. intros [[k i'] j'] I J. apply in_map_iff in I. destruct I as (j & [= <- <- <-] & _).
        apply in_map_iff in J. destruct J as ([[y i''] j''] & [= _ -> _] & J). apply in_flat_map in J. destruct J as (i2 & I2 & J).
        apply in_map_iff in J. destruct J as (j2 & [= _ -> _] & _). exact (Hi I2). }
    apply G, seq_NoDup.
  - intros [[k i'] j'] I J. apply in_map_iff in I. destruct I as ([[y i] j] & [= <- <- <-] & I). apply in_flat_map in I. destruct I as (i2 & _ & I).
    apply in_map_iff in I. destruct I as (j2 & [= <- _ _] & _). apply in_map_iff in J. destruct J as ([[z i3] j3] & [= Ek _ _] & J). apply in_triples in J.
    apply Hx. rewrite <- Ek. apply in_map, (proj1 J).
Qed.

(** ** Norms *)
Lemma frobenius_norm c i j : block_norm c i j (frobenius c i j).
Proof.
  unfold block_norm, frobenius. split; [apply sqrt_pos|]. cbn zeta. rewrite sqrt_sqrt.
  - cbn [seq list_prod map app fold_right fst snd]. unfold abs2. ring.
  - generalize (list_prod (seq 0 3) (seq 0 3)). intros l. induction l as [|x l IH]; cbn [map fold_right]; [lra|].
    pose proof (pow2_ge_0 (Re (c (i * 3 + fst x) (j * 3 + snd x)))). pose proof (pow2_ge_0 (Im (c (i * 3 + fst x) (j * 3 + snd x)))). cbn zeta. lra.
Qed.

Lemma abs2_nonneg z : (0 <= abs2 z)%R.
Proof. unfold abs2. pose proof (Rle_0_sqr (Re z)). pose proof (Rle_0_sqr (Im z)). unfold Rsqr in *. lra. Qed.

Lemma abs2_zero z : abs2 z = 0%R <-> z = n0.
Proof.
  destruct z as [x y]. unfold abs2, Re, Im. cbn. split.
  - intros H. destruct (Rplus_sqr_eq_0 x y H) as [-> ->]. reflexivity.
  - intros [= -> ->]. ring.
Qed.

Lemma frobenius_pos c i j : (0 < frobenius c i j)%R <-> coupled c i j.
Proof.
  destruct (frobenius_norm c i j) as [H0 H]. cbv zeta beta in H. set (v := frobenius c i j) in *.
  pose proof (fun x y => abs2_nonneg (c (i * 3 + x) (j * 3 + y))) as N. split.
  - intros Hv. assert (P : (0 < v * v)%R) by (apply Rmult_lt_0_compat; exact Hv).
    assert (D : (exists x y, x < 3 /\ y < 3 /\ abs2 (c (i * 3 + x) (j * 3 + y)) <> 0%R)).
    { pose proof (N 0 0). pose proof (N 0 1). pose proof (N 0 2). pose proof (N 1 0). pose proof (N 1 1). pose proof (N 1 2). pose proof (N 2 0). pose proof (N 2 1). pose proof (N 2 2).
      assert (L : forall x y, x < 3 -> y < 3 -> abs2 (c (i * 3 + x) (j * 3 + y)) <> 0%R \/ abs2 (c (i * 3 + x) (j * 3 + y)) = 0%R)
        by (intros x y _ _; destruct (Req_dec (abs2 (c (i * 3 + x) (j * 3 + y))) 0); auto).
      destruct (L 0 0) as [D|E0]; [lia|lia|exists 0, 0; auto with arith|].
      destruct (L 0 1) as [D|E1]; [lia|lia|exists 0, 1; auto with arith|].
      destruct (L 0 2) as [D|E2]; [lia|lia|exists 0, 2; auto with arith|].
      destruct (L 1 0) as [D|E3]; [lia|lia|exists 1, 0; auto with arith|].
      destruct (L 1 1) as [D|E4]; [lia|lia|exists 1, 1; auto with arith|].
      destruct (L 1 2) as [D|E5]; [lia|lia|exists 1, 2; auto with arith|].
      destruct (L 2 0) as [D|E6]; [lia|lia|exists 2, 0; auto with arith|].
      destruct (L 2 1) as [D|E7]; [lia|lia|exists 2, 1; auto with arith|].
      destruct (L 2 2) as [D|E8]; [lia|lia|exists 2, 2; auto with arith|].
      lra. }
    destruct D as (x & y & Hx & Hy & D). exists x, y. split; [exact Hx|]. split; [exact Hy|]. intros E. apply D, abs2_zero, E.
  - intros (x & y & Hx & Hy & D). assert (A : Rlt 0%R (abs2 (c (i * 3 + x) (j * 3 + y)))).
    { destruct (N x y) as [L|L]; [exact L|]. exfalso. apply D, abs2_zero. symmetry. exact L. }
    destruct H0 as [L|L]; [exact L|]. exfalso. rewrite <- L in H.
    pose proof (N 0 0). pose proof (N 0 1). pose proof (N 0 2). pose proof (N 1 0). pose proof (N 1 1). pose proof (N 1 2). pose proof (N 2 0). pose proof (N 2 1). pose proof (N 2 2).
    assert (x = 0 \/ x = 1 \/ x = 2) as [-> | [-> | ->]] by lia; assert (y = 0 \/ y = 1 \/ y = 2) as [-> | [-> | ->]] by lia; lra.
Qed.

(** ** Phonons *)
Lemma divide_zero nat_ M c a b : c a b = n0 -> divide_by_mass nat_ M c a b = n0.
Proof.
  unfold divide_by_mass. generalize (seq 0 nat_). intros l. revert c. induction l as [|n l IH]; intros c E; [exact E|].
  cbn [fold_left]. apply IH. cbn zeta. 
  assert (Z : forall x, @nmul C n0 x = n0) by (intros [x y]; cbn; f_equal; ring).
  destruct (in_group n a), (in_group n b); rewrite ?E, ?Z; auto.
Qed.

Section Create.
  Context (nat_ : nat) (nq : vec) (M : nat -> R) (phid : @ifc C) (len : vec -> nat -> nat -> Q) (dn dm : bool) (nproc : nat).
  Hypothesis Hn : (0 < vx nq)%Z /\ (0 < vy nq)%Z /\ (0 < vz nq)%Z.
  Hypothesis Hp : 0 < nproc.

  Definition const (x : vec * wentry) : nat -> nat -> C :=
    let c := short_const Cdivn dn nq (-1) 3 phid (fst x) (fun i j => fst (snd x i j)) in
    if dm then divide_by_mass nat_ M c else c.

  Lemma dcreate_unfold : exists d, wigner nq (-1) 2 nat_ nat_ len (1 # 10000000) nproc = Ok d /\
    dcreate nat_ nq M phid len dn dm nproc = Ok (DModel nat_ (map (fun x => (fst x, const x)) d) (Some (map (fun x i j => snd (snd x i j)) d))).
  Proof.
    destruct (short_range_unfold nq (-1) 2 nat_ 3 len (1 # 10000000) Hn (or_intror eq_refl) eq_refl Cdivn phid nproc Hp dn) as (d & E & E').
    exists d. split; [exact E|]. unfold dcreate, phid_model. rewrite E, E'. cbn [bind]. unfold const. destruct dm; [|reflexivity].
    rewrite map_map. reflexivity.
  Qed.

  (** Any force constants that replace those of the model. *)
  Lemma decay_unfold d (c : vec * wentry -> nat -> nat -> C) :
    decay (DModel nat_ (map (fun x => (fst x, c x)) d) (Some (map (fun x i j => snd (snd x i j)) d))) =
    Ok (map (fun t : vec * wentry * nat * nat => (snd (snd (fst (fst t)) (snd (fst t)) (snd t)), frobenius (c (fst (fst t))) (snd (fst t)) (snd t)))
      (filter (fun t : vec * wentry * nat * nat => gt0 (frobenius (c (fst (fst t))) (snd (fst t)) (snd t))) (triples nat_ d))).
  Proof.
    unfold decay. cbn [d_l d_nat d_data]. rewrite map_map. cbn [snd].
    rewrite (flatten_triples nat_ (fun (x : vec * wentry) i j => snd (snd x i j)) d).
    rewrite (flatten_triples nat_ (fun x : vec * wentry => frobenius (c x)) d). apply select.
  Qed.
End Create.

Lemma const_shortest nat_ nq M phid dm (x : vec * wentry) i j : fst (snd x i j) = 0%nat -> ~ coupled (const nat_ nq M phid true dm x) i j.
Proof.
  intros E (u & v & Hu & Hv & D). apply D. unfold const.
  assert (G : short_const Cdivn true nq (-1) 3 phid (fst x) (fun i j => fst (snd x i j)) (i * 3 + u) (j * 3 + v) = n0).
  { unfold short_const. replace ((i * 3 + u) / 3) with i by (rewrite Nat.div_add_l by lia; rewrite Nat.div_small by lia; lia).
    replace ((j * 3 + v) / 3) with j by (rewrite Nat.div_add_l by lia; rewrite Nat.div_small by lia; lia).
    rewrite E. reflexivity. }
  destruct dm; [|exact G]. apply divide_zero, G.
Qed.

Lemma least_near nr sgn nsc len eps i j v x : (0 < eps)%Q -> shortest nr sgn nsc len eps i j v -> least_length nr sgn nsc len i j v x ->
  (x <= len v i j /\ len v i j < x + eps)%Q.
Proof.
  intros He [H1 H2] [(R' & S1 & C1 & ->) L]. split.
  - apply L; [exact H1|]. repeat split; exists 0%Z; lia.
  - apply H2; assumption.
Qed.

(** Lengths of all blocks, for any force constants in place of those of the model. *)
Lemma decay_replaced nat_ nq len d nproc (c : vec * wentry -> nat -> nat -> C) :
  (0 < vx nq)%Z /\ (0 < vy nq)%Z /\ (0 < vz nq)%Z -> 0 < nproc -> wigner nq (-1) 2 nat_ nat_ len (1 # 10000000) nproc = Ok d ->
  let p := DModel nat_ (map (fun x => (fst x, c x)) d) (Some (map (fun x i j => snd (snd x i j)) d)) in
  exists out blocks, decay p = Ok out /\ NoDup blocks /\
    (forall v i j, In (v, i, j) blocks <-> i < nat_ /\ j < nat_ /\ exists c, In (v, c) (d_data p) /\ coupled c i j) /\
    Forall2 (fun (b : vec * nat * nat) o => let '(v, i, j) := b in
      (shortest nq (-1) 2 len (1 # 10000000) i j v -> fst o <= len v i j /\ len v i j < fst o + (1 # 10000000))%Q /\
      (~ shortest nq (-1) 2 len (1 # 10000000) i j v -> fst o = 0%Q /\ exists x, In x d /\ fst x = v /\ fst (snd x i j) = 0) /\
      forall c, In (v, c) (d_data p) -> block_norm c i j (snd o)) blocks out.
Proof.
  intros Hn Hp Ed. cbn zeta.
  destruct (wigner_spec nq (-1) 2 nat_ nat_ len (1 # 10000000) Hn (or_intror eq_refl) eq_refl eq_refl nproc Hp) as (d' & Ed' & ND & HR & HW).
  rewrite Ed in Ed'. injection Ed' as <-.
  set (sel := filter (fun t : vec * wentry * nat * nat => gt0 (frobenius (c (fst (fst t))) (snd (fst t)) (snd t))) (triples nat_ d)).
  exists (map (fun t : vec * wentry * nat * nat => (snd (snd (fst (fst t)) (snd (fst t)) (snd t)), frobenius (c (fst (fst t))) (snd (fst t)) (snd t))) sel).
  exists (map (fun t : vec * wentry * nat * nat => (fst (fst (fst t)), snd (fst t), snd t)) sel).
  split; [apply decay_unfold|]. split.
  { apply nodup_map_filter. apply (nodup_triples nat_ fst d ND). }
  assert (U : forall x y : vec * wentry, In x d -> In y d -> fst x = fst y -> x = y).
  { clear - ND. induction d as [|z d IH]; intros x y Hx Hy E; [destruct Hx|]. cbn [map] in ND. apply NoDup_cons_iff in ND. destruct ND as [N ND].
    destruct Hx as [<-|Hx], Hy as [<-|Hy]; [reflexivity| | |apply IH; assumption]; exfalso; apply N.
    - rewrite E. apply in_map, Hy.
    - rewrite <- E. apply in_map, Hx. }
  split.
  - intros v i j. cbn [d_data]. split.
    + intros I. apply in_map_iff in I. destruct I as ([[x i'] j'] & [= <- -> ->] & I). apply filter_In in I. destruct I as [I G].
      cbn [fst snd] in *. apply in_triples in I. destruct I as (Hx & Hi & Hj). split; [exact Hi|]. split; [exact Hj|]. exists (c x).
      split; [apply in_map_iff; exists x; auto|]. apply frobenius_pos, gt0_iff, G.
    + intros (Hi & Hj & e & I & K). apply in_map_iff in I. destruct I as (x & [= <- <-] & I). apply in_map_iff. exists (x, i, j). split; [reflexivity|].
      apply filter_In. cbn [fst snd]. split; [apply in_triples; auto|]. apply gt0_iff, frobenius_pos, K.
  - assert (Hs : forall t, In t sel -> In t sel) by auto. revert Hs. generalize sel at 1 3 4. intros l. induction l as [|t l IH]; intros Hs; cbn [map]; constructor.
    + destruct t as [[x i] j]. cbn [fst snd]. specialize (Hs _ (or_introl eq_refl)). apply filter_In in Hs. cbn [fst snd] in Hs. destruct Hs as [I G].
      apply in_triples in I. destruct I as (Hx & Hi & Hj).
      destruct (HW (fst x) (snd x) i j ltac:(destruct x; exact Hx) Hi Hj) as [H1 H2]. split; [|split].
      * intros Sh. destruct (H1 Sh) as [_ LL]. apply (least_near nq (-1) 2 len (1 # 10000000) i j (fst x) _ eq_refl Sh LL).
      * intros Y. specialize (H2 Y). rewrite H2. split; [reflexivity|]. exists x. rewrite H2. auto.
      * cbn [d_data]. intros e I. apply in_map_iff in I. destruct I as (y & [= E <-] & I). rewrite (U y x I Hx E). apply frobenius_norm.
    + apply IH. intros t' I. apply Hs. right. exact I.
Qed.

Lemma decay_undivided nat_ nq M phid len dm nproc :
  (0 < vx nq)%Z /\ (0 < vy nq)%Z /\ (0 < vz nq)%Z -> 0 < nproc ->
  exists p out blocks, dcreate nat_ nq M phid len false dm nproc = Ok p /\ decay p = Ok out /\ NoDup blocks /\
    (forall v i j, In (v, i, j) blocks <-> i < nat_ /\ j < nat_ /\ exists c, In (v, c) (d_data p) /\ coupled c i j) /\
    Forall2 (fun (b : vec * nat * nat) o => let '(v, i, j) := b in
      (shortest nq (-1) 2 len (1 # 10000000) i j v -> fst o <= len v i j /\ len v i j < fst o + (1 # 10000000))%Q /\
      (~ shortest nq (-1) 2 len (1 # 10000000) i j v -> fst o = 0%Q) /\
      forall c, In (v, c) (d_data p) -> block_norm c i j (snd o)) blocks out.
Proof.
  intros Hn Hp. destruct (dcreate_unfold nat_ nq M phid len false dm nproc Hn Hp) as (d & Ed & Ep).
  destruct (decay_replaced nat_ nq len d nproc (const nat_ nq M phid false dm) Hn Hp Ed) as (out & blocks & H1 & H2 & H3 & H4).
  eexists _, out, blocks. split; [exact Ep|]. split; [exact H1|]. split; [exact H2|]. split; [exact H3|].
  revert H4. clear. induction 1 as [|[[v i] j] o bs os (A & B & D) H IH]; constructor; [|exact IH]. split; [exact A|]. split; [|exact D].
  intros Y. apply (proj1 (B Y)).
Qed.

Lemma decay_created nat_ nq M phid len dm nproc :
  (0 < vx nq)%Z /\ (0 < vy nq)%Z /\ (0 < vz nq)%Z -> 0 < nproc ->
  exists p out blocks, dcreate nat_ nq M phid len true dm nproc = Ok p /\ decay p = Ok out /\ NoDup blocks /\
    (forall v i j, In (v, i, j) blocks <-> i < nat_ /\ j < nat_ /\ exists c, In (v, c) (d_data p) /\ coupled c i j) /\
    Forall2 (fun (b : vec * nat * nat) o => let '(v, i, j) := b in
      (fst o <= len v i j /\ len v i j < fst o + (1 # 10000000))%Q /\
      forall c, In (v, c) (d_data p) -> block_norm c i j (snd o)) blocks out.
Proof.
  intros Hn Hp. destruct (dcreate_unfold nat_ nq M phid len true dm nproc Hn Hp) as (d & Ed & Ep).
  destruct (decay_replaced nat_ nq len d nproc (const nat_ nq M phid true dm) Hn Hp Ed) as (out & blocks & H1 & H2 & H3 & H4).
  eexists _, out, blocks. split; [exact Ep|]. split; [exact H1|]. split; [exact H2|]. split; [exact H3|].
  destruct (wigner_spec nq (-1) 2 nat_ nat_ len (1 # 10000000) Hn (or_intror eq_refl) eq_refl eq_refl nproc Hp) as (d' & Ed' & ND & _).
  rewrite Ed in Ed'. injection Ed' as <-.
  assert (K : forall b, In b blocks -> let '(v, i, j) := b in shortest nq (-1) 2 len (1 # 10000000) i j v).
  { intros [[v i] j] I. destruct (Classical_Prop.classic (shortest nq (-1) 2 len (1 # 10000000) i j v)) as [Y|Y]; [exact Y|]. exfalso.
    assert (G : exists x, In x d /\ fst x = v /\ fst (snd x i j) = 0).
    { revert I. clear - H4 Y. induction H4 as [|b o bs os H _ IH]; intros I; [destruct I|]. destruct I as [-> | I]; [|apply IH, I]. apply (proj1 (proj2 H) Y). }
    destruct G as (x & Hx & Ex & E0). apply H3 in I. destruct I as (_ & _ & e & I & K). cbn [d_data] in I. apply in_map_iff in I. destruct I as (y & [= Ey <-] & I).
    assert (y = x) as ->.
    { assert (Exy : fst x = fst y) by congruence. clear - ND Hx I Exy. rename Exy into Ey. revert Hx I. induction d as [|z d IH]; intros Hx Hy; [destruct Hx|]. cbn [map] in ND. apply NoDup_cons_iff in ND. destruct ND as [N ND].
      destruct Hx as [<-|Hx], Hy as [<-|Hy]; [reflexivity| | |apply IH; assumption]; exfalso; apply N.
      - rewrite Ey. apply in_map, Hy.
      - rewrite <- Ey. apply in_map, Hx. }
    apply (const_shortest nat_ nq M phid dm x i j E0) in K. exact K. }
  revert H4 K. clear. induction 1 as [|[[v i] j] o bs os (A & B & D) H IH]; intros K; constructor.
  - split; [|exact D]. apply A. exact (K _ (or_introl eq_refl)).
  - apply IH. intros b I. apply K. right. exact I.
Qed.

(** ** Couplings and hopping *)
Lemma cabs_spec z : (0 <= cabs z /\ cabs z * cabs z = abs2 z)%R.
Proof.
  unfold cabs, abs2. split; [apply sqrt_pos|]. rewrite sqrt_sqrt; [ring|]. pose proof (pow2_ge_0 (Re z)). pose proof (pow2_ge_0 (Im z)). lra.
Qed.

Lemma fold_max l : forall x, (x <= fold_left (fun x z => Rmax x (cabs z)) l x)%R /\
  (forall z, In z l -> (cabs z <= fold_left (fun x z => Rmax x (cabs z)) l x)%R) /\
  (fold_left (fun x z => Rmax x (cabs z)) l x = x \/ exists z, In z l /\ fold_left (fun x z => Rmax x (cabs z)) l x = cabs z).
Proof.
  induction l as [|z l IH]; intros x; cbn [fold_left].
  - split; [lra|]. split; [intros z []|left; reflexivity].
  - destruct (IH (Rmax x (cabs z))) as (H1 & H2 & H3). pose proof (Rmax_l x (cabs z)). pose proof (Rmax_r x (cabs z)). split; [lra|]. split.
    + intros y [<-|I]; [lra|apply H2, I].
    + destruct H3 as [E|(y & I & E)]; [|right; exists y; split; [right; exact I|exact E]].
      rewrite E. unfold Rmax. destruct (Rle_dec x (cabs z)); [right; exists z; split; [left; reflexivity|reflexivity]|left; reflexivity].
Qed.

Lemma amax_spec l : l <> [] -> exists v, amax l = Ok v /\ greatest (fun z => In z l) v.
Proof.
  destruct l as [|z l]; intros H; [contradiction|]. cbn [amax]. eexists. split; [reflexivity|].
  destruct (fold_max l (cabs z)) as (H1 & H2 & H3). set (v := fold_left _ _ _) in *. destruct (cabs_spec z) as [P Q].
  split; [lra|]. split.
  - destruct H3 as [E|(y & I & E)].
    + exists z. split; [left; reflexivity|]. rewrite E. exact Q.
    + exists y. split; [right; exact I|]. rewrite E. apply cabs_spec.
  - intros y [<-|I].
    + rewrite <- Q. apply Rmult_le_compat; lra.
    + destruct (cabs_spec y) as [P' Q']. rewrite <- Q'. pose proof (H2 y I). apply Rmult_le_compat; lra.
Qed.

Lemma greatest_ext (P P' : C -> Prop) v : (forall z, P z <-> P' z) -> greatest P v -> greatest P' v.
Proof.
  intros H (A & (z & B & D) & E). split; [exact A|]. split; [exists z; split; [apply H, B|exact D]|]. intros y I. apply E, H, I.
Qed.

Lemma distance_spec a v : vector_length a v (distance a v).
Proof.
  destruct a as [[a1 a2] a3]. unfold vector_length, distance, norm3. split; [apply sqrt_pos|]. rewrite sqrt_sqrt.
  - unfold cartesian, dot3, add3, scale3. cbn [fst snd rx ry rz]. ring.
  - unfold dot3. set (u := cartesian _ _). pose proof (Rle_0_sqr (rx u)). pose proof (Rle_0_sqr (ry u)). pose proof (Rle_0_sqr (rz u)). unfold Rsqr in *. lra.
Qed.

Lemma amax_list {A} (el : A -> list C) l : (forall x, In x l -> el x <> []) -> exists g : A -> R,
  all_res (fun x => amax (el x)) l = Ok (map g l) /\ forall x, In x l -> greatest (fun z => In z (el x)) (g x).
Proof.
  intros H. set (g := fun x => match amax (el x) with Ok v => v | Raise _ => 0%R end). exists g. split.
  - apply all_res_all. intros x I. unfold g. destruct (amax_spec (el x) (H x I)) as (v & E & _). rewrite E. reflexivity.
  - intros x I. unfold g. destruct (amax_spec (el x) (H x I)) as (v & E & G). rewrite E. exact G.
Qed.

(** Indices in place of lattice vectors. *)
Lemma seq_nth_self {A} (d : A) l : l = map (fun n => nth n l d) (seq 0 (length l)).
Proof.
  induction l as [|x l IH]; [reflexivity|]. cbn [length seq map nth]. f_equal. rewrite <- seq_shift, map_map. exact IH.
Qed.

Lemma map_seq_nth {A B} (f : A -> B) (d : A) l : map f l = map (fun n => f (nth n l d)) (seq 0 (length l)).
Proof. rewrite (seq_nth_self d l) at 1. apply map_map. Qed.

Lemma decay_max_spec a0 a Rs el : (forall n, n < length Rs -> el n <> []) -> exists (g : nat -> R),
  decay_max a0 a Rs el = Ok (map (fun n => (distance a (nth n Rs vzero) * a0, g n)%R) (filter (fun n => gt0 (g n)) (seq 0 (length Rs)))) /\
  forall n, n < length Rs -> greatest (fun z => In z (el n)) (g n).
Proof.
  intros H. destruct (amax_list el (seq 0 (length Rs))) as (g & E & G). { intros n I. apply H. apply in_seq in I. lia. }
  exists g. split; [|intros n I; apply G, in_seq; lia]. unfold decay_max. rewrite E. cbn [bind].
  rewrite (map_seq_nth (fun v => distance a v * a0)%R vzero Rs). apply (select (fun n => (distance a (nth n Rs vzero) * a0)%R) g).
Qed.
