(** Densities of states: positivity within the band, relation to couplings. *)
From Coq Require Import Reals Lra Lia Psatz List Permutation.
From Coquelicot Require Import Coquelicot.
From Verif Require Import Common DosModel DosSpec DosProofs DosInt.
Import ListNotations.
Local Open Scope R_scope.

Lemma tri_a2F_const E A B C c : A <= B <= C -> tri_a2F E ((A, c), (B, c), (C, c)) = scale_inf c (tri_dos E (A, B, C)).
Proof.
  intros H. destruct (tri_dos E (A, B, C)) as [x|] eqn:X.
  - destruct (proj2 (tri_a2F_dos E A B C c c c H) x X) as (wa & wb & wc & _ & _ & _ & S & F). rewrite F, <- S. cbn. f_equal. ring.
  - exact (proj1 (tri_a2F_dos E A B C c c c H) X).
Qed.

Lemma sum_scale c l : sum_inf (map (scale_inf c) l) = scale_inf c (sum_inf l).
Proof.
  induction l as [|x l IH]; cbn [map sum_inf fold_right]; [cbn; f_equal; ring|]. fold (sum_inf (map (scale_inf c) l)). fold (sum_inf l). rewrite IH.
  destruct x, (sum_inf l); cbn; try reflexivity. f_equal. ring.
Qed.

Lemma scale_scale a b x : scale_inf a (scale_inf b x) = scale_inf b (scale_inf a x).
Proof. destruct x; cbn; [f_equal; ring|reflexivity]. Qed.

Lemma a2F_const N e c E : a2F_sum N e (fun _ _ => c) E = scale_inf c (dos_sum N e E).
Proof.
  unfold a2F_sum, dos_sum. rewrite (scale_scale c), <- (sum_scale c), map_map. f_equal. apply sum_inf_ext. intros t I.
  destruct (corner_sort_spec e t (tris_three N t I)) as [A _]. unfold eng3, en3. apply tri_a2F_const, A.
Qed.

Lemma dos_as_a2F N e E : dos_sum N e E = a2F_sum N e (fun _ _ => 1) E.
Proof. rewrite a2F_const. destruct (dos_sum N e E); cbn; [f_equal; ring|reflexivity]. Qed.

Lemma mean_const N c : (0 < N)%nat -> mean N (fun _ _ => c) = c.
Proof.
  intros H. unfold mean. assert (S : forall (l : list (nat * nat)), sumf (at_ (fun _ _ => c)) l = INR (length l) * c).
  { induction l as [|x l IH]; [cbn; ring|]. rewrite sumf_cons, IH. cbn [length]. rewrite S_INR. unfold at_. ring. }
  rewrite S. unfold mesh. rewrite prod_length, seq_length. field. apply not_0_INR. nia.
Qed.

(** Contribution of one triangle as a function of the couplings. *)
Lemma a2F_tri N e E t : In t (all_tris N) -> ~ flat_at e E t -> exists wa wb wc x, 0 <= wa /\ 0 <= wb /\ 0 <= wc /\
  tri_dos E (en3 e (corner_sort e t)) = Some x /\ wa + wb + wc = x /\
  forall g, tri_a2F E (eng3 e g (corner_sort e t)) = Some (wa * at_ g (fst3 (corner_sort e t))
    + wb * at_ g (snd3 (corner_sort e t)) + wc * at_ g (thd3 (corner_sort e t))).
Proof.
  intros I F. rewrite <- (flat_iff e E t (tris_three N t I)) in F. destruct (corner_sort_spec e t (tris_three N t I)) as [A _].
  unfold asc in A. destruct (tri_dos E (en3 e (corner_sort e t))) as [x|] eqn:X; [|contradiction].
  destruct (proj2 (tri_a2F_dos E _ _ _ 0 0 0 A) x X) as (wa & wb & wc & Ha & Hb & Hc & S & G).
  exists wa, wb, wc, x. repeat split; try assumption. intros g. apply G.
Qed.

Lemma a2F_sum_none N e g E : a2F_sum N e g E = None <-> exists t, In t (all_tris N) /\ flat_at e E t.
Proof.
  unfold a2F_sum. rewrite scale_none, sum_inf_none_iff. split; intros (t & I & H); exists t; (split; [exact I|]).
  - destruct (corner_sort_spec e t (tris_three N t I)) as [A _]. unfold asc in A.
    apply (flat_iff e E t (tris_three N t I)). destruct (tri_dos E (en3 e (corner_sort e t))) as [x|] eqn:X; [exfalso|reflexivity].
    destruct (proj2 (tri_a2F_dos E _ _ _ 0 0 0 A) x X) as (wa & wb & wc & _ & _ & _ & _ & G). unfold eng3 in H. rewrite G in H. discriminate.
  - apply (flat_iff e E t (tris_three N t I)) in H. destruct (corner_sort_spec e t (tris_three N t I)) as [A _].
    apply (tri_a2F_dos E _ _ _ (at_ g (fst3 (corner_sort e t))) (at_ g (snd3 (corner_sort e t))) (at_ g (thd3 (corner_sort e t))) A). exact H.
Qed.

Lemma in_sorted_mesh N e t : (0 < N)%nat -> In t (all_tris N) ->
  let m v := (fst v < N /\ snd v < N)%nat in m (fst3 (corner_sort e t)) /\ m (snd3 (corner_sort e t)) /\ m (thd3 (corner_sort e t)).
Proof.
  intros H I. destruct (corner_sort_spec e t (tris_three N t I)) as [_ P].
  assert (K : forall v, In v (tlist (corner_sort e t)) -> (fst v < N /\ snd v < N)%nat).
  { intros v Hv. apply (in_tris_mesh N t v H I), (Permutation_in _ (Permutation_sym P)), Hv. }
  cbn [tlist In] in K. repeat split; apply K; cbn; auto.
Qed.

Lemma a2F_linear N e g h p q E x y : a2F_sum N e g E = Some x -> a2F_sum N e h E = Some y ->
  a2F_sum N e (fun i j => p * g i j + q * h i j) E = Some (p * x + q * y).
Proof.
  intros X Y. assert (F : forall t, In t (all_tris N) -> ~ flat_at e E t).
  { intros t I K. assert (Z : a2F_sum N e g E = None) by (apply a2F_sum_none; eauto). congruence. }
  unfold a2F_sum in *.
  assert (S : forall g, sum_inf (map (fun t => tri_a2F E (eng3 e g (corner_sort e t))) (all_tris N)) =
    Some (sumf (fun t => val (tri_a2F E (eng3 e g (corner_sort e t)))) (all_tris N))).
  { intros k. apply sum_inf_some. intros t I. destruct (a2F_tri N e E t I (F t I)) as (wa & wb & wc & z & _ & _ & _ & _ & _ & G). rewrite G. reflexivity. }
  rewrite S in *. cbn [scale_inf option_map] in *. apply (f_equal val) in X, Y. cbn [val] in X, Y. subst x y. f_equal.
  set (Z := / INR (N * N)). transitivity (Z * (sumf (fun t => p * val (tri_a2F E (eng3 e g (corner_sort e t))) + q * val (tri_a2F E (eng3 e h (corner_sort e t)))) (all_tris N))).
  - f_equal. apply sumf_ext. intros t I. destruct (a2F_tri N e E t I (F t I)) as (wa & wb & wc & z & _ & _ & _ & _ & _ & G). rewrite !G. cbn [val]. unfold at_. ring.
  - rewrite sumf_plus, !sumf_scale. ring.
Qed.

Lemma a2F_bounds N e g E d x lo hi : (0 < N)%nat -> (forall i j, (i < N)%nat -> (j < N)%nat -> lo <= g i j <= hi) ->
  dos_sum N e E = Some d -> a2F_sum N e g E = Some x -> lo * d <= x <= hi * d.
Proof.
  intros HN B D X. assert (F : forall t, In t (all_tris N) -> ~ flat_at e E t).
  { intros t I K. assert (Z : a2F_sum N e g E = None) by (apply a2F_sum_none; eauto). congruence. }
  unfold a2F_sum, dos_sum in *.
  rewrite (sum_inf_some _ (fun t => val (tri_a2F E (eng3 e g (corner_sort e t))))) in X.
  2:{ intros t I. destruct (a2F_tri N e E t I (F t I)) as (wa & wb & wc & z & _ & _ & _ & _ & _ & G). rewrite G. reflexivity. }
  rewrite (sum_inf_some _ (fun t => val (tri_dos E (en3 e (corner_sort e t))))) in D.
  2:{ intros t I. destruct (a2F_tri N e E t I (F t I)) as (wa & wb & wc & z & _ & _ & _ & G & _). rewrite G. reflexivity. }
  cbn [scale_inf option_map] in *. apply (f_equal val) in X, D. cbn [val] in X, D. subst x d.
  assert (P : 0 < / INR (N * N)) by (apply Rinv_0_lt_compat, lt_0_INR; nia).
  assert (T : forall t, In t (all_tris N) -> lo * val (tri_dos E (en3 e (corner_sort e t))) <= val (tri_a2F E (eng3 e g (corner_sort e t)))
    <= hi * val (tri_dos E (en3 e (corner_sort e t)))).
  { intros t I. destruct (a2F_tri N e E t I (F t I)) as (wa & wb & wc & z & Ha & Hb & Hc & D & S & G). rewrite G, D. cbn [val].
    destruct (in_sorted_mesh N e t HN I) as (M1 & M2 & M3). unfold at_.
    pose proof (B _ _ (proj1 M1) (proj2 M1)). pose proof (B _ _ (proj1 M2) (proj2 M2)). pose proof (B _ _ (proj1 M3) (proj2 M3)). nra. }
  set (k := / INR (N * N)) in *. set (a := sumf (fun t => val (tri_dos E (en3 e (corner_sort e t)))) (all_tris N)).
  set (b := sumf _ (all_tris N)). assert (lo * a <= b <= hi * a).
  { unfold a, b. rewrite <- !sumf_scale. split; apply sumf_le; intros t I; apply (T t I). }
  nra.
Qed.

(** ** Positivity within the band *)

Lemma tri_zero E A B C : A <= B <= C -> tri_dos E (A, B, C) = Some 0 -> (B < E /\ C <= E) \/ (E < B /\ E <= A).
Proof.
  intros H. assert (Q : forall a b, 0 < a -> 0 < b -> 0 < a / b) by (intros; apply Rdiv_lt_0_compat; assumption).
  unfold tri_dos. rb; intros Z; try discriminate; try lra; apply (f_equal val) in Z; cbn [val] in Z; exfalso;
    match type of Z with ?x = 0 => assert (0 < x) by (repeat (apply Q; try lra)); lra end.
Qed.

Definition one_sided (E x y z : R) : Prop :=
  (x <= E /\ y <= E /\ z <= E \/ E <= x /\ E <= y /\ E <= z) /\ (x < E \/ E < x \/ y < E \/ E < y) /\ (x < E \/ E < x \/ z < E \/ E < z) /\ (y < E \/ E < y \/ z < E \/ E < z).

Lemma tri_sided e E u v w : tri_dos E (en3 e (corner_sort e [u; v; w])) = Some 0 -> one_sided E (at_ e u) (at_ e v) (at_ e w).
Proof.
  destruct (corner_sort_spec e [u; v; w] ltac:(eauto)) as [A _]. unfold en3. intros Z. apply tri_zero in Z; [|exact A]. revert A Z.
  unfold asc, corner_sort, sort_corners, sort3, insert2, Rleb, one_sided.
  destruct (Rle_dec (at_ e v) (at_ e w)), (Rle_dec (at_ e u) (at_ e v)), (Rle_dec (at_ e u) (at_ e w)); cbn [fst3 snd3 thd3 fst snd]; intros; lra.
Qed.

Lemma walk N (P : nat -> Prop) i0 : (i0 < N)%nat -> P i0 -> (forall i, (i < N)%nat -> P i -> P ((i + 1) mod N)%nat) -> forall i, (i < N)%nat -> P i.
Proof.
  intros H0 P0 St.
  assert (U : forall k i, P i -> (i + k < N)%nat -> P (i + k)%nat).
  { induction k as [|k IH]; intros i Pi L; [rewrite Nat.add_0_r; exact Pi|]. specialize (IH i Pi ltac:(lia)).
    apply St in IH; [|lia]. rewrite Nat.mod_small in IH by lia. replace (i + S k)%nat with (i + k + 1)%nat by lia. exact IH. }
  assert (P (N - 1)%nat). { replace (N - 1)%nat with (i0 + (N - 1 - i0))%nat by lia. apply U; [exact P0|lia]. }
  assert (Z : P 0%nat). { apply St in H; [|lia]. replace (N - 1 + 1)%nat with N in H by lia. rewrite Nat.mod_same in H by lia. exact H. }
  intros i Hi. apply (U i 0%nat Z). exact Hi.
Qed.

Lemma in_tris N i j : (i < N)%nat -> (j < N)%nat -> In (lower_tri N i j) (all_tris N) /\ In (upper_tri N i j) (all_tris N).
Proof.
  intros Hi Hj. unfold all_tris. split; apply in_flat_map; exists i; (split; [apply in_seq; lia|]); apply in_flat_map; exists j; (split; [apply in_seq; lia|]); cbn; auto.
Qed.

Lemma sum_zero_terms l E : (forall t, In t l -> let '(A, B, C) := t in A <= B <= C) -> forall x, sum_inf (map (tri_dos E) l) = Some x -> x <= 0 ->
  forall t, In t l -> tri_dos E t = Some 0.
Proof.
  induction l as [|t l IH]; intros H x; cbn [map sum_inf fold_right]; [intros _ _ t []|].
  fold (sum_inf (map (tri_dos E) l)). pose proof (H t (or_introl eq_refl)) as Ht.
  destruct (tri_dos E t) as [y|] eqn:Y; [|discriminate]. destruct (sum_inf (map (tri_dos E) l)) as [z|] eqn:Z; [|discriminate].
  cbn [plus_inf]. intros E' L. apply (f_equal val) in E'. cbn in E'. subst x.
  destruct t as [[A B] C]. pose proof (tri_dos_nonneg E A B C y Ht Y).
  pose proof (dos_nonneg_sum l E (fun t I => H t (or_intror I)) z Z).
  intros t [<-|I]; [rewrite Y; f_equal; lra|]. apply (IH (fun t I => H t (or_intror I)) z eq_refl ltac:(lra) t I).
Qed.

Lemma dos_positive N e E d i j i' j' : (i < N)%nat -> (j < N)%nat -> (i' < N)%nat -> (j' < N)%nat -> e i j < E -> E < e i' j' ->
  dos_sum N e E = Some d -> 0 < d.
Proof.
  intros Hi Hj Hi' Hj' L U D. destruct (Rlt_dec 0 d) as [Y|Y]; [exact Y|exfalso].
  assert (P : 0 < / INR (N * N)) by (apply Rinv_0_lt_compat, lt_0_INR; nia).
  unfold dos_sum in D. destruct (sum_inf _) as [s|] eqn:S; [|discriminate]. cbn in D. apply (f_equal val) in D. cbn in D. subst d.
  assert (s <= 0) by nra.
  assert (Z : forall t, In t (all_tris N) -> tri_dos E (en3 e (corner_sort e t)) = Some 0).
  { intros t I. rewrite <- (map_map (fun t => en3 e (corner_sort e t)) (tri_dos E)) in S. apply (sum_zero_terms _ E) with (t := en3 e (corner_sort e t)) in S; [exact S| |exact H|].
    - intros t' I'. apply in_map_iff in I'. destruct I' as (t'' & <- & I'). destruct (corner_sort_spec e t'' (tris_three N t'' I')) as [A _]. exact A.
    - apply in_map_iff. eauto. }
  set (s1 := fun i => ((i + 1) mod N)%nat).
  assert (SB : forall i, (s1 i < N)%nat) by (intros; apply Nat.mod_upper_bound; lia).
  assert (LO : forall i j, (i < N)%nat -> (j < N)%nat -> one_sided E (e i j) (e (s1 i) j) (e i (s1 j))).
  { intros a b Ha Hb. apply (tri_sided e E (a, b) (s1 a, b) (a, s1 b)). apply Z, in_tris; assumption. }
  assert (UP : forall i j, (i < N)%nat -> (j < N)%nat -> one_sided E (e (s1 i) (s1 j)) (e (s1 i) j) (e i (s1 j))).
  { intros a b Ha Hb. apply (tri_sided e E (s1 a, s1 b) (s1 a, b) (a, s1 b)). apply Z, in_tris; assumption. }
  set (Q := fun i j => e i j < E \/ (e i j <= E /\ e (s1 i) j < E)).
  assert (QX : forall i j, (i < N)%nat -> (j < N)%nat -> Q i j -> Q (s1 i) j).
  { intros a b Ha Hb [Qa|[Qa Qb]]; [|left; exact Qb]. pose proof (LO a b Ha Hb) as T1. pose proof (UP a b Ha Hb) as T2. pose proof (LO (s1 a) b (SB a) Hb) as T3.
    unfold Q, one_sided in *. lra. }
  assert (QY : forall i j, (i < N)%nat -> (j < N)%nat -> Q i j -> Q i (s1 j)).
  { intros a b Ha Hb HQ. pose proof (LO a b Ha Hb) as T1. pose proof (UP a b Ha Hb) as T2. unfold Q, one_sided in *. lra. }
  assert (Q1 : forall a, (a < N)%nat -> Q a j).
  { apply (walk N (fun a => Q a j) i Hi); [left; exact L|]. intros a Ha. apply QX; assumption. }
  assert (Q2 : Q i' j').
  { apply (walk N (fun b => Q i' b) j Hj); [apply Q1, Hi'| |exact Hj']. intros b Hb. apply QY; assumption. }
  destruct Q2 as [?|[? _]]; lra.
Qed.
