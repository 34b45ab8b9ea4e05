(** Densities of states: structure of the sums. *)
From Coq Require Import Reals Lra Lia Psatz List Permutation.
From Verif Require Import Common DosModel DosSpec.
Import ListNotations.
Local Open Scope R_scope.

Ltac rb := unfold Rltb, Rleb, Reqb in *;
  repeat match goal with
  | |- context [if Rlt_dec ?a ?b then _ else _] => destruct (Rlt_dec a b); cbn [andb]
  | |- context [if Rle_dec ?a ?b then _ else _] => destruct (Rle_dec a b); cbn [andb]
  | |- context [if Req_EM_T ?a ?b then _ else _] => destruct (Req_EM_T a b); cbn [andb]
  end.

Definition asc {T} (key : T -> R) (t : T * T * T) : Prop := key (fst3 t) <= key (snd3 t) <= key (thd3 t).
Definition tlist {T} (t : T * T * T) : list T := [fst3 t; snd3 t; thd3 t].

Ltac perm3 := first [reflexivity | apply perm_swap | apply perm_skip, perm_swap
  | (eapply perm_trans; [apply perm_swap|apply perm_skip, perm_swap])
  | (eapply perm_trans; [apply perm_skip, perm_swap|apply perm_swap])
  | (eapply perm_trans; [apply perm_skip, perm_swap|]; eapply perm_trans; [apply perm_swap|apply perm_skip, perm_swap])].

Lemma sort3_spec {T} (key : T -> R) a b c : asc key (sort3 key a b c) /\ Permutation [a; b; c] (tlist (sort3 key a b c)).
Proof.
  unfold sort3, insert2, asc, tlist, Rleb.
  destruct (Rle_dec (key b) (key c)), (Rle_dec (key a) (key b)), (Rle_dec (key a) (key c)); cbn [fst3 snd3 thd3 fst snd]; (split; [lra|perm3]).
Qed.

Lemma sort3_map {T} (key : T -> R) a b c : sort3 (fun x => x) (key a) (key b) (key c) =
  (key (fst3 (sort3 key a b c)), key (snd3 (sort3 key a b c)), key (thd3 (sort3 key a b c))).
Proof.
  unfold sort3, insert2, Rleb. destruct (Rle_dec (key b) (key c)), (Rle_dec (key a) (key b)), (Rle_dec (key a) (key c)); reflexivity.
Qed.

(** ** Sums with infinity *)

Lemma plus_inf_comm x y : plus_inf x y = plus_inf y x.
Proof. destruct x, y; cbn; try reflexivity. f_equal. ring. Qed.

Lemma plus_inf_assoc x y z : plus_inf x (plus_inf y z) = plus_inf (plus_inf x y) z.
Proof. destruct x, y, z; cbn; try reflexivity. f_equal. ring. Qed.

Lemma plus_inf_0 x : plus_inf (Some 0) x = x.
Proof. destruct x; cbn; [f_equal; ring|reflexivity]. Qed.

Lemma sum_inf_app l m : sum_inf (l ++ m) = plus_inf (sum_inf l) (sum_inf m).
Proof. induction l as [|x l IH]; cbn [app sum_inf fold_right]; [symmetry; apply plus_inf_0|]. fold (sum_inf (l ++ m)). rewrite IH. apply plus_inf_assoc. Qed.

Lemma sum_inf_perm l m : Permutation l m -> sum_inf l = sum_inf m.
Proof.
  induction 1; cbn [sum_inf fold_right]; [reflexivity|f_equal; assumption| |congruence].
  fold (sum_inf l). rewrite !plus_inf_assoc. f_equal. apply plus_inf_comm.
Qed.

Lemma sum_inf_concat (ls : list (list (option R))) : sum_inf (concat ls) = sum_inf (map sum_inf ls).
Proof. induction ls as [|l ls IH]; [reflexivity|]. cbn [concat map]. rewrite sum_inf_app, IH. reflexivity. Qed.

Lemma sum_inf_some {A} (f : A -> option R) (g : A -> R) l : (forall x, In x l -> f x = Some (g x)) -> sum_inf (map f l) = Some (sumf g l).
Proof.
  induction l as [|x l IH]; intros H; [reflexivity|]. cbn [map sum_inf fold_right]. fold (sum_inf (map f l)).
  rewrite (H x (or_introl eq_refl)), IH by (intros; apply H; right; assumption). reflexivity.
Qed.

Lemma sum_inf_none {A} (f : A -> option R) l x : In x l -> f x = None -> sum_inf (map f l) = None.
Proof.
  intros H E. induction l as [|y l IH]; [destruct H|]. cbn [map sum_inf fold_right]. fold (sum_inf (map f l)). destruct H as [<-|H].
  - rewrite E. reflexivity.
  - rewrite IH by exact H. destruct (f y); reflexivity.
Qed.

Lemma sum_inf_ext {A} (f g : A -> option R) l : (forall x, In x l -> f x = g x) -> sum_inf (map f l) = sum_inf (map g l).
Proof. intros H. f_equal. apply map_ext_in, H. Qed.

(** Vanishing terms can be left out. *)
Lemma sum_inf_filter {A} (f : A -> option R) p l : (forall x, In x l -> p x = false -> f x = Some 0) ->
  sum_inf (map f (filter p l)) = sum_inf (map f l).
Proof.
  induction l as [|x l IH]; intros H; [reflexivity|]. cbn [filter]. specialize (IH (fun y I => H y (or_intror I))).
  destruct (p x) eqn:E; cbn [map sum_inf fold_right]; fold (sum_inf (map f l)); fold (sum_inf (map f (filter p l))); rewrite IH; [reflexivity|].
  rewrite (H x (or_introl eq_refl) E). symmetry. apply plus_inf_0.
Qed.

(** ** Distribution *)

Lemma filter_keys {A} (key : A -> nat) n l : (forall x, In x l -> (key x < n)%nat) ->
  Permutation (concat (map (fun r => filter (fun x => (r =? key x)%nat) l) (seq 0 n))) l.
Proof.
  induction l as [|x l IH]; intros H.
  - cbn [filter]. induction (seq 0 n) as [|r s IHs]; [constructor|exact IHs].
  - assert (K : (key x < n)%nat) by (apply H; left; reflexivity). specialize (IH (fun y I => H y (or_intror I))).
    assert (S : seq 0 n = seq 0 (key x) ++ key x :: seq (S (key x)) (n - S (key x))).
    { change (key x :: seq (S (key x)) (n - S (key x))) with (seq (key x) (S (n - S (key x)))).
      replace n with (key x + S (n - S (key x)))%nat at 1 by lia. rewrite seq_app. reflexivity. }
    rewrite S in *. rewrite !map_app, !concat_app in *. cbn [map concat] in *.
    assert (E : forall s, ~ In (key x) s -> map (fun r => filter (fun y => (r =? key y)%nat) (x :: l)) s = map (fun r => filter (fun y => (r =? key y)%nat) l) s).
    { intros s N. apply map_ext_in. intros r I. cbn [filter]. destruct (Nat.eqb_spec r (key x)); [subst; contradiction|reflexivity]. }
    rewrite !E by (rewrite in_seq; lia). cbn [filter]. rewrite Nat.eqb_refl. cbn [app].
    eapply perm_trans; [apply Permutation_sym, Permutation_middle|]. apply perm_skip, IH.
Qed.

Lemma combine_snd {T} (l : list T) : forall s, map snd (combine (seq s (length l)) l) = l.
Proof. induction l as [|x l IH]; intros s; [reflexivity|]. cbn [length seq combine map snd]. f_equal. apply IH. Qed.

Lemma shares_perm {T} size (l : list T) : (0 < size)%nat -> Permutation (concat (map (fun r => share r size l) (seq 0 size))) l.
Proof.
  intros H. unfold share. set (c := combine (seq 0 (length l)) l).
  assert (E : concat (map (fun r => map snd (filter (fun nv : nat * T => (r =? fst nv mod size)%nat) c)) (seq 0 size))
    = map snd (concat (map (fun r => filter (fun nv : nat * T => (r =? fst nv mod size)%nat) c) (seq 0 size)))).
  { rewrite concat_map, map_map. reflexivity. }
  rewrite E. eapply perm_trans; [apply Permutation_map|unfold c; rewrite combine_snd; reflexivity].
  apply (filter_keys (fun nv : nat * T => (fst nv mod size)%nat)). intros x _. apply Nat.mod_upper_bound. lia.
Qed.

Lemma sum_shares {T} (f : T -> option R) size l : (0 < size)%nat ->
  sum_inf (map (fun r => sum_inf (map f (share r size l))) (seq 0 size)) = sum_inf (map f l).
Proof.
  intros H. rewrite <- (sum_inf_perm _ _ (Permutation_map f (shares_perm size l H))).
  rewrite concat_map, map_map, sum_inf_concat, map_map. reflexivity.
Qed.

(** ** One triangle *)

Definition tv (E : R) (t : R * R * R) : R := match tri_dos E t with Some x => x | None => 0 end.

Lemma tri_dos_outside E A B C : A <= B <= C -> (C < E \/ E < A) -> tri_dos E (A, B, C) = Some 0.
Proof. intros H O. unfold tri_dos. rb; try reflexivity; try lra. Qed.

Lemma tri_dos_none E A B C : A <= B <= C -> (tri_dos E (A, B, C) = None <-> E = A /\ A = C).
Proof.
  intros H. unfold tri_dos. rb; split; try discriminate; try lra; try reflexivity.
Qed.

Lemma tri_dos_nonneg E A B C x : A <= B <= C -> tri_dos E (A, B, C) = Some x -> 0 <= x.
Proof.
  intros H. unfold tri_dos.
  assert (Q : forall a b, 0 <= a -> 0 < b -> 0 <= a / b).
  { intros a b Ha Hb. apply Rmult_le_pos; [exact Ha|left; apply Rinv_0_lt_compat, Hb]. }
  rb; intros E'; try discriminate; apply (f_equal (fun o => match o with Some y => y | None => 0 end)) in E'; cbn in E'; subst x; try lra;
    try (apply Q; [lra|lra]); apply Q; try lra; apply Q; try lra.
Qed.

Lemma tri_dos_positive E A B C : A <= B <= C -> A < C -> A < E < C -> exists x, tri_dos E (A, B, C) = Some x /\ 0 < x.
Proof.
  intros H L I. unfold tri_dos.
  assert (Q : forall a b, 0 < a -> 0 < b -> 0 < a / b) by (intros; apply Rdiv_lt_0_compat; assumption).
  rb; try lra; eexists; (split; [reflexivity|]); repeat (apply Q; try lra).
Qed.

Lemma tri_a2F_dos E A B C a b c : A <= B <= C ->
  (tri_dos E (A, B, C) = None -> tri_a2F E ((A, a), (B, b), (C, c)) = None) /\
  (forall x, tri_dos E (A, B, C) = Some x -> exists wa wb wc, 0 <= wa /\ 0 <= wb /\ 0 <= wc /\ wa + wb + wc = x /\
     forall a b c, tri_a2F E ((A, a), (B, b), (C, c)) = Some (wa * a + wb * b + wc * c)).
Proof.
  intros H. unfold tri_dos, tri_a2F.
  assert (Q : forall a b, 0 <= a -> 0 < b -> 0 <= a / b).
  { intros p q Ha Hb. apply Rmult_le_pos; [exact Ha|left; apply Rinv_0_lt_compat, Hb]. }
  assert (P : forall a b, 0 <= a -> 0 <= b -> 0 <= a * b) by (intros; apply Rmult_le_pos; assumption).
  rb; (split; [try discriminate; reflexivity|]); intros x E'; try discriminate;
    apply (f_equal (fun o => match o with Some y => y | None => 0 end)) in E'; cbn in E'; subst x.
  all: try (exists 0, 0, 0; repeat split; try lra; intros; f_equal; ring).
  all: try lra.
  all: first
    [ exists 0, (/ 2 / (E - A) * / 2), (/ 2 / (E - A) * / 2); assert (0 <= / 2 / (E - A) * / 2) by (apply P; [apply Q; lra|lra]);
      repeat split; try lra; try (intros; f_equal; field; lra); field; lra
    | exists (/ 2 / (C - E) * / 2), (/ 2 / (C - E) * / 2), 0; assert (0 <= / 2 / (C - E) * / 2) by (apply P; [apply Q; lra|lra]);
      repeat split; try lra; try (intros; f_equal; field; lra); field; lra
    | set (p := (E - A) / (B - A) / (C - A) * / 2); assert (Hp : 0 <= p) by (unfold p; apply P; [apply Q; [apply Q; lra|lra]|lra]);
      exists (p * ((B - E) / (B - A) + (C - E) / (C - A))), (p * ((E - A) / (B - A))), (p * ((E - A) / (C - A)));
      assert (0 <= (B - E) / (B - A)) by (apply Q; lra); assert (0 <= (C - E) / (C - A)) by (apply Q; lra);
      assert (0 <= (E - A) / (B - A)) by (apply Q; lra); assert (0 <= (E - A) / (C - A)) by (apply Q; lra);
      repeat split; try (apply P; lra); unfold p; try (field; lra); intros; f_equal; field; lra
    | set (p := (C - E) / (C - A) / (C - B) * / 2); assert (Hp : 0 <= p) by (unfold p; apply P; [apply Q; [apply Q; lra|lra]|lra]);
      exists (p * ((C - E) / (C - A))), (p * ((C - E) / (C - B))), (p * ((E - A) / (C - A) + (E - B) / (C - B)));
      assert (0 <= (E - B) / (C - B)) by (apply Q; lra); assert (0 <= (C - E) / (C - A)) by (apply Q; lra);
      assert (0 <= (C - E) / (C - B)) by (apply Q; lra); assert (0 <= (E - A) / (C - A)) by (apply Q; lra);
      repeat split; try (apply P; lra); unfold p; try (field; lra); intros; f_equal; field; lra ].
Qed.

(** ** The mesh *)

Definition corner_sort (e : nat -> nat -> R) (t : list (nat * nat)) : (nat * nat) * (nat * nat) * (nat * nat) :=
  sort_corners (at_ e) t (0, 0)%nat.

Definition en3 (e : nat -> nat -> R) (t : (nat * nat) * (nat * nat) * (nat * nat)) : R * R * R :=
  (at_ e (fst3 t), at_ e (snd3 t), at_ e (thd3 t)).
Definition eng3 (e g : nat -> nat -> R) (t : (nat * nat) * (nat * nat) * (nat * nat)) : (R * R) * (R * R) * (R * R) :=
  ((at_ e (fst3 t), at_ g (fst3 t)), (at_ e (snd3 t), at_ g (snd3 t)), (at_ e (thd3 t), at_ g (thd3 t))).

Lemma map_flat_map {A B C} (f : B -> C) (h : A -> list B) l : map f (flat_map h l) = flat_map (fun x => map f (h x)) l.
Proof. induction l as [|x l IH]; [reflexivity|]. cbn [flat_map]. rewrite map_app, IH. reflexivity. Qed.

Lemma flat_map_ext_in {A B} (f g : A -> list B) l : (forall x, In x l -> f x = g x) -> flat_map f l = flat_map g l.
Proof. induction l as [|x l IH]; intros H; [reflexivity|]. cbn [flat_map]. rewrite (H x (or_introl eq_refl)), IH; [reflexivity|]. intros; apply H; right; assumption. Qed.

Lemma tris_indices N : map (fun ijk : nat * nat * nat => let '(i, j, k) := ijk in corners N i j k) (tri_indices N) = all_tris N.
Proof.
  unfold tri_indices, all_tris. rewrite map_flat_map. apply flat_map_ext_in. intros i Hi. rewrite map_flat_map. apply flat_map_ext_in. intros j Hj.
  apply in_seq in Hi, Hj. cbn [seq map]. unfold corners, lower_tri, upper_tri. rewrite !Nat.add_0_r, !(Nat.mod_small _ N) with (1 := proj2 Hi).
  rewrite (Nat.mod_small j N) by lia. reflexivity.
Qed.

Lemma tris_three N t : In t (all_tris N) -> exists u v w, t = [u; v; w].
Proof.
  unfold all_tris. intros H. apply in_flat_map in H. destruct H as (i & _ & H). apply in_flat_map in H. destruct H as (j & _ & H).
  cbn in H. destruct H as [<-|[<-|[]]]; unfold lower_tri, upper_tri; eauto.
Qed.

Lemma corner_sort_spec e t : (exists u v w, t = [u; v; w]) -> asc (at_ e) (corner_sort e t) /\ Permutation t (tlist (corner_sort e t)).
Proof. intros (u & v & w & ->). apply sort3_spec. Qed.

Lemma sum_window {T} (f : T * T * T -> option R) (key : T -> R) mi ma (l : list (T * T * T)) :
  (forall v, In v l -> (exists m, mi = Some m /\ key (thd3 v) < m) \/ (exists m, ma = Some m /\ m < key (fst3 v)) -> f v = Some 0) ->
  sum_inf (map f (window key mi ma l)) = sum_inf (map f l).
Proof.
  intros H. unfold window.
  assert (K : forall a b, Rleb a b = false -> b < a) by (intros a b; unfold Rleb; destruct (Rle_dec a b); [discriminate|lra]).
  destruct ma as [ma|].
  - rewrite sum_inf_filter.
    + destruct mi as [mi|]; [|reflexivity]. apply sum_inf_filter. intros v I F. apply H; [exact I|left]. eauto.
    + intros v I F. apply H; [|right; eauto]. destruct mi; [apply filter_In in I; apply I|exact I].
  - destruct mi as [mi|]; [|reflexivity]. apply sum_inf_filter. intros v I F. apply H; [exact I|left]. eauto.
Qed.

(** E lies in the window. *)
Definition inside (mi ma : option R) (E : R) : Prop := (forall m, mi = Some m -> m <= E) /\ (forall m, ma = Some m -> E <= m).

Definition dos_sum (N : nat) (e : nat -> nat -> R) (E : R) : option R :=
  scale_inf (/ INR (N * N)) (sum_inf (map (fun t => tri_dos E (en3 e (corner_sort e t))) (all_tris N))).
Definition a2F_sum (N : nat) (e g : nat -> nat -> R) (E : R) : option R :=
  scale_inf (/ INR (N * N)) (sum_inf (map (fun t => tri_a2F E (eng3 e g (corner_sort e t))) (all_tris N))).

Lemma hexDOS_tris N e : map (fun ijk : nat * nat * nat => let '(i, j, k) := ijk in
    sort_corners (fun x : R => x) (map (fun v : nat * nat => e (fst v) (snd v)) (corners N i j k)) 0) (tri_indices N)
  = map (fun t => en3 e (corner_sort e t)) (all_tris N).
Proof.
  rewrite <- tris_indices, map_map. apply map_ext. intros [[i j] k]. unfold corners, corner_sort, sort_corners, en3, at_. cbn [map].
  set (key := fun v : nat * nat => e (fst v) (snd v)).
  match goal with |- sort3 _ ?a ?b ?c = (?A, ?B, ?C) => 
    change (sort3 (fun x => x) (key ((i + k) mod N, (j + k) mod N)%nat) (key ((i + 1) mod N, j)%nat) (key (i, (j + 1) mod N)%nat) = (A, B, C)) end.
  rewrite sort3_map. reflexivity.
Qed.

Lemma asc_en3 e t : asc (at_ e) t -> let '(A, B, C) := en3 e t in A <= B <= C.
Proof. exact (fun H => H). Qed.

Lemma hexDOS_sum size N e mi ma E : (0 < size)%nat -> inside mi ma E -> hexDOS size N e mi ma E = dos_sum N e E.
Proof.
  intros S [I1 I2]. unfold hexDOS, dos_sum. rewrite hexDOS_tris, sum_shares by exact S. rewrite sum_window, map_map; [reflexivity|].
  intros v Hv W. apply in_map_iff in Hv. destruct Hv as (t & <- & Ht). destruct (corner_sort_spec e t (tris_three N t Ht)) as [A _].
  apply asc_en3 in A. unfold en3 in *. apply tri_dos_outside; [exact A|]. destruct W as [(m & Em & Hm)|(m & Em & Hm)]; cbn [fst3 thd3 fst snd] in Hm.
  - specialize (I1 m Em). lra.
  - specialize (I2 m Em). lra.
Qed.

Lemma tri_a2F_outside E A B C a b c : A <= B <= C -> (C < E \/ E < A) -> tri_a2F E ((A, a), (B, b), (C, c)) = Some 0.
Proof. intros H O. unfold tri_a2F. rb; try reflexivity; try lra. Qed.

Lemma hexa2F_sum size N e g mi ma E : (0 < size)%nat -> inside mi ma E -> hexa2F size N e g mi ma E = a2F_sum N e g E.
Proof.
  intros S [I1 I2]. unfold hexa2F, a2F_sum. rewrite (sum_shares (fun t => tri_a2F E _)) by exact S. rewrite sum_window.
  - rewrite <- tris_indices, !map_map. do 2 f_equal. apply map_ext. intros [[i j] k]. reflexivity.
  - intros v Hv W. apply in_map_iff in Hv. destruct Hv as ([[i j] k] & <- & _).
    assert (A : asc (at_ e) (sort_corners (fun v => e (fst v) (snd v)) (corners N i j k) (0, 0)%nat)) by apply sort3_spec.
    apply asc_en3 in A. unfold en3 in A. apply tri_a2F_outside; [exact A|]. destruct W as [(m & Em & Hm)|(m & Em & Hm)]; unfold at_ in *.
    + specialize (I1 m Em). left. lra.
    + specialize (I2 m Em). right. lra.
Qed.

Lemma dos_nonneg_sum l E : (forall t, In t l -> let '(A, B, C) := t in A <= B <= C) -> forall x, sum_inf (map (tri_dos E) l) = Some x -> 0 <= x.
Proof.
  induction l as [|t l IH]; intros H x; cbn [map sum_inf fold_right].
  - intros E'. apply (f_equal (fun o => match o with Some y => y | None => 0 end)) in E'. cbn in E'. subst. lra.
  - fold (sum_inf (map (tri_dos E) l)). pose proof (H t (or_introl eq_refl)) as Ht. destruct t as [[A B] C].
    destruct (tri_dos E (A, B, C)) as [y|] eqn:Y; [|discriminate]. destruct (sum_inf (map (tri_dos E) l)) as [z|] eqn:Z; [|discriminate].
    cbn [plus_inf]. intros E'. apply (f_equal (fun o => match o with Some y => y | None => 0 end)) in E'. cbn in E'. subst x.
    pose proof (tri_dos_nonneg E A B C y Ht Y). specialize (IH (fun t I => H t (or_intror I)) z eq_refl). lra.
Qed.

Lemma scale_none c x : scale_inf c x = None <-> x = None.
Proof. destruct x; cbn; split; congruence. Qed.

Lemma sum_inf_none_iff {A} (f : A -> option R) l : sum_inf (map f l) = None <-> exists x, In x l /\ f x = None.
Proof.
  induction l as [|x l IH]; cbn [map sum_inf fold_right].
  - split; [discriminate|intros (y & [] & _)].
  - fold (sum_inf (map f l)). split.
    + destruct (f x) eqn:F; [|intros _; exists x; split; [left; reflexivity|exact F]]. destruct (sum_inf (map f l)) eqn:G; [discriminate|].
      intros _. destruct (proj1 IH eq_refl) as (y & I & Y). exists y. split; [right; exact I|exact Y].
    + intros (y & [<-|I] & Y); [rewrite Y; reflexivity|]. rewrite (proj2 IH) by eauto. destruct (f x); reflexivity.
Qed.

Lemma flat_iff e E t : (exists u v w, t = [u; v; w]) -> tri_dos E (en3 e (corner_sort e t)) = None <-> flat_at e E t.
Proof.
  intros H3. destruct (corner_sort_spec e t H3) as [A P]. unfold en3. rewrite tri_dos_none by exact A. unfold asc in A. split.
  - intros [E1 E2] v Hv. apply (Permutation_in _ P) in Hv. cbn in Hv. destruct Hv as [<-|[<-|[<-|[]]]]; unfold at_ in *; lra.
  - intros F. assert (G : forall v, In v (tlist (corner_sort e t)) -> at_ e v = E) by (intros v Hv; apply F, (Permutation_in _ (Permutation_sym P)), Hv).
    pose proof (G _ (or_introl eq_refl)). pose proof (G _ (or_intror (or_intror (or_introl eq_refl)))). lra.
Qed.

Lemma dos_sum_none N e E : dos_sum N e E = None <-> exists t, In t (all_tris N) /\ flat_at e E t.
Proof.
  unfold dos_sum. rewrite scale_none, sum_inf_none_iff. split; intros (t & I & H); exists t; (split; [exact I|]); apply (flat_iff e E t (tris_three N t I)), H.
Qed.
