(** Lemmas about the shared vocabulary. *)
From Verif Require Import Common.

Lemma sumZ_app l1 l2 : sumZ (l1 ++ l2) = (sumZ l1 + sumZ l2)%Z.
Proof. induction l1 as [|x l1 IH]; cbn; lia. Qed.

Lemma sumZ_repeat x n : sumZ (repeat x n) = (x * Z.of_nat n)%Z.
Proof. induction n as [|n IH]; cbn [repeat sumZ]; lia. Qed.

Lemma sumZ_map_add x l : sumZ (map (fun y => y + x)%Z l) = (sumZ l + x * Z.of_nat (length l))%Z.
Proof. induction l as [|y l IH]; cbn [map sumZ length]; lia. Qed.

Lemma sumN_app l1 l2 : sumN (l1 ++ l2) = sumN l1 + sumN l2.
Proof. induction l1 as [|x l1 IH]; cbn; lia. Qed.

Lemma find_index_Some {A} (f : A -> bool) l i :
  find_index f l = Some i <->
  (exists x, nth_error l i = Some x /\ f x = true) /\
  (forall j y, j < i -> nth_error l j = Some y -> f y = false).
Proof.
  revert i; induction l as [|x l IH]; intros i; cbn [find_index].
  - split; [discriminate|]. intros [[y [Hy _]] _]. destruct i; discriminate.
  - destruct (f x) eqn:Hf.
    + split.
      * intros [= <-]. split; [exists x; split; [reflexivity|exact Hf]|]. intros; lia.
      * intros [_ H]. destruct i as [|i]; [reflexivity|].
        specialize (H 0 x ltac:(lia) eq_refl). congruence.
    + destruct i as [|i].
      * split; [destruct (find_index f l); discriminate|].
        intros [[y [Hy Hfy]] _]. cbn in Hy. congruence.
      * specialize (IH i). split.
        -- destruct (find_index f l) as [k|]; [|discriminate]. cbn. intros [= <-].
           destruct IH as [IH _]. destruct (IH eq_refl) as [H1 H2]. split; [exact H1|].
           intros [|j] y Hj Hy; [cbn in Hy; congruence|]. apply (H2 j); [lia|exact Hy].
        -- intros [H1 H2]. destruct IH as [_ IH].
           rewrite IH; [reflexivity|]. split; [exact H1|].
           intros j y Hj Hy. apply (H2 (S j)); [lia|exact Hy].
Qed.

Lemma find_index_None {A} (f : A -> bool) l :
  find_index f l = None <-> (forall x, In x l -> f x = false).
Proof.
  induction l as [|x l IH]; cbn [find_index].
  - split; [intros _ y []|reflexivity].
  - destruct (f x) eqn:Hf.
    + split; [discriminate|]. intros H. rewrite (H x (or_introl eq_refl)) in Hf. discriminate.
    + destruct (find_index f l) as [k|] eqn:Hk; cbn.
      * split; [discriminate|]. intros H. destruct IH as [_ IH].
        assert (Hn : Some k = None) by (apply IH; intros y Hy; apply H; right; exact Hy).
        discriminate.
      * split; [|reflexivity]. intros _ y [<-|Hy]; [exact Hf|]. apply IH; [reflexivity|exact Hy].
Qed.

(** [filter] on consecutive numbers. *)
Lemma filter_ext_in' {A} (f g : A -> bool) l :
  (forall x, In x l -> f x = g x) -> filter f l = filter g l.
Proof. apply filter_ext_in. Qed.

Lemma nth_error_map_Some {A B} (f : A -> B) l i y :
  nth_error (map f l) i = Some y <-> exists x, nth_error l i = Some x /\ f x = y.
Proof.
  rewrite nth_error_map. destruct (nth_error l i) as [x|]; cbn; split.
  - intros [= <-]; eauto.
  - intros [z [[= <-] <-]]; reflexivity.
  - discriminate.
  - intros [z [H _]]; discriminate.
Qed.

Lemma nth_error_seq s n i x :
  nth_error (seq s n) i = Some x <-> i < n /\ x = s + i.
Proof.
  revert s i; induction n as [|n IH]; intros s i; cbn [seq].
  - destruct i; cbn; split; try discriminate; lia.
  - destruct i as [|i]; cbn [nth_error].
    + split; [intros [= <-]; lia|intros [_ ->]; f_equal; lia].
    + rewrite IH. split; intros [H1 H2]; lia.
Qed.

Lemma NoDup_nth_error_inj {A} (l : list A) i j x :
  NoDup l -> nth_error l i = Some x -> nth_error l j = Some x -> i = j.
Proof.
  intros Hl Hi Hj. apply (proj1 (NoDup_nth_error l) Hl).
  - apply nth_error_Some. congruence.
  - congruence.
Qed.

(** For examples: compute observations of a result without normalizing it. *)
Definition is_ok {A} (x : res A) : bool := match x with Ok _ => true | Raise _ => false end.
Definition get_ok {A} (d : A) (x : res A) : A := match x with Ok a => a | Raise _ => d end.
Lemma ok_get {A} (d : A) x : is_ok x = true -> x = Ok (get_ok d x).
Proof. destruct x; [reflexivity|discriminate]. Qed.
