(** double_delta finds the intersections. *)
From Coq Require Import QArith Qabs Lqa Lia List Permutation.
From Verif Require DosProofs.
From Verif Require Import Common MiscModel MiscSpec MiscProofs DdModel DdSpec.
Import ListNotations.
Local Open Scope Q_scope.

Lemma wrap_per N x v : wrap N x v = per N x v.
Proof. reflexivity. Qed.

Lemma corners_triangle i j k : (k < 2)%nat -> dd_corners i j k = triangle i j (k =? 1)%nat.
Proof. intros H. destruct k as [|[|k]]; [|reflexivity|lia]. unfold dd_corners, triangle. cbn. rewrite !Nat.add_0_r. reflexivity. Qed.

Lemma Qof_mul a b : Qof (a * b) == num a * num b.
Proof. unfold Qof, num. rewrite Nat2Z.inj_mul, inject_Z_mult. reflexivity. Qed.

Lemma in01_iff u : in01 u = true <-> 0 <= u /\ u <= 1.
Proof. unfold in01. rewrite Bool.andb_true_iff, !Qle_bool_iff. reflexivity. Qed.

Definition good (N : nat) (x y f : nat -> nat -> Q) (z : Q) (p : list Q * Q) : Prop :=
  exists d1 d2, fst p = [d1; d2] /\ intersection N x y f z d1 d2 (snd p).

Lemma in_dd_indices N i j k : In (i, j, k) (dd_indices N) <-> (i < N /\ j < N /\ k < 2)%nat.
Proof.
  unfold dd_indices. rewrite in_flat_map. split.
  - intros (i' & Hi & H). apply in_flat_map in H. destruct H as (j' & Hj & H). apply in_map_iff in H. destruct H as (k' & E & Hk).
    apply in_seq in Hi, Hj, Hk. injection E as -> -> ->. lia.
  - intros (Hi & Hj & Hk). exists i. split; [apply in_seq; lia|]. apply in_flat_map. exists j. split; [apply in_seq; lia|].
    apply in_map_iff. exists k. split; [reflexivity|apply in_seq; lia].
Qed.

Lemma dd_triangle_sound N x y f z i j k p : (0 < N)%nat -> (i < N)%nat -> (j < N)%nat -> (k < 2)%nat ->
  In p (dd_triangle N x y f z (i, j, k)) -> good N x y f z p.
Proof.
  intros HN Hi Hj Hk. unfold dd_triangle. rewrite (corners_triangle i j k Hk).
  destruct (triangle i j (k =? 1)%nat) as [[X Y] Z] eqn:T. cbv zeta. cbn [fst snd]. change wrap with per.
  set (A := per N x X). set (B := per N x Y). set (C := per N x Z). set (a := per N y X). set (b := per N y Y). set (c := per N y Z).
  set (w := A * b - B * a - A * c + C * a + B * c - C * b).
  destruct (Qeq_bool w 0) eqn:W0; [intros []|]. assert (Hw : ~ w == 0) by (intros E; apply Qeq_bool_iff in E; congruence).
  set (U := (z * b - B * z - z * c + C * z + B * c - C * b) / w). set (V := (A * z - z * a - A * c + C * a + z * c - C * z) / w).
  set (W := (A * b - B * a - A * z + z * a + B * z - z * b) / w).
  destruct (in01 U && in01 V && in01 W)%bool eqn:I; [|intros []]. apply Bool.andb_true_iff in I. destruct I as [I IW]. apply Bool.andb_true_iff in I. destruct I as [IU IV].
  apply in01_iff in IU, IV, IW. intros [<-|[]]. eexists _, _. split; [reflexivity|]. cbn [snd].
  exists i, j, (k =? 1)%nat, U, V, W. rewrite T.
  assert (J : jacobian N x y (X, Y, Z) == w) by (unfold jacobian, w, A, B, C, a, b, c; ring).
  repeat split; try tauto; try lia; try reflexivity.
  - unfold U, V, W. unfold w in *. field. exact Hw.
  - intros E. apply Hw. rewrite <- J. exact E.
  - unfold bary. fold A B C. unfold U, V, W. unfold w in *. field. exact Hw.
  - unfold bary. fold a b c. unfold U, V, W. unfold w in *. field. exact Hw.
  - rewrite J. unfold bary. rewrite Qof_mul.
    assert (HN' : ~ num N == 0) by (unfold num; unfold Qeq; cbn; lia).
    assert (Hab : ~ Qabs w == 0). { intros E. apply Hw. pose proof (Qle_Qabs w). pose proof (Qle_Qabs (- w)). rewrite Qabs_opp in H0. lra. }
    field. split; assumption.
Qed.

Lemma dd_triangle_complete N x y f z i j k U V W : (0 < N)%nat -> (k < 2)%nat ->
  0 <= U -> 0 <= V -> 0 <= W -> U + V + W == 1 ->
  let '(P, Q, R) := triangle i j (k =? 1)%nat in
  ~ jacobian N x y (P, Q, R) == 0 ->
  bary U V W (per N x P) (per N x Q) (per N x R) == z ->
  bary U V W (per N y P) (per N y Q) (per N y R) == z ->
  exists d1 d2 w, dd_triangle N x y f z (i, j, k) = [([d1; d2], w)] /\
    d1 == bary U V W (num (fst P)) (num (fst Q)) (num (fst R)) /\
    d2 == bary U V W (num (snd P)) (num (snd Q)) (num (snd R)) /\
    w == bary U V W (per N f P) (per N f Q) (per N f R) / (num N * num N) / Qabs (jacobian N x y (P, Q, R)).
Proof.
  intros HN Hk HU HV HW S. unfold dd_triangle. rewrite (corners_triangle i j k Hk).
  destruct (triangle i j (k =? 1)%nat) as [[X Y] Z] eqn:T. cbv zeta. cbn [fst snd]. intros J Ex Ey. change wrap with per.
  assert (Jw : jacobian N x y (X, Y, Z) == per N x X * per N y Y - per N x Y * per N y X - per N x X * per N y Z + per N x Z * per N y X
    + per N x Y * per N y Z - per N x Z * per N y Y) by (unfold jacobian; ring).
  set (A := per N x X) in *. set (B := per N x Y) in *. set (C := per N x Z) in *. set (a := per N y X) in *. set (b := per N y Y) in *. set (c := per N y Z) in *.
  set (w := A * b - B * a - A * c + C * a + B * c - C * b) in *.
  assert (Hw : ~ w == 0) by (rewrite <- Jw; exact J).
  destruct (Qeq_bool w 0) eqn:W0; [apply Qeq_bool_iff in W0; contradiction|].
  unfold bary in Ex, Ey. assert (W' : W == 1 - U - V) by lra. rewrite W' in Ex, Ey.
  assert (EU : (z * b - B * z - z * c + C * z + B * c - C * b) / w == U).
  { apply (Qmult_inj_r _ _ w Hw). rewrite Qmult_comm, Qmult_div_r by exact Hw.
    transitivity (z * (b - c) + z * (C - B) + B * c - C * b); [ring|]. rewrite <- Ex at 1. rewrite <- Ey. unfold w. ring. }
  assert (EV : (A * z - z * a - A * c + C * a + z * c - C * z) / w == V).
  { apply (Qmult_inj_r _ _ w Hw). rewrite Qmult_comm, Qmult_div_r by exact Hw.
    transitivity (z * (c - a) + z * (A - C) - A * c + C * a); [ring|]. rewrite <- Ex at 1. rewrite <- Ey. unfold w. ring. }
  assert (EW : (A * b - B * a - A * z + z * a + B * z - z * b) / w == W).
  { rewrite W'. apply (Qmult_inj_r _ _ w Hw). rewrite Qmult_comm, Qmult_div_r by exact Hw.
    transitivity (z * (a - b) + z * (B - A) + A * b - B * a); [ring|]. rewrite <- Ex at 1. rewrite <- Ey. unfold w. ring. }
  set (U' := (z * b - B * z - z * c + C * z + B * c - C * b) / w) in *. set (V' := (A * z - z * a - A * c + C * a + z * c - C * z) / w) in *.
  set (W'' := (A * b - B * a - A * z + z * a + B * z - z * b) / w) in *. clearbody U' V' W''.
  assert (I : (in01 U' && in01 V' && in01 W'')%bool = true).
  { rewrite !Bool.andb_true_iff, !in01_iff. repeat split; lra. }
  rewrite I. do 3 eexists. split; [reflexivity|]. unfold bary. rewrite EU, EV, EW, Jw.
  split; [reflexivity|]. split; [reflexivity|]. rewrite Qof_mul.
  assert (HN' : ~ num N == 0) by (unfold num; unfold Qeq; cbn; lia).
  assert (Hab : ~ Qabs w == 0). { intros E. apply Hw. pose proof (Qle_Qabs w). pose proof (Qle_Qabs (- w)). rewrite Qabs_opp in H0. lra. }
  field. split; assumption.
Qed.

(** ** All triangles *)

Lemma flat_map_filter_perm {A B} (h : A -> list B) (key : A -> nat) n l : (forall x, In x l -> (key x < n)%nat) ->
  Permutation (flat_map (fun r => flat_map h (filter (fun x => (r =? key x)%nat) l)) (seq 0 n)) (flat_map h l).
Proof.
  intros H. rewrite <- (Permutation_flat_map h (DosProofs.filter_keys key n l H)).
  assert (K : forall ls, flat_map h (concat ls) = concat (map (flat_map h) ls)).
  { induction ls as [|m ls IH]; [reflexivity|]. cbn [concat map]. rewrite flat_map_app, IH. reflexivity. }
  rewrite K, map_map, flat_map_concat_map. reflexivity.
Qed.

Lemma dd_all_perm size N x y f z : (0 < size)%nat -> Permutation (dd_all size N x y f z) (flat_map (dd_triangle N x y f z) (dd_indices N)).
Proof.
  intros H. unfold dd_all, dd_mine.
  set (key := fun ijk : nat * nat * nat => let '(i, j, k) := ijk in (((i * N + j) * 2 + k) mod size)%nat).
  rewrite <- (flat_map_filter_perm (dd_triangle N x y f z) key size (dd_indices N)).
  - match goal with |- Permutation ?a ?b => replace a with b; [reflexivity|symmetry] end. apply flat_map_ext. intros r. f_equal. apply filter_ext. intros [[i j] k]. reflexivity.
  - intros [[i j] k] _. apply Nat.mod_upper_bound. lia.
Qed.

Lemma dd_all_sound size N x y f z p : (0 < size)%nat -> (0 < N)%nat -> In p (dd_all size N x y f z) -> good N x y f z p.
Proof.
  intros H HN I. apply (Permutation_in _ (dd_all_perm size N x y f z H)) in I. apply in_flat_map in I. destruct I as ([[i j] k] & I & J).
  apply in_dd_indices in I. apply (dd_triangle_sound N x y f z i j k p); tauto.
Qed.

Lemma dd_all_complete size N x y f z d1 d2 w : (0 < size)%nat -> (0 < N)%nat -> intersection N x y f z d1 d2 w ->
  exists e1 e2 v, In ([e1; e2], v) (dd_all size N x y f z) /\ e1 == d1 /\ e2 == d2 /\ v == w.
Proof.
  intros H HN (i & j & up & U & V & W & Hi & Hj & HU & HV & HW & S & T).
  set (k := if up then 1%nat else 0%nat). assert (K : up = (k =? 1)%nat) by (destruct up; reflexivity). assert (Hk : (k < 2)%nat) by (unfold k; destruct up; lia).
  rewrite K in T. pose proof (dd_triangle_complete N x y f z i j k U V W HN Hk HU HV HW S) as C.
  destruct (triangle i j (k =? 1)%nat) as [[P Q] R]. destruct T as (J & Ex & Ey & D1 & D2 & Dw).
  destruct (C J Ex Ey) as (e1 & e2 & v & E & E1 & E2 & Ev). exists e1, e2, v. split.
  - apply (Permutation_in _ (Permutation_sym (dd_all_perm size N x y f z H))). apply in_flat_map. exists (i, j, k). split.
    + apply in_dd_indices. tauto.
    + rewrite E. left. reflexivity.
  - rewrite E1, E2, Ev. tauto.
Qed.

(** ** Groups *)

Lemma key_eqb_eq p : forall q, key_eqb p q = true <-> Forall2 Qeq p q.
Proof.
  induction p as [|a p IH]; intros [|b q]; cbn.
  - split; [constructor|reflexivity].
  - split; [discriminate|intros H; inversion H].
  - split; [discriminate|intros H; inversion H].
  - rewrite Bool.andb_true_iff, IH, Qeq_bool_iff. split; [intros [? ?]; constructor; assumption|intros H; inversion H; auto].
Qed.

Lemma Forall2_Qeq_refl p : Forall2 Qeq p p.
Proof. induction p; constructor; [reflexivity|assumption]. Qed.

Lemma dict_set_in d k v k' v' : In (k', v') (dict_set d k v) -> (Forall2 Qeq k' k /\ v' = v) \/ In (k', v') d.
Proof.
  induction d as [|[a b] d IH]; cbn [dict_set].
  - intros [E|[]]. injection E as <- <-. left. split; [apply Forall2_Qeq_refl|reflexivity].
  - destruct (key_eqb a k) eqn:K; intros [E|I].
    + injection E as <- <-. left. split; [apply key_eqb_eq, K|reflexivity].
    + right. right. exact I.
    + right. left. exact E.
    + destruct (IH I) as [L|R]; [left; exact L|right; right; exact R].
Qed.

Lemma dict_set_has d k v : exists k' v', In (k', v') (dict_set d k v) /\ Forall2 Qeq k' k.
Proof.
  induction d as [|[a b] d IH]; cbn [dict_set].
  - exists k, v. split; [left; reflexivity|apply Forall2_Qeq_refl].
  - destruct (key_eqb a k) eqn:K.
    + exists a, v. split; [left; reflexivity|apply key_eqb_eq, K].
    + destruct IH as (k' & v' & I & F). exists k', v'. split; [right; exact I|exact F].
Qed.

Lemma dict_set_keeps d k v k' v' : In (k', v') d -> exists v'', In (k', v'') (dict_set d k v).
Proof.
  induction d as [|[a b] d IH]; cbn [dict_set]; [intros []|]. intros [E|I].
  - injection E as -> ->. destruct (key_eqb k' k); eexists; left; reflexivity.
  - destruct (key_eqb a k); [exists v'; right; exact I|]. destruct (IH I) as [v'' I']. exists v''. right. exact I'.
Qed.

Definition mean_point (l : list (list Q * Q)) : list Q := map (fun c => average (map (fun p => nth c (fst p) 0) l)) (seq 0 2).
Definition mean_weight (l : list (list Q * Q)) : Q := average (map snd l).

Definition dd_step (all : list (list Q * Q)) (unique : list (list Q * Q)) (g : list nat) : list (list Q * Q) :=
  dict_set unique (mean_point (pick all g)) (mean_weight (pick all g)).

Lemma double_delta_fold size N x y f eps z : double_delta size N x y f eps z =
  fold_left (dd_step (dd_all size N x y f z)) (group eps (map fst (dd_all size N x y f z))) [].
Proof. reflexivity. Qed.

Lemma fold_entries all gs : forall acc k v, In (k, v) (fold_left (dd_step all) gs acc) ->
  In (k, v) acc \/ exists g, In g gs /\ Forall2 Qeq k (mean_point (pick all g)) /\ v = mean_weight (pick all g).
Proof.
  induction gs as [|g gs IH]; intros acc k v H; cbn [fold_left] in H; [left; exact H|].
  destruct (IH _ _ _ H) as [I|(g' & I & K)].
  - destruct (dict_set_in _ _ _ _ _ I) as [K|J]; [right; exists g; split; [left; reflexivity|exact K]|left; exact J].
  - right. exists g'. split; [right; exact I|exact K].
Qed.

Lemma fold_keeps all gs : forall acc k v, In (k, v) acc -> exists v', In (k, v') (fold_left (dd_step all) gs acc).
Proof.
  induction gs as [|g gs IH]; intros acc k v H; cbn [fold_left]; [eauto|].
  destruct (dict_set_keeps acc (mean_point (pick all g)) (mean_weight (pick all g)) k v H) as [v' H']. exact (IH _ _ _ H').
Qed.

Lemma fold_has all gs : forall acc g, In g gs -> exists k v, In (k, v) (fold_left (dd_step all) gs acc) /\ Forall2 Qeq k (mean_point (pick all g)).
Proof.
  induction gs as [|h gs IH]; intros acc g I; [destruct I|]. cbn [fold_left]. destruct I as [<-|I]; [|exact (IH _ g I)].
  destruct (dict_set_has acc (mean_point (pick all h)) (mean_weight (pick all h))) as (k & v & J & K).
  destruct (fold_keeps all gs _ k v J) as [v' J']. exists k, v'. split; assumption.
Qed.

Lemma pick_in {T} (l : list T) g x : In x (pick l g) <-> exists i, In i g /\ nth_error l i = Some x.
Proof.
  unfold pick. rewrite in_flat_map. split; intros (i & I & H); exists i; (split; [exact I|]).
  - destruct (nth_error l i); [destruct H as [<-|[]]; reflexivity|destruct H].
  - rewrite H. left. reflexivity.
Qed.

Lemma group_bound eps points g i : In g (group eps points) -> In i g -> (i < length points)%nat.
Proof.
  intros G I. destruct (group_partition eps points) as [P _]. assert (J : In i (concat (group eps points))) by (apply in_concat; eauto).
  apply (Permutation_in _ P) in J. apply in_seq in J. lia.
Qed.

Lemma pick_group {T} (l : list T) eps (h : T -> list Q) g : In g (group eps (map h l)) -> pick l g <> [].
Proof.
  intros G. destruct (group_partition eps (map h l)) as [_ F]. rewrite Forall_forall in F. specialize (F g G). destruct g as [|i g]; [congruence|].
  assert (B : (i < length l)%nat). { pose proof (group_bound eps (map h l) _ i G (or_introl eq_refl)) as B. rewrite map_length in B. exact B. }
  apply nth_error_Some in B. unfold pick. cbn [flat_map]. destruct (nth_error l i); [discriminate|contradiction].
Qed.

Lemma average_const l c : l <> [] -> (forall x, In x l -> x == c) -> average l == c.
Proof.
  intros N0 H. unfold average. assert (S : Qsum l == Qof (length l) * c).
  { clear N0. induction l as [|x l IH]; [unfold Qof; cbn; ring|]. cbn [Qsum fold_right length]. fold (Qsum l).
    rewrite (H x (or_introl eq_refl)), (IH (fun y I => H y (or_intror I))). unfold Qof. rewrite Nat2Z.inj_succ, <- Z.add_1_r, inject_Z_plus.
    change (inject_Z 1) with 1. ring. }
  rewrite S. assert (~ Qof (length l) == 0). { destruct l; [congruence|]. unfold Qof, Qeq. cbn. lia. }
  field. exact H0.
Qed.

Lemma average_nonneg l : (forall x, In x l -> 0 <= x) -> 0 <= average l.
Proof.
  intros H. unfold average. assert (S : 0 <= Qsum l).
  { induction l as [|x l IH]; [cbn; lra|]. cbn [Qsum fold_right]. fold (Qsum l). pose proof (H x (or_introl eq_refl)).
    specialize (IH (fun y I => H y (or_intror I))). lra. }
  unfold Qdiv. apply Qmult_le_0_compat; [exact S|]. apply Qinv_le_0_compat. unfold Qof, Qle. cbn. lia.
Qed.

Lemma bary_nonneg U V W a b c : 0 <= U -> 0 <= V -> 0 <= W -> 0 <= a -> 0 <= b -> 0 <= c -> 0 <= bary U V W a b c.
Proof.
  intros. unfold bary. pose proof (Qmult_le_0_compat U a H H2). pose proof (Qmult_le_0_compat V b H0 H3). pose proof (Qmult_le_0_compat W c H1 H4). lra.
Qed.

Lemma intersection_nonneg N x y f z d1 d2 w : (forall i j, (i < N)%nat -> (j < N)%nat -> 0 <= f i j) -> intersection N x y f z d1 d2 w -> 0 <= w.
Proof.
  intros Hf (i & j & up & U & V & W & Hi & Hj & HU & HV & HW & S & T). destruct (triangle i j up) as [[P Q] R].
  destruct T as (_ & _ & _ & _ & _ & <-).
  assert (K : forall v, 0 <= per N f v). { intros v. apply Hf; apply Nat.mod_upper_bound; lia. }
  unfold Qdiv. apply Qmult_le_0_compat; [apply Qmult_le_0_compat|].
  - apply bary_nonneg; auto.
  - apply Qinv_le_0_compat, Qmult_le_0_compat; unfold num, Qle; cbn; lia.
  - apply Qinv_le_0_compat, Qabs_nonneg.
Qed.

(** Linked points coincide if different points are never neighbours. *)
Lemma linked_same eps points : (forall p q, In p points -> In q points -> neighbours eps p q -> Forall2 Qeq p q) ->
  forall i j, linked eps points i j -> forall p q, nth_error points i = Some p -> nth_error points j = Some q -> Forall2 Qeq p q.
Proof.
  intros H i j L. induction L as [i p E|i j k p q L IH E1 E2 Nb]; intros p' q' E3 E4.
  - rewrite E3 in E4. injection E4 as <-. apply Forall2_Qeq_refl.
  - rewrite E2 in E4. injection E4 as <-. specialize (IH p' p E3 E1).
    pose proof (H p q (nth_error_In _ _ E1) (nth_error_In _ _ E2) Nb) as K. clear - IH K. revert q K.
    induction IH as [|a b l m E _ IH']; intros q K; inversion K; subst; constructor; [rewrite E; assumption|apply IH'; assumption].
Qed.
