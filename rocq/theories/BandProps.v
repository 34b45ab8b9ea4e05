(** Properties of the ordering of bands: C50, C51. *)
From Coq Require Import QArith Qabs Lqa Lia List Permutation Sorted.
From Verif Require Import Common CommonProofs BandModel BandSpec BandProofs.
Import ListNotations.
Local Open Scope Q_scope.

(** Two crossing bands on five points: eigenvectors (1, 0) and (0, 1) belong to
    energies growing and falling; there is a degeneracy at the third point, where
    the eigenvectors are mixed. *)
Definition ex_v (n i : nat) : Q := nth i (nth n [[0; 4]; [1; 3]; [2; 2]; [1; 3]; [0; 4]] []) 0.
Definition ex_V (n r b : nat) : cplx :=
  match n with
  | O | S O => if (r =? b)%nat then (1, 0) else (0, 0)
  | S (S O) => match r, b with O, O => (3 # 5, 0) | O, _ => (4 # 5, 0) | _, O => (4 # 5, 0) | _, _ => (- 3 # 5, 0) end
  | _ => if (r =? b)%nat then (0, 0) else (0, 1)
  end.

(** Each row is a permutation of the bands, the first one is the identity. *)
Theorem C50_rows : forall points bands v V dv eps, (0 < points)%nat -> exists o,
  band_order points bands v V false dv eps = Ok o /\ length o = points /\ nth 0 o [] = seq 0 bands /\
  forall n, (n < points)%nat -> Permutation (nth n o []) (seq 0 bands).
Proof.
  intros points bands v V dv eps H. destruct (band_order_false points bands v V dv eps H) as (o & n0 & E & Hl & Hr & H0 & Hp & Hg).
  exists o. split; [exact E|]. split; [lia|]. split; [exact H0|]. intros n Hn. apply Hp. lia.
Qed.
Print Assumptions C50_rows.

(** With [by_mean], bands are only renumbered, in the same way for all points. *)
Theorem C50_rows_by_mean : forall points bands v V dv eps o, (0 < points)%nat ->
  band_order points bands v V false dv eps = Ok o -> exists perm o',
  band_order points bands v V true dv eps = Ok o' /\ length o' = points /\ Permutation perm (seq 0 bands) /\
  forall n, (n < points)%nat -> Permutation (nth n o' []) (seq 0 bands) /\
    forall i, (i < bands)%nat -> nth i (nth n o' []) 0%nat = nth (nth i perm 0%nat) (nth n o []) 0%nat.
Proof.
  intros points bands v V dv eps o H E. destruct (C50_rows points bands v V dv eps H) as (o1 & E1 & L & _ & P).
  rewrite E in E1. apply (f_equal (get_ok [])) in E1. cbn [get_ok] in E1. subst o1.
  set (perm := sort_by (mean_key points v o) (seq 0 bands)).
  assert (PP : Permutation perm (seq 0 bands)) by apply Permutation_sym, sort_by_perm.
  exists perm, (map (fun om => map (fun i => nth i om 0%nat) perm) o). split; [apply band_order_true, E|].
  split; [rewrite map_length; exact L|]. split; [exact PP|]. intros n Hn.
  assert (En : nth n (map (fun om => map (fun i => nth i om 0%nat) perm) o) [] = map (fun i => nth i (nth n o []) 0%nat) perm).
  { rewrite (nth_indep _ [] (map (fun i => nth i [] 0%nat) perm)) by (rewrite map_length; lia).
    apply (map_nth (fun om => map (fun i => nth i om 0%nat) perm)). }
  rewrite En. split; [apply nth_perm_compose; [exact PP|apply P, Hn]|].
  intros i Hi. assert (Lp : length perm = bands) by (rewrite (Permutation_length PP); apply seq_length).
  rewrite (nth_indep _ 0%nat (nth 0%nat (nth n o []) 0%nat)) by (rewrite map_length; lia).
  apply (map_nth (fun i => nth i (nth n o []) 0%nat)).
Qed.
Print Assumptions C50_rows_by_mean.

Example C50_rows_ex : band_order 5 2 ex_v ex_V false None (1 # 100) = Ok [[0; 1]; [0; 1]; [1; 0]; [1; 0]; [1; 0]]%nat /\
  band_order 5 2 ex_v ex_V true None (1 # 100) = Ok [[1; 0]; [1; 0]; [0; 1]; [0; 1]; [0; 1]]%nat.
Proof. split; vm_compute; reflexivity. Qed.

(** Band by band, the state of largest overlap with that of the band at the
    reference point is chosen among those left, if its energy is close enough. *)
Theorem C50_greedy : forall points bands v V dv eps o n, band_order points bands v V false dv eps = Ok o -> (0 < n < points)%nat ->
  exists m, reference bands v eps n m /\ forall i j, (i < bands)%nat -> (j < bands)%nat ->
    ~ In j (firstn i (nth n o [])) ->
    let a := nth i (nth m o []) 0%nat in let b := nth i (nth n o []) 0%nat in
    within dv (v m a) (v n j) -> overlap bands (vec V m a) (vec V n j) <= overlap bands (vec V m a) (vec V n b).
Proof.
  intros points bands v V dv eps o n E Hn. destruct (band_order_false points bands v V dv eps ltac:(lia)) as (o' & n0 & E' & Hl & Hr & H0 & Hp & Hg).
  rewrite E in E'. apply (f_equal (get_ok [])) in E'. cbn [get_ok] in E'. subst o'.
  destruct (Hg n ltac:(lia)) as (m & Rm & Gm). exists m. split; [exact Rm|]. intros i j Hi Hj Nj a b W.
  destruct (greedy_spec (band_key bands v V dv m (nth m o []) n) (seq 0 bands) (seq 0 bands) (seq_NoDup _ _) eq_refl) as (row & G & P & M).
  rewrite Gm in G. apply (f_equal (get_ok [])) in G. cbn [get_ok] in G. subst row. rewrite seq_length in M.
  specialize (M i 0%nat 0%nat Hi j ltac:(apply in_seq; lia) Nj). rewrite seq_nth in M by exact Hi. cbn [Nat.add] in M.
  rewrite band_key_within in M by exact W. eapply Qle_trans; [exact M|apply band_key_le].
Qed.
Print Assumptions C50_greedy.

Example C50_greedy_ex : reference 2 ex_v (1 # 100) 3 1 /\ ~ In 1%nat (firstn 0 [1; 0]%nat) /\
  overlap 2 (vec ex_V 1 0) (vec ex_V 3 0) < overlap 2 (vec ex_V 1 0) (vec ex_V 3 1).
Proof.
  split; [|split; [intros []|vm_compute; reflexivity]].
  split; [lia|]. split.
  - right. intros i Hi. assert (i = 0%nat) by lia. subst. vm_compute. reflexivity.
  - intros m' Hm' R. assert (m' = 2%nat) by lia. subst. specialize (R 0%nat ltac:(lia)). vm_compute in R. discriminate.
Qed.

(** If there is an assignment b of states to bands such that the states of a band
    at neighboring points have a larger overlap than any others, it is found. *)
Theorem C50_disentangles : forall points bands v V dv eps (b : nat -> list nat), (0 < points)%nat ->
  b 0%nat = seq 0 bands -> (forall n, Permutation (b n) (seq 0 bands)) ->
  (forall n m i, (n < points)%nat -> reference bands v eps n m -> (i < bands)%nat ->
     within dv (v m (nth i (b m) 0%nat)) (v n (nth i (b n) 0%nat)) /\
     forall j, (j < bands)%nat -> j <> nth i (b n) 0%nat ->
       overlap bands (vec V m (nth i (b m) 0%nat)) (vec V n j) < overlap bands (vec V m (nth i (b m) 0%nat)) (vec V n (nth i (b n) 0%nat))) ->
  band_order points bands v V false dv eps = Ok (map b (seq 0 points)).
Proof.
  intros points bands v V dv eps b H B0 BP D. destruct (band_order_false points bands v V dv eps H) as (o & n0 & E & I). rewrite E. f_equal.
  replace points with (S (points - 1)) by lia. apply (loop_follows bands v V dv eps b (points - 1) o n0 I B0 BP).
  intros k m i Hk. apply D. lia.
Qed.
Print Assumptions C50_disentangles.

Example C50_disentangles_ex : let b n := if (n <? 2)%nat then [0; 1]%nat else [1; 0]%nat in
  forall n m i, (n < 5)%nat -> reference 2 ex_v (1 # 100) n m -> (i < 2)%nat ->
     within (Some 3) (ex_v m (nth i (b m) 0%nat)) (ex_v n (nth i (b n) 0%nat)) /\
     forall j, (j < 2)%nat -> j <> nth i (b n) 0%nat ->
       overlap 2 (vec ex_V m (nth i (b m) 0%nat)) (vec ex_V n j) < overlap 2 (vec ex_V m (nth i (b m) 0%nat)) (vec ex_V n (nth i (b n) 0%nat)).
Proof.
  intros b n m i Hn R Hi.
  assert (M : (m < n)%nat /\ m <> 2%nat).
  { split; [apply R|]. intros ->. destruct R as (_ & [R|R] & _); [discriminate|]. specialize (R 0%nat ltac:(lia)). vm_compute in R. discriminate. }
  assert (N : (forall m', (m < m' < n)%nat -> m' = 2%nat)).
  { intros m' Hm'. destruct (Nat.eq_dec m' 2) as [|NE]; [assumption|]. exfalso. destruct R as (_ & _ & R). apply (R m' Hm').
    intros k Hk. assert (k = 0%nat) by lia. subst k. assert (C : (m' = 1 \/ m' = 3)%nat) by lia. destruct C as [-> | ->]; vm_compute; reflexivity. }
  assert (C : In (m, n) [(0, 1); (1, 2); (1, 3); (3, 4)]%nat).
  { destruct M as [M1 M2]. pose proof (N 1%nat). pose proof (N 3%nat). pose proof (N 2%nat).
    assert (C : ((m = 0 /\ n = 1) \/ (m = 1 /\ n = 2) \/ (m = 1 /\ n = 3) \/ (m = 3 /\ n = 4))%nat) by lia.
    repeat destruct C as [[-> ->]|C]; [..|destruct C as [-> ->]]; cbn; tauto. }
  cbn [In] in C.
  repeat destruct C as [C|C]; [..|destruct C]; injection C as <- <-; destruct i as [|[|i]]; try lia; (split; [vm_compute; reflexivity|]);
    intros [|[|j]] Hj NE; try lia; try (exfalso; apply NE; reflexivity); vm_compute; reflexivity.
Qed.

(** [by_mean] should order bands by their mean energy. This is wrong: The sum
    runs over all pairs of points. *)
Theorem C50_mean_refuted : exists points bands v V eps o n i j,
  band_order points bands v V true None eps = Ok o /\ length o = points /\ (n < points)%nat /\ (i < j < bands)%nat /\
  fold_right Qplus 0 (map (fun n => v n (nth j (nth n o []) 0%nat)) (seq 0 points)) < fold_right Qplus 0 (map (fun n => v n (nth i (nth n o []) 0%nat)) (seq 0 points)).
Proof.
  exists 3%nat, 2%nat, (fun n i => nth i (nth n [[0; 10]; [4; 5]; [4; 5]] []) 0),
    (fun n r b => if Bool.eqb (n =? 0)%nat (r =? b)%nat then (1, 0) else (0, 0)), (1 # 100), [[1; 0]; [0; 1]; [0; 1]]%nat, 0%nat, 0%nat, 1%nat.
  split; [vm_compute; reflexivity|]. repeat split; try lia.
Qed.
Print Assumptions C50_mean_refuted.

(** It is correct if bands keep their position at all points. *)
Lemma Qsum_scale l c : Qsum (map (fun x => c * x) l) == c * Qsum l.
Proof. induction l as [|x l IH]; cbn [map Qsum fold_right]; [ring|]. fold (Qsum (map (fun x => c * x) l)). fold (Qsum l). rewrite IH. ring. Qed.

Theorem C50_mean_partial : forall points bands v V dv eps o, (0 < points)%nat ->
  band_order points bands v V false dv eps = Ok o -> (forall n, (n < points)%nat -> nth n o [] = seq 0 bands) ->
  exists o', band_order points bands v V true dv eps = Ok o' /\ forall i j, (i < j < bands)%nat ->
  let mean i := fold_right Qplus 0 (map (fun n => v n (nth i (nth n o' []) 0%nat)) (seq 0 points)) in mean i <= mean j.
Proof.
  intros points bands v V dv eps o H E C. destruct (C50_rows points bands v V dv eps H) as (o1 & E1 & L & _ & _).
  rewrite E in E1. apply (f_equal (get_ok [])) in E1. cbn [get_ok] in E1. subst o1.
  set (perm := sort_by (mean_key points v o) (seq 0 bands)).
  assert (PP : Permutation perm (seq 0 bands)) by apply Permutation_sym, sort_by_perm.
  assert (Lp : length perm = bands) by (rewrite (Permutation_length PP); apply seq_length).
  exists (map (fun om => map (fun i => nth i om 0%nat) perm) o). split; [apply band_order_true, E|]. intros i j Hij. cbv beta zeta.
  assert (O : o = repeat (seq 0 bands) points).
  { apply (nth_ext _ _ [] (seq 0 bands)); [rewrite repeat_length; exact L|]. intros n Hn. rewrite nth_repeat. apply C. lia. }
  assert (In_perm : forall i, (i < bands)%nat -> (nth i perm 0%nat < bands)%nat).
  { intros k Hk. assert (I : In (nth k perm 0%nat) perm) by (apply nth_In; lia). apply (Permutation_in _ PP) in I. apply in_seq in I. lia. }
  assert (M : forall i, (i < bands)%nat -> fold_right Qplus 0 (map (fun n => v n (nth i (nth n (map (fun om => map (fun i => nth i om 0%nat) perm) o) []) 0%nat)) (seq 0 points))
    = Qsum (map (fun n => v n (nth i perm 0%nat)) (seq 0 points))).
  { intros k Hk. unfold Qsum. f_equal. apply map_ext_in. intros n Hn. apply in_seq in Hn. f_equal.
    rewrite (nth_indep _ [] (map (fun i => nth i [] 0%nat) perm)) by (rewrite map_length; lia).
    rewrite (map_nth (fun om => map (fun i => nth i om 0%nat) perm)), C by lia.
    rewrite (nth_indep _ 0%nat (nth 0%nat (seq 0 bands) 0%nat)) by (rewrite map_length; lia).
    rewrite (map_nth (fun i => nth i (seq 0 bands) 0%nat)), seq_nth by (apply In_perm, Hk). reflexivity. }
  rewrite (M i ltac:(lia)), (M j ltac:(lia)).
  assert (K : forall a, (a < bands)%nat -> mean_key points v o a == inject_Z (Z.of_nat points) * Qsum (map (fun n => v n a) (seq 0 points))).
  { intros a Ha. unfold mean_key. rewrite O. set (l := seq 0 points).
    assert (R : forall x k, Qsum (map (fun om => v x (nth a om 0%nat)) (repeat (seq 0 bands) k)) == inject_Z (Z.of_nat k) * v x a).
    { intros x k. induction k as [|k IHk]; [cbn; ring|]. cbn [repeat map Qsum fold_right]. fold (Qsum (map (fun om => v x (nth a om 0%nat)) (repeat (seq 0 bands) k))).
      rewrite IHk, seq_nth, Nat2Z.inj_succ, <- Z.add_1_r, inject_Z_plus by exact Ha. cbn [Nat.add]. change (inject_Z 1) with 1. ring. }
    clearbody l. induction l as [|x l IH]; [cbn; ring|]. cbn [map Qsum fold_right]. 
    fold (Qsum (map (fun n => Qsum (map (fun om => v n (nth a om 0%nat)) (repeat (seq 0 bands) points))) l)). rewrite IH, R.
    fold (Qsum (map (fun n => v n a) l)). ring. }
  assert (S : mean_key points v o (nth i perm 0%nat) <= mean_key points v o (nth j perm 0%nat)).
  { pose proof (sort_by_sorted (mean_key points v o) (seq 0 bands)) as SS. fold perm in SS. clearbody perm. clear - SS Hij Lp.
    revert i j Hij. assert (B : (bands <= length perm)%nat) by lia. clear Lp. revert bands B. induction SS as [|x l _ IH F]; intros bands B i j Hij; [cbn in B; lia|].
    destruct i as [|i], j as [|j]; try lia; cbn [nth].
    - rewrite Forall_forall in F. apply F, nth_In. cbn in B. lia.
    - apply (IH (bands - 1)%nat); cbn in B; lia. }
  rewrite !K in S by (apply In_perm; lia).
  assert (Pp : 0 < inject_Z (Z.of_nat points)) by (unfold Qlt; cbn; lia).
  apply Qmult_le_l in S; [exact S|exact Pp].
Qed.
Print Assumptions C50_mean_partial.

Example C50_mean_partial_ex : let v n i := nth i (nth n [[2; 0]; [3; 1]] []) 0 in
  let V n r b := if (r =? b)%nat then (1, 0) else (0, 0) in
  band_order 2 2 v V false None 0 = Ok [[0; 1]; [0; 1]]%nat /\ band_order 2 2 v V true None 0 = Ok [[1; 0]; [1; 0]]%nat.
Proof. split; vm_compute; reflexivity. Qed.

(** Mapping of two sets of eigenvectors onto each other. *)
Lemma all_ok_map {A B} (f : A -> res B) (g : A -> B) l : (forall x, In x l -> f x = Ok (g x)) -> all_ok (map f l) = Ok (map g l).
Proof.
  induction l as [|x l IH]; intros H; [reflexivity|]. cbn [map all_ok]. rewrite (H x (or_introl eq_refl)). cbn [bind].
  rewrite IH by (intros; apply H; right; assumption). reflexivity.
Qed.

Theorem C50_map_dispersions : forall points bands V1 V2 (b : nat -> list nat),
  (forall n, Permutation (b n) (seq 0 bands)) ->
  (forall n i j, (n < points)%nat -> (i < bands)%nat -> (j < bands)%nat -> j <> nth i (b n) 0%nat ->
     overlap bands (vec V1 n i) (vec V2 n j) < overlap bands (vec V1 n i) (vec V2 n (nth i (b n) 0%nat))) ->
  map_dispersions points bands V1 V2 = Ok (map b (seq 0 points)).
Proof.
  intros points bands V1 V2 b BP D. apply all_ok_map. intros n Hn. apply in_seq in Hn.
  destruct (greedy_spec (cross_overlap2 bands V1 V2 n) (seq 0 bands) (seq 0 bands) (seq_NoDup _ _) eq_refl) as (row & G & _).
  rewrite G. f_equal. apply (greedy_dominant _ _ _ _ G (BP n)). intros i j Hi Hj NE.
  assert (K : forall j, cross_overlap2 bands V1 V2 n i j = overlap bands (vec V1 n i) (vec V2 n j)).
  { intros k. unfold cross_overlap2.
    exact (overlap2_overlap bands (fun x r c => match x with O => V1 n r c | S _ => V2 n r c end) 0 i 1 k). }
  rewrite !K. apply D; try assumption. lia.
Qed.
Print Assumptions C50_map_dispersions.

Example C50_map_dispersions_ex : map_dispersions 2 2 (fun _ r b => if (r =? b)%nat then (1, 0) else (0, 0)) (fun _ r b => if (r =? b)%nat then (0, 0) else (0, 1))
  = Ok [[1; 0]; [1; 0]]%nat.
Proof. vm_compute. reflexivity. Qed.
