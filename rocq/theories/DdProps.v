(** Properties of double-delta integrals: C49. *)
From Coq Require Import QArith Qabs Lqa Lia List Permutation.
From Verif Require Import Common MiscModel MiscSpec MiscProofs DdModel DdSpec DdProofs.
Import ListNotations.
Local Open Scope Q_scope.

(** The points collected from all processes are, in some order, independent of
    their number. *)
Theorem C49_processes : forall size size' N x y f z, (0 < size)%nat -> (0 < size')%nat ->
  Permutation (dd_all size N x y f z) (dd_all size' N x y f z).
Proof. intros. rewrite !dd_all_perm by assumption. reflexivity. Qed.
Print Assumptions C49_processes.

(** Every point collected is an intersection of isolines with the right weight,
    and every intersection is collected. *)
Theorem C49_intersections : forall size N x y f z, (0 < size)%nat -> (0 < N)%nat ->
  (forall d w, In (d, w) (dd_all size N x y f z) -> exists d1 d2, d = [d1; d2] /\ intersection N x y f z d1 d2 w) /\
  (forall d1 d2 w, intersection N x y f z d1 d2 w ->
     exists e1 e2 v, In ([e1; e2], v) (dd_all size N x y f z) /\ e1 == d1 /\ e2 == d2 /\ v == w).
Proof.
  intros size N x y f z S HN. split.
  - intros d w I. destruct (dd_all_sound size N x y f z (d, w) S HN I) as (d1 & d2 & E & J). eauto.
  - intros d1 d2 w. apply dd_all_complete; assumption.
Qed.
Print Assumptions C49_intersections.

(** Every entry of the result is the average over a group of points linked to one
    another, and every group appears in the result. *)
Theorem C49_result : forall size N x y f eps z,
  let all := dd_all size N x y f z in
  let gs := group eps (map fst all) in
  (forall d w, In (d, w) (double_delta size N x y f eps z) -> exists g l, In g gs /\ l <> [] /\
     (forall p, In p l <-> exists i, In i g /\ nth_error all i = Some p) /\
     Forall2 Qeq d [average (map (fun p => nth 0 (fst p) 0) l); average (map (fun p => nth 1 (fst p) 0) l)] /\
     w = average (map snd l)) /\
  (forall g, In g gs -> exists d w, In (d, w) (double_delta size N x y f eps z) /\
     Forall2 Qeq d (map (fun c => average (map (fun p => nth c (fst p) 0) (pick all g))) [0; 1]%nat)).
Proof.
  intros size N x y f eps z all gs. rewrite double_delta_fold. split.
  - intros d w I. destruct (fold_entries _ _ _ _ _ I) as [[]|(g & G & K & W)]. exists g, (pick all g).
    repeat split; [exact G|exact (pick_group all eps fst g G)|apply pick_in|apply pick_in|exact K|exact W].
  - intros g G. destruct (fold_has all gs [] g G) as (k & v & I & K). exists k, v. split; [exact I|exact K].
Qed.
Print Assumptions C49_result.

(** Weights are nonnegative. *)
Theorem C49_nonnegative : forall size N x y f eps z d w, (0 < size)%nat -> (0 < N)%nat ->
  (forall i j, (i < N)%nat -> (j < N)%nat -> 0 <= f i j) ->
  In (d, w) (double_delta size N x y f eps z) -> 0 <= w.
Proof.
  intros size N x y f eps z d w S HN Hf I. rewrite double_delta_fold in I. destruct (fold_entries _ _ _ _ _ I) as [[]|(g & G & K & ->)].
  apply average_nonneg. intros v Hv. apply in_map_iff in Hv. destruct Hv as ([d' w'] & <- & Hp). apply pick_in in Hp. destruct Hp as (i & _ & Hp).
  apply nth_error_In in Hp. destruct (dd_all_sound size N x y f z _ S HN Hp) as (d1 & d2 & _ & J). exact (intersection_nonneg N x y f z d1 d2 _ Hf J).
Qed.
Print Assumptions C49_nonnegative.

(** If different intersections are at least eps apart (in one coordinate), the
    result has an entry at each intersection and nowhere else. *)
Theorem C49_support : forall size N x y f eps z, (0 < size)%nat -> (0 < N)%nat -> 0 < eps ->
  (forall d1 d2 w d1' d2' w', intersection N x y f z d1 d2 w -> intersection N x y f z d1' d2' w' ->
     Qabs (d1' - d1) < eps -> Qabs (d2' - d2) < eps -> d1 == d1' /\ d2 == d2') ->
  (forall d w, In (d, w) (double_delta size N x y f eps z) ->
     exists d1 d2 w', d = [d1; d2] /\ intersection N x y f z d1 d2 w') /\
  (forall d1 d2 w, intersection N x y f z d1 d2 w -> exists e1 e2 v, In ([e1; e2], v) (double_delta size N x y f eps z) /\ e1 == d1 /\ e2 == d2).
Proof.
  intros size N x y f eps z S HN He Sep. set (all := dd_all size N x y f z). set (points := map fst all).
  assert (D2 : Forall (fun p : list Q => length p = 2%nat) points).
  { apply Forall_forall. intros p Hp. apply in_map_iff in Hp. destruct Hp as (q & <- & I). destruct (dd_all_sound size N x y f z q S HN I) as (d1 & d2 & -> & _). reflexivity. }
  assert (Sm : forall p q, In p points -> In q points -> neighbours eps p q -> Forall2 Qeq p q).
  { intros p q Hp Hq Nb. apply in_map_iff in Hp, Hq. destruct Hp as (p' & <- & Ip), Hq as (q' & <- & Iq).
    destruct (dd_all_sound size N x y f z p' S HN Ip) as (d1 & d2 & E & J). destruct (dd_all_sound size N x y f z q' S HN Iq) as (d1' & d2' & E' & J').
    rewrite E, E' in *. inversion Nb as [|? ? ? ? N1 Nb']; subst. inversion Nb' as [|? ? ? ? N2 _]; subst.
    destruct (Sep d1 d2 _ d1' d2' _ J J' N1 N2). repeat constructor; assumption. }
  assert (G1 : forall g p, In g (group eps points) -> In p (pick all g) -> exists d1 d2, fst p = [d1; d2] /\ intersection N x y f z d1 d2 (snd p) /\
    Forall2 Qeq (mean_point (pick all g)) [d1; d2]).
  { intros g p G Ip. pose proof Ip as Ip'. apply pick_in in Ip'. destruct Ip' as (i & Ii & Ni).
    destruct (dd_all_sound size N x y f z p S HN (nth_error_In _ _ Ni)) as (d1 & d2 & E & J). exists d1, d2. split; [exact E|split; [exact J|]].
    assert (C : forall q, In q (pick all g) -> Forall2 Qeq (fst q) [d1; d2]).
    { intros q Iq. apply pick_in in Iq. destruct Iq as (j & Ij & Nj). rewrite <- E.
      apply (linked_same eps points Sm j i).
      - apply (group_linked eps points 2 D2); [|apply (group_bound eps points g i G Ii)|exists g; auto]. apply (group_bound eps points g j G Ij).
      - unfold points. rewrite nth_error_map, Nj. reflexivity.
      - unfold points. rewrite nth_error_map, Ni. reflexivity. }
    assert (N0 : forall h : list Q * Q -> Q, map h (pick all g) <> []) by (intros h E0; apply map_eq_nil in E0; exact (pick_group all eps fst g G E0)).
    unfold mean_point. cbn [seq map]. repeat constructor.
    - apply average_const; [apply N0|]. intros v Hv. apply in_map_iff in Hv. destruct Hv as (q & <- & Iq). specialize (C q Iq). destruct (fst q); inversion C; subst. exact H2.
    - apply average_const; [apply N0|]. intros v Hv. apply in_map_iff in Hv. destruct Hv as (q & <- & Iq). specialize (C q Iq).
      inversion C as [|? ? ? ? _ C']; subst. inversion C' as [|? ? ? ? C2 _]; subst. exact C2. }
  assert (IE : forall d1 d2 w e1 e2, intersection N x y f z d1 d2 w -> e1 == d1 -> e2 == d2 -> intersection N x y f z e1 e2 w).
  { intros d1 d2 w e1 e2 (i & j & up & U & V & W & Hi & Hj & HU & HV & HW & Sm' & T) E1 E2. exists i, j, up, U, V, W. repeat (split; [assumption|]).
    destruct (triangle i j up) as [[P Q] R]. destruct T as (T1 & T2 & T3 & T4 & T5 & T6). rewrite E1, E2. repeat split; assumption. }
  rewrite double_delta_fold. fold all. fold points. split.
  - intros d w I. destruct (fold_entries _ _ _ _ _ I) as [[]|(g & G & K & W)].
    destruct (pick all g) as [|p l] eqn:Pg; [exfalso; exact (pick_group all eps fst g G Pg)|].
    destruct (G1 g p G) as (d1 & d2 & E & J & M); [rewrite Pg; left; reflexivity|]. rewrite Pg in M.
    inversion K as [|e1 m1 ? ? K1 K']; subst. inversion K' as [|e2 m2 ? ? K2 K'']; subst. inversion K''; subst. clear K' K''.
    inversion M as [|? ? ? ? M1 M']; subst. inversion M' as [|? ? ? ? M2 _]; subst.
    exists e1, e2, (snd p). split; [reflexivity|]. apply (IE d1 d2); [exact J|rewrite K1; exact M1|rewrite K2; exact M2].
  - intros d1 d2 w J. destruct (dd_all_complete size N x y f z d1 d2 w S HN J) as (e1 & e2 & v & I & E1 & E2 & Ev).
    destruct (In_nth_error _ _ I) as [i Ni]. fold all in Ni.
    assert (Bi : (i < length points)%nat) by (unfold points; rewrite map_length; apply nth_error_Some; rewrite Ni; discriminate).
    destruct (proj2 (group_linked eps points 2 D2 i i Bi Bi)) as (g & G & Ii & _).
    { apply (linked_refl _ _ i [e1; e2]). unfold points. rewrite nth_error_map, Ni. reflexivity. }
    destruct (fold_has all (group eps points) [] g G) as (k & u & Ik & Fk).
    destruct (G1 g ([e1; e2], v) G) as (c1 & c2 & E & _ & M); [apply pick_in; eauto|]. cbn [fst] in E. injection E as <- <-.
    inversion Fk as [|k1 m1 ? ? K1 K']; subst. inversion K' as [|k2 m2 ? ? K2 K'']; subst. inversion K''; subst.
    inversion M as [|? ? ? ? M1 M']; subst. inversion M' as [|? ? ? ? M2 _]; subst.
    exists k1, k2, u. split; [exact Ik|]. split; [rewrite K1, M1; exact E1|rewrite K2, M2; exact E2].
Qed.
Print Assumptions C49_support.

(** An example with one intersection at (1/2, 1/2): x = i and y = j on a mesh of
    two points per direction. *)
Definition ex_x (i j : nat) : Q := Qof i.
Definition ex_y (i j : nat) : Q := Qof j.

Example C49_ex : Permutation (map (fun p => map Qred (fst p)) (double_delta 2 2 ex_x ex_y (fun _ _ => 1) (1 # 100) (1 # 2)))
  [[1 # 2; 1 # 2]; [3 # 2; 1 # 2]; [1 # 2; 3 # 2]; [3 # 2; 3 # 2]].
Proof. vm_compute. repeat first [reflexivity | apply perm_skip | apply perm_swap | (eapply perm_trans; [apply perm_swap|])]. Qed.

Example C49_support_ex : forall d1 d2 w d1' d2' w', intersection 2 ex_x ex_y (fun _ _ => 1) (1 # 2) d1 d2 w -> intersection 2 ex_x ex_y (fun _ _ => 1) (1 # 2) d1' d2' w' ->
  Qabs (d1' - d1) < 1 # 100 -> Qabs (d2' - d2) < 1 # 100 -> d1 == d1' /\ d2 == d2'.
Proof.
  assert (K : forall d1 d2 w, intersection 2 ex_x ex_y (fun _ _ => 1) (1 # 2) d1 d2 w -> (d1 == 1 # 2 \/ d1 == 3 # 2) /\ (d2 == 1 # 2 \/ d2 == 3 # 2)).
  { intros d1 d2 w J. apply (dd_all_complete 1) in J; [|lia|lia]. destruct J as (e1 & e2 & v & I & E1 & E2 & _). rewrite <- E1, <- E2. clear - I.
    vm_compute in I. repeat (destruct I as [I|I]; [injection I as <- <- <-; split; (left; reflexivity) || (right; reflexivity)|]). destruct I. }
  intros d1 d2 w d1' d2' w' J J' N1 N2. destruct (K _ _ _ J) as [A B], (K _ _ _ J') as [A' B'].
  pose proof (Qle_Qabs (d1' - d1)). pose proof (Qle_Qabs (- (d1' - d1))). pose proof (Qle_Qabs (d2' - d2)). pose proof (Qle_Qabs (- (d2' - d2))).
  rewrite Qabs_opp in *. split.
  - destruct A as [A|A], A' as [A'|A']; rewrite A, A' in *; lra.
  - destruct B as [B|B], B' as [B'|B']; rewrite B, B' in *; lra.
Qed.

(** The result should not depend on the choice of the origin of the periodic
    mesh. This is wrong: intersections on the boundary of the cell are counted
    repeatedly, because points equivalent by periodicity are not identified. *)
Theorem C49_translation_refuted : exists N x y z eps,
  let I x y := Qsum (map snd (double_delta 1 N x y (fun _ _ => 1) eps z)) in
  ~ I x y == I (fun i j => x ((i + 1) mod N) ((j + 1) mod N))%nat (fun i j => y ((i + 1) mod N) ((j + 1) mod N))%nat.
Proof.
  exists 3%nat, (fun i j => nth i [0; 1; -1 # 1] 0), (fun i j => nth j [0; 1; -1 # 1] 0), 0, (1 # 1000).
  vm_compute. discriminate.
Qed.
Print Assumptions C49_translation_refuted.
