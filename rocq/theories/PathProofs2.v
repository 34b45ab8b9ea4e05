(** Proofs about points on lines and meshes. *)
From Coq Require Import Reals Lra Lia FinFun.
From Verif Require Import Common LatModel LatProofs GeoModel PathModel PathSpec PathProofs.
Local Open Scope R_scope.

Lemma lerp_between n j p q : (0 < n)%nat -> lerp n j p q = between n j p q.
Proof.
  intros Hn. assert (INR n <> 0) by (apply not_0_INR; lia). unfold lerp, between. destruct p, q. apply r3_eq; unfold add3, scale3; cbn; field; assumption.
Qed.
Lemma dist_distance b p q : dist b p q = distance b p q.
Proof. destruct b as [[[] []] []], p, q. unfold dist, distance, norm3, dot3, cartesian, add3, scale3, sub3. cbn. reflexivity. Qed.

(** ** Points on lines *)
Ltac pop := unfold point_on_path; cbv zeta;
  repeat match goal with |- context [Rlt_dec ?a ?b] => destruct (Rlt_dec a b) | |- context [Rle_dec ?a ?b] => destruct (Rle_dec a b) end; cbn [andb].

Lemma pop_true t A B eps : point_on_path t A B eps = Some true ->
  let c := cross3 (sub3 B A) (sub3 t A) in
  Rabs (rx c) < eps /\ Rabs (ry c) < eps /\ Rabs (rz c) < eps /\ 0 <= dot3 (sub3 B A) (sub3 t A) <= dot3 (sub3 B A) (sub3 B A).
Proof.
  pop; try discriminate. intros _. repeat (split; [assumption|]). unfold dot3 in *. nra.
Qed.

Lemma pop_close t A B eps : A <> B -> point_on_path t A B eps = Some true ->
  exists u, on_segment A B u /\ distance2 t u * distance2 B A < 3 * (eps * eps).
Proof.
  intros Hne H. apply pop_true in H. cbv zeta in H. destruct H as (H1 & H2 & H3 & H4 & H5).
  set (d := sub3 B A) in *. set (w := sub3 t A) in *.
  assert (Hd : 0 < dot3 d d).
  { destruct (Rle_or_lt (dot3 d d) 0) as [Hle|]; [|assumption]. exfalso. apply Hne. unfold dot3 in Hle.
    assert (rx d = 0 /\ ry d = 0 /\ rz d = 0) as (E1 & E2 & E3) by (repeat split; nra).
    unfold d, sub3 in E1, E2, E3. cbn in E1, E2, E3. apply r3_eq; lra. }
  set (s := dot3 d w / dot3 d d).
  exists (R3 (rx A + s * (rx B - rx A)) (ry A + s * (ry B - ry A)) (rz A + s * (rz B - rz A))). split.
  - exists s. split; [|reflexivity]. unfold s. split.
    + apply Rmult_le_pos; [exact H4|]. left. apply Rinv_0_lt_compat. exact Hd.
    + apply Rmult_le_reg_r with (dot3 d d); [exact Hd|]. unfold Rdiv. rewrite Rmult_assoc, Rinv_l by lra. lra.
  - set (c := cross3 d w) in *.
    assert (E : distance2 t (R3 (rx A + s * (rx B - rx A)) (ry A + s * (ry B - ry A)) (rz A + s * (rz B - rz A))) * distance2 B A =
      rx c * rx c + ry c * ry c + rz c * rz c).
    { replace (distance2 B A) with (dot3 d d) by (unfold distance2, dot3, d, sub3; cbn; ring).
      replace (distance2 t _) with (dot3 w w - 2 * s * dot3 d w + s * s * dot3 d d) by (unfold distance2, dot3, d, w, sub3; cbn; ring).
      replace ((dot3 w w - 2 * s * dot3 d w + s * s * dot3 d d) * dot3 d d) with (dot3 w w * dot3 d d - dot3 d w * dot3 d w) by (unfold s; field; lra).
      unfold c, cross3, dot3. cbn. ring. }
    rewrite E. assert (Hsq : forall x, Rabs x < eps -> x * x < eps * eps).
    { intros x Hx. apply Rabs_def2 in Hx. nra. }
    pose proof (Hsq _ H1). pose proof (Hsq _ H2). pose proof (Hsq _ H3). lra.
Qed.

Lemma pop_sound t A B : A <> B -> (forall eps, 0 < eps -> point_on_path t A B eps = Some true) -> on_segment A B t.
Proof.
  intros Hne H.
  assert (Hz : forall x, (forall eps, 0 < eps -> Rabs x < eps) -> x = 0).
  { intros x Hx. destruct (Req_dec x 0) as [|Hn]; [assumption|]. specialize (Hx (Rabs x) (Rabs_pos_lt x Hn)). lra. }
  set (d := sub3 B A). set (w := sub3 t A).
  assert (H1 : rx (cross3 d w) = 0) by (apply Hz; intros eps He; apply (proj1 (pop_true _ _ _ _ (H eps He)))).
  assert (H2 : ry (cross3 d w) = 0) by (apply Hz; intros eps He; apply (proj1 (proj2 (pop_true _ _ _ _ (H eps He))))).
  assert (H3 : rz (cross3 d w) = 0) by (apply Hz; intros eps He; apply (proj1 (proj2 (proj2 (pop_true _ _ _ _ (H eps He)))))).
  pose proof (proj2 (proj2 (proj2 (pop_true _ _ _ _ (H 1 Rlt_0_1))))) as [H4 H5]. fold d in H4, H5. fold w in H4.
  assert (Hd : 0 < dot3 d d).
  { destruct (Rle_or_lt (dot3 d d) 0) as [Hle|]; [|assumption]. exfalso. apply Hne. unfold dot3 in Hle.
    assert (rx d = 0 /\ ry d = 0 /\ rz d = 0) as (E1 & E2 & E3) by (repeat split; nra).
    unfold d, sub3 in E1, E2, E3. cbn in E1, E2, E3. apply r3_eq; lra. }
  exists (dot3 d w / dot3 d d). split.
  - split; [apply Rmult_le_pos; [exact H4|]; left; apply Rinv_0_lt_compat; exact Hd|].
    apply Rmult_le_reg_r with (dot3 d d); [exact Hd|]. unfold Rdiv. rewrite Rmult_assoc, Rinv_l by lra. fold w in H5. lra.
  - assert (G : forall a b : R, a * dot3 d d = b * dot3 d w -> a = dot3 d w / dot3 d d * b).
    { intros a b' E. apply Rmult_eq_reg_r with (dot3 d d); [|lra]. rewrite E. field. lra. }
    assert (E1 : rx w = dot3 d w / dot3 d d * rx d).
    { apply G. replace (rx w * dot3 d d) with (rx d * dot3 d w + (rz d * ry (cross3 d w) - ry d * rz (cross3 d w))) by (unfold dot3, cross3; cbn; ring). rewrite H2, H3. ring. }
    assert (E2 : ry w = dot3 d w / dot3 d d * ry d).
    { apply G. replace (ry w * dot3 d d) with (ry d * dot3 d w + (rx d * rz (cross3 d w) - rz d * rx (cross3 d w))) by (unfold dot3, cross3; cbn; ring). rewrite H1, H3. ring. }
    assert (E3 : rz w = dot3 d w / dot3 d d * rz d).
    { apply G. replace (rz w * dot3 d d) with (rz d * dot3 d w + (ry d * rx (cross3 d w) - rx d * ry (cross3 d w))) by (unfold dot3, cross3; cbn; ring). rewrite H1, H2. ring. }
    clear H1 H2 H3 G.
    revert E1 E2 E3. generalize (dot3 d w / dot3 d d). intros s E1 E2 E3. unfold d, w, sub3 in E1, E2, E3. cbn in E1, E2, E3. apply r3_eq; cbn; lra.
Qed.

Lemma pop_complete t A B eps : 0 < eps -> rz A = rz B -> on_segment A B t -> point_on_path t A B eps = Some true.
Proof.
  intros He Hz (s & Hs & ->).
  assert (E : cross3 (sub3 B A) (sub3 (R3 (rx A + s * (rx B - rx A)) (ry A + s * (ry B - ry A)) (rz A + s * (rz B - rz A))) A) = R3 0 0 0).
  { apply r3_eq; unfold cross3, sub3; cbn; ring. }
  unfold point_on_path. cbv zeta. rewrite E. cbn [rx ry rz]. rewrite Rabs_R0.
  destruct (Rlt_dec 0 eps); [|lra]. cbn [andb].
  replace (dot3 (sub3 B A) (sub3 (R3 (rx A + s * (rx B - rx A)) (ry A + s * (ry B - ry A)) (rz A + s * (rz B - rz A))) A))
    with (s * (rx (sub3 B A) * rx (sub3 B A) + ry (sub3 B A) * ry (sub3 B A))) by (unfold dot3, sub3; cbn; rewrite Hz; ring).
  set (q := rx (sub3 B A) * rx (sub3 B A) + ry (sub3 B A) * ry (sub3 B A)). assert (0 <= q) by (unfold q; nra).
  destruct (Rle_dec 0 (s * q)); [|exfalso; nra]. destruct (Rle_dec (s * q) q); [reflexivity|exfalso; nra].
Qed.

(** ** Meshes *)
Notation prod := (fold_right Z.mul 1%Z).

Lemma range_nth n a : (0 <= a < n)%Z -> nth_error (range n) (Z.to_nat a) = Some a.
Proof.
  intros H. unfold range. rewrite nth_error_map, nth_error_nth' with (d := 0%nat) by (rewrite seq_length; lia). rewrite seq_nth by lia. cbn. f_equal. lia.
Qed.
Lemma in_range n a : In a (range n) <-> (0 <= a < n)%Z.
Proof.
  unfold range. rewrite in_map_iff. split.
  - intros (k & <- & Hk). apply in_seq in Hk. lia.
  - intros H. exists (Z.to_nat a). split; [lia|]. apply in_seq. lia.
Qed.

Lemma nth_flat_map {A B} (f : A -> list B) k l : (forall a, length (f a) = k) -> forall i j a, nth_error l i = Some a -> (j < k)%nat ->
  nth_error (flat_map f l) (i * k + j) = nth_error (f a) j.
Proof.
  intros Hf. induction l as [|x l IH]; intros i j a Hi Hj; [destruct i; discriminate|]. cbn [flat_map]. destruct i as [|i].
  - injection Hi as ->. rewrite nth_error_app1 by (rewrite Hf; exact Hj). reflexivity.
  - rewrite nth_error_app2 by (rewrite Hf; lia). rewrite Hf. rewrite <- (IH i j a Hi Hj). f_equal. lia.
Qed.

Lemma indices_length n : Forall (fun x => (0 < x)%Z) n -> Z.of_nat (length (indices n)) = prod n /\ (0 < prod n)%Z.
Proof.
  induction 1 as [|x n Hx Hn [IH1 IH2]]; [split; [reflexivity|cbn; lia]|]. cbn [indices fold_right].
  assert (E : length (flat_map (fun i => map (cons i) (indices n)) (range x)) = (Z.to_nat x * length (indices n))%nat).
  { unfold range. generalize 0%nat. induction (Z.to_nat x) as [|k IH]; intros a; [reflexivity|]. cbn [seq map flat_map]. rewrite app_length, map_length, IH. lia. }
  rewrite E. split; [rewrite Nat2Z.inj_mul, IH1, Z2Nat.id; lia|nia].
Qed.

Lemma on_grid_cons x n a i : on_grid (x :: n) (a :: i) <-> (0 <= a < x)%Z /\ on_grid n i.
Proof.
  unfold on_grid. cbn [length]. split.
  - intros [H1 H2]. split; [apply (H2 0%nat); reflexivity|]. split; [lia|]. intros d u v Hu Hv. apply (H2 (S d) u v); assumption.
  - intros [H0 [H1 H2]]. split; [lia|]. intros [|d] u v Hu Hv; [injection Hu as <-; injection Hv as <-; exact H0|]. apply (H2 d); assumption.
Qed.

Lemma in_indices n i : In i (indices n) <-> on_grid n i.
Proof.
  revert i. induction n as [|x n IH]; intros i; cbn [indices].
  - split.
    + intros [<-|[]]. split; [reflexivity|]. intros [|d]; discriminate.
    + intros [H _]. destruct i; [left; reflexivity|discriminate].
  - rewrite in_flat_map. split.
    + intros (a & Ha & Hi). apply in_map_iff in Hi. destruct Hi as (j & <- & Hj). apply on_grid_cons. split; [apply in_range, Ha|apply IH, Hj].
    + intros H. destruct i as [|a i]; [destruct H; discriminate|]. apply on_grid_cons in H. destruct H as [Ha Hi]. exists a. split; [apply in_range, Ha|]. apply in_map, IH, Hi.
Qed.

Lemma place_bound n i : on_grid n i -> (0 <= place n i < prod n)%Z.
Proof.
  revert i. induction n as [|x n IH]; intros [|a i] H; try (destruct H; discriminate); [cbn; lia|]. apply on_grid_cons in H. destruct H as [Ha Hi]. specialize (IH i Hi). cbn [place fold_right]. nia.
Qed.

Lemma indices_place n i : on_grid n i -> nth_error (indices n) (Z.to_nat (place n i)) = Some i.
Proof.
  revert i. induction n as [|x n IH]; intros [|a i] H; try (destruct H; discriminate); [reflexivity|].
  apply on_grid_cons in H. destruct H as [Ha Hi]. cbn [place indices]. specialize (IH i Hi). pose proof (place_bound n i Hi) as Hp.
  assert (HL : Z.of_nat (length (indices n)) = prod n).
  { apply indices_length. apply Forall_forall. intros y Hy. destruct (In_nth_error _ _ Hy) as [d Hd]. destruct Hi as [H1 H2].
    destruct (nth_error i d) as [u|] eqn:E; [specialize (H2 d u y E Hd); lia|]. apply nth_error_None in E. assert (d < length n)%nat by (apply nth_error_Some; congruence). lia. }
  replace (Z.to_nat (a * prod n + place n i)) with (Z.to_nat a * length (indices n) + Z.to_nat (place n i))%nat by nia.
  rewrite (nth_flat_map (fun i => map (cons i) (indices n)) (length (indices n)) (range x) (fun a => map_length _ _) (Z.to_nat a) (Z.to_nat (place n i)) a);
    [|apply range_nth, Ha|lia].
  rewrite nth_error_map, IH. reflexivity.
Qed.

Lemma NoDup_indices n : NoDup (indices n).
Proof.
  induction n as [|x n IH]; cbn [indices]; [repeat constructor; auto|].
  unfold range. generalize 0%nat as s. induction (Z.to_nat x) as [|k IHk]; intros s; cbn [seq map flat_map]; [constructor|].
  apply NoDup_app'; [apply Injective_map_NoDup; [intros u v E; injection E; auto|exact IH]|apply IHk|].
  intros u Hu Hv. apply in_map_iff in Hu. destruct Hu as (i & <- & _). apply in_flat_map in Hv. destruct Hv as (c & Hc & Hi). apply in_map_iff in Hi. destruct Hi as (j & E & _).
  injection E as -> _. apply in_map_iff in Hc. destruct Hc as (m & E & Hm). apply in_seq in Hm. lia.
Qed.

Definition grid_point (n i : list Z) : list R := map (fun x => 2 * PI * IZR (fst x) / IZR (snd x)) (combine i n).

Lemma mesh_spec n : n <> [] -> Forall (fun x => (0 < x)%Z) n ->
  exists l, mesh n = Ok l /\ Z.of_nat (length l) = prod n /\ (forall i, on_grid n i -> nth_error l (Z.to_nat (place n i)) = Some (grid_point n i)).
Proof.
  intros Hn Hp. destruct n as [|x n]; [congruence|]. eexists. split; [reflexivity|]. rewrite map_length. split; [apply indices_length, Hp|].
  intros i Hi. rewrite nth_error_map, indices_place by exact Hi. reflexivity.
Qed.

Lemma grid_point_inj n i j : Forall (fun x => (0 < x)%Z) n -> on_grid n i -> on_grid n j -> grid_point n i = grid_point n j -> i = j.
Proof.
  intros Hn. revert i j. induction Hn as [|x n Hx Hn IH]; intros i j Hi Hj E; destruct i as [|a i]; try (destruct Hi; discriminate); destruct j as [|c j]; try (destruct Hj; discriminate); [reflexivity|].
  apply on_grid_cons in Hi, Hj. destruct Hi as [_ Hi], Hj as [_ Hj]. unfold grid_point in E. cbn [combine map fst snd] in E. pose proof (f_equal (hd 0) E) as E1. pose proof (f_equal (@tl R) E) as E2. cbn [hd tl] in E1, E2.
  f_equal; [|apply IH; assumption]. apply eq_IZR. assert (IZR x <> 0) by (apply not_0_IZR; lia). pose proof PI_RGT_0.
  apply Rmult_eq_reg_l with (2 * PI / IZR x); [|apply Rmult_integral_contrapositive_currified; [lra|apply Rinv_neq_0_compat; assumption]].
  transitivity (2 * PI * IZR a / IZR x); [field; assumption|]. rewrite E1. field. assumption.
Qed.

Lemma mesh_unique n l : n <> [] -> Forall (fun x => (0 < x)%Z) n -> mesh n = Ok l -> NoDup l /\ forall v, In v l <-> exists i, on_grid n i /\ v = grid_point n i.
Proof.
  intros Hn Hp H. destruct n as [|x n]; [congruence|]. assert (El : l = map (grid_point (x :: n)) (indices (x :: n))) by (unfold mesh in H; unfold grid_point; congruence). rewrite El. clear El H. split.
  - pose proof (NoDup_indices (x :: n)) as Hd. assert (Hin : forall i, In i (indices (x :: n)) -> on_grid (x :: n) i) by (intros i; apply in_indices).
    revert Hd Hin. generalize (indices (x :: n)) as l'. induction l' as [|i l' IH]; intros Hd Hin; [constructor|]. inversion Hd; subst. cbn [map]. constructor.
    + intros Hi. apply in_map_iff in Hi. destruct Hi as (j & E & Hj). apply grid_point_inj in E; [subst; contradiction|exact Hp|apply Hin; right; exact Hj|apply Hin; left; reflexivity].
    + apply IH; [assumption|]. intros j Hj. apply Hin. right; exact Hj.
  - intros v. rewrite in_map_iff. split.
    + intros (i & <- & Hi). exists i. split; [apply in_indices, Hi|reflexivity].
    + intros (i & Hi & ->). exists i. split; [reflexivity|apply in_indices, Hi].
Qed.

Lemma kpoints_spec nk answers w : length answers = length nk -> nk <> [] ->
  (forall d n a, nth_error nk d = Some n -> nth_error answers d = Some a -> (0 < n)%Z \/ n = 0%Z /\ match a with Some m => (0 < m)%Z | None => True end) ->
  let nk' := map (fun x => if (fst x =? 0)%Z then match snd x with Some m => m | None => 1%Z end else fst x) (combine nk answers) in
  exists l, kpoints nk answers w = Ok (prod nk', l) /\ Z.of_nat (length l) = prod nk' /\
  forall i, on_grid nk' i -> nth_error l (Z.to_nat (place nk' i)) = Some (map (fun x => IZR (fst x) / IZR (snd x)) (combine i nk') ++ if w then [1 / IZR (prod nk')] else []).
Proof.
  intros Hlen Hne Hpos nk'. assert (Hn' : nk' <> []) by (destruct nk, answers; try discriminate; congruence).
  assert (Hp : Forall (fun x => (0 < x)%Z) nk').
  { apply Forall_forall. intros x Hx. apply in_map_iff in Hx. destruct Hx as ([n a] & <- & Hx). apply In_nth_error in Hx. destruct Hx as [d Hd].
    assert (Hc : forall (A B : Type) (l : list A) (l' : list B) d x y, nth_error (combine l l') d = Some (x, y) -> nth_error l d = Some x /\ nth_error l' d = Some y).
    { intros A B l. induction l as [|u l IH]; intros [|u' l'] d' x' y' H; try (destruct d'; discriminate). destruct d'; [injection H as <- <-; auto|]. apply (IH l' d'), H. }
    apply Hc in Hd. destruct Hd as [H1 H2]. cbn [fst snd]. destruct (Hpos d n a H1 H2) as [H|[-> H]].
    - destruct (Z.eqb_spec n 0); [lia|exact H].
    - cbn. destruct a; [exact H|lia]. }
  destruct (mesh_spec nk' Hn' Hp) as (l & E & HL & Hl). unfold kpoints. fold nk'. rewrite E. cbn [bind]. eexists. split; [reflexivity|]. rewrite map_length. split; [exact HL|].
  intros i Hi. rewrite nth_error_map, Hl by exact Hi. cbn [option_map]. f_equal. f_equal. unfold grid_point. rewrite map_map. apply map_ext_in. intros [a x] Hx. cbn [fst snd].
  assert (x <> 0%Z). { apply in_combine_r in Hx. rewrite Forall_forall in Hp. specialize (Hp x Hx). lia. }
  field. split; [apply not_0_IZR; assumption|pose proof PI_RGT_0; lra].
Qed.

Lemma path_visits round N b pts : (2 <= length pts)%nat ->
  exists k x corners, path round N b 0 pts = Ok (k, x, corners) /\
  length k = length x /\ length corners = length pts /\ nth_error corners 0 = Some 0%nat /\ nth_error x 0 = Some 0 /\ (last corners 0 + 1)%nat = length k /\
  forall i p q, nth_error pts i = Some p -> nth_error pts (S i) = Some q ->
    exists c xc, let n := Z.to_nat (Z.max 1 (round (N * distance b p q))) in
    nth_error corners i = Some c /\ nth_error corners (S i) = Some (c + n)%nat /\ (0 < n)%nat /\
    forall j, (j <= n)%nat -> nth_error k (c + j) = Some (scale3 (2 * PI) (between n j p q)) /\ nth_error x (c + j) = Some (xc + INR j / INR n * distance b p q).
Proof.
  intros H. destruct (path_spec round N b pts H) as (k & x & cs & E & H1 & H2 & H3 & H4 & H5 & H6). exists k, x, cs. repeat (split; [assumption|]).
  intros i p q Hp Hq. destruct (H6 i p q Hp Hq) as (c & xc & C1 & C2 & C3). exists c, xc. rewrite dist_distance in C2, C3. cbv zeta. split; [exact C1|]. split; [exact C2|].
  assert (Hn : (0 < Z.to_nat (Z.max 1 (round (N * distance b p q)%R)))%nat) by lia. split; [exact Hn|].
  intros j Hj. rewrite <- lerp_between by exact Hn. apply C3, Hj.
Qed.

Lemma path_corner round N b pts k x corners : (2 <= length pts)%nat -> path round N b 0 pts = Ok (k, x, corners) ->
  forall i p, nth_error pts i = Some p -> exists c, nth_error corners i = Some c /\ nth_error k c = Some (scale3 (2 * PI) p).
Proof.
  intros H E i p Hp. destruct (path_visits round N b pts H) as (k' & x' & cs & E' & _ & _ & _ & _ & _ & G). rewrite E in E'. injection E' as <- <- <-.
  assert (Hi : (i < length pts)%nat) by (apply nth_error_Some; congruence). destruct (Nat.eq_dec (S i) (length pts)) as [El|Nl].
  - destruct i as [|i]; [lia|]. destruct (nth_error pts i) as [q|] eqn:Eq; [|apply nth_error_None in Eq; lia].
    destruct (G i q p Eq Hp) as (c & xc & C1 & C2 & C3 & C4). exists (c + Z.to_nat (Z.max 1 (round (N * distance b q p)%R)))%nat. split; [exact C2|].
    rewrite (proj1 (C4 _ (Nat.le_refl _))). f_equal. f_equal. rewrite <- lerp_between by exact C3. apply lerp_n, C3.
  - destruct (nth_error pts (S i)) as [q|] eqn:Eq; [|apply nth_error_None in Eq; lia].
    destruct (G i p q Hp Eq) as (c & xc & C1 & C2 & C3 & C4). exists c. split; [exact C1|]. specialize (C4 0%nat (Nat.le_0_l _)). rewrite Nat.add_0_r in C4.
    rewrite (proj1 C4). f_equal. f_equal. rewrite <- lerp_between by exact C3. apply lerp_0, C3.
Qed.

Lemma path_abscissa round N b pts k x corners : path round N b 0 pts = Ok (k, x, corners) ->
  forall m u v xu xv, nth_error k m = Some u -> nth_error k (S m) = Some v -> nth_error x m = Some xu -> nth_error x (S m) = Some xv ->
    xv - xu = distance b u v / (2 * PI) /\ xu <= xv.
Proof.
  intros E m u v xu xv Hu Hv Hxu Hxv. pose proof (path_distance round N b pts k x corners E m u v xu xv Hu Hv Hxu Hxv) as D.
  fold (dist b u v) in D. rewrite dist_distance in D. split; [exact D|]. assert (0 <= distance b u v / (2 * PI)); [|lra].
  apply Rmult_le_pos; [apply sqrt_pos|]. left. apply Rinv_0_lt_compat. pose proof PI_RGT_0. lra.
Qed.

Lemma path_single round N b p : path round N b 0 [p] = Ok ([], [], [0%nat]).
Proof. unfold path. cbn [segments]. unfold is_zero. destruct (Req_EM_T 0 0) as [_|E]; [reflexivity|lra]. Qed.

Lemma pop_vertical eps : on_segment (R3 0 0 0) (R3 0 0 1) (R3 0 0 (1 / 2)) /\ point_on_path (R3 0 0 (1 / 2)) (R3 0 0 0) (R3 0 0 1) eps = None.
Proof.
  split.
  - exists (1 / 2). split; [lra|]. cbn. f_equal; field.
  - unfold point_on_path. cbv zeta. destruct (_ && _ && _); [|reflexivity]. destruct (Rle_dec 0 _); [|reflexivity]. destruct (Rle_dec _ _) as [H|]; [|reflexivity].
    exfalso. unfold dot3, sub3 in H. cbn in H. lra.
Qed.

Lemma pop_degenerate t A eps : 0 < eps -> point_on_path t A A eps = Some true.
Proof.
  intros He. unfold point_on_path. cbv zeta.
  replace (cross3 (sub3 A A) (sub3 t A)) with (R3 0 0 0) by (apply r3_eq; unfold cross3, sub3; cbn; ring). cbn [rx ry rz]. rewrite Rabs_R0.
  destruct (Rlt_dec 0 eps); [|lra]. cbn [andb]. destruct (Rle_dec 0 _) as [|H]; [|exfalso; apply H; unfold dot3, sub3; cbn; lra].
  destruct (Rle_dec _ _) as [|H]; [reflexivity|]. exfalso. apply H. unfold dot3, sub3. cbn. lra.
Qed.
