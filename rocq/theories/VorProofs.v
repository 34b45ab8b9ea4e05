(** Proofs about VorModel.v. *)
From Coq Require Import Permutation Lqa Psatz Sorting.Sorted.
From Verif Require Import Common CommonProofs LatModel LatProofs SymModel SymSpec SymProofs VorModel VorSpec.
Local Open Scope Z_scope.

(** ** Lattice reduction over the integers *)

Definition qf (s u v : Z) : Z := u * u + v * v + s * u * v.

Lemma qf_nonneg s u v : -1 <= s <= 1 -> 0 <= qf s u v.
Proof. intros Hs. unfold qf. assert (s = -1 \/ s = 0 \/ s = 1) as [-> | [-> | ->]] by lia; nia. Qed.

(** No neighboring lattice translation decreases the distance. *)
Definition reduced (s N u v : Z) : Prop :=
  if s =? 0 then 2 * Z.abs u <= N /\ 2 * Z.abs v <= N
  else 3 * Z.abs u <= 2 * N /\ 3 * Z.abs v <= 2 * N.

Lemma reduce_step s N u v : 0 < N -> -1 <= s <= 1 ->
  reduced s N u v \/ exists a b, qf s (u + a * N) (v + b * N) < qf s u v.
Proof.
  intros HN Hs.
  assert (D : forall a b, qf s (u + a * N) (v + b * N) - qf s u v =
    N * (a * (2 * u + s * v) + b * (2 * v + s * u) + N * (a * a + b * b + s * a * b))) by (intros; unfold qf; ring).
  assert (T : forall a b, a * (2 * u + s * v) + b * (2 * v + s * u) + N * (a * a + b * b + s * a * b) < 0 ->
    exists a b, qf s (u + a * N) (v + b * N) < qf s u v).
  { intros a b H. exists a, b. specialize (D a b). nia. }
  destruct (Z_lt_dec (1 * (2 * u + s * v) + 0 * (2 * v + s * u) + N * (1 * 1 + 0 * 0 + s * 1 * 0)) 0) as [|H1]; [right; eapply T; eassumption|].
  destruct (Z_lt_dec (-1 * (2 * u + s * v) + 0 * (2 * v + s * u) + N * (-1 * -1 + 0 * 0 + s * -1 * 0)) 0) as [|H2]; [right; eapply T; eassumption|].
  destruct (Z_lt_dec (0 * (2 * u + s * v) + 1 * (2 * v + s * u) + N * (0 * 0 + 1 * 1 + s * 0 * 1)) 0) as [|H3]; [right; eapply T; eassumption|].
  destruct (Z_lt_dec (0 * (2 * u + s * v) + -1 * (2 * v + s * u) + N * (0 * 0 + -1 * -1 + s * 0 * -1)) 0) as [|H4]; [right; eapply T; eassumption|].
  destruct (Z_lt_dec (1 * (2 * u + s * v) + (-s) * (2 * v + s * u) + N * (1 * 1 + (-s) * (-s) + s * 1 * (-s))) 0) as [|H5]; [right; eapply T; eassumption|].
  destruct (Z_lt_dec (-1 * (2 * u + s * v) + s * (2 * v + s * u) + N * (-1 * -1 + s * s + s * -1 * s)) 0) as [|H6]; [right; eapply T; eassumption|].
  left. unfold reduced. assert (s = -1 \/ s = 0 \/ s = 1) as [-> | [-> | ->]] by lia; cbn -[Z.mul Z.add Z.abs]; lia.
Qed.

Lemma reduce s N : 0 < N -> -1 <= s <= 1 -> forall u v,
  exists a b, reduced s N (u + a * N) (v + b * N) /\ qf s (u + a * N) (v + b * N) <= qf s u v.
Proof.
  intros HN Hs u v. remember (Z.to_nat (qf s u v)) as n eqn:En. revert u v En.
  induction n as [n IH] using lt_wf_ind. intros u v En.
  destruct (reduce_step s N u v HN Hs) as [H|(a & b & H)].
  - exists 0, 0. rewrite !Z.mul_0_l, !Z.add_0_r. split; [exact H|lia].
  - pose proof (qf_nonneg s (u + a * N) (v + b * N) Hs).
    destruct (IH (Z.to_nat (qf s (u + a * N) (v + b * N))) ltac:(lia) _ _ eq_refl) as (a' & b' & H1 & H2).
    exists (a + a'), (b + b'). replace (u + (a + a') * N) with (u + a * N + a' * N) by ring.
    replace (v + (b + b') * N) with (v + b * N + b' * N) by ring. split; [exact H1|lia].
Qed.

Lemma angle_sgn_ok angle : allowed_angle angle -> exists s, angle_sgn angle = Ok s /\ -1 <= s <= 1 /\
  (s = 0 <-> angle = 90) /\ forall x y, (sqd s x y == dist2 angle x y)%Q.
Proof.
  intros [-> | [-> | ->]]; (eexists; split; [reflexivity|]); (split; [lia|]); (split; [lia|]);
    intros x y; unfold sqd, dist2; cbn; ring.
Qed.

(** ** Scaling of rational shifts *)

Section Scale.
  Context (d1 d2 : Q).
  Let m := Z.pos (Qden d1 * Qden d2).
  Let D1 := Qnum d1 * Z.pos (Qden d2).
  Let D2 := Qnum d2 * Z.pos (Qden d1).

  Lemma scale_pos : 0 < m.
  Proof. unfold m. lia. Qed.

  Lemma scale_d1 : (d1 * inject_Z m == inject_Z D1)%Q.
  Proof. unfold m, D1, Qeq, Qmult, inject_Z. cbn. destruct d1 as [n p], d2 as [n' p']. cbn. lia. Qed.

  Lemma scale_d2 : (d2 * inject_Z m == inject_Z D2)%Q.
  Proof. unfold m, D2, Qeq, Qmult, inject_Z. cbn. destruct d1 as [n p], d2 as [n' p']. cbn. lia. Qed.

  Lemma sqd_scaled s u v :
    (sqd s (inject_Z u - d1) (inject_Z v - d2) * (inject_Z m * inject_Z m) == inject_Z (qf s (m * u - D1) (m * v - D2)))%Q.
  Proof.
    unfold qf, Z.sub. repeat rewrite inject_Z_plus || rewrite inject_Z_mult || rewrite inject_Z_opp.
    rewrite <- scale_d1, <- scale_d2. unfold sqd. ring.
  Qed.

  Lemma sqd_le_iff s u v u' v' :
    (sqd s (inject_Z u - d1) (inject_Z v - d2) <= sqd s (inject_Z u' - d1) (inject_Z v' - d2))%Q <->
    qf s (m * u - D1) (m * v - D2) <= qf s (m * u' - D1) (m * v' - D2).
  Proof.
    assert (Hm : (0 < inject_Z m)%Q) by (change 0%Q with (inject_Z 0); rewrite <- Zlt_Qlt; apply scale_pos).
    assert (Hmm : (0 < inject_Z m * inject_Z m)%Q) by nra.
    rewrite Zle_Qle, <- !sqd_scaled. symmetry. apply Qmult_le_r. exact Hmm.
  Qed.
End Scale.

Lemma mod_cases n k u : 0 < n -> - n < u < n -> (u - k) mod n = 0 -> u = k mod n \/ u = k mod n - n.
Proof.
  intros Hn Hu H. pose proof (Z.mod_pos_bound k n Hn). pose proof (Z.div_mod k n ltac:(lia)) as E.
  apply Z.mod_divide in H; [|lia]. destruct H as [c Hc].
  assert (u = k mod n + (c + k / n) * n) by lia. set (e := c + k / n) in *. assert (e = 0 \/ e = -1) as [-> | ->] by nia; lia.
Qed.

Lemma shift_bound angle nk m (d : Q) D : 0 < m -> (d * inject_Z m == inject_Z D)%Q -> small_shift angle nk d ->
  (if angle =? 90 then 2 else 3) * Z.abs D < m * nk.
Proof.
  intros Hm Ed H. unfold small_shift in H.
  apply (Qmult_lt_r _ _ (inject_Z m)) in H; [|change 0%Q with (inject_Z 0); rewrite <- Zlt_Qlt; exact Hm].
  assert (E : (Qabs d * inject_Z m == inject_Z (Z.abs D))%Q).
  { rewrite <- (Qabs_pos (inject_Z m)) by (change 0%Q with (inject_Z 0); rewrite <- Zle_Qle; lia).
    rewrite <- Qabs_Qmult, Ed. unfold Qabs, inject_Z. cbn. reflexivity. }
  rewrite Zlt_Qlt, !inject_Z_mult, <- E. destruct (angle =? 90); change (inject_Z 2) with 2%Q; change (inject_Z 3) with 3%Q; lra.
Qed.

Lemma abs_bound c e m n u D : 0 < m -> 0 < c -> c * Z.abs (m * u - D) <= e * (m * n) -> c * Z.abs D < m * n -> c = e + 1 ->
  - n < u < n.
Proof.
  intros Hm Hc H1 H2 ->.
  assert (H : (e + 1) * (m * Z.abs u) < (e + 1) * (m * n)).
  { replace (m * Z.abs u) with (Z.abs (m * u)) by (rewrite Z.abs_mul; f_equal; lia).
    assert (H3 : Z.abs (m * u) <= Z.abs (m * u - D) + Z.abs D) by lia.
    apply Z.le_lt_trans with ((e + 1) * (Z.abs (m * u - D) + Z.abs D)); [apply Z.mul_le_mono_nonneg_l; lia|].
    rewrite Z.mul_add_distr_l. lia. }
  apply Z.mul_lt_mono_pos_l in H; [|exact Hc]. apply Z.mul_lt_mono_pos_l in H; [|exact Hm]. lia.
Qed.

Lemma reduced_bound angle s nk m D1 D2 u v : 0 < m -> (s = 0 <-> angle = 90) ->
  (if angle =? 90 then 2 else 3) * Z.abs D1 < m * nk -> (if angle =? 90 then 2 else 3) * Z.abs D2 < m * nk ->
  reduced s (m * nk) (m * u - D1) (m * v - D2) -> - nk < u < nk /\ - nk < v < nk.
Proof.
  intros Hm H90 B1 B2 Hr. unfold reduced in Hr.
  destruct (Z.eqb_spec s 0) as [E0|E0], (Z.eqb_spec angle 90) as [E9|E9]; try (exfalso; tauto); destruct Hr as [R1 R2].
  - split; [apply (abs_bound 2 1 m nk u D1)|apply (abs_bound 2 1 m nk v D2)]; lia.
  - split; [apply (abs_bound 3 2 m nk u D1)|apply (abs_bound 3 2 m nk v D2)]; lia.
Qed.

Section Nearest.
  Context (angle nk : Z) (k : pt) (d1 d2 : Q).
  Hypothesis Ha : allowed_angle angle.
  Hypothesis Hn : 0 < nk.
  Hypothesis Hd1 : small_shift angle nk d1.
  Hypothesis Hd2 : small_shift angle nk d2.

  Lemma candidate_class p : In p (candidates (pmod nk k) nk) -> same_class nk p k.
  Proof.
    unfold candidates, same_class, pmod. destruct k as [k1 k2]. cbn [fst snd].
    assert (E : forall x c, (x mod nk + c * nk - x) mod nk = 0).
    { intros x c. apply mod_sub_iff; [lia|]. rewrite Z.mod_add by lia. apply Z.mod_mod. lia. }
    assert (E0 : forall x, (x mod nk - x) mod nk = 0) by (intros x; rewrite <- (E x 0); f_equal; lia).
    assert (E1 : forall x, (x mod nk - nk - x) mod nk = 0) by (intros x; rewrite <- (E x (-1)); f_equal; lia).
    assert (E2 : forall x, (x mod nk + nk - x) mod nk = 0) by (intros x; rewrite <- (E x 1); f_equal; lia).
    rewrite in_app_iff. intros [H|H].
    - cbn in H. destruct H as [<-|[<-|[<-|[<-|[]]]]]; cbn; auto.
    - destruct (nk <? 3); [|destruct H]. cbn in H. destruct H as [<-|[<-|[<-|[]]]]; cbn; auto.
  Qed.

  (** The four corners contain a closest point, and every closest point. *)
  Lemma corner p : same_class nk p k -> exists c, In c (candidates (pmod nk k) nk) /\
    (forall s, angle_sgn angle = Ok s ->
      sqd s (inject_Z (fst c) - d1) (inject_Z (snd c) - d2) <= sqd s (inject_Z (fst p) - d1) (inject_Z (snd p) - d2))%Q.
  Proof.
    intros [P1 P2]. destruct (angle_sgn_ok angle Ha) as (s & Es & Hs & H90 & _).
    set (m := Z.pos (Qden d1 * Qden d2)). set (D1 := Qnum d1 * Z.pos (Qden d2)). set (D2 := Qnum d2 * Z.pos (Qden d1)).
    assert (Hm : 0 < m) by (unfold m; lia).
    destruct (reduce s (m * nk) ltac:(nia) Hs (m * fst p - D1) (m * snd p - D2)) as (a & b & Hr & Hle).
    set (u := fst p + a * nk). set (v := snd p + b * nk).
    replace (m * fst p - D1 + a * (m * nk)) with (m * u - D1) in * by (unfold u; ring).
    replace (m * snd p - D2 + b * (m * nk)) with (m * v - D2) in * by (unfold v; ring).
    pose proof (shift_bound angle nk m d1 D1 Hm (scale_d1 d1 d2) Hd1) as B1.
    pose proof (shift_bound angle nk m d2 D2 Hm (scale_d2 d1 d2) Hd2) as B2.
    pose proof (reduced_bound angle s nk m D1 D2 u v Hm H90 B1 B2 Hr) as Hu.
    assert (C1 : (u - fst k) mod nk = 0).
    { unfold u. apply mod_sub_iff; [lia|]. rewrite Z.mod_add by lia. apply mod_sub_iff; [lia|exact P1]. }
    assert (C2 : (v - snd k) mod nk = 0).
    { unfold v. apply mod_sub_iff; [lia|]. rewrite Z.mod_add by lia. apply mod_sub_iff; [lia|exact P2]. }
    exists (u, v). split.
    - unfold candidates, pmod. apply in_app_iff. left. destruct k as [k1 k2]. cbn [fst snd] in *.
      destruct (mod_cases nk k1 u Hn (proj1 Hu) C1) as [-> | ->], (mod_cases nk k2 v Hn (proj2 Hu) C2) as [-> | ->]; cbn; auto.
    - intros s' Es'. rewrite Es in Es'. injection Es' as <-. apply sqd_le_iff. exact Hle.
  Qed.

  (** A strictly worse point than some other one is no closest point, and
      reduced points are corners: every closest point is a candidate. *)
  Lemma closest_candidate p : nearest angle nk d1 d2 k p -> In p (candidates (pmod nk k) nk).
  Proof.
    intros [[P1 P2] Hmin]. destruct (angle_sgn_ok angle Ha) as (s & Es & Hs & H90 & Hd).
    set (m := Z.pos (Qden d1 * Qden d2)). set (D1 := Qnum d1 * Z.pos (Qden d2)). set (D2 := Qnum d2 * Z.pos (Qden d1)).
    assert (Hm : 0 < m) by (unfold m; lia).
    destruct (reduce_step s (m * nk) (m * fst p - D1) (m * snd p - D2) ltac:(nia) Hs) as [Hr|(a & b & Hlt)].
    - set (u := fst p) in *. set (v := snd p) in *.
      pose proof (shift_bound angle nk m d1 D1 Hm (scale_d1 d1 d2) Hd1) as B1.
      pose proof (shift_bound angle nk m d2 D2 Hm (scale_d2 d1 d2) Hd2) as B2.
      pose proof (reduced_bound angle s nk m D1 D2 u v Hm H90 B1 B2 Hr) as Hu.
      unfold candidates, pmod. apply in_app_iff. left. destruct k as [k1 k2], p as [p1 p2]. cbn [fst snd] in *.
      unfold u, v in *. cbn [fst snd] in *.
      destruct (mod_cases nk k1 p1 Hn (proj1 Hu) P1) as [-> | ->], (mod_cases nk k2 p2 Hn (proj2 Hu) P2) as [-> | ->]; cbn; auto.
    - exfalso. set (q := (fst p + a * nk, snd p + b * nk)).
      assert (Hq : same_class nk q k).
      { split; cbn; (apply mod_sub_iff; [lia|]; rewrite Z.mod_add by lia; apply mod_sub_iff; [lia|assumption]). }
      specialize (Hmin q Hq). rewrite <- !Hd in Hmin. apply (sqd_le_iff d1 d2) in Hmin. fold m D1 D2 in Hmin. cbn [fst snd q] in Hmin.
      replace (m * (fst p + a * nk) - D1) with (m * fst p - D1 + a * (m * nk)) in Hmin by ring.
      replace (m * (snd p + b * nk) - D2) with (m * snd p - D2 + b * (m * nk)) in Hmin by ring. lia.
  Qed.
End Nearest.

Lemma qmin_spec l : forall x, In (qmin x l) (x :: l) /\ forall y, In y (x :: l) -> (qmin x l <= y)%Q.
Proof.
  induction l as [|y l IH]; intros x; cbn [qmin].
  - split; [left; reflexivity|]. intros y [<-|[]]. apply Qle_refl.
  - destruct (Qlt_le_dec y x) as [H|H].
    + destruct (IH y) as [H1 H2]. split; [right; exact H1|]. intros z [<-|Hz]; [|apply H2; exact Hz].
      apply Qle_trans with y; [apply H2; left; reflexivity|lra].
    + destruct (IH x) as [H1 H2]. split; [destruct H1 as [H1|H1]; [left; exact H1|right; right; exact H1]|].
      intros z [<-|[<-|Hz]]; [apply H2; left; reflexivity| |apply H2; right; exact Hz].
      apply Qle_trans with x; [apply H2; left; reflexivity|exact H].
Qed.

Lemma to_Voronoi_candidates k nk angle d1 d2 eps : allowed_angle angle -> 0 < nk -> (0 <= eps)%Q ->
  exists l, to_Voronoi k nk angle d1 d2 eps = Ok l /\ NoDup l /\ l <> [] /\
  forall p, In p l <-> In p (candidates (pmod nk k) nk) /\
    forall q, In q (candidates (pmod nk k) nk) ->
      (dist2 angle (inject_Z (fst p) - d1) (inject_Z (snd p) - d2) <=
       dist2 angle (inject_Z (fst q) - d1) (inject_Z (snd q) - d2) + eps)%Q.
Proof.
  intros Ha Hn He. unfold to_Voronoi. rewrite (proj2 (Z.eqb_neq nk 0)) by lia.
  destruct (angle_sgn_ok angle Ha) as (s & -> & _ & _ & Hd). cbn [bind].
  set (cs := candidates (pmod nk k) nk).
  set (dist := fun p : pt => sqd s (inject_Z (fst p) - d1) (inject_Z (snd p) - d2)).
  assert (Hne : exists c0 cs', cs = c0 :: cs').
  { unfold cs, candidates. destruct (pmod nk k). cbn. eauto. }
  destruct Hne as (c0 & cs' & Ecs).
  assert (Em : map dist cs = dist c0 :: map dist cs') by (rewrite Ecs; reflexivity).
  rewrite Em. destruct (qmin_spec (map dist cs') (dist c0)) as [M1 M2]. rewrite <- Em in M1, M2.
  set (mn := qmin (dist c0) (map dist cs')) in *.
  eexists. split; [reflexivity|].
  assert (Hin : forall p, In p (filter (fun p => Qle_bool (Qabs (dist p - mn)) eps) cs) <->
    In p cs /\ forall q, In q cs -> (dist2 angle (inject_Z (fst p) - d1) (inject_Z (snd p) - d2) <=
       dist2 angle (inject_Z (fst q) - d1) (inject_Z (snd q) - d2) + eps)%Q).
  { intros p. rewrite filter_In, Qle_bool_iff. split; intros [Hp H]; (split; [exact Hp|]).
    - intros q Hq. rewrite <- !Hd. fold (dist p) (dist q).
      pose proof (M2 (dist q) (in_map dist _ _ Hq)). pose proof (Qle_Qabs (dist p - mn)). lra.
    - apply in_map_iff in M1. destruct M1 as (q & Eq & Hq). specialize (H q Hq). rewrite <- !Hd in H. fold (dist p) (dist q) in H.
      pose proof (M2 (dist p) (in_map dist _ _ Hp)). rewrite Qabs_pos by lra. rewrite <- Eq. lra. }
  split; [|split; [|exact Hin]].
  - apply NoDup_filter. unfold cs, candidates. destruct (pmod nk k) as [a b].
    destruct (nk <? 3); cbn; repeat constructor; cbn; intros H;
    repeat (destruct H as [H|H]; [injection H; lia|]); exact H.
  - apply in_map_iff in M1. destruct M1 as (q & Eq & Hq). intros E0.
    assert (H : In q (filter (fun p => Qle_bool (Qabs (dist p - mn)) eps) cs)).
    { apply filter_In. split; [exact Hq|]. apply Qle_bool_iff. rewrite Eq.
      assert (E : (mn - mn == 0)%Q) by ring. rewrite E. cbn. exact He. }
    change (In q []). rewrite <- E0. exact H.
Qed.

(** With zero tolerance: exactly the closest points of the whole class. *)
Lemma to_Voronoi_nearest k nk angle d1 d2 : allowed_angle angle -> 0 < nk ->
  small_shift angle nk d1 -> small_shift angle nk d2 ->
  exists l, to_Voronoi k nk angle d1 d2 0 = Ok l /\ NoDup l /\ l <> [] /\
  forall p, In p l <-> nearest angle nk d1 d2 k p.
Proof.
  intros Ha Hn H1 H2. destruct (to_Voronoi_candidates k nk angle d1 d2 0 Ha Hn ltac:(lra)) as (l & E & Hnd & Hne & Hl).
  exists l. split; [exact E|]. split; [exact Hnd|]. split; [exact Hne|]. intros p. rewrite Hl. split.
  - intros [Hp H]. split; [exact (candidate_class nk k Hn p Hp)|]. intros q Hq.
    destruct (corner angle nk k d1 d2 Ha Hn H1 H2 q Hq) as (c & Hc & Hle).
    destruct (angle_sgn_ok angle Ha) as (s & Es & _ & _ & Hd). specialize (Hle s Es). rewrite !Hd in Hle.
    specialize (H c Hc). lra.
  - intros Hp. split; [exact (closest_candidate angle nk k d1 d2 Ha Hn H1 H2 p Hp)|].
    intros q Hq. destruct Hp as [_ Hp]. specialize (Hp q (candidate_class nk k Hn q Hq)). lra.
Qed.

(** ** wigner_2d *)

Lemma in_insert_pt x l y : In y (insert_pt x l) <-> y = x \/ In y l.
Proof.
  induction l as [|z l IH]; cbn [insert_pt In]; [intuition congruence|].
  destruct (pt_leb (fst x) (fst z)); cbn [In]; [intuition congruence|]. rewrite IH. tauto.
Qed.

Lemma insert_pt_perm x l : Permutation (insert_pt x l) (x :: l).
Proof.
  induction l as [|z l IH]; cbn [insert_pt]; [reflexivity|]. destruct (pt_leb (fst x) (fst z)); [reflexivity|].
  rewrite IH. apply perm_swap.
Qed.

Lemma sort_pts_perm l : Permutation (sort_pts l) l.
Proof. unfold sort_pts. induction l as [|x l IH]; cbn [fold_right]; [reflexivity|]. rewrite insert_pt_perm, IH. reflexivity. Qed.

Lemma pt_leb_total p q : pt_leb p q = true \/ pt_leb q p = true.
Proof. unfold pt_leb. destruct p as [a b], q as [c d]. cbn [fst snd]. lia. Qed.

Lemma pt_leb_trans p q r : pt_leb p q = true -> pt_leb q r = true -> pt_leb p r = true.
Proof. unfold pt_leb. destruct p as [a b], q as [c d], r as [e f]. cbn [fst snd]. lia. Qed.

Lemma sort_pts_sorted l : StronglySorted (fun x y => pt_leb (fst x) (fst y) = true) (sort_pts l).
Proof.
  unfold sort_pts. induction l as [|x l IH]; cbn [fold_right]; [constructor|].
  induction IH as [|y l' Hs IH' Hf]; cbn [insert_pt]; [repeat constructor|].
  destruct (pt_leb (fst x) (fst y)) eqn:E.
  - constructor; [constructor; assumption|]. constructor; [exact E|]. rewrite Forall_forall in Hf |- *. intros z Hz.
    eapply pt_leb_trans; [exact E|apply Hf; exact Hz].
  - constructor; [exact IH'|]. rewrite Forall_forall in Hf |- *. intros z Hz. apply in_insert_pt in Hz. destruct Hz as [-> | Hz]; [|apply Hf; exact Hz].
    destruct (pt_leb_total (fst x) (fst y)); congruence.
Qed.

Lemma same_class_refl nk p : same_class nk p p.
Proof. unfold same_class. rewrite !Z.sub_diag. destruct nk; split; reflexivity. Qed.

Lemma same_class_iff nk p q : 0 < nk -> (same_class nk p q <-> pmod nk p = pmod nk q).
Proof.
  intros Hn. unfold same_class, pmod. rewrite !mod_sub_iff by lia. split; [intros [-> ->]; reflexivity|].
  intros H. injection H as H1 H2. auto.
Qed.

Lemma nearest_class angle nk d1 d2 k k' p : 0 < nk -> same_class nk k k' -> (nearest angle nk d1 d2 k p <-> nearest angle nk d1 d2 k' p).
Proof.
  intros Hn H. apply same_class_iff in H; [|exact Hn]. unfold nearest.
  assert (E : forall q, same_class nk q k <-> same_class nk q k') by (intros q; rewrite !same_class_iff by exact Hn; rewrite H; tauto).
  rewrite E. split; intros [H1 H2]; (split; [exact H1|]); intros q Hq; apply H2; apply E; exact Hq.
Qed.

Lemma NoDup_prod {A B} (l : list A) (l' : list B) : NoDup l -> NoDup l' -> NoDup (list_prod l l').
Proof.
  intros H H'. induction H as [|x l H1 H2 IH]; cbn [list_prod]; [constructor|]. apply NoDup_app'; [|exact IH|].
  - apply NoDup_map_inj; [|exact H']. intros y z E. injection E. auto.
  - intros [y z] Hy Hin. apply in_map_iff in Hy. destruct Hy as (z' & E & _). injection E as <- _. apply in_prod_iff in Hin. tauto.
Qed.

Section W2D.
  Context (nk angle : Z) (d1 d2 : Q).
  Hypothesis Ha : allowed_angle angle.
  Hypothesis Hn : 0 < nk.
  Hypothesis Hd1 : small_shift angle nk d1.
  Hypothesis Hd2 : small_shift angle nk d2.

  Notation near_count := (number_nearest angle nk d1 d2).

  Lemma w2d_fold ks : forall acc, NoDup ks -> (forall k, In k ks -> pmod nk k = k) ->
    exists pts, fold_left (fun points k =>
      do points <- points ;;
      do images <- to_Voronoi k nk angle d1 d2 0 ;;
      Ok (points ++ map (fun p => (p, length images)) images)) ks (Ok acc) = Ok (acc ++ pts) /\
    NoDup (map fst pts) /\
    (forall p n, In (p, n) pts <-> In (pmod nk p) ks /\ nearest angle nk d1 d2 p p /\ near_count p n) /\
    (forall k, In k ks -> exists p n, In (p, n) pts /\ same_class nk p k).
  Proof.
    induction ks as [|k ks IH]; intros acc Hnd Hks; cbn [fold_left].
    - exists []. rewrite app_nil_r. split; [reflexivity|]. split; [constructor|]. split; [cbn; tauto|intros k []].
    - destruct (to_Voronoi_nearest k nk angle d1 d2 Ha Hn Hd1 Hd2) as (l & El & Hl1 & Hl2 & Hl3). cbn [bind]. rewrite El. cbn [bind].
      inversion Hnd as [|? ? Hk Hnd']; subst. destruct (IH (acc ++ map (fun p => (p, length l)) l) Hnd' (fun k' h => Hks k' (or_intror h))) as (pts & E & N & Hin & Hne).
      exists (map (fun p => (p, length l)) l ++ pts). rewrite E, app_assoc. split; [reflexivity|].
      assert (Hcl : forall p, In p l -> pmod nk p = k).
      { intros p Hp. apply Hl3 in Hp. destruct Hp as [Hc _]. apply same_class_iff in Hc; [|exact Hn]. rewrite Hc. apply Hks. left. reflexivity. }
      split; [|split].
      + rewrite map_app, map_map. cbn [fst]. rewrite map_id. apply NoDup_app'; [exact Hl1|exact N|]. intros p Hp Hp'.
        apply in_map_iff in Hp'. destruct Hp' as ([p' n] & Ep & Hp'). cbn in Ep. subst p'. apply Hin in Hp'. destruct Hp' as [Hp' _].
        rewrite (Hcl p Hp) in Hp'. contradiction.
      + intros p n. rewrite in_app_iff, Hin, in_map_iff. cbn [In]. 
        assert (Hto : forall p, pmod nk p = k -> same_class nk k p).
        { intros p0 E0. apply same_class_iff; [exact Hn|]. rewrite E0. apply Hks. left. reflexivity. }
        split.
        * intros [(p' & Ep & Hp)|(H1 & H2 & H3)]; [|tauto]. injection Ep as -> <-. pose proof (Hto p (Hcl p Hp)) as Hc. split; [left; symmetry; apply Hcl; exact Hp|].
          split; [apply (nearest_class angle nk d1 d2 k p p Hn Hc); apply Hl3; exact Hp|].
          exists l. split; [exact Hl1|]. split; [|reflexivity]. intros q. rewrite Hl3. apply nearest_class; assumption.
        * intros ([H1|H1] & H2 & H3); [|tauto]. left. exists p. symmetry in H1. pose proof (Hto p H1) as Hc.
          assert (Hp : In p l) by (apply Hl3; apply (nearest_class angle nk d1 d2 k p p Hn Hc); exact H2). split; [|exact Hp].
          destruct H3 as (l' & N' & Hl' & ->). f_equal. apply Nat.le_antisymm; apply NoDup_incl_length; try assumption; intros q Hq.
          -- apply Hl'. apply (nearest_class angle nk d1 d2 k p q Hn Hc). apply Hl3. exact Hq.
          -- apply Hl3. apply (nearest_class angle nk d1 d2 k p q Hn Hc). apply Hl'. exact Hq.
      + intros k' [<-|Hk'].
        * destruct l as [|p l']; [congruence|]. exists p, (length (p :: l')). split; [apply in_app_iff; left; left; reflexivity|].
          apply (Hl3 p). left. reflexivity.
        * destruct (Hne k' Hk') as (p & n & Hp & Hc). exists p, n. split; [apply in_app_iff; right; exact Hp|exact Hc].
  Qed.

  Lemma in_mesh2_pmod p : In (pmod nk p) (mesh2 nk).
  Proof. unfold mesh2, pmod. apply in_prod; apply in_zrange; apply Z.mod_pos_bound; exact Hn. Qed.

  Lemma mesh2_pmod k : In k (mesh2 nk) -> pmod nk k = k.
  Proof.
    unfold mesh2, pmod. destruct k as [a b]. intros H. apply in_prod_iff in H. destruct H as [H1 H2]. apply in_zrange in H1, H2.
    cbn [fst snd]. rewrite !Z.mod_small by lia. reflexivity.
  Qed.

  Lemma nodup_mesh2 : NoDup (mesh2 nk).
  Proof.
    unfold mesh2. apply NoDup_prod; apply NoDup_zrange.
  Qed.

  Lemma wigner_2d_spec : exists l, wigner_2d nk angle d1 d2 0 = Ok l /\
    StronglySorted (fun x y => pt_leb (fst x) (fst y) = true) l /\ NoDup (map fst l) /\
    (forall p n, In (p, n) l <-> nearest angle nk d1 d2 p p /\ near_count p n).
  Proof.
    unfold wigner_2d. destruct (w2d_fold (mesh2 nk) [] nodup_mesh2 mesh2_pmod) as (pts & E & N & Hin & Hne). rewrite E. cbn [bind app].
    assert (Hpt : exists x pts', pts = x :: pts').
    { destruct (Hne (pmod nk (0, 0)) (in_mesh2_pmod _)) as (p & n & Hp & _). destruct pts; [destruct Hp|eauto]. }
    exists (sort_pts pts). split; [destruct Hpt as (x & pts' & ->); reflexivity|]. split; [apply sort_pts_sorted|]. split.
    - eapply Permutation_NoDup; [apply Permutation_map; apply Permutation_sym; apply sort_pts_perm|exact N].
    - intros p n. split.
      + intros H. apply (Permutation_in _ (sort_pts_perm pts)) in H. apply Hin in H. tauto.
      + intros H. apply (Permutation_in _ (Permutation_sym (sort_pts_perm pts))). apply Hin. split; [apply in_mesh2_pmod|exact H].
  Qed.
End W2D.
