(** Proofs about paths, points on lines and meshes. *)
From Coq Require Import Reals Lra.
From Verif Require Import Common GeoModel PathModel.
Local Open Scope R_scope.

Lemma r3_eq u v : rx u = rx v -> ry u = ry v -> rz u = rz v -> u = v.
Proof. destruct u, v. cbn. intros -> -> ->. reflexivity. Qed.

Definition dist (b : r3 * r3 * r3) (p q : r3) : R := norm3 (cartesian b (sub3 q p)).

Lemma cartesian_sub b p q : sub3 (cartesian b q) (cartesian b p) = cartesian b (sub3 q p).
Proof. destruct b as [[[] []] []], p, q. apply r3_eq; unfold cartesian, add3, sub3, scale3; cbn; ring. Qed.

Lemma norm_scale s u : norm3 (scale3 s u) = Rabs s * norm3 u.
Proof.
  unfold norm3. replace (dot3 (scale3 s u) (scale3 s u)) with (s * s * dot3 u u) by (unfold dot3, scale3; cbn; ring).
  rewrite sqrt_mult; [|nra|unfold dot3; nra]. f_equal. apply sqrt_Rsqr_abs.
Qed.

Lemma cartesian_scale b s p : cartesian b (scale3 s p) = scale3 s (cartesian b p).
Proof. destruct b as [[[] []] []], p. apply r3_eq; unfold cartesian, add3, scale3; cbn; ring. Qed.

Lemma steps_pos round N dx : (0 < steps round N dx)%nat.
Proof. unfold steps. lia. Qed.

Definition lerp (n j : nat) (p q : r3) : r3 := scale3 (/ INR n) (add3 (scale3 (INR j) q) (scale3 (INR n - INR j) p)).

Lemma lerp_diff n j p q : (0 < n)%nat -> sub3 (lerp n (S j) p q) (lerp n j p q) = scale3 (/ INR n) (sub3 q p).
Proof.
  intros Hn. assert (INR n <> 0) by (apply not_0_INR; lia). unfold lerp. rewrite S_INR. destruct p, q. apply r3_eq; unfold sub3, add3, scale3; cbn; field; assumption.
Qed.
Lemma lerp_0 n p q : (0 < n)%nat -> lerp n 0 p q = p.
Proof. intros Hn. assert (INR n <> 0) by (apply not_0_INR; lia). unfold lerp. destruct p, q. apply r3_eq; unfold add3, scale3; cbn; field; assumption. Qed.
Lemma lerp_n n p q : (0 < n)%nat -> lerp n n p q = q.
Proof. intros Hn. assert (INR n <> 0) by (apply not_0_INR; lia). unfold lerp. destruct p, q. apply r3_eq; unfold add3, scale3; cbn; field; assumption. Qed.

Section Path.
  Variables (round : R -> Z) (N : R) (b : r3 * r3 * r3).
  Notation st p q := (steps round N (dist b p q)).

  Definition step_point (p q : r3) (x0 : R) (j : nat) : r3 * R :=
    let n := st p q in (lerp n j p q, x0 + INR j / INR n * dist b p q).

  Lemma segment_eq first p q x0 : segment round N b 0 first p q x0 =
    (map (step_point p q x0) (seq (if first then 0 else 1) (st p q + 1 - (if first then 0 else 1))), x0 + dist b p q).
  Proof.
    unfold segment. rewrite cartesian_sub. fold (dist b p q). unfold is_zero. destruct (Req_EM_T 0 0) as [_|H]; [|lra].
    cbn [negb andb]. rewrite orb_false_r. apply f_equal2; [|reflexivity]. apply map_ext. intros j. unfold step_point. cbv zeta. apply f_equal2; [reflexivity|].
    assert (INR (st p q) <> 0) by (apply not_0_INR; pose proof (steps_pos round N (dist b p q)); lia). field. assumption.
  Qed.

  Lemma step_point_0 p q x0 : step_point p q x0 0 = (p, x0).
  Proof.
    unfold step_point. cbv zeta. rewrite lerp_0 by apply steps_pos. cbn [INR]. apply f_equal2; [reflexivity|].
    assert (INR (st p q) <> 0) by (apply not_0_INR; pose proof (steps_pos round N (dist b p q)); lia). field. assumption.
  Qed.
  Lemma step_point_n p q x0 : step_point p q x0 (st p q) = (q, x0 + dist b p q).
  Proof.
    unfold step_point. cbv zeta. rewrite lerp_n by apply steps_pos. apply f_equal2; [reflexivity|].
    assert (INR (st p q) <> 0) by (apply not_0_INR; pose proof (steps_pos round N (dist b p q)); lia). field. assumption.
  Qed.

  Lemma segments_cons first x0 len p q pts : segments round N b 0 first x0 len (p :: q :: pts) =
    let (s, x1) := segment round N b 0 first p q x0 in
    let (k, corners) := segments round N b 0 false x1 (len + length s) (q :: pts) in (s ++ k, (len + length s - 1)%nat :: corners).
  Proof. reflexivity. Qed.

  (** The list starting with the point at which the next segment begins. *)
  Lemma segments_spec pts : forall p x0 len, (1 <= len)%nat ->
    let '(ks, cs) := segments round N b 0 false x0 len (p :: pts) in
    let l := (p, x0) :: ks in
    let cs' := (len - 1)%nat :: cs in
    length cs' = length (p :: pts) /\ (last cs' 0%nat + 1 = len + length ks)%nat /\
    forall i u v, nth_error (p :: pts) i = Some u -> nth_error (p :: pts) (S i) = Some v ->
      exists c x, nth_error cs' i = Some c /\ nth_error cs' (S i) = Some (c + st u v)%nat /\ (len - 1 <= c)%nat /\
      forall j, (j <= st u v)%nat -> nth_error l (c - (len - 1) + j) = Some (step_point u v x j).
  Proof.
    induction pts as [|q pts IH]; intros p x0 len Hlen.
    - cbn [segments]. cbv zeta. split; [reflexivity|]. split; [cbn; lia|]. intros i u v _ H. destruct i as [|[|i]]; discriminate.
    - change (segments round N b 0 false x0 len (p :: q :: pts)) with
        (let (s, x1) := segment round N b 0 false p q x0 in
         let (k, corners) := segments round N b 0 false x1 (len + length s) (q :: pts) in (s ++ k, (len + length s - 1)%nat :: corners)).
      rewrite segment_eq. pose proof (steps_pos round N (dist b p q)) as Hn. set (s := map (step_point p q x0) _).
      assert (Hs : length s = st p q) by (unfold s; rewrite map_length, seq_length; lia).
      assert (Hnth : forall j, (j <= st p q)%nat -> nth_error ((p, x0) :: s) j = Some (step_point p q x0 j)).
      { intros [|j] Hj; [rewrite step_point_0; reflexivity|]. cbn [nth_error]. unfold s. rewrite nth_error_map, nth_error_nth' with (d := 0%nat) by (rewrite seq_length; lia).
        rewrite seq_nth by lia. reflexivity. }
      specialize (IH q (x0 + dist b p q) (len + length s)%nat ltac:(lia)).
      destruct (segments round N b 0 false (x0 + dist b p q) (len + length s) (q :: pts)) as [ks cs]. cbv zeta in IH |- *. destruct IH as (I1 & I2 & I3).
      split; [cbn [length] in *; lia|]. split.
      + cbn [last] in I2 |- *. rewrite app_length. cbn [last] in I2. lia.
      + intros [|i] u v Hu Hv.
        * cbn in Hu, Hv. injection Hu as <-. injection Hv as <-. exists (len - 1)%nat, x0. split; [reflexivity|]. split; [cbn [nth_error]; f_equal; lia|]. split; [lia|].
          intros j Hj. replace (len - 1 - (len - 1) + j)%nat with j by lia. rewrite app_comm_cons. rewrite nth_error_app1 by (cbn [length]; lia). apply Hnth, Hj.
        * cbn [nth_error] in Hu, Hv. destruct (I3 i u v Hu Hv) as (c & x & C1 & C2 & C3 & C4). exists c, x. split; [exact C1|]. split; [exact C2|]. split; [lia|].
          intros j Hj. specialize (C4 j Hj).
          assert (E : nth_error ((p, x0) :: s ++ ks) (st p q + (c - (len + length s - 1) + j)) = nth_error ((q, x0 + dist b p q) :: ks) (c - (len + length s - 1) + j)).
          { destruct (c - (len + length s - 1) + j)%nat as [|m].
            - rewrite Nat.add_0_r, app_comm_cons, nth_error_app1 by (cbn [length]; lia). rewrite Hnth, step_point_n by lia. reflexivity.
            - rewrite app_comm_cons, nth_error_app2 by (cbn [length]; lia). cbn [length nth_error]. f_equal. lia. }
          rewrite C4 in E. rewrite <- E. f_equal. lia.
  Qed.

  Lemma segments_true p q pts : segments round N b 0 true 0 0 (p :: q :: pts) =
    let '(ks, cs) := segments round N b 0 false 0 1 (p :: q :: pts) in ((p, 0) :: ks, cs).
  Proof.
    rewrite !segments_cons, !segment_eq. pose proof (steps_pos round N (dist b p q)) as Hn.
    rewrite !map_length, !seq_length. replace (0 + (st p q + 1 - 0))%nat with (1 + (st p q + 1 - 1))%nat by lia.
    destruct (segments round N b 0 false (0 + dist b p q) (1 + (st p q + 1 - 1)) (q :: pts)) as [ks cs].
    replace (st p q + 1 - 0)%nat with (S (st p q + 1 - 1)) by lia. cbn [seq map]. rewrite step_point_0. reflexivity.
  Qed.

  Lemma path_spec pts : (2 <= length pts)%nat ->
    exists k x corners, path round N b 0 pts = Ok (k, x, corners) /\
    length k = length x /\ length corners = length pts /\ nth_error corners 0 = Some 0%nat /\ nth_error x 0 = Some 0 /\ (last corners 0 + 1)%nat = length k /\
    forall i p q, nth_error pts i = Some p -> nth_error pts (S i) = Some q ->
      exists c xc, let n := Z.to_nat (Z.max 1 (round (N * dist b p q))) in
      nth_error corners i = Some c /\ nth_error corners (S i) = Some (c + n)%nat /\
      forall j, (j <= n)%nat -> nth_error k (c + j) = Some (scale3 (2 * PI) (lerp n j p q)) /\ nth_error x (c + j) = Some (xc + INR j / INR n * dist b p q).
  Proof.
    intros H. destruct pts as [|p [|q pts]]; [cbn in H; lia|cbn in H; lia|]. unfold path. rewrite segments_true.
    pose proof (segments_spec (q :: pts) p 0 1 ltac:(lia)) as S. destruct (segments round N b 0 false 0 1 (p :: q :: pts)) as [ks cs].
    cbv zeta in S. destruct S as (S1 & S2 & S3). unfold is_zero at 1. destruct (Req_EM_T 0 0) as [_|E]; [|lra]. cbn [bind].
    exists (map (scale3 (2 * PI)) (map fst ((p, 0) :: ks))), (map snd ((p, 0) :: ks)), (0%nat :: cs). split; [reflexivity|].
    rewrite !map_length. split; [reflexivity|]. split; [exact S1|]. split; [reflexivity|]. split; [reflexivity|]. split.
    { change (1 - 1)%nat with 0%nat in S2. rewrite S2. cbn [length]. lia. }
    intros i u v Hu Hv. destruct (S3 i u v Hu Hv) as (c & x & C1 & C2 & C3 & C4). exists c, x. cbv zeta. split; [exact C1|]. split; [exact C2|].
    intros j Hj. specialize (C4 j Hj). replace (c - (1 - 1) + j)%nat with (c + j)%nat in C4 by lia.
    rewrite !nth_error_map, C4. split; reflexivity.
  Qed.

  (** ** Distances between neighbors *)
  Definition chain (l : list (r3 * R)) : Prop :=
    forall m u v, nth_error l m = Some u -> nth_error l (S m) = Some v -> snd v - snd u = dist b (fst u) (fst v).

  Lemma chain_app l a l' : chain (l ++ [a]) -> chain (a :: l') -> chain (l ++ a :: l').
  Proof.
    intros H1 H2 m u v Hu Hv. destruct (Nat.lt_ge_cases m (length l)) as [Hm|Hm].
    - apply (H1 m u v).
      + rewrite nth_error_app1 in Hu |- * by lia. exact Hu.
      + destruct (Nat.eq_dec (S m) (length l)) as [E|E].
        * rewrite E, nth_error_app2, Nat.sub_diag in Hv |- * by lia. cbn in Hv |- *. exact Hv.
        * rewrite nth_error_app1 in Hv |- * by lia. exact Hv.
    - rewrite nth_error_app2 in Hu, Hv by lia. apply (H2 (m - length l)%nat u v); [exact Hu|]. rewrite <- Hv. f_equal. lia.
  Qed.

  Lemma segment_chain p q x0 : chain (map (step_point p q x0) (seq 0 (st p q + 1))).
  Proof.
    intros m u v Hu Hv. pose proof (steps_pos round N (dist b p q)) as Hn.
    assert (Hm : (S m < st p q + 1)%nat) by (pose proof (nth_error_Some (map (step_point p q x0) (seq 0 (st p q + 1))) (S m)) as X; rewrite Hv, map_length, seq_length in X; apply X; discriminate).
    rewrite nth_error_map, nth_error_nth' with (d := 0%nat), seq_nth in Hu, Hv by (rewrite ?seq_length; lia).
    injection Hu as <-. injection Hv as <-. unfold step_point. cbv zeta. cbn [fst snd Nat.add].
    change (dist b (lerp (st p q) m p q) (lerp (st p q) (S m) p q)) with (norm3 (cartesian b (sub3 (lerp (st p q) (S m) p q) (lerp (st p q) m p q)))). rewrite lerp_diff by exact Hn.
    rewrite cartesian_scale, norm_scale. fold (dist b p q). rewrite Rabs_right; [|apply Rle_ge, Rlt_le, Rinv_0_lt_compat, lt_0_INR; lia].
    rewrite S_INR. field. apply not_0_INR. lia.
  Qed.

  Lemma segments_chain pts : forall p x0 len, chain ((p, x0) :: fst (segments round N b 0 false x0 len (p :: pts))).
  Proof.
    induction pts as [|q pts IH]; intros p x0 len.
    - intros m u v _ Hv. destruct m; discriminate.
    - change (segments round N b 0 false x0 len (p :: q :: pts)) with
        (let (s, x1) := segment round N b 0 false p q x0 in
         let (k, corners) := segments round N b 0 false x1 (len + length s) (q :: pts) in (s ++ k, (len + length s - 1)%nat :: corners)).
      rewrite segment_eq. pose proof (steps_pos round N (dist b p q)) as Hn.
      specialize (IH q (x0 + dist b p q)). set (s := map _ _). specialize (IH (len + length s)%nat).
      destruct (segments round N b 0 false (x0 + dist b p q) (len + length s) (q :: pts)) as [ks cs]. cbn [fst] in *.
      pose proof (segment_chain p q x0) as Hc.
      assert (Es : (p, x0) :: s = map (step_point p q x0) (seq 0 (st p q)) ++ [(q, x0 + dist b p q)]).
      { rewrite <- step_point_n, <- (step_point_0 p q x0). unfold s. replace (st p q + 1 - 1)%nat with (st p q) by lia.
        change (step_point p q x0 0 :: map (step_point p q x0) (seq 1 (st p q))) with (map (step_point p q x0) (seq 0 (S (st p q)))).
        rewrite seq_S, map_app. reflexivity. }
      rewrite app_comm_cons, Es, <- app_assoc. cbn [app]. apply chain_app; [|exact IH].
      rewrite <- Es. replace ((p, x0) :: s) with (map (step_point p q x0) (seq 0 (st p q + 1))); [exact Hc|].
      rewrite <- (step_point_0 p q x0). unfold s. rewrite !Nat.add_1_r. cbn [seq map]. rewrite Nat.sub_succ, Nat.sub_0_r. reflexivity.
  Qed.

  Lemma chain_out L : chain L -> forall m u v xu xv,
    nth_error (map (scale3 (2 * PI)) (map fst L)) m = Some u -> nth_error (map (scale3 (2 * PI)) (map fst L)) (S m) = Some v ->
    nth_error (map snd L) m = Some xu -> nth_error (map snd L) (S m) = Some xv -> xv - xu = norm3 (cartesian b (sub3 v u)) / (2 * PI).
  Proof.
    intros C m u v xu xv Hu Hv Hxu Hxv. rewrite map_map, nth_error_map in Hu. rewrite map_map, nth_error_map in Hv. rewrite nth_error_map in Hxu. rewrite nth_error_map in Hxv. specialize (C m).
    destruct (nth_error L m) as [[a xa]|]; [|discriminate]. destruct (nth_error L (S m)) as [[a' xa']|]; [|discriminate].
    cbn [option_map fst snd] in Hu, Hv, Hxu, Hxv. assert (u = scale3 (2 * PI) a) by congruence. assert (v = scale3 (2 * PI) a') by congruence.
    assert (xu = xa) by congruence. assert (xv = xa') by congruence. subst. clear Hu Hv Hxu Hxv.
    specialize (C _ _ eq_refl eq_refl). cbn [fst snd] in C. rewrite C.
    replace (sub3 (scale3 (2 * PI) a') (scale3 (2 * PI) a)) with (scale3 (2 * PI) (sub3 a' a)) by (apply r3_eq; unfold sub3, scale3; cbn; ring).
    rewrite cartesian_scale, norm_scale, Rabs_right by (pose proof PI_RGT_0; lra). unfold dist. field. pose proof PI_RGT_0. lra.
  Qed.

  Lemma path_distance pts k x corners : path round N b 0 pts = Ok (k, x, corners) ->
    forall m u v xu xv, nth_error k m = Some u -> nth_error k (S m) = Some v -> nth_error x m = Some xu -> nth_error x (S m) = Some xv ->
      xv - xu = norm3 (cartesian b (sub3 v u)) / (2 * PI).
  Proof.
    destruct pts as [|p [|q pts]]; [discriminate| |].
    - unfold path. cbn [segments]. unfold is_zero. destruct (Req_EM_T 0 0) as [_|E]; [|lra]. cbn. intros H. injection H as <- <- <-. intros [|m] u v xu xv Hu; discriminate.
    - unfold path. rewrite segments_true. pose proof (segments_chain (q :: pts) p 0 1) as C.
      destruct (segments round N b 0 false 0 1 (p :: q :: pts)) as [ks cs]. cbn [fst] in C. unfold is_zero. destruct (Req_EM_T 0 0) as [_|E]; [|lra].
      cbn [bind]. intros H. injection H as <- <- <-. exact (chain_out _ C).
  Qed.
End Path.
