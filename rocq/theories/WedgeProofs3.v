(** Proofs about dynamical matrices on the full mesh: mesh points. *)
From Coq Require Import Reals Lra Lia Permutation.
From Verif Require Import Common CommonProofs SymModel SymSpec SymProofs GeoModel GeoProofs Num NumProofs NumC PhModel
  WedgeModel WedgeSpec WedgeProofs WedgeProofs2.
Local Open Scope R_scope.

Add Ring CxW3 : (@n_ring C).

(** ** The operations of the code are the symmetries of the specification *)
Definition same3 (A B : op3) : Prop := forall x y, (x < 3)%nat -> (y < 3)%nat -> A x y = B x y.

Lemma same3_in_plane A B v : same3 A B -> in_plane A v = in_plane B v.
Proof. intros H. unfold in_plane. rewrite !H by lia. reflexivity. Qed.

Lemma good_ext angle nat_ r Phi A B : same3 A B -> good angle nat_ r Phi A -> good angle nat_ r Phi B.
Proof.
  intros H (P & I & (S & S' & L1 & L2) & (Y1 & Y2)). split; [|split; [|split; [|split]]].
  - unfold planar in *. rewrite <- !H by lia. exact P.
  - intros u v. rewrite <- !(same3_in_plane A B _ H). apply I.
  - exists S, S'. split; [|exact L2]. intros R. rewrite <- (same3_in_plane A B _ H). apply L1.
  - intros n Hn. rewrite <- (same3_in_plane A B _ H). apply Y1, Hn.
  - intros n m R R' Hn Hm E x y Hx Hy. rewrite <- (same3_in_plane A B _ H) in E.
    pose proof (Y2 n m R R' Hn Hm E x y Hx Hy) as G. cbn zeta in G |- *. rewrite G, !(H x _ Hx), !(H y _ Hy) by lia. reflexivity.
Qed.

Ltac all3 := intros x y Hx Hy; destruct x as [|[|[|x]]]; [| | |lia]; destruct y as [|[|[|y]]]; [| | |lia|..]; try lia.

Lemma rot_0 : same3 (mm mirror mirror) (rot_block 0).
Proof. all3; unfold mm, sum3, mirror, rot_block; rewrite ?cos_0, ?sin_0; ring. Qed.

Lemma rot_120 : same3 threefold (rot_block (2 * PI / 3)).
Proof.
  assert (E : 2 * PI / 3 = 120 * deg) by (unfold deg; field).
  all3; unfold threefold, rot_block; rewrite ?E, ?cos120, ?sin120; ring.
Qed.

Lemma rot_240 : same3 (mm threefold threefold) (rot_block (4 * PI / 3)).
Proof.
  assert (E : 4 * PI / 3 = 120 * deg + 120 * deg) by (unfold deg; field). pose proof s3 as H.
  all3; unfold mm, sum3, threefold, rot_block; rewrite ?E, ?cos_plus, ?sin_plus, ?cos120, ?sin120; try field; try ring.
Qed.

Lemma ops_good angle nat_ r Phi : allowed_angle angle ->
  symmetry_of angle nat_ r Phi mirror -> (angle <> 90%Z -> symmetry_of angle nat_ r Phi threefold) ->
  forall op, In op (wedge_ops angle) -> good angle nat_ r Phi (op_of op).
Proof.
  intros Ha Hm Ht.
  assert (Gm : good angle nat_ r Phi mirror)
    by (split; [apply mirror_planar|split; [apply mirror_isom|split; [apply mirror_lattice; exact Ha|exact Hm]]]).
  assert (G : forall phi, In phi (if (angle =? 90)%Z then [0] else [0; 2 * PI / 3; 4 * PI / 3]) ->
    good angle nat_ r Phi (rot_block phi)).
  { intros phi Hphi. assert (Hphi' : phi = 0 \/ (angle <> 90%Z /\ (phi = 2 * PI / 3 \/ phi = 4 * PI / 3))).
    { destruct (Z.eqb_spec angle 90) as [e|e]; cbn [In] in Hphi; intuition congruence. }
    assert (G3 : angle <> 90%Z -> good angle nat_ r Phi threefold).
    { intros Hn. split; [apply threefold_planar|split; [apply threefold_isom|split; [apply threefold_lattice|exact (Ht Hn)]]].
      destruct Ha as [?|[?|?]]; auto; contradiction. }
    destruct Hphi' as [-> | (Hn & [-> | ->])].
    - apply (good_ext _ _ _ _ _ _ rot_0), good_mm; exact Gm.
    - apply (good_ext _ _ _ _ _ _ rot_120), G3, Hn.
    - apply (good_ext _ _ _ _ _ _ rot_240), good_mm; apply G3, Hn. }
  intros op Hop. apply in_flat_map in Hop. destruct Hop as (phi & Hphi & [<-|[<-|[]]]); unfold op_of; cbn [fst snd].
  - apply G, Hphi.
  - apply good_mm; [exact Gm|apply G, Hphi].
Qed.

(** ** Images of mesh points *)
Definition kvec (b1 b2 : r2) (k : pt) : r2 := add2 (scale2 (IZR (fst k)) b1) (scale2 (IZR (snd k)) b2).

Lemma ops_images angle : allowed_angle angle -> exists a1 a2 b1 b2,
  translations2 (180 - IZR angle) 0 = (a1, a2) /\ reciprocals2 a1 a2 = (b1, b2) /\ lattice angle = (a1, a2) /\
  dot2 b1 a1 = 1 /\ dot2 b1 a2 = 0 /\ dot2 b2 a1 = 0 /\ dot2 b2 a2 = 1 /\
  forall k, Forall2 (fun op k' => in_plane (op_of op) (kvec b1 b2 k) = kvec b1 b2 k') (wedge_ops angle) (images_used angle k).
Proof.
  intros Ha. destruct (recips angle Ha) as (a1 & a2 & b1 & b2 & Et & Er & D11 & D12 & D21 & D22 & H).
  exists a1, a2, b1, b2. split; [exact Et|]. split; [exact Er|]. split; [rewrite <- Et; symmetry; apply translations_lattice, Ha|].
  do 4 (split; [assumption|]). intros k. cbn zeta in H.
  set (K := kvec b1 b2).
  assert (H1 : forall k, rotate2 (K k) ((if (angle =? 90)%Z then 90 else 60) * deg) = K (rot angle k)) by (intros; apply H).
  assert (H2 : forall k, in_plane mirror (K k) = K (refl angle k)).
  { intros q. transitivity (- fst (K q), snd (K q)); [|exact (proj2 (H q))]. unfold in_plane, mirror. apply r2_eq; cbn [fst snd]; ring. }
  assert (Hr : forall phi q, in_plane (rot_block phi) q = rotate2 q phi).
  { intros phi q. unfold in_plane, rot_block, rotate2. apply r2_eq; cbn [fst snd]; ring. }
  assert (G : forall phi k', rotate2 (K k) phi = K k' ->
    forall ops l, Forall2 (fun op k' => in_plane (op_of op) (K k) = K k') ops l ->
    Forall2 (fun op k' => in_plane (op_of op) (K k) = K k') ((phi, false) :: (phi, true) :: ops) (k' :: mirrored angle k' :: l)).
  { intros phi k' E ops l HF. constructor; [|constructor; [|exact HF]]; unfold op_of; cbn [fst snd].
    - rewrite Hr. exact E.
    - rewrite in_plane_mm by apply rot_planar. rewrite Hr, E, H2. f_equal. destruct k' as [x y].
      unfold refl, mirrored. destruct Ha as [-> | [-> | ->]]; cbn [Z.eqb Pos.eqb]; reflexivity. }
  assert (E2 : 2 * PI / 3 = 60 * deg + 60 * deg) by (unfold deg; field).
  assert (E4 : 4 * PI / 3 = 60 * deg + 60 * deg + (60 * deg + 60 * deg)) by (unfold deg; field).
  destruct k as [x y]. unfold wedge_ops, images_used, rotated.
  destruct Ha as [-> | [-> | ->]]; cbn [Z.eqb Pos.eqb flat_map app] in *; cbv iota in H1.
  - apply G; [apply rotate2_0|]. apply G; [|apply G; [|constructor]].
    + rewrite E2, <- rotate2_add, !H1. f_equal. unfold rot. cbn [Z.eqb Pos.eqb]. f_equal; lia.
    + rewrite E4, <- !rotate2_add, !H1. f_equal. unfold rot. cbn [Z.eqb Pos.eqb]. f_equal; lia.
  - apply G; [apply rotate2_0|constructor].
  - apply G; [apply rotate2_0|]. apply G; [|apply G; [|constructor]].
    + rewrite E2, <- rotate2_add, !H1. f_equal. unfold rot. cbn [Z.eqb Pos.eqb]. f_equal; lia.
    + rewrite E4, <- !rotate2_add, !H1. f_equal. unfold rot. cbn [Z.eqb Pos.eqb]. f_equal; lia.
Qed.

(** ** The loops *)
Lemma Forall2_len {A B} (P : A -> B -> Prop) l l' : Forall2 P l l' -> length l = length l'.
Proof. induction 1; cbn; congruence. Qed.

Definition within (nq : Z) (k : pt) : bool :=
  ((- nq <? fst k) && (fst k <? nq) && (- nq <? snd k) && (snd k <? nq))%Z.
Lemma within_iff nq k : within nq k = true <-> (- nq < fst k < nq /\ - nq < snd k < nq)%Z.
Proof. unfold within. rewrite !andb_true_iff, !Z.ltb_lt. tauto. Qed.

Definition cconj (D : cmat) : cmat := fun i j => nconj (D i j).
Definition put1 (nq : Z) (k : pt) (D : cmat) (full : full_mesh) : full_mesh :=
  fun q => if pt_eq_dec q (pmod nq k) then Some D else full q.
Definition put (nq : Z) (full : full_mesh) (w : pt * cmat) : full_mesh :=
  put1 nq (negated (fst w)) (cconj (snd w)) (put1 nq (fst w) (snd w) full).

Lemma store_put nq k D full :
  store nq (fst k) (snd k) D full = if index_ok nq (fst k) && index_ok nq (snd k) then Ok (put1 nq k D full) else Raise IndexError.
Proof. reflexivity. Qed.

Section Loops.
  Variables (angle nq : Z) (nat_ : nat) (r : nat -> r2) (a1 a2 b1 b2 : r2).
  Hypothesis Hnq : (0 < nq)%Z.
  Hypothesis D11 : dot2 b1 a1 = 1.
  Hypothesis D12 : dot2 b1 a2 = 0.
  Hypothesis D21 : dot2 b2 a1 = 0.
  Hypothesis D22 : dot2 b2 a2 = 1.

  Definition qvec (k : pt) : r2 := add2 (scale2 (fst (mesh_q nq k)) b1) (scale2 (snd (mesh_q nq k)) b2).

  Lemma nq0 : IZR nq <> 0.
  Proof. intros H. apply eq_IZR_R0 in H. lia. Qed.

  Lemma qvec_kvec k : qvec k = scale2 (2 * PI / IZR nq) (kvec b1 b2 k).
  Proof. pose proof nq0. unfold qvec, kvec, mesh_q, add2, scale2. apply r2_eq; cbn [fst snd]; field; assumption. Qed.

  Lemma qvec_dot k : dot2 (qvec k) a1 = 2 * PI * IZR (fst k) / IZR nq /\ dot2 (qvec k) a2 = 2 * PI * IZR (snd k) / IZR nq.
  Proof.
    unfold qvec. set (q := mesh_q nq k). split.
    - transitivity (fst q * dot2 b1 a1 + snd q * dot2 b2 a1); [unfold dot2, add2, scale2; cbn [fst snd]; ring|].
      rewrite D11, D21. unfold q, mesh_q. cbn [fst snd]. ring.
    - transitivity (fst q * dot2 b1 a2 + snd q * dot2 b2 a2); [unfold dot2, add2, scale2; cbn [fst snd]; ring|].
      rewrite D12, D22. unfold q, mesh_q. cbn [fst snd]. ring.
  Qed.

  Lemma qvec_round k : round_even (dot2 (qvec k) a1 * (IZR nq / (2 * PI))) = fst k /\
    round_even (dot2 (qvec k) a2 * (IZR nq / (2 * PI))) = snd k.
  Proof.
    destruct (qvec_dot k) as [-> ->]. pose proof nq0. pose proof PI_neq0.
    split; [rewrite <- (round_even_IZR (fst k)) at 2|rewrite <- (round_even_IZR (snd k)) at 2]; f_equal; field; auto.
  Qed.

  Lemma step_eq k op k' D0 full : in_plane (op_of op) (kvec b1 b2 k) = kvec b1 b2 k' ->
    wedge_step nq nat_ r a1 a2 (qvec k) D0 (Ok full) op =
    if within nq k' then Ok (put nq full (k', image_D nat_ r (qvec k) D0 (fst op) (snd op))) else Raise IndexError.
  Proof.
    intros E. unfold wedge_step. cbn [bind]. rewrite image_q_op.
    assert (Eq : in_plane (op_of op) (qvec k) = qvec k') by (rewrite !qvec_kvec, in_plane_scale, E; reflexivity).
    rewrite Eq. destruct (qvec_round k') as [-> ->].
    rewrite store_put. unfold within, index_ok.
    destruct (Z.leb_spec (- nq) (fst k')), (Z.ltb_spec (fst k') nq), (Z.leb_spec (- nq) (snd k')), (Z.ltb_spec (snd k') nq),
      (Z.ltb_spec (- nq) (fst k')), (Z.ltb_spec (- nq) (snd k')); cbn [andb bind]; try reflexivity; try lia;
    change (- fst k')%Z with (fst (negated k')); change (- snd k')%Z with (snd (negated k')); rewrite store_put;
    unfold index_ok; cbn [negated fst snd];
    destruct (Z.leb_spec (- nq) (- fst k')), (Z.ltb_spec (- fst k') nq), (Z.leb_spec (- nq) (- snd k')), (Z.ltb_spec (- snd k') nq);
      cbn [andb bind]; try reflexivity; try lia.
  Qed.

  Lemma steps_raise q D0 ops e : fold_left (wedge_step nq nat_ r a1 a2 q D0) ops (Raise e) = Raise e.
  Proof. induction ops; [reflexivity|]. exact IHops. Qed.

  Definition writes1 (k : pt) (D0 : cmat) : list (pt * cmat) :=
    map (fun x => (snd x, image_D nat_ r (qvec k) D0 (fst (fst x)) (snd (fst x))))
      (combine (wedge_ops angle) (images_used angle k)).

  Lemma steps_eq k D0 ops l full : Forall2 (fun op k' => in_plane (op_of op) (kvec b1 b2 k) = kvec b1 b2 k') ops l ->
    fold_left (wedge_step nq nat_ r a1 a2 (qvec k) D0) ops (Ok full) =
    if forallb (within nq) l
    then Ok (fold_left (put nq) (map (fun x => (snd x, image_D nat_ r (qvec k) D0 (fst (fst x)) (snd (fst x)))) (combine ops l)) full)
    else Raise IndexError.
  Proof.
    intros H. revert full. induction H as [|op k' ops l E H IH]; intros full; [reflexivity|].
    cbn [fold_left forallb combine map]. rewrite (step_eq k op k' D0 full E).
    destruct (within nq k'); [apply IH|apply steps_raise].
  Qed.

  Hypothesis HF : forall k,
    Forall2 (fun op k' => in_plane (op_of op) (kvec b1 b2 k) = kvec b1 b2 k') (wedge_ops angle) (images_used angle k).

  Definition writes (ks : list pt) (Ds : list cmat) : list (pt * cmat) :=
    flat_map (fun x => writes1 (fst x) (snd x)) (combine ks Ds).

  Lemma loop_eq ks Ds full : (length ks <= length Ds)%nat ->
    wedge_loop nq nat_ r a1 a2 b1 b2 angle (map (mesh_q nq) ks) Ds full =
    if forallb (within nq) (flat_map (images_used angle) ks) then Ok (fold_left (put nq) (writes ks Ds) full) else Raise IndexError.
  Proof.
    revert Ds full. induction ks as [|k ks IH]; intros Ds full HL; [reflexivity|].
    destruct Ds as [|D Ds]; [cbn in HL; lia|].
    cbn [map wedge_loop]. destruct (mesh_q nq k) as [q1 q2] eqn:Eq.
    replace (add2 (scale2 q1 b1) (scale2 q2 b2)) with (qvec k) by (unfold qvec; rewrite Eq; reflexivity).
    rewrite (steps_eq k D _ _ full (HF k)). cbn [flat_map]. rewrite forallb_app.
    destruct (forallb (within nq) (images_used angle k)); [|reflexivity]. cbn [bind andb].
    rewrite IH by (cbn in HL; lia). unfold writes. cbn [combine flat_map fst snd]. rewrite fold_left_app. reflexivity.
  Qed.

  Lemma writes1_fst k D0 : map fst (writes1 k D0) = images_used angle k.
  Proof.
    unfold writes1. rewrite map_map. cbn [fst].
    assert (L : length (wedge_ops angle) = length (images_used angle k)) by (apply (Forall2_len _ _ _ (HF k))).
    revert L. generalize (wedge_ops angle) (images_used angle k). induction l; intros [|k' l'] L; try discriminate; [reflexivity|].
    cbn. f_equal. apply IHl. cbn in L. congruence.
  Qed.

  Lemma writes_fst ks Ds : (length ks <= length Ds)%nat -> map fst (writes ks Ds) = flat_map (images_used angle) ks.
  Proof.
    revert Ds. induction ks as [|k ks IH]; intros Ds HL; [reflexivity|]. destruct Ds as [|D Ds]; [cbn in HL; lia|].
    unfold writes. cbn [combine flat_map fst snd]. rewrite map_app, writes1_fst. f_equal. apply IH. cbn in HL. lia.
  Qed.
End Loops.

Lemma puts_set nq ws full k : fold_left (put nq) ws full k <> None <->
  full k <> None \/ exists k', In k' (map fst ws) /\ (k = pmod nq k' \/ k = pmod nq (negated k')).
Proof.
  revert full. induction ws as [|w ws IH]; intros full; cbn [fold_left map In].
  - split; [auto|]. intros [H|(k' & [] & _)]. exact H.
  - rewrite IH. unfold put, put1.
    destruct (pt_eq_dec k (pmod nq (negated (fst w)))) as [e|e]; [|destruct (pt_eq_dec k (pmod nq (fst w))) as [e'|e']].
    + split; [|intros _; left; discriminate]. intros _. right. exists (fst w). auto.
    + split; [|intros _; left; discriminate]. intros _. right. exists (fst w). auto.
    + split.
      * intros [H|(k' & H & H')]; [left; exact H|right; exists k'; auto].
      * intros [H|(k' & [<-|H] & H')]; [left; exact H| |right; exists k'; auto]. destruct H' as [H'|H']; contradiction.
Qed.

Lemma puts_value nq (good_value : pt -> cmat -> Prop) ws full :
  (forall w, In w ws -> good_value (pmod nq (fst w)) (snd w) /\ good_value (pmod nq (negated (fst w))) (cconj (snd w))) ->
  (forall k D, full k = Some D -> good_value k D) ->
  forall k D, fold_left (put nq) ws full k = Some D -> good_value k D.
Proof.
  revert full. induction ws as [|w ws IH]; intros full Hw Hf k D; cbn [fold_left]; [apply Hf|].
  apply IH; [intros w' H; apply Hw; right; exact H|]. destruct (Hw w (or_introl eq_refl)) as [W1 W2].
  clear k D. intros k D. unfold put, put1.
  destruct (pt_eq_dec k (pmod nq (negated (fst w)))) as [e|e]; [intros E; injection E as <-; subst k; exact W2|].
  destruct (pt_eq_dec k (pmod nq (fst w))) as [e'|e']; [intros E; injection E as <-; subst k; exact W1|]. apply Hf.
Qed.
