(** Proofs about dynamical matrices on the full mesh: values and completeness. *)
From Coq Require Import Reals Lra Lia Permutation.
From Verif Require Import Common CommonProofs SymModel SymSpec SymProofs GeoModel GeoProofs Num NumProofs NumC PhModel
  WedgeModel WedgeSpec WedgeProofs WedgeProofs2 WedgeProofs3.
Local Open Scope R_scope.

Add Ring CxW4 : (@n_ring C).

(** ** Dynamical matrices on the mesh *)
Lemma dynmat_pmod nq cells Phi k a b : (0 < nq)%Z -> dynmat nq cells Phi (pmod nq k) a b = dynmat nq cells Phi k a b.
Proof.
  intros Hn. unfold dynmat. apply nsum_ext. intros R _. f_equal. unfold pmod. cbn [fst snd].
  assert (N : IZR nq <> 0) by (intros H; apply eq_IZR_R0 in H; lia).
  set (g := (fst k / nq * fst R + snd k / nq * snd R)%Z).
  replace (2 * PI * IZR (fst k * fst R + snd k * snd R) / IZR nq)
    with (2 * PI * IZR (fst k mod nq * fst R + snd k mod nq * snd R) / IZR nq + 2 * PI * IZR g).
  - rewrite expi_add, expi_2PI. ring.
  - replace (fst k * fst R + snd k * snd R)%Z with (fst k mod nq * fst R + snd k mod nq * snd R + nq * g)%Z.
    + rewrite !plus_IZR, !mult_IZR. field. exact N.
    + unfold g. pose proof (Z.div_mod (fst k) nq ltac:(lia)) as E1. pose proof (Z.div_mod (snd k) nq ltac:(lia)) as E2.
      rewrite E1 at 3. rewrite E2 at 3. ring.
Qed.

Lemma dynmat_negated nq cells Phi k a b : dynmat nq cells Phi (negated k) a b = nconj (dynmat nq cells Phi k a b).
Proof.
  unfold dynmat. rewrite n_conj_sum. apply nsum_ext. intros R _. rewrite n_conj_mul, RtoC_conj, expi_conj. f_equal. f_equal.
  unfold negated. cbn [fst snd]. replace (- fst k * fst R + - snd k * snd R)%Z with (- (fst k * fst R + snd k * snd R))%Z by ring.
  rewrite opp_IZR. unfold Rdiv. ring.
Qed.

Definition agrees (nat_ : nat) (D D' : nat -> nat -> C) : Prop :=
  forall a b, (a < nat_ * 3)%nat -> (b < nat_ * 3)%nat -> D a b = D' a b.

Section Values.
  Variables (angle nq : Z) (nat_ : nat) (r : nat -> r2) (Phi : crystal) (cells : list pt).
  Hypothesis Ha : allowed_angle angle.
  Hypothesis Hnq : (0 < nq)%Z.

  Lemma wedge_eq ks Ds : (length ks <= length Ds)%nat -> exists b1 b2,
    wedge nq nat_ r angle (map (mesh_q nq) ks) Ds =
    (if forallb (within nq) (flat_map (images_used angle) ks)
     then Ok (fold_left (put nq) (writes angle nq nat_ r b1 b2 ks Ds) (fun _ => None)) else Raise IndexError) /\
    map fst (writes angle nq nat_ r b1 b2 ks Ds) = flat_map (images_used angle) ks /\
    (forall k, Forall2 (fun op k' => in_plane (op_of op) (kvec b1 b2 k) = kvec b1 b2 k') (wedge_ops angle) (images_used angle k)) /\
    (forall k R, dot2 (qvec nq b1 b2 k) (cart angle R) = 2 * PI * IZR (fst k * fst R + snd k * snd R) / IZR nq).
  Proof.
    intros HL. destruct (ops_images angle Ha) as (a1 & a2 & b1 & b2 & Et & Er & El & D11 & D12 & D21 & D22 & HF).
    exists b1, b2. split; [|split; [|split]].
    - unfold wedge. destruct (Z.ltb_spec nq 0); [lia|]. rewrite Et, Er. apply loop_eq; assumption.
    - apply writes_fst; assumption.
    - exact HF.
    - intros k R. destruct (qvec_dot nq a1 a2 b1 b2 D11 D12 D21 D22 k) as [E1 E2].
      transitivity (IZR (fst R) * dot2 (qvec nq b1 b2 k) a1 + IZR (snd R) * dot2 (qvec nq b1 b2 k) a2).
      + unfold cart. rewrite El. unfold dot2. cbn [fst snd]. ring.
      + rewrite E1, E2, plus_IZR, !mult_IZR. unfold Rdiv. ring.
  Qed.

  Lemma wedge_set ks Ds : (length ks <= length Ds)%nat ->
    (forall k k', In k ks -> In k' (images_used angle k) -> - nq < fst k' < nq /\ - nq < snd k' < nq)%Z ->
    exists full, wedge nq nat_ r angle (map (mesh_q nq) ks) Ds = Ok full /\
      forall k, full k <> None <-> exists k0, In k0 ks /\ reaches angle nq k0 k.
  Proof.
    intros HL HW. destruct (wedge_eq ks Ds HL) as (b1 & b2 & E & Ew & _). rewrite E.
    replace (forallb (within nq) (flat_map (images_used angle) ks)) with true.
    - eexists. split; [reflexivity|]. intros k. rewrite puts_set, Ew. split.
      + intros [H|(k' & H & H')]; [congruence|]. apply in_flat_map in H. destruct H as (k0 & H0 & H). exists k0. split; [exact H0|].
        exists k'. auto.
      + intros (k0 & H0 & k' & H & H'). right. exists k'. split; [|exact H']. apply in_flat_map. exists k0. auto.
    - symmetry. apply forallb_forall. intros k' H. apply in_flat_map in H. destruct H as (k & Hk & Hk').
      apply within_iff. apply (HW k k' Hk Hk').
  Qed.

  Lemma wedge_range ks Ds k k' : (length ks <= length Ds)%nat -> In k ks -> In k' (images_used angle k) ->
    (nq <= Z.abs (fst k') \/ nq <= Z.abs (snd k'))%Z ->
    wedge nq nat_ r angle (map (mesh_q nq) ks) Ds = Raise IndexError.
  Proof.
    intros HL Hk Hk' H. destruct (wedge_eq ks Ds HL) as (b1 & b2 & E & _). rewrite E.
    destruct (forallb (within nq) (flat_map (images_used angle) ks)) eqn:F; [|reflexivity]. exfalso.
    rewrite forallb_forall in F. specialize (F k' (proj2 (in_flat_map _ _ _) (ex_intro _ k (conj Hk Hk')))).
    apply within_iff in F. lia.
  Qed.

  Hypothesis Hc : range_of cells Phi.
  Hypothesis Hm : symmetry_of angle nat_ r Phi mirror.
  Hypothesis Ht : angle <> 90%Z -> symmetry_of angle nat_ r Phi threefold.

  Lemma sand_agrees O (D D' : cmat) n m x y : agrees nat_ D D' -> (n < nat_)%nat -> (m < nat_)%nat ->
    sand O D n m x y = sand O D' n m x y.
  Proof. intros H Hn Hm'. unfold sand, csum3. rewrite !H by lia. reflexivity. Qed.

  Lemma wedge_value ks Ds full k D :
    Forall2 (fun k D => agrees nat_ D (dynmat nq cells Phi k)) ks Ds ->
    wedge nq nat_ r angle (map (mesh_q nq) ks) Ds = Ok full -> full k = Some D -> agrees nat_ D (dynmat nq cells Phi k).
  Proof.
    intros HD. assert (HL : (length ks <= length Ds)%nat) by (rewrite (Forall2_len _ _ _ HD); lia).
    destruct (wedge_eq ks Ds HL) as (b1 & b2 & -> & _ & HF & Hdot).
    destruct (forallb _ _); [|discriminate]. intros E. injection E as <-.
    apply (puts_value nq (fun k D => agrees nat_ D (dynmat nq cells Phi k))); [|discriminate]. clear k D.
    intros w Hw.
    assert (G : agrees nat_ (snd w) (dynmat nq cells Phi (fst w))).
    { unfold writes in Hw. apply in_flat_map in Hw. destruct Hw as ((k & D0) & Hkd & Hw). cbn [fst snd] in Hw.
      assert (A0 : agrees nat_ D0 (dynmat nq cells Phi k)).
      { clear - HD Hkd. induction HD as [|k' D' ks Ds H HD IH]; [destruct Hkd|]. cbn [combine In] in Hkd.
        destruct Hkd as [E|Hkd]; [injection E as <- <-; exact H|auto]. }
      unfold writes1 in Hw. apply in_map_iff in Hw. destruct Hw as ((op & k') & <- & Hok). cbn [fst snd].
      assert (Hop : In op (wedge_ops angle)) by (apply in_combine_l in Hok; exact Hok).
      assert (Ek : in_plane (op_of op) (kvec b1 b2 k) = kvec b1 b2 k').
      { specialize (HF k). clear - HF Hok. induction HF as [|x y l l' H HF IH]; [destruct Hok|].
        destruct Hok as [E|Hok]; [injection E as <- <-; exact H|auto]. }
      assert (Eq : in_plane (op_of op) (qvec nq b1 b2 k) = qvec nq b1 b2 k')
        by (rewrite !(qvec_kvec nq nat_ r b1 b2 Hnq), in_plane_scale, Ek; reflexivity).
      assert (Ed : forall k a b, dynmat nq cells Phi k a b = dynq angle Phi cells (qvec nq b1 b2 k) a b).
      { intros q a b. unfold dynmat, dynq. apply nsum_ext. intros R _. rewrite Hdot. reflexivity. }
      intros a b Hla Hlb.
      pose proof (Nat.div_mod a 3 ltac:(lia)) as Ea. pose proof (Nat.mod_upper_bound a 3 ltac:(lia)) as La.
      pose proof (Nat.div_mod b 3 ltac:(lia)) as Eb. pose proof (Nat.mod_upper_bound b 3 ltac:(lia)) as Lb.
      assert (Na : (a / 3 < nat_)%nat) by lia. assert (Nb : (b / 3 < nat_)%nat) by lia.
      set (n := (a / 3)%nat) in *. set (x := (a mod 3)%nat) in *. set (m := (b / 3)%nat) in *. set (y := (b mod 3)%nat) in *.
      rewrite Ea, Eb, image_D_op by assumption. cbn zeta.
      rewrite (sand_agrees _ D0 (dynq angle Phi cells (qvec nq b1 b2 k)) n m x y);
        [|intros a' b' H1 H2; rewrite A0 by assumption; apply Ed|assumption|assumption].
      rewrite (dynq_covariant angle nat_ r Phi cells Hc (op_of op) (qvec nq b1 b2 k) n m x y (ops_good angle nat_ r Phi Ha Hm Ht op Hop) Na Nb La Lb).
      rewrite Eq, Ed. reflexivity. }
    split; intros a b Hla Hlb; rewrite dynmat_pmod by exact Hnq.
    - apply G; assumption.
    - unfold cconj. rewrite G by assumption. symmetry. apply dynmat_negated.
  Qed.
End Values.

(** ** Completeness *)
Local Open Scope Z_scope.

Lemma reaches_all angle nq k0 k : angle = 60 \/ angle = 120 -> 0 < nq -> in_mesh nq k ->
  equivalent angle nq k0 k -> reaches angle nq k0 k.
Proof.
  intros Ha Hn Hk He. assert (Ha' : allowed_angle angle) by (unfold allowed_angle; tauto).
  apply equivalent_iff in He; [|exact Ha'|exact Hn]. destruct He as (M & HM & E).
  rewrite (pmod_id _ _ Hk) in E. subst k.
  destruct k0 as [x y].
  assert (G : exists k', In k' (images_used angle (x, y)) /\ (act M (x, y) = k' \/ act M (x, y) = negated k')).
  { assert (P : forall (k' : pt) l (q : pt), In k' l -> q = k' \/ q = negated k' -> exists k', In k' l /\ (q = k' \/ q = negated k'))
      by (intros k' l q H1 H2; exists k'; auto).
    destruct Ha as [-> | ->]; vm_compute in HM;
    repeat (destruct HM as [<-|HM]; [unfold act; cbn [m11 m12 m21 m22 fst snd];
      unfold images_used, rotated, mirrored; cbn [Z.eqb Pos.eqb flat_map app];
      match goal with |- exists k', In k' [?a; ?b; ?c; ?d; ?e; ?f] /\ _ =>
        first
        [ apply (P a); [cbn; auto 10|unfold negated; cbn [fst snd]; first [left; f_equal; lia|right; f_equal; lia]]
        | apply (P b); [cbn; auto 10|unfold negated; cbn [fst snd]; first [left; f_equal; lia|right; f_equal; lia]]
        | apply (P c); [cbn; auto 10|unfold negated; cbn [fst snd]; first [left; f_equal; lia|right; f_equal; lia]]
        | apply (P d); [cbn; auto 10|unfold negated; cbn [fst snd]; first [left; f_equal; lia|right; f_equal; lia]]
        | apply (P e); [cbn; auto 10|unfold negated; cbn [fst snd]; first [left; f_equal; lia|right; f_equal; lia]]
        | apply (P f); [cbn; auto 10|unfold negated; cbn [fst snd]; first [left; f_equal; lia|right; f_equal; lia]] ]
      end|]); destruct HM. }
  destruct G as (k' & H & H'). exists k'. split; [exact H|]. destruct H' as [-> | ->]; auto.
Qed.

Lemma irreducible_within angle nq irr k k' : angle = 60 \/ angle = 120 -> 0 < nq -> irreducibles nq angle = Ok irr ->
  In k irr -> In k' (images_used angle k) -> - nq < fst k' < nq /\ - nq < snd k' < nq.
Proof.
  intros Ha Hn E Hk Hk'. assert (Ha' : allowed_angle angle) by (unfold allowed_angle; tauto).
  destruct (irreducibles_spec angle nq Ha' Hn) as (irr' & E' & _ & HI). rewrite E in E'. injection E' as <-.
  apply HI in Hk. destruct Hk as ((H1 & H2) & Hf). destruct k as [x y]. cbn [fst snd] in *.
  destruct Ha as [-> | ->].
  - assert (x + y < nq).
    { destruct (Z_lt_le_dec (x + y) nq) as [H|H]; [exact H|exfalso].
      apply (Hf (pmod nq (x + y, - x))).
      - apply pmod_in. exact Hn.
      - left. unfold pmod. cbn [fst snd]. replace ((x + y) mod nq) with (x + y - nq); [lia|].
        apply (Z.mod_unique (x + y) nq 1); lia.
      - apply equivalent_iff; [exact Ha'|exact Hn|]. exists (M2 0 (-1) 1 1). split; [vm_compute; tauto|].
        rewrite act_pmod. unfold act. cbn [m11 m12 m21 m22 fst snd]. f_equal. f_equal; lia. }
    unfold images_used, rotated, mirrored in Hk'. cbn [Z.eqb Pos.eqb flat_map app In] in Hk'.
    repeat (destruct Hk' as [<-|Hk']; [cbn [fst snd]; lia|]). destruct Hk'.
  - unfold images_used, rotated, mirrored in Hk'. cbn [Z.eqb Pos.eqb flat_map app In] in Hk'.
    repeat (destruct Hk' as [<-|Hk']; [cbn [fst snd]; lia|]). destruct Hk'.
Qed.
