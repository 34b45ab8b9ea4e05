(** Property C104: q2r for dynamical matrices at irreducible q points. *)
From Coq Require Import Reals Lra Lia QArith.
From Verif Require Import Common CommonProofs LatModel SymModel SymSpec SymProofs GeoModel GeoProofs Num NumProofs NumC WSModel WSSpec WSProofs2 KrModel
  PhModel PhProps WedgeModel WedgeSpec WedgeProofs WedgeProofs2 WedgeProofs3 WedgeProofs4.
Local Open Scope Z_scope.

(** Positions of atoms of a honeycomb lattice, and central forces between atoms
    closer than the lattice constant. *)
Definition honeycomb (n : nat) : r2 := if (n =? 1)%nat then (0, sqrt 3 / 3)%R else (0, 0)%R.
Definition component (v : r2) (x : nat) : R := match x with 0%nat => fst v | 1%nat => snd v | _ => 0%R end.
Definition springs : crystal := fun R a b =>
  let d := bond 60 honeycomb R (a / 3) (b / 3) in
  if Rlt_dec (dot2 d d) (1 / 2)
  then ((if (a mod 3 =? b mod 3)%nat then 2 else 0) - component d (a mod 3)%nat * component d (b mod 3)%nat)%R else 0%R.
Definition near : list pt := list_prod [-1; 0; 1] [-1; 0; 1].

Lemma central_forces O : planar O -> isom O ->
  (forall x y, (x < 3)%nat -> (y < 3)%nat ->
     O x 0%nat * O y 0%nat + O x 1%nat * O y 1%nat + O x 2%nat * O y 2%nat = if (x =? y)%nat then 1 else 0)%R ->
  (forall n, (n < 2)%nat -> exists T, in_plane O (honeycomb n) = add2 (honeycomb n) (cart 60 T)) ->
  symmetry_of 60 2 honeycomb springs O.
Proof.
  intros (P1 & P2 & P3 & P4) I Ho Hatoms. split; [exact Hatoms|].
  intros n m R R' Hn Hm E x y Hx Hy. cbn zeta. unfold springs.
  rewrite !div3', !mod3' by lia. rewrite E, I.
  set (d := bond 60 honeycomb R n m). destruct (Rlt_dec (dot2 d d) (1 / 2)) as [_|_]; [|ring].
  assert (Hd : forall x, (x < 3)%nat -> component (in_plane O d) x = (O x 0%nat * component d 0 + O x 1%nat * component d 1)%R).
  { intros z Hz. destruct z as [|[|[|z]]]; [..|lia]; unfold in_plane; cbn [component fst snd]; rewrite ?P3, ?P4; ring. }
  rewrite !Hd by assumption. replace (if (x =? y)%nat then 2 else 0)%R with (2 * (if (x =? y)%nat then 1 else 0))%R
    by (destruct (x =? y)%nat; ring).
  rewrite <- Ho by assumption. cbn [Nat.eqb component]. ring.
Qed.

Lemma springs_mirror : symmetry_of 60 2 honeycomb springs mirror.
Proof.
  apply central_forces; [apply mirror_planar|apply mirror_isom| |].
  - intros x y Hx Hy. destruct x as [|[|[|x]]]; [..|lia]; destruct y as [|[|[|y]]]; try lia; cbn; ring.
  - intros n Hn. exists (0, 0). unfold in_plane, mirror, honeycomb, cart, add2. destruct (n =? 1)%nat; apply r2_eq; cbn [fst snd]; ring.
Qed.

Lemma springs_threefold : symmetry_of 60 2 honeycomb springs threefold.
Proof.
  pose proof s3 as H. apply central_forces; [apply threefold_planar|apply threefold_isom| |].
  - intros x y Hx Hy. destruct x as [|[|[|x]]]; [..|lia]; destruct y as [|[|[|y]]]; try lia; cbn [threefold Nat.eqb]; nra.
  - intros n Hn. unfold in_plane, threefold, honeycomb, cart, add2, lattice. destruct (Nat.eqb_spec n 1) as [->|Hn1].
    + exists (-1, -1). apply r2_eq; cbn [fst snd Z.eqb Pos.eqb]; nra.
    + exists (0, 0). apply r2_eq; cbn [fst snd]; ring.
Qed.

Lemma springs_range : range_of near springs.
Proof.
  split.
  - unfold near. cbn. repeat (apply NoDup_cons; [cbn; intuition congruence|]). apply NoDup_nil.
  - intros [x y] HR a b. unfold springs. set (n := (a / 3)%nat). set (m := (b / 3)%nat).
    destruct (Rlt_dec _ _) as [Hd|_]; [exfalso|reflexivity]. apply HR. clear HR. pose proof s3 as H3.
    assert (G : (-1 <= x <= 1) /\ (-1 <= y <= 1)).
    { unfold bond, cart, lattice, honeycomb, dot2 in Hd. cbn [fst snd Z.eqb Pos.eqb] in Hd.
      set (X := IZR x) in *. set (Y := IZR y) in *. set (s := sqrt 3) in *.
      assert (H4 : (0 <= X * X - X * Y + Y * Y)%R) by nra.
      assert (HI : exists c, (c = -1 \/ c = 0 \/ c = 1) /\ x * x - x * y + y * y + c * y < 1).
      { destruct (Nat.eqb_spec m 1) as [em|em], (Nat.eqb_spec n 1) as [en|en]; cbn [fst snd] in Hd;
        [exists 0|exists 1|exists (-1)|exists 0]; (split; [lia|]); apply lt_IZR; rewrite !plus_IZR, minus_IZR, !mult_IZR; fold X Y.
        - assert (E : ((X * 1 + Y * - (1 / 2) + 0 - 0) * (X * 1 + Y * - (1 / 2) + 0 - 0) +
            (X * 0 + Y * (s / 2) + s / 3 - s / 3) * (X * 0 + Y * (s / 2) + s / 3 - s / 3) = X * X - X * Y + Y * Y / 4 + (s * s) * (Y * Y) / 4)%R) by field.
          rewrite E, H3 in Hd. lra.
        - assert (E : ((X * 1 + Y * - (1 / 2) + 0 - 0) * (X * 1 + Y * - (1 / 2) + 0 - 0) +
            (X * 0 + Y * (s / 2) + s / 3 - 0) * (X * 0 + Y * (s / 2) + s / 3 - 0) = X * X - X * Y + Y * Y / 4 + (s * s) * (Y * Y / 4 + Y / 3 + 1 / 9))%R) by field.
          rewrite E, H3 in Hd. lra.
        - assert (E : ((X * 1 + Y * - (1 / 2) + 0 - 0) * (X * 1 + Y * - (1 / 2) + 0 - 0) +
            (X * 0 + Y * (s / 2) + 0 - s / 3) * (X * 0 + Y * (s / 2) + 0 - s / 3) = X * X - X * Y + Y * Y / 4 + (s * s) * (Y * Y / 4 - Y / 3 + 1 / 9))%R) by field.
          rewrite E, H3 in Hd. lra.
        - assert (E : ((X * 1 + Y * - (1 / 2) + 0 - 0) * (X * 1 + Y * - (1 / 2) + 0 - 0) +
            (X * 0 + Y * (s / 2) + 0 - 0) * (X * 0 + Y * (s / 2) + 0 - 0) = X * X - X * Y + Y * Y / 4 + (s * s) * (Y * Y) / 4)%R) by field.
          rewrite E, H3 in Hd. lra. }
      clear - HI. destruct HI as (c & Hc & HI).
      assert (4 * (x * x - x * y + y * y + c * y) = (2 * x - y) * (2 * x - y) + 3 * (y * y) + 4 * (c * y)) by ring.
      pose proof (Z.square_nonneg (2 * x - y)) as Hs.
      assert (3 * (y * y) + 4 * (c * y) < 4) by lia.
      assert (-1 <= y <= 1).
      { assert (y <= -2 -> 2 * - y <= y * y) by nia. assert (2 <= y -> 2 * y <= y * y) by nia. destruct Hc as [-> | [-> | ->]]; lia. }
      split; [|assumption]. assert (y = -1 \/ y = 0 \/ y = 1) as [-> | [-> | ->]] by lia; destruct Hc as [-> | [-> | ->]]; nia. }
    unfold near. apply in_prod_iff. cbn. lia.
Qed.

(** C104. If a crystal is symmetric, every matrix written to the mesh is the
    dynamical matrix of the crystal at that mesh point, whatever mesh points
    have been given. *)
Theorem C104_value angle nq nat_ r Phi cells ks Ds full :
  allowed_angle angle -> 0 < nq -> range_of cells Phi ->
  symmetry_of angle nat_ r Phi mirror -> (angle <> 90 -> symmetry_of angle nat_ r Phi threefold) ->
  Forall2 (fun k D => forall a b, (a < nat_ * 3)%nat -> (b < nat_ * 3)%nat -> D a b = dynmat nq cells Phi k a b) ks Ds ->
  wedge nq nat_ r angle (map (mesh_q nq) ks) Ds = Ok full ->
  forall k D, full k = Some D ->
  forall a b, (a < nat_ * 3)%nat -> (b < nat_ * 3)%nat -> D a b = dynmat nq cells Phi k a b.
Proof. intros Ha Hn Hc Hm Ht HD E k D Ek. exact (wedge_value angle nq nat_ r Phi cells Ha Hn Hc Hm Ht ks Ds full k D HD E Ek). Qed.
Print Assumptions C104_value.

(** Written are exactly the images of the given points; there is an IndexError
    if the components of some image are not smaller than the size of the mesh. *)
Theorem C104_images angle nq nat_ r ks Ds : allowed_angle angle -> 0 < nq -> (length ks <= length Ds)%nat ->
  ((forall k k', In k ks -> In k' (images_used angle k) -> Z.abs (fst k') < nq /\ Z.abs (snd k') < nq) ->
   exists full, wedge nq nat_ r angle (map (mesh_q nq) ks) Ds = Ok full /\
     forall k, full k <> None <-> exists k0, In k0 ks /\ reaches angle nq k0 k) /\
  (forall k k', In k ks -> In k' (images_used angle k) -> nq <= Z.abs (fst k') \/ nq <= Z.abs (snd k') ->
   wedge nq nat_ r angle (map (mesh_q nq) ks) Ds = Raise IndexError).
Proof.
  intros Ha Hn HL. split.
  - intros HW. apply wedge_set; [assumption..|]. intros k k' Hk Hk'. specialize (HW k k' Hk Hk'). lia.
  - intros k k' Hk Hk' H. exact (wedge_range angle nq nat_ r Ha Hn ks Ds k k' HL Hk Hk' H).
Qed.
Print Assumptions C104_images.

(** For hexagonal lattices, the irreducible points suffice. *)
Theorem C104_complete angle nq nat_ r irr Ds : angle = 60 \/ angle = 120 -> 0 < nq ->
  irreducibles nq angle = Ok irr -> (length irr <= length Ds)%nat ->
  exists full, wedge nq nat_ r angle (map (mesh_q nq) irr) Ds = Ok full /\ forall k, in_mesh nq k -> full k <> None.
Proof.
  intros Ha Hn E HL. assert (Ha' : allowed_angle angle) by (unfold allowed_angle; tauto).
  destruct (wedge_set angle nq nat_ r Ha' Hn irr Ds HL) as (full & Ef & Hs).
  - intros k k' Hk Hk'. exact (irreducible_within angle nq irr k k' Ha Hn E Hk Hk').
  - exists full. split; [exact Ef|]. intros k Hk. apply Hs.
    destruct (irreducibles_unique angle nq Ha' Hn irr k E Hk) as (k0 & (H0 & He) & _). exists k0. split; [exact H0|].
    apply reaches_all; assumption.
Qed.
Print Assumptions C104_complete.

(** Altogether: the model obtained from the dynamical matrices of a symmetric
    hexagonal crystal at the irreducible points has the dynamical matrices of the
    crystal at all points of the mesh. *)
Theorem C104_model memory angle nq nat_ r Phi cells irr Ds M divide_mass_in divide_mass len nproc :
  angle = 60 \/ angle = 120 -> 0 < nq -> (0 < nat_)%nat -> (0 < nproc)%nat -> (forall na, (0 < M na)%R) ->
  range_of cells Phi -> symmetry_of angle nat_ r Phi mirror -> symmetry_of angle nat_ r Phi threefold ->
  irreducibles nq angle = Ok irr ->
  Forall2 (fun k D => forall a b, (a < nat_ * 3)%nat -> (b < nat_ * 3)%nat -> D a b = dynmat nq cells Phi k a b) irr Ds ->
  exists data, q2r_wedge memory nq nat_ r angle (map (mesh_q nq) irr) Ds M divide_mass_in false true divide_mass len nproc = Ok data /\
    forall k a b, in_mesh nq k -> (a < nat_ * 3)%nat -> (b < nat_ * 3)%nat ->
      let mass (dm : bool) := (if dm then / sqrt (M (a / 3)%nat) * / sqrt (M (b / 3)%nat) else 1)%R in
      D_sum (phase (K3 (fst (mesh_q nq k)) (snd (mesh_q nq k)) 0)) data a b =
      nmul (RtoC (mass divide_mass * / mass divide_mass_in)%R) (dynmat nq cells Phi k a b).
Proof.
  intros Ha Hn Hnat Hproc HM Hc Hm Ht E HD. assert (Ha' : allowed_angle angle) by (unfold allowed_angle; tauto).
  destruct (C104_complete angle nq nat_ r irr Ds Ha Hn E) as (full & Ef & Hs); [exact (Nat.eq_le_incl _ _ (Forall2_len _ _ _ HD))|].
  pose proof (C104_value angle nq nat_ r Phi cells irr Ds full Ha' Hn Hc Hm (fun _ => Ht) HD Ef) as HV.
  unfold q2r_wedge. rewrite Ef. cbn [bind].
  set (D := fun k : vec => match full (vx k, vy k) with Some D => D | None => memory (vx k, vy k) end).
  assert (HDk : forall x y z a b, in_mesh nq (x, y) -> (a < nat_ * 3)%nat -> (b < nat_ * 3)%nat ->
    D (V3 x y z) a b = dynmat nq cells Phi (x, y) a b).
  { intros x y z a b Hk Ha1 Hb1. unfold D. cbn [vx vy]. destruct (full (x, y)) as [D'|] eqn:Ed; [|exfalso; exact (Hs _ Hk Ed)].
    apply (HV _ _ Ed); assumption. }
  destruct (C80_reproduces [nq; nq] (V3 nq nq 1) nat_ M D divide_mass_in divide_mass len nproc) as (data & Edata & G).
  - reflexivity.
  - cbn [vx vy vz]. lia.
  - exact Hnat.
  - exact Hproc.
  - exact HM.
  - intros [x y z] a b Hxyz Ha1 Hb1. unfold on_mesh in Hxyz. cbn [vx vy vz] in Hxyz.
    unfold mesh_index. cbn [vx vy vz].
    rewrite !HDk by (try assumption; split; cbn [fst snd]; first [lia | apply Z.mod_pos_bound; exact Hn]).
    rewrite <- dynmat_negated. rewrite <- (dynmat_pmod nq cells Phi (negated (x, y)) a b Hn).
    unfold pmod, negated. cbn [fst snd]. f_equal.
  - exists data. split; [exact Edata|]. intros [x y] a b Hk Ha1 Hb1. cbn zeta.
    assert (Hk' := Hk). unfold in_mesh in Hk'. cbn [fst snd] in Hk'.
    pose proof (G (V3 x y 0) a b ltac:(unfold on_mesh; cbn [vx vy vz]; lia) Ha1 Hb1) as G'. cbn zeta in G'.
    rewrite HDk in G' by assumption. rewrite <- G'. f_equal. f_equal. unfold mesh_q, mesh_point. cbn [fst snd vx vy vz].
    f_equal. unfold Rdiv. ring.
Qed.
Print Assumptions C104_model.

Example C104_example memory : exists irr data,
  irreducibles 3 60 = Ok irr /\ irr <> [] /\
  q2r_wedge memory 3 2 honeycomb 60 (map (mesh_q 3) irr) (map (dynmat 3 near springs) irr) (fun _ => 1%R)
    false false true false (fun _ _ _ => 1%Q) 2 = Ok data /\
  D_sum (phase (K3 (fst (mesh_q 3 (2, 1))) (snd (mesh_q 3 (2, 1))) 0)) data 0 4 = nmul (RtoC (1 * / 1)) (dynmat 3 near springs (2, 1) 0 4).
Proof.
  destruct (C104_model memory 60 3 2 honeycomb springs near [(0, 0); (0, 1); (1, 1)] (map (dynmat 3 near springs) [(0, 0); (0, 1); (1, 1)])
    (fun _ => 1%R) false false (fun _ _ _ => 1%Q) 2) as (data & E & G).
  - auto.
  - lia.
  - lia.
  - lia.
  - intros _. lra.
  - exact springs_range.
  - exact springs_mirror.
  - exact springs_threefold.
  - vm_compute. reflexivity.
  - cbn [map]. repeat (apply Forall2_cons; [intros; reflexivity|]). apply Forall2_nil.
  - exists [(0, 0); (0, 1); (1, 1)], data. split; [vm_compute; reflexivity|]. split; [discriminate|]. split; [exact E|].
    apply (G (2, 1)); [unfold in_mesh; cbn; lia|lia|lia].
Qed.

(** For the square lattice, the irreducible points do not suffice: the matrix at
    (1, 0) is never written and thus whatever the memory happens to contain. *)
Theorem C104_square_refuted nq nat_ r irr Ds : 2 <= nq -> irreducibles nq 90 = Ok irr -> (length irr <= length Ds)%nat ->
  exists full, wedge nq nat_ r 90 (map (mesh_q nq) irr) Ds = Ok full /\ in_mesh nq (1, 0) /\ full (1, 0) = None.
Proof.
  intros Hn E HL. assert (Ha : allowed_angle 90) by (unfold allowed_angle; tauto).
  destruct (irreducibles_spec 90 nq Ha ltac:(lia)) as (irr' & E' & _ & HI). rewrite E in E'. injection E' as <-.
  destruct (wedge_set 90 nq nat_ r Ha ltac:(lia) irr Ds HL) as (full & Ef & Hs).
  - intros k k' Hk Hk'. apply HI in Hk. destruct Hk as ((H1 & H2) & _). destruct k as [x y]. cbn [fst snd] in *.
    unfold images_used, rotated, mirrored in Hk'. cbn [Z.eqb Pos.eqb flat_map app In] in Hk'.
    repeat (destruct Hk' as [<-|Hk']; [cbn [fst snd]; lia|]). destruct Hk'.
  - exists full. split; [exact Ef|]. split; [unfold in_mesh; cbn; lia|].
    destruct (full (1, 0)) as [D|] eqn:Ed; [exfalso|reflexivity].
    assert (Hne : full (1, 0) <> None) by congruence. apply Hs in Hne. destruct Hne as ((x & y) & H0 & k' & Hk' & Hr).
    apply HI in H0. destruct H0 as ((H1 & H2) & Hf). cbn [fst snd] in H1, H2.
    assert (G : exists g, 1 = x + g * nq \/ 1 = - x + g * nq).
    { unfold images_used, rotated, mirrored in Hk'. cbn [Z.eqb Pos.eqb flat_map app In] in Hk'.
      assert (P : forall a, 1 = a mod nq -> exists g, 1 = a + g * nq).
      { intros a Hm. exists (- (a / nq)). pose proof (Z.div_mod a nq ltac:(lia)). lia. }
      destruct Hk' as [<-|[<-|[]]]; destruct Hr as [Hr|Hr]; apply (f_equal fst) in Hr; unfold pmod, negated in Hr; cbn [fst snd] in Hr;
      apply P in Hr; destruct Hr as (g & Hg); exists g; lia. }
    assert (G2 : y = 0).
    { unfold images_used, rotated, mirrored in Hk'. cbn [Z.eqb Pos.eqb flat_map app In] in Hk'.
      assert (P : forall g, y = g * nq -> y = 0) by (intros g Hg; assert (g <= 0 \/ 1 <= g) as [?|?] by lia; nia).
      destruct Hk' as [<-|[<-|[]]]; destruct Hr as [Hr|Hr]; apply (f_equal snd) in Hr; unfold pmod, negated in Hr; cbn [fst snd] in Hr;
      match type of Hr with 0 = ?a mod nq => pose proof (Z.div_mod a nq ltac:(lia)) as Hg end;
      first [apply (P (y / nq)); lia | apply (P (- (- y / nq))); lia]. }
    subst y.
    assert (x <> 0) by (intros ->; destruct G as (g & [Hg|Hg]); (assert (g <= 0 \/ 1 <= g) as [?|?] by lia); nia).
    apply (Hf (0, x)).
    + unfold in_mesh. cbn [fst snd]. lia.
    + left. cbn [fst snd]. lia.
    + apply equivalent_iff; [exact Ha|lia|]. exists (M2 0 1 1 0). split; [vm_compute; tauto|].
      unfold act. cbn [m11 m12 m21 m22 fst snd]. f_equal. f_equal; lia.
Qed.
Print Assumptions C104_square_refuted.

Example C104_square_example : irreducibles 3 90 = Ok [(0, 0); (0, 1); (1, 1)].
Proof. vm_compute. reflexivity. Qed.

(** The choice of the irreducible points matters: the matrix at (nq - 1, 1) cannot be given for 60 degrees. *)
Theorem C104_choice_refuted nq nat_ r ks Ds : 2 <= nq -> In (nq - 1, 1) ks -> (length ks <= length Ds)%nat ->
  in_mesh nq (nq - 1, 1) /\ wedge nq nat_ r 60 (map (mesh_q nq) ks) Ds = Raise IndexError.
Proof.
  intros Hn Hk HL. split; [unfold in_mesh; cbn [fst snd]; lia|].
  apply (proj2 (C104_images 60 nq nat_ r ks Ds ltac:(left; reflexivity) ltac:(lia) HL) (nq - 1, 1) (- (nq - 1), nq - 1 + 1) Hk).
  - unfold images_used, rotated, mirrored. cbn [Z.eqb Pos.eqb flat_map app In]. auto.
  - right. cbn [snd]. lia.
Qed.
Print Assumptions C104_choice_refuted.
