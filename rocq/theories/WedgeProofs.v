(** Proofs about dynamical matrices on the full mesh from irreducible q points. *)
From Coq Require Import Reals Lra Lia Permutation.
From Verif Require Import Common CommonProofs SymModel SymSpec GeoModel GeoProofs Num NumProofs NumC PhModel WedgeModel WedgeSpec.
Local Open Scope R_scope.

Add Ring CxW : (@n_ring C).

Lemma r2_eq (u v : r2) : fst u = fst v -> snd u = snd v -> u = v.
Proof. destruct u, v. cbn. congruence. Qed.

(** ** Rounding *)
Lemma Int_part_IZR z : Int_part (IZR z) = z.
Proof.
  unfold Int_part. assert (up (IZR z) = z + 1)%Z; [|lia]. symmetry. apply tech_up; rewrite plus_IZR; lra.
Qed.

Lemma round_even_IZR z : round_even (IZR z) = z.
Proof.
  unfold round_even. rewrite Int_part_IZR. cbn zeta. rewrite Rminus_diag_eq by reflexivity.
  destruct (Rlt_dec 0 (/ 2)); [reflexivity|lra].
Qed.

(** ** Geometry *)
Lemma translations_lattice angle : allowed_angle angle -> translations2 (180 - IZR angle) 0 = lattice angle.
Proof.
  intros Ha. unfold translations2, lattice.
  assert (Z0 : rotate2 (1, 0) (0 * deg) = (1, 0)) by (rewrite Rmult_0_l; apply rotate2_0). rewrite Z0.
  destruct Ha as [-> | [-> | ->]]; cbn [Z.eqb Pos.eqb]; f_equal; unfold rotate2; cbn [fst snd].
  - replace ((180 - 60) * deg) with (120 * deg) by (unfold deg; field). rewrite cos120, sin120. apply r2_ext; cbn; field.
  - replace ((180 - 90) * deg) with (90 * deg) by (unfold deg; field). rewrite cos90, sin90. apply r2_ext; cbn; field.
  - replace ((180 - 120) * deg) with (60 * deg) by (unfold deg; field). rewrite cos60, sin60. apply r2_ext; cbn; field.
Qed.

(** 3x3 matrices *)
Definition sum3 (f : nat -> R) : R := f 0%nat + f 1%nat + f 2%nat.
Definition mm (A B : op3) : op3 := fun x y => sum3 (fun z => A x z * B z y).
(** Matrices that do not mix the plane and the z axis. *)
Definition planar (O : op3) : Prop := O 0%nat 2%nat = 0 /\ O 1%nat 2%nat = 0 /\ O 2%nat 0%nat = 0 /\ O 2%nat 1%nat = 0.
Definition isom (O : op3) : Prop := forall u v, dot2 (in_plane O u) (in_plane O v) = dot2 u v.

Lemma in_plane_mm A B v : planar B -> in_plane (mm A B) v = in_plane A (in_plane B v).
Proof.
  intros (H1 & H2 & H3 & H4). unfold in_plane, mm, sum3. cbn [fst snd]. rewrite H3, H4. apply r2_eq; cbn; ring.
Qed.

Lemma in_plane_add O u v : in_plane O (add2 u v) = add2 (in_plane O u) (in_plane O v).
Proof. unfold in_plane, add2. apply r2_eq; cbn; ring. Qed.
Lemma in_plane_scale O c v : in_plane O (scale2 c v) = scale2 c (in_plane O v).
Proof. unfold in_plane, scale2. apply r2_eq; cbn; ring. Qed.

Definition padd (R R' : pt) : pt := (fst R + fst R', snd R + snd R')%Z.
Lemma cart_padd angle R R' : cart angle (padd R R') = add2 (cart angle R) (cart angle R').
Proof. unfold cart, padd, add2. cbn [fst snd]. rewrite !plus_IZR. apply r2_eq; cbn [fst snd]; ring. Qed.
Lemma cart_negated angle R : cart angle (negated R) = scale2 (-1) (cart angle R).
Proof. unfold cart, negated, scale2. cbn [fst snd]. rewrite !opp_IZR. apply r2_eq; cbn [fst snd]; ring. Qed.

(** Operations that map the lattice onto itself. *)
Definition lattice_op (angle : Z) (O : op3) : Prop :=
  exists S S' : pt -> pt, (forall R, cart angle (S R) = in_plane O (cart angle R)) /\
    (forall R, cart angle (S' (S R)) = cart angle R) /\ (forall R, S (S' R) = R) /\ (forall R, S' (S R) = R).

Lemma s3 : sqrt 3 * sqrt 3 = 3.
Proof. apply sqrt_sqrt. lra. Qed.

Lemma threefold_planar : planar threefold.
Proof. unfold planar. cbn. auto. Qed.
Lemma mirror_planar : planar mirror.
Proof. unfold planar. cbn. auto. Qed.
Lemma threefold_isom : isom threefold.
Proof.
  intros u v. unfold in_plane, dot2, threefold. cbn [fst snd]. pose proof s3 as H.
  transitivity ((1 / 4 + sqrt 3 * sqrt 3 / 4) * (fst u * fst v + snd u * snd v)); [field|]. rewrite H. field.
Qed.
Lemma mirror_isom : isom mirror.
Proof. intros u v. unfold in_plane, dot2, mirror. cbn [fst snd]. ring. Qed.

Lemma threefold_lattice angle : angle = 60%Z \/ angle = 120%Z -> lattice_op angle threefold.
Proof.
  pose proof s3 as H. intros [-> | ->].
  - exists (fun R => (- snd R, fst R - snd R)%Z), (fun R => (snd R - fst R, - fst R)%Z).
    split; [|split; [|split]]; intros [a b]; cbn [fst snd]; try (f_equal; lia); [|f_equal; f_equal; lia].
    unfold cart, in_plane, threefold, lattice. cbn [fst snd Z.eqb Pos.eqb]. rewrite minus_IZR, opp_IZR.
    apply r2_eq; cbn [fst snd]; [|field].
    transitivity (- IZR a / 2 + IZR b / 4 - (sqrt 3 * sqrt 3) * IZR b / 4); [rewrite H; field|field].
  - exists (fun R => (- fst R - snd R, fst R)%Z), (fun R => (snd R, - fst R - snd R)%Z).
    split; [|split; [|split]]; intros [a b]; cbn [fst snd]; try (f_equal; lia); [|f_equal; f_equal; lia].
    unfold cart, in_plane, threefold, lattice. cbn [fst snd Z.eqb Pos.eqb]. rewrite minus_IZR, opp_IZR.
    apply r2_eq; cbn [fst snd]; [|field].
    transitivity (- IZR a / 2 - IZR b / 4 - (sqrt 3 * sqrt 3) * IZR b / 4); [rewrite H; field|field].
Qed.

Lemma mirror_lattice angle : allowed_angle angle -> lattice_op angle mirror.
Proof.
  intros [-> | [-> | ->]].
  - exists (fun R => (snd R - fst R, snd R)%Z), (fun R => (snd R - fst R, snd R)%Z).
    split; [|split; [|split]]; intros [a b]; cbn [fst snd]; try (f_equal; lia); [|f_equal; f_equal; lia].
    unfold cart, in_plane, mirror, lattice. cbn [fst snd Z.eqb Pos.eqb]. rewrite minus_IZR.
    apply r2_eq; cbn [fst snd]; field.
  - exists (fun R => (- fst R, snd R)%Z), (fun R => (- fst R, snd R)%Z).
    split; [|split; [|split]]; intros [a b]; cbn [fst snd]; try (f_equal; lia); [|f_equal; f_equal; lia].
    unfold cart, in_plane, mirror, lattice. cbn [fst snd Z.eqb Pos.eqb]. rewrite opp_IZR.
    apply r2_eq; cbn [fst snd]; ring.
  - exists (fun R => (- fst R - snd R, snd R)%Z), (fun R => (- fst R - snd R, snd R)%Z).
    split; [|split; [|split]]; intros [a b]; cbn [fst snd]; try (f_equal; lia); [|f_equal; f_equal; lia].
    unfold cart, in_plane, mirror, lattice. cbn [fst snd Z.eqb Pos.eqb]. rewrite minus_IZR, opp_IZR.
    apply r2_eq; cbn [fst snd]; field.
Qed.

(** ** Operations with all that is needed *)
Definition good (angle : Z) (nat_ : nat) (r : nat -> r2) (Phi : crystal) (O : op3) : Prop :=
  planar O /\ isom O /\ lattice_op angle O /\ symmetry_of angle nat_ r Phi O.

Lemma bond_eq angle r R n m : bond angle r R n m = add2 (cart angle R) (add2 (r m) (scale2 (-1) (r n))).
Proof. unfold bond, add2, scale2. apply r2_eq; cbn [fst snd]; ring. Qed.

(** Image of a bond. *)
Lemma bond_image angle nat_ r Phi O n m R : good angle nat_ r Phi O -> (n < nat_)%nat -> (m < nat_)%nat ->
  exists R', bond angle r R' n m = in_plane O (bond angle r R n m).
Proof.
  intros (_ & _ & (S & S' & H1 & _) & (Ha & _)) Hn Hm.
  destruct (Ha n Hn) as [Tn En]. destruct (Ha m Hm) as [Tm Em].
  exists (padd (S R) (padd Tm (negated Tn))).
  rewrite !bond_eq, !cart_padd, cart_negated, H1, !in_plane_add, in_plane_scale, En, Em.
  unfold add2, scale2. apply r2_eq; cbn [fst snd]; ring.
Qed.

Lemma good_mm angle nat_ r Phi A B : good angle nat_ r Phi A -> good angle nat_ r Phi B -> good angle nat_ r Phi (mm A B).
Proof.
  intros GA GB. pose proof GA as (PA & IA & LA & SA). pose proof GB as (PB & IB & LB & SB). split; [|split; [|split]].
  - destruct PA as (A1 & A2 & A3 & A4), PB as (B1 & B2 & B3 & B4). unfold planar, mm, sum3.
    rewrite ?A1, ?A2, ?A3, ?A4, ?B1, ?B2, ?B3, ?B4. repeat split; ring.
  - intros u v. rewrite !in_plane_mm by exact PB. rewrite IA. apply IB.
  - destruct LA as (Sa & Sa' & a1 & a2 & a3 & a4), LB as (Sb & Sb' & b1 & b2 & b3 & b4).
    exists (fun R => Sa (Sb R)), (fun R => Sb' (Sa' R)). split; [|split; [|split]]; intros R.
    + rewrite in_plane_mm by exact PB. rewrite a1, b1. reflexivity.
    + rewrite a4, b4. reflexivity.
    + rewrite b3, a3. reflexivity.
    + rewrite a4, b4. reflexivity.
  - destruct SA as [SA1 SA2], SB as [SB1 SB2]. destruct LA as (Sa & _ & a1 & _). split.
    + intros n Hn. destruct (SA1 n Hn) as [Ta Ea]. destruct (SB1 n Hn) as [Tb Eb].
      exists (padd Ta (Sa Tb)). rewrite in_plane_mm by exact PB. rewrite Eb, in_plane_add, Ea, cart_padd, a1.
      unfold add2. apply r2_eq; cbn [fst snd]; ring.
    + intros n m R R' Hn Hm E x y Hx Hy.
      destruct (bond_image angle nat_ r Phi B n m R GB Hn Hm) as [R1 E1].
      rewrite in_plane_mm in E by exact PB. rewrite <- E1 in E.
      pose proof (SA2 n m R1 R' Hn Hm E x y Hx Hy) as HA. cbn zeta in HA |- *. rewrite HA.
      rewrite !(fun x y Hx Hy => SB2 n m R R1 Hn Hm E1 x y Hx Hy) by lia. cbn zeta. unfold mm, sum3. ring.
Qed.

(** ** Sums *)
Lemma nsum_support {F : num} {A} (dec : forall x y : A, {x = y} + {x <> y}) (h : A -> F) l l' : NoDup l -> NoDup l' ->
  (forall x, In x l -> ~ In x l' -> h x = n0) -> (forall x, In x l' -> ~ In x l -> h x = n0) -> nsum h l = nsum h l'.
Proof.
  assert (G : forall l l', (forall x, In x l -> ~ In x l' -> h x = n0) ->
    nsum h l = nsum h (filter (fun x => if in_dec dec x l' then true else false) l)).
  { clear. intros l l'. induction l as [|x l IH]; intros H; [reflexivity|]. cbn [nsum filter].
    rewrite IH by (intros y Hy; apply H; right; exact Hy). destruct (in_dec dec x l') as [i|i]; [reflexivity|].
    rewrite H; [|left; reflexivity|exact i]. apply (Radd_0_l (@n_ring F)). }
  intros N N' H H'. rewrite (G l l' H), (G l' l H'). apply nsum_perm. apply NoDup_Permutation; [apply NoDup_filter, N|apply NoDup_filter, N'|].
  intros x. rewrite !filter_In. destruct (in_dec dec x l), (in_dec dec x l'); intuition congruence.
Qed.

Lemma RtoC_mul a b : RtoC (a * b) = nmul (RtoC a) (RtoC b).
Proof. unfold RtoC. cbn. apply f_equal2; ring. Qed.
Lemma RtoC_add a b : RtoC (a + b) = nadd (RtoC a) (RtoC b).
Proof. unfold RtoC. cbn. apply f_equal2; ring. Qed.
Lemma RtoC_conj a : nconj (RtoC a) = RtoC a.
Proof. unfold RtoC. cbn. apply f_equal2; ring. Qed.
Lemma RtoC_0 : RtoC 0 = @n0 C.
Proof. reflexivity. Qed.

Definition csum3 (f : nat -> C) : C := nadd (nadd (f 0%nat) (f 1%nat)) (f 2%nat).
(** [O D O^T] of the block of a pair of atoms. *)
Definition sand (O : op3) (D : cmat) (n m x y : nat) : C :=
  csum3 (fun x' => csum3 (fun y' => nmul (nmul (RtoC (O x x')) (D (3 * n + x') (3 * m + y'))%nat) (RtoC (O y y')))).

(** ** Covariance *)
Section Covariance.
  Variables (angle nq : Z) (nat_ : nat) (r : nat -> r2) (Phi : crystal) (cells : list pt).
  Hypothesis Hc : range_of cells Phi.

  (** Sum over R with any in-plane wave vector. *)
  Definition dynq (q : r2) (a b : nat) : C :=
    nsum (fun R => nmul (RtoC (Phi R a b)) (expi (dot2 q (cart angle R)))) cells.

  Lemma dynq_covariant O q n m x y : good angle nat_ r Phi O ->
    (n < nat_)%nat -> (m < nat_)%nat -> (x < 3)%nat -> (y < 3)%nat ->
    let p k := expi (dot2 (add2 q (scale2 (-1) (in_plane O q))) (r k)) in
    nmul (nmul (sand O (dynq q) n m x y) (nconj (p n))) (p m) = dynq (in_plane O q) (3 * n + x) (3 * m + y).
  Proof.
    intros G Hn Hm Hx Hy p. pose proof G as (PO & IO & (S & S' & H1 & H2 & H3 & H4) & (Ha & Hb)).
    destruct (Ha n Hn) as [Tn En]. destruct (Ha m Hm) as [Tm Em].
    set (t := padd Tm (negated Tn)).
    set (f := fun R => padd (S R) t). set (g := fun R => S' (padd R (negated t))).
    assert (fg : forall R, f (g R) = R).
    { intros R. unfold f, g. rewrite H3. unfold padd, negated. destruct R. cbn [fst snd]. f_equal; lia. }
    assert (gf : forall R, g (f R) = R).
    { intros R. unfold f, g. replace (padd (padd (S R) t) (negated t)) with (S R); [apply H4|].
      unfold padd, negated. destruct (S R). cbn [fst snd]. f_equal; lia. }
    assert (Hbond : forall R, bond angle r (f R) n m = in_plane O (bond angle r R n m)).
    { intros R. unfold f, t. rewrite !bond_eq, !cart_padd, cart_negated, H1, !in_plane_add, in_plane_scale, En, Em.
      unfold add2, scale2. apply r2_eq; cbn [fst snd]; ring. }
    destruct Hc as [Nc Zc].
    set (h := fun R => nmul (RtoC (Phi R (3 * n + x)%nat (3 * m + y)%nat)) (expi (dot2 (in_plane O q) (cart angle R)))).
    change (dynq (in_plane O q) (3 * n + x) (3 * m + y)) with (nsum h cells).
    assert (Zf : forall R, ~ In R cells -> Phi (f R) (3 * n + x)%nat (3 * m + y)%nat = 0).
    { intros R HR. rewrite (Hb n m R (f R) Hn Hm (Hbond R) x y Hx Hy). cbn zeta. rewrite !Zc by exact HR. ring. }
    transitivity (nsum h (map f cells)).
    - rewrite nsum_map.
      transitivity (nsum (fun R => nmul (nmul (sand O (fun a b => nmul (RtoC (Phi R a b)) (expi (dot2 q (cart angle R)))) n m x y)
        (nconj (p n))) (p m)) cells).
      { rewrite !nsum_mul_r. f_equal. f_equal. unfold sand, csum3, dynq.
        rewrite <- !nsum_mul_l, <- !nsum_mul_r, <- !nsum_add. reflexivity. }
      apply nsum_ext. intros R _. unfold h.
      rewrite (Hb n m R (f R) Hn Hm (Hbond R) x y Hx Hy). cbn zeta.
      set (E := expi (dot2 q (cart angle R))).
      assert (HE : nmul (nmul E (nconj (p n))) (p m) = expi (dot2 (in_plane O q) (cart angle (f R)))).
      { unfold E, p. rewrite expi_conj, <- !expi_add. f_equal. clear E.
        transitivity (dot2 (in_plane O q) (in_plane O (bond angle r R n m)) + dot2 (in_plane O q) (add2 (r n) (scale2 (-1) (r m)))).
        - rewrite IO, bond_eq. unfold dot2, add2, scale2. cbn [fst snd]. ring.
        - rewrite <- Hbond, bond_eq. unfold dot2, add2, scale2. cbn [fst snd]. ring. }
      rewrite <- HE. unfold sand, csum3. rewrite !RtoC_add, !RtoC_mul, !RtoC_add, !RtoC_mul. ring.
    - apply (nsum_support pt_eq_dec).
      + apply FinFun.Injective_map_NoDup; [|exact Nc]. intros a b E. rewrite <- (gf a), <- (gf b), E. reflexivity.
      + exact Nc.
      + intros R _ HR. unfold h. rewrite Zc by exact HR. rewrite RtoC_0. ring.
      + intros R _ HR. unfold h. rewrite <- (fg R), Zf.
        * rewrite RtoC_0. ring.
        * intros HI. apply HR. apply in_map_iff. exists (g R). split; [apply fg|exact HI].
  Qed.
End Covariance.
