(** Proofs about LatModel.v. *)
From Coq Require Import Znumtheory.
From Verif Require Import Common CommonProofs LatModel LatSpec.
Local Open Scope Z_scope.

Lemma vec_ext u v : vx u = vx v -> vy u = vy v -> vz u = vz v -> u = v.
Proof. destruct u, v; cbn; intros -> -> ->; reflexivity. Qed.

Ltac vring := apply vec_ext; cbn [vx vy vz vadd vopp vsub vscale vzero cross comb]; ring.
Ltac vlia := apply vec_ext; cbn [vx vy vz vadd vopp vsub vscale vzero cross comb]; lia.

Lemma veqb_eq u v : veqb u v = true <-> u = v.
Proof. unfold veqb. destruct (vec_eq_dec u v); split; congruence. Qed.

Lemma veqb_refl u : veqb u u = true.
Proof. apply veqb_eq. reflexivity. Qed.

Lemma in_zrange lo hi x : In x (zrange lo hi) <-> lo <= x < hi.
Proof.
  unfold zrange. rewrite in_map_iff. split.
  - intros (i & <- & Hi). apply in_seq in Hi. lia.
  - intros H. exists (Z.to_nat (x - lo)). split; [lia|]. apply in_seq. lia.
Qed.

Lemma NoDup_map_inj {A B} (f : A -> B) l :
  (forall x y, f x = f y -> x = y) -> NoDup l -> NoDup (map f l).
Proof.
  intros Hf. induction 1 as [|x l Hx Hl IH]; cbn; constructor; [|exact IH].
  intros H. apply in_map_iff in H. destruct H as (y & Hy & Hin). apply Hf in Hy. congruence.
Qed.

Lemma NoDup_zrange lo hi : NoDup (zrange lo hi).
Proof. apply NoDup_map_inj; [intros x y; lia|apply seq_NoDup]. Qed.

Lemma NoDup_app' {A} (l1 l2 : list A) :
  NoDup l1 -> NoDup l2 -> (forall x, In x l1 -> ~ In x l2) -> NoDup (l1 ++ l2).
Proof.
  induction 1 as [|x l1 Hx Hl IH]; intros H2 Hd; cbn; [exact H2|]. constructor.
  - rewrite in_app_iff. intros [H|H]; [contradiction|]. apply (Hd x); [left; reflexivity|exact H].
  - apply IH; [exact H2|]. intros y Hy. apply Hd. right; exact Hy.
Qed.

(** A list built from disjoint pieces. *)
Lemma NoDup_flat_map {A B} (f : A -> list B) (g : B -> A) l :
  (forall x y, In y (f x) -> g y = x) -> (forall x, NoDup (f x)) -> NoDup l -> NoDup (flat_map f l).
Proof.
  intros Hg Hf. induction 1 as [|x l Hx Hl IH]; cbn; [constructor|].
  apply NoDup_app'; [apply Hf|exact IH|].
  intros y Hy Hin. apply in_flat_map in Hin. destruct Hin as (z & Hz & Hyz).
  apply Hg in Hy, Hyz. congruence.
Qed.

(** ** Counting representatives *)

(** An injective relation from one list without repetition into another. *)
Lemma rel_le {A B} (P : A -> B -> Prop) l : NoDup l -> forall l' : list B,
  (forall x, In x l -> exists y, In y l' /\ P x y) ->
  (forall x x' y, In x l -> In x' l -> P x y -> P x' y -> x = x') ->
  (length l <= length l')%nat.
Proof.
  induction 1 as [|x l Hx Hl IH]; intros l' He Hi; cbn [length]; [lia|].
  destruct (He x (or_introl eq_refl)) as (y & Hy & Pxy).
  apply in_split in Hy. destruct Hy as (l1 & l2 & ->).
  specialize (IH (l1 ++ l2)). rewrite app_length in *. cbn [length]. enough (length l <= length l1 + length l2)%nat by lia.
  apply IH.
  - intros z Hz. destruct (He z (or_intror Hz)) as (w & Hw & Pzw). exists w. split; [|exact Pzw].
    rewrite in_app_iff in *. destruct Hw as [Hw|[<-|Hw]]; auto.
    exfalso. apply Hx. rewrite (Hi x z y); auto; [left; reflexivity|right; exact Hz].
  - intros a b c Ha Hb. apply Hi; right; assumption.
Qed.

Section Lattice.
  Variable L : vec -> Prop.
  Hypothesis L_add : forall u v, L u -> L v -> L (vadd u v).
  Hypothesis L_opp : forall u, L u -> L (vopp u).

  Lemma L_sub u v : L u -> L v -> L (vsub u v).
  Proof. intros Hu Hv. replace (vsub u v) with (vadd u (vopp v)) by vring. auto. Qed.

  Lemma representatives_le l l' : representatives L l -> representatives L l' -> (length l <= length l')%nat.
  Proof.
    intros [Hnd Hr] [Hnd' Hr']. apply (rel_le (fun c c' => L (vsub c c')) l Hnd).
    - intros x _. destruct (Hr' x) as (c & Hc & _). exists c. exact Hc.
    - intros x x' y Hx Hx' H H'.
      destruct (Hr y) as (c & _ & Hu).
      assert (H1 : c = x). { apply Hu. split; [exact Hx|]. replace (vsub y x) with (vopp (vsub x y)) by vring. auto. }
      assert (H2 : c = x'). { apply Hu. split; [exact Hx'|]. replace (vsub y x') with (vopp (vsub x' y)) by vring. auto. }
      congruence.
  Qed.
End Lattice.

Lemma in_lattice_add N1 N2 N3 u v :
  in_lattice N1 N2 N3 u -> in_lattice N1 N2 N3 v -> in_lattice N1 N2 N3 (vadd u v).
Proof. intros [n ->] [m ->]. exists (vadd n m). vring. Qed.

Lemma in_lattice_opp N1 N2 N3 u : in_lattice N1 N2 N3 u -> in_lattice N1 N2 N3 (vopp u).
Proof. intros [n ->]. exists (vopp n). vring. Qed.

(** There is a system of representatives with |det| elements. *)
Definition counted (N1 N2 N3 : vec) : Prop :=
  exists l, representatives (in_lattice N1 N2 N3) l /\ Z.of_nat (length l) = Z.abs (det3 N1 N2 N3).

Lemma representatives_iff (L L' : vec -> Prop) l : (forall v, L v <-> L' v) ->
  representatives L l -> representatives L' l.
Proof.
  intros H [Hnd Hr]. split; [exact Hnd|]. intros v. destruct (Hr v) as (c & [Hc Hv] & Hu).
  exists c. split; [split; [exact Hc|apply H, Hv]|]. intros c' [Hc' Hv']. apply Hu. split; [exact Hc'|apply H, Hv'].
Qed.

Lemma counted_unimodular N1 N2 N3 u v s t : u * t - v * s = 1 ->
  counted (vadd (vscale u N1) (vscale v N2)) (vadd (vscale s N1) (vscale t N2)) N3 ->
  counted N1 N2 N3.
Proof.
  intros Hu (l & Hl & Hlen). exists l. split.
  - eapply representatives_iff; [|exact Hl]. intros w. split; intros [n ->].
    + exists (V3 (u * vx n + s * vy n) (v * vx n + t * vy n) (vz n)). vring.
    + exists (V3 (t * vx n - s * vy n) (- v * vx n + u * vy n) (vz n)).
      apply vec_ext; cbn [vx vy vz vadd vscale comb];
      replace (vx n) with (vx n * (u * t - v * s)) at 1 by (rewrite Hu; ring);
      replace (vy n) with (vy n * (u * t - v * s)) at 1 by (rewrite Hu; ring); ring.
  - rewrite Hlen. f_equal. unfold det3. cbn [vx vy vz vadd vscale].
    replace (vx N1 * vy N2 * vz N3 + vy N1 * vz N2 * vx N3 + vz N1 * vx N2 * vy N3
      - vz N1 * vy N2 * vx N3 - vy N1 * vx N2 * vz N3 - vx N1 * vz N2 * vy N3) with
     ((u * t - v * s) * (vx N1 * vy N2 * vz N3 + vy N1 * vz N2 * vx N3 + vz N1 * vx N2 * vy N3
      - vz N1 * vy N2 * vx N3 - vy N1 * vx N2 * vz N3 - vx N1 * vz N2 * vy N3)) by (rewrite Hu; ring).
    ring.
Qed.

Lemma counted_swap23 N1 N2 N3 : counted N1 N3 N2 -> counted N1 N2 N3.
Proof.
  intros (l & Hl & Hlen). exists l. split.
  - eapply representatives_iff; [|exact Hl]. intros w. split; intros [n ->]; exists (V3 (vx n) (vz n) (vy n)); vring.
  - rewrite Hlen. rewrite <- Z.abs_opp. f_equal. unfold det3. ring.
Qed.

Lemma counted_cycle N1 N2 N3 : counted N2 N3 N1 -> counted N1 N2 N3.
Proof.
  intros (l & Hl & Hlen). exists l. split.
  - eapply representatives_iff; [|exact Hl]. intros w. split; intros [n ->].
    + exists (V3 (vz n) (vx n) (vy n)). vring.
    + exists (V3 (vy n) (vz n) (vx n)). vring.
  - rewrite Hlen. f_equal. unfold det3. ring.
Qed.

(** An integer matrix of determinant one that annihilates (a, b). *)
Lemma bezout_step a b : exists u v s t, u * t - v * s = 1 /\ s * a + t * b = 0.
Proof.
  destruct (Z.eq_dec (Z.gcd a b) 0) as [Hg|Hg].
  - apply Z.gcd_eq_0 in Hg. destruct Hg as [-> ->]. exists 1, 0, 0, 1. lia.
  - destruct (Z.gcd_bezout a b (Z.gcd a b) eq_refl) as (u & v & Huv).
    destruct (Z.gcd_divide_l a b) as [p Hp]. destruct (Z.gcd_divide_r a b) as [q Hq].
    exists u, v, (- q), p. split.
    + apply (Z.mul_reg_r _ _ (Z.gcd a b) Hg).
      replace ((u * p - v * - q) * Z.gcd a b) with (u * (p * Z.gcd a b) + v * (q * Z.gcd a b)) by ring.
      rewrite <- Hp, <- Hq, Huv. ring.
    + transitivity (- q * (p * Z.gcd a b) + p * (q * Z.gcd a b)); [rewrite <- Hp, <- Hq; reflexivity|ring].
Qed.

Lemma divide_abs a x : a <> 0 -> exists n y, x = a * n + y /\ 0 <= y < Z.abs a.
Proof.
  intros Ha. exists (Z.sgn a * (x / Z.abs a)), (x mod Z.abs a). split.
  - rewrite Z.mul_assoc.
    replace (a * Z.sgn a) with (Z.abs a) by lia. apply Z.div_mod. lia.
  - apply Z.mod_pos_bound. lia.
Qed.

Lemma counted_triangular a p q b r c : a <> 0 -> b <> 0 -> c <> 0 ->
  counted (V3 a p q) (V3 0 b r) (V3 0 0 c).
Proof.
  intros Ha Hb Hc.
  exists (flat_map (fun x => flat_map (fun y => map (fun z => V3 x y z)
    (zrange 0 (Z.abs c))) (zrange 0 (Z.abs b))) (zrange 0 (Z.abs a))).
  assert (Hin : forall v, In v (flat_map (fun x => flat_map (fun y => map (fun z => V3 x y z)
    (zrange 0 (Z.abs c))) (zrange 0 (Z.abs b))) (zrange 0 (Z.abs a))) <->
    0 <= vx v < Z.abs a /\ 0 <= vy v < Z.abs b /\ 0 <= vz v < Z.abs c).
  { intros v. rewrite in_flat_map. split.
    - intros (x & Hx & Hv). apply in_flat_map in Hv. destruct Hv as (y & Hy & Hv).
      apply in_map_iff in Hv. destruct Hv as (z & <- & Hz). rewrite in_zrange in *. cbn. auto.
    - intros (Hx & Hy & Hz). exists (vx v). split; [apply in_zrange; exact Hx|].
      apply in_flat_map. exists (vy v). split; [apply in_zrange; exact Hy|].
      apply in_map_iff. exists (vz v). split; [destruct v; reflexivity|apply in_zrange; exact Hz]. }
  split; [split|].
  - apply (NoDup_flat_map _ vx).
    + intros x v Hv. apply in_flat_map in Hv. destruct Hv as (y & _ & Hv). apply in_map_iff in Hv. destruct Hv as (z & <- & _). reflexivity.
    + intros x. apply (NoDup_flat_map _ vy).
      * intros y v Hv. apply in_map_iff in Hv. destruct Hv as (z & <- & _). reflexivity.
      * intros y. apply NoDup_map_inj; [congruence|apply NoDup_zrange].
      * apply NoDup_zrange.
    + apply NoDup_zrange.
  - intros v.
    destruct (divide_abs a (vx v) Ha) as (n1 & x & Hx & Hx').
    destruct (divide_abs b (vy v - p * n1) Hb) as (n2 & y & Hy & Hy').
    destruct (divide_abs c (vz v - q * n1 - r * n2) Hc) as (n3 & z & Hz & Hz').
    exists (V3 x y z). split.
    + split; [apply Hin; cbn; auto|]. exists (V3 n1 n2 n3).
      apply vec_ext; cbn [vx vy vz vadd vsub vscale comb]; nia.
    + intros w [Hw [m Hm]]. apply Hin in Hw. destruct Hw as (Wx & Wy & Wz).
      assert (Ex : vx v - vx w = a * vx m).
      { transitivity (vx (vsub v w)); [reflexivity|]. rewrite Hm. cbn. ring. }
      assert (Ey : vy v - vy w = p * vx m + b * vy m).
      { transitivity (vy (vsub v w)); [reflexivity|]. rewrite Hm. cbn. ring. }
      assert (Ez : vz v - vz w = q * vx m + r * vy m + c * vz m).
      { transitivity (vz (vsub v w)); [reflexivity|]. rewrite Hm. cbn. ring. }
      assert (Hsmall : forall d k e, d <> 0 -> d * k = e -> - Z.abs d < e < Z.abs d -> k = 0) by (intros; nia).
      assert (M1 : vx m - n1 = 0) by (apply (Hsmall a (vx m - n1) (x - vx w) Ha); [nia|lia]).
      assert (M2 : vy m - n2 = 0).
      { apply (Hsmall b (vy m - n2) (y - vy w) Hb); [|lia]. replace (vx m) with n1 in Ey by lia. nia. }
      assert (M3 : vz m - n3 = 0).
      { apply (Hsmall c (vz m - n3) (z - vz w) Hc); [|lia].
        replace (vx m) with n1 in Ez by lia. replace (vy m) with n2 in Ez by lia. nia. }
      replace (vx m) with n1 in * by lia. replace (vy m) with n2 in * by lia. replace (vz m) with n3 in * by lia.
      apply vec_ext; cbn; lia.
  - assert (Hfm : forall {A} (f : Z -> list A) k l, (forall x, length (f x) = k) -> length (flat_map f l) = (length l * k)%nat).
    { intros A f k l Hf. induction l as [|x l IH]; cbn; [reflexivity|]. rewrite app_length, Hf, IH. reflexivity. }
    assert (Hzl : forall n, length (zrange 0 (Z.abs n)) = Z.abs_nat n).
    { intros n. unfold zrange. rewrite map_length, seq_length. lia. }
    rewrite (Hfm _ _ (Z.abs_nat b * Z.abs_nat c)%nat).
    + rewrite Hzl. unfold det3. cbn [vx vy vz].
      replace (a * b * c + p * r * 0 + q * 0 * 0 - q * b * 0 - p * 0 * c - a * r * 0) with (a * b * c) by ring.
      rewrite !Z.abs_mul. nia.
    + intros x. rewrite (Hfm _ _ (Z.abs_nat c)); [rewrite Hzl; reflexivity|].
      intros y. rewrite map_length. apply Hzl.
Qed.

Lemma counted_all N1 N2 N3 : det3 N1 N2 N3 <> 0 -> counted N1 N2 N3.
Proof.
  (* annihilate the x component of N2 *)
  intros Hd. destruct (bezout_step (vx N1) (vx N2)) as (u & v & s & t & Hu & Hs).
  apply (counted_unimodular N1 N2 N3 u v s t Hu).
  assert (Hd1 : det3 (vadd (vscale u N1) (vscale v N2)) (vadd (vscale s N1) (vscale t N2)) N3 <> 0).
  { intros H. apply Hd. rewrite <- H. unfold det3. cbn [vx vy vz vadd vscale].
    replace (vx N1 * vy N2 * vz N3 + vy N1 * vz N2 * vx N3 + vz N1 * vx N2 * vy N3
      - vz N1 * vy N2 * vx N3 - vy N1 * vx N2 * vz N3 - vx N1 * vz N2 * vy N3) with
     ((u * t - v * s) * (vx N1 * vy N2 * vz N3 + vy N1 * vz N2 * vx N3 + vz N1 * vx N2 * vy N3
      - vz N1 * vy N2 * vx N3 - vy N1 * vx N2 * vz N3 - vx N1 * vz N2 * vy N3)) by (rewrite Hu; ring).
    ring. }
  assert (H2 : vx (vadd (vscale s N1) (vscale t N2)) = 0) by (cbn; exact Hs).
  revert Hd1 H2. generalize (vadd (vscale u N1) (vscale v N2)) as M1. generalize (vadd (vscale s N1) (vscale t N2)) as M2.
  clear. intros M2 M1 Hd H2.
  (* annihilate the x component of N3 *)
  apply counted_swap23.
  destruct (bezout_step (vx M1) (vx N3)) as (u & v & s & t & Hu & Hs).
  apply (counted_unimodular M1 N3 M2 u v s t Hu).
  assert (Hd1 : det3 (vadd (vscale u M1) (vscale v N3)) M2 (vadd (vscale s M1) (vscale t N3)) <> 0).
  { intros H. apply Hd. rewrite <- H. unfold det3. cbn [vx vy vz vadd vscale].
    replace (vx M1 * vy M2 * vz N3 + vy M1 * vz M2 * vx N3 + vz M1 * vx M2 * vy N3
      - vz M1 * vy M2 * vx N3 - vy M1 * vx M2 * vz N3 - vx M1 * vz M2 * vy N3) with
     ((u * t - v * s) * (vx M1 * vy M2 * vz N3 + vy M1 * vz M2 * vx N3 + vz M1 * vx M2 * vy N3
      - vz M1 * vy M2 * vx N3 - vy M1 * vx M2 * vz N3 - vx M1 * vz M2 * vy N3)) by (rewrite Hu; ring).
    ring. }
  assert (H3 : vx (vadd (vscale s M1) (vscale t N3)) = 0) by (cbn; exact Hs).
  revert Hd1 H3. generalize (vadd (vscale u M1) (vscale v N3)) as K1. generalize (vadd (vscale s M1) (vscale t N3)) as K3.
  clear - H2. intros K3 K1 Hd H3.
  (* annihilate the y component of N3 *)
  apply counted_swap23, counted_cycle.
  destruct (bezout_step (vy M2) (vy K3)) as (u & v & s & t & Hu & Hs).
  apply (counted_unimodular M2 K3 K1 u v s t Hu).
  apply counted_cycle, counted_cycle.
  assert (Hd1 : det3 K1 (vadd (vscale u M2) (vscale v K3)) (vadd (vscale s M2) (vscale t K3)) <> 0).
  { intros H. apply Hd. rewrite <- H. unfold det3. cbn [vx vy vz vadd vscale].
    replace (vx K1 * vy M2 * vz K3 + vy K1 * vz M2 * vx K3 + vz K1 * vx M2 * vy K3
      - vz K1 * vy M2 * vx K3 - vy K1 * vx M2 * vz K3 - vx K1 * vz M2 * vy K3) with
     ((u * t - v * s) * (vx K1 * vy M2 * vz K3 + vy K1 * vz M2 * vx K3 + vz K1 * vx M2 * vy K3
      - vz K1 * vy M2 * vx K3 - vy K1 * vx M2 * vz K3 - vx K1 * vz M2 * vy K3)) by (rewrite Hu; ring).
    ring. }
  assert (H4 : vx (vadd (vscale u M2) (vscale v K3)) = 0) by (cbn; rewrite H2, H3; ring).
  assert (H5 : vx (vadd (vscale s M2) (vscale t K3)) = 0) by (cbn; rewrite H2, H3; ring).
  assert (H6 : vy (vadd (vscale s M2) (vscale t K3)) = 0) by (cbn; exact Hs).
  revert Hd1 H4 H5 H6.
  generalize (vadd (vscale u M2) (vscale v K3)) as J2. generalize (vadd (vscale s M2) (vscale t K3)) as J3.
  clear. intros J3 J2 Hd H4 H5 H6.
  destruct K1 as [a p q], J2 as [b0 b r], J3 as [c0 c1 c]. cbn in *. subst b0 c0 c1.
  unfold det3 in Hd. cbn in Hd.
  assert (Hp : a * b * c <> 0) by (intros H; apply Hd; transitivity (a * b * c); [ring|exact H]).
  apply counted_triangular; intros ->; apply Hp; ring.
Qed.

(** ** supercell *)

Lemma min_list_le l x : In x l -> min_list l <= x.
Proof.
  destruct l as [|y l]; [intros []|]. cbn [min_list].
  assert (H : forall l y, fold_left Z.min l y <= y /\ (forall x, In x l -> fold_left Z.min l y <= x)).
  { clear. induction l as [|z l IH]; intros y; cbn [fold_left]; [split; [lia|intros x []]|].
    destruct (IH (Z.min y z)) as [H1 H2]. split; [lia|]. intros x [->|Hx]; [lia|apply H2, Hx]. }
  destruct (H l y) as [H1 H2]. intros [->|Hx]; [exact H1|apply H2, Hx].
Qed.

Lemma max_list_ge l x : In x l -> x <= max_list l.
Proof.
  destruct l as [|y l]; [intros []|]. cbn [max_list].
  assert (H : forall l y, y <= fold_left Z.max l y /\ (forall x, In x l -> x <= fold_left Z.max l y)).
  { clear. induction l as [|z l IH]; intros y; cbn [fold_left]; [split; [lia|intros x []]|].
    destruct (IH (Z.max y z)) as [H1 H2]. split; [lia|]. intros x [->|Hx]; [lia|apply H2, Hx]. }
  destruct (H l y) as [H1 H2]. intros [->|Hx]; [exact H1|apply H2, Hx].
Qed.

Lemma in_corners N1 N2 N3 n : 0 <= vx n <= 1 -> 0 <= vy n <= 1 -> 0 <= vz n <= 1 ->
  In (comb N1 N2 N3 n) (corners N1 N2 N3).
Proof.
  intros H1 H2 H3. unfold corners. apply in_flat_map. exists (vx n). split; [apply in_zrange; lia|].
  apply in_flat_map. exists (vy n). split; [apply in_zrange; lia|].
  apply in_map_iff. exists (vz n). split; [reflexivity|apply in_zrange; lia].
Qed.

Lemma bounding_box N1 N2 N3 N f g R : 0 < N ->
  (forall n, g (comb N1 N2 N3 n) = vx n * g N1 + vy n * g N2 + vz n * g N3) ->
  0 <= vx f < N -> 0 <= vy f < N -> 0 <= vz f < N ->
  N * g R = vx f * g N1 + vy f * g N2 + vz f * g N3 ->
  In (g R) (zrange (min_list (map g (corners N1 N2 N3))) (max_list (map g (corners N1 N2 N3)) + 1)).
Proof.
  intros HN Hg H1 H2 H3 HR. apply in_zrange. split.
  - set (n := V3 (if g N1 <? 0 then 1 else 0) (if g N2 <? 0 then 1 else 0) (if g N3 <? 0 then 1 else 0)).
    apply Z.le_trans with (g (comb N1 N2 N3 n)).
    + apply min_list_le. apply in_map. apply in_corners; cbn;
      [destruct (g N1 <? 0)|destruct (g N2 <? 0)|destruct (g N3 <? 0)]; lia.
    + rewrite Hg. apply (Zmult_le_reg_r _ _ N); [lia|]. rewrite (Z.mul_comm (g R)), HR. cbn [n vx vy vz].
      assert (Hc : forall a k, 0 <= k < N -> (if a <? 0 then 1 else 0) * a * N <= k * a).
      { intros a k Hk. destruct (Z.ltb_spec a 0); nia. }
      pose proof (Hc (g N1) (vx f) H1). pose proof (Hc (g N2) (vy f) H2). pose proof (Hc (g N3) (vz f) H3). lia.
  - set (n := V3 (if g N1 <? 0 then 0 else 1) (if g N2 <? 0 then 0 else 1) (if g N3 <? 0 then 0 else 1)).
    apply Z.lt_succ_r. apply Z.le_trans with (g (comb N1 N2 N3 n)).
    + rewrite Hg. apply (Zmult_le_reg_r _ _ N); [lia|]. rewrite (Z.mul_comm (g R)), HR. cbn [n vx vy vz].
      assert (Hc : forall a k, 0 <= k < N -> k * a <= (if a <? 0 then 0 else 1) * a * N).
      { intros a k Hk. destruct (Z.ltb_spec a 0); nia. }
      pose proof (Hc (g N1) (vx f) H1). pose proof (Hc (g N2) (vy f) H2). pose proof (Hc (g N3) (vz f) H3). lia.
    + apply max_list_ge. apply in_map. apply in_corners; cbn;
      [destruct (g N1 <? 0)|destruct (g N2 <? 0)|destruct (g N3 <? 0)]; lia.
Qed.

(** What the code calls N, N_i and B_i. *)
Definition sc_of (a1 a2 a3 : narg) : supercell_info :=
  let N1 := arg1 a1 in let N2 := arg2 a2 in let N3 := arg3 a3 in
  let d := det3 N1 N2 N3 in
  let B1 := vscale (Z.sgn d) (cross N2 N3) in
  let B2 := vscale (Z.sgn d) (cross N3 N1) in
  let B3 := vscale (Z.sgn d) (cross N1 N2) in
  {| sc_N := Z.abs d; sc_N1 := N1; sc_N2 := N2; sc_N3 := N3; sc_B1 := B1; sc_B2 := B2; sc_B3 := B3;
     sc_cells := cells_in (Z.abs d) N1 N2 N3 B1 B2 B3 |}.

Lemma dot_cross_det N1 N2 N3 : dot N1 (cross N2 N3) = det3 N1 N2 N3.
Proof. unfold dot, det3. cbn. ring. Qed.

Lemma supercell_unfold a1 a2 a3 : supercell a1 a2 a3 =
  if Z.of_nat (length (sc_cells (sc_of a1 a2 a3))) =? sc_N (sc_of a1 a2 a3)
  then Ok (sc_of a1 a2 a3) else Raise AssertionError.
Proof. unfold supercell. rewrite dot_cross_det. reflexivity. Qed.

Section Supercell.
  Variables (N1 N2 N3 : vec).
  Let d := det3 N1 N2 N3.
  Let B1 := vscale (Z.sgn d) (cross N2 N3).
  Let B2 := vscale (Z.sgn d) (cross N3 N1).
  Let B3 := vscale (Z.sgn d) (cross N1 N2).
  Let N := Z.abs d.

  Lemma sgn_abs : Z.sgn d * d = N.
  Proof. unfold N. lia. Qed.

  (** Coordinates with respect to the supercell, times N. *)
  Lemma expand R : comb N1 N2 N3 (V3 (dot R B1) (dot R B2) (dot R B3)) = vscale N R.
  Proof.
    unfold B1, B2, B3, dot. apply vec_ext; cbn [vx vy vz vadd vscale comb cross]; rewrite <- sgn_abs; unfold d, det3; ring.
  Qed.

  Lemma dot_comb n : dot (comb N1 N2 N3 n) B1 = N * vx n /\
    dot (comb N1 N2 N3 n) B2 = N * vy n /\ dot (comb N1 N2 N3 n) B3 = N * vz n.
  Proof.
    rewrite <- sgn_abs. unfold B1, B2, B3, dot. cbn [vx vy vz vadd vscale comb cross]. unfold d, det3.
    repeat split; ring.
  Qed.

  Lemma dot_sub u v B : dot (vsub u v) B = dot u B - dot v B.
  Proof. unfold dot. cbn. ring. Qed.

  Lemma inside_iff B R : inside N B R = true <-> 0 <= dot R B < N.
  Proof. unfold inside. rewrite andb_true_iff, Z.leb_le, Z.ltb_lt. reflexivity. Qed.

  Lemma in_cells R : In R (cells_in N N1 N2 N3 B1 B2 B3) <->
    0 <= dot R B1 < N /\ 0 <= dot R B2 < N /\ 0 <= dot R B3 < N.
  Proof.
    unfold cells_in. rewrite in_flat_map. split.
    - intros (x & _ & H). apply in_flat_map in H. destruct H as (y & _ & H).
      apply in_flat_map in H. destruct H as (z & _ & H).
      destruct (inside N B1 (V3 x y z)) eqn:E1; [|destruct H].
      destruct (inside N B2 (V3 x y z)) eqn:E2; [|destruct H].
      destruct (inside N B3 (V3 x y z)) eqn:E3; [|destruct H].
      destruct H as [<-|[]]. apply inside_iff in E1, E2, E3. auto.
    - intros (H1 & H2 & H3).
      assert (HN : 0 < N) by lia.
      pose proof (expand R) as He.
      assert (Hb : forall g, (forall n, g (comb N1 N2 N3 n) = vx n * g N1 + vy n * g N2 + vz n * g N3) ->
        N * g R = g (vscale N R) ->
        In (g R) (zrange (min_list (map g (corners N1 N2 N3))) (max_list (map g (corners N1 N2 N3)) + 1))).
      { intros g Hg Hs. apply (bounding_box N1 N2 N3 N (V3 (dot R B1) (dot R B2) (dot R B3)) g R HN Hg H1 H2 H3).
        rewrite Hs, <- He. apply Hg. }
      exists (vx R). split; [apply Hb; [intros n; cbn; ring|reflexivity]|].
      apply in_flat_map. exists (vy R). split; [apply Hb; [intros n; cbn; ring|reflexivity]|].
      apply in_flat_map. exists (vz R). split; [apply Hb; [intros n; cbn; ring|reflexivity]|].
      replace (V3 (vx R) (vy R) (vz R)) with R by (destruct R; reflexivity).
      rewrite (proj2 (inside_iff B1 R) H1), (proj2 (inside_iff B2 R) H2), (proj2 (inside_iff B3 R) H3).
      left. reflexivity.
  Qed.

  Lemma NoDup_cells : NoDup (cells_in N N1 N2 N3 B1 B2 B3).
  Proof.
    unfold cells_in. apply (NoDup_flat_map _ vx).
    - intros x v Hv. apply in_flat_map in Hv. destruct Hv as (y & _ & Hv). apply in_flat_map in Hv.
      destruct Hv as (z & _ & Hv). destruct (_ && _ && _); [destruct Hv as [<-|[]]; reflexivity|destruct Hv].
    - intros x. apply (NoDup_flat_map _ vy).
      + intros y v Hv. apply in_flat_map in Hv.
        destruct Hv as (z & _ & Hv). destruct (_ && _ && _); [destruct Hv as [<-|[]]; reflexivity|destruct Hv].
      + intros y. apply (NoDup_flat_map _ vz).
        * intros z v Hv. destruct (_ && _ && _); [destruct Hv as [<-|[]]; reflexivity|destruct Hv].
        * intros z. destruct (_ && _ && _); repeat constructor. intros [].
        * apply NoDup_zrange.
      + apply NoDup_zrange.
    - apply NoDup_zrange.
  Qed.

  Hypothesis Hd : d <> 0.

  Lemma N_pos : 0 < N.
  Proof. unfold N. lia. Qed.

  Lemma vscale_inj n u v : n <> 0 -> vscale n u = vscale n v -> u = v.
  Proof.
    intros Hn H. injection H as Hx Hy Hz. apply vec_ext; eapply Z.mul_reg_l; eauto.
  Qed.

  (** The decomposition computed by to_supercell. *)
  Lemma decompose R :
    let n := V3 (dot R B1 / N) (dot R B2 / N) (dot R B3 / N) in
    let q := V3 (dot R B1 mod N) (dot R B2 mod N) (dot R B3 mod N) in
    let r := vsub R (comb N1 N2 N3 n) in
    comb N1 N2 N3 q = vscale N r /\ In r (cells_in N N1 N2 N3 B1 B2 B3).
  Proof.
    intros n q r. pose proof N_pos as HN.
    assert (Hdm : forall x, x = N * (x / N) + x mod N) by (intros x; apply Z.div_mod; lia).
    split.
    - unfold r. transitivity (vsub (vscale N R) (vscale N (comb N1 N2 N3 n))); [|vring].
      rewrite <- (expand R). rewrite (Hdm (dot R B1)) at 1. rewrite (Hdm (dot R B2)) at 1. rewrite (Hdm (dot R B3)) at 1.
      unfold q, n. vring.
    - apply in_cells. unfold r. rewrite !dot_sub.
      destruct (dot_comb n) as (E1 & E2 & E3). rewrite E1, E2, E3. cbn [n vx vy vz].
      pose proof (Hdm (dot R B1)). pose proof (Hdm (dot R B2)). pose proof (Hdm (dot R B3)).
      pose proof (Z.mod_pos_bound (dot R B1) N HN). pose proof (Z.mod_pos_bound (dot R B2) N HN).
      pose proof (Z.mod_pos_bound (dot R B3) N HN). lia.
  Qed.

  Lemma cells_unique c c' n : In c (cells_in N N1 N2 N3 B1 B2 B3) -> In c' (cells_in N N1 N2 N3 B1 B2 B3) ->
    vsub c c' = comb N1 N2 N3 n -> n = vzero.
  Proof.
    intros Hc Hc' H. apply in_cells in Hc, Hc'. pose proof N_pos as HN.
    destruct (dot_comb n) as (E1 & E2 & E3). rewrite <- H, dot_sub in E1, E2, E3.
    apply vec_ext; cbn; nia.
  Qed.

  Lemma comb_zero : comb N1 N2 N3 vzero = vzero.
  Proof. vring. Qed.

  Lemma cells_representatives : representatives (in_lattice N1 N2 N3) (cells_in N N1 N2 N3 B1 B2 B3).
  Proof.
    split; [apply NoDup_cells|]. intros v. destruct (decompose v) as [_ Hin].
    set (n := V3 (dot v B1 / N) (dot v B2 / N) (dot v B3 / N)) in *.
    exists (vsub v (comb N1 N2 N3 n)). split.
    - split; [exact Hin|]. exists n. vring.
    - intros c [Hc [m Hm]].
      assert (E : vsub n m = vzero).
      { apply (cells_unique c (vsub v (comb N1 N2 N3 n))); [exact Hc|exact Hin|].
        transitivity (vsub (comb N1 N2 N3 n) (vsub v c)); [vring|]. rewrite Hm. vring. }
      assert (n = m). { assert (Ex := f_equal vx E). assert (Ey := f_equal vy E). assert (Ez := f_equal vz E). cbn [vx vy vz vsub vzero] in Ex, Ey, Ez. apply vec_ext; lia. }
      subst m. rewrite <- Hm. vring.
  Qed.

  Lemma cells_length : Z.of_nat (length (cells_in N N1 N2 N3 B1 B2 B3)) = N.
  Proof.
    destruct (counted_all N1 N2 N3 Hd) as (l & Hl & Hlen).
    pose proof cells_representatives as Hc.
    assert (H1 := representatives_le _ (in_lattice_opp N1 N2 N3) _ _ Hl Hc).
    assert (H2 := representatives_le _ (in_lattice_opp N1 N2 N3) _ _ Hc Hl).
    transitivity (Z.of_nat (length l)); [lia|exact Hlen].
  Qed.

  Lemma in_cells_zero : In vzero (cells_in N N1 N2 N3 B1 B2 B3).
  Proof. apply in_cells. pose proof N_pos. unfold dot. cbn [vx vy vz vzero]. lia. Qed.
End Supercell.

Lemma supercell_Ok a1 a2 a3 : det3 (arg1 a1) (arg2 a2) (arg3 a3) <> 0 ->
  supercell a1 a2 a3 = Ok (sc_of a1 a2 a3).
Proof.
  intros Hd. rewrite supercell_unfold. cbn [sc_cells sc_N sc_of].
  rewrite (cells_length _ _ _ Hd), Z.eqb_refl. reflexivity.
Qed.

Lemma supercell_spec a1 a2 a3 :
  let N1 := arg1 a1 in let N2 := arg2 a2 in let N3 := arg3 a3 in
  det3 N1 N2 N3 <> 0 ->
  exists s, supercell a1 a2 a3 = Ok s /\
    sc_N1 s = N1 /\ sc_N2 s = N2 /\ sc_N3 s = N3 /\
    sc_N s = Z.abs (det3 N1 N2 N3) /\
    Z.of_nat (length (sc_cells s)) = Z.abs (det3 N1 N2 N3) /\
    representatives (in_lattice N1 N2 N3) (sc_cells s) /\
    In vzero (sc_cells s) /\
    (forall R, comb N1 N2 N3 (V3 (dot R (sc_B1 s)) (dot R (sc_B2 s)) (dot R (sc_B3 s))) = vscale (sc_N s) R).
Proof.
  intros N1 N2 N3 Hd. exists (sc_of a1 a2 a3). split; [apply supercell_Ok, Hd|].
  cbn [sc_of sc_N sc_N1 sc_N2 sc_N3 sc_B1 sc_B2 sc_B3 sc_cells].
  repeat (split; [reflexivity|]). split; [apply cells_length, Hd|].
  split; [apply cells_representatives, Hd|]. split; [apply in_cells_zero, Hd|].
  intros R. apply expand.
Qed.

Lemma supercell_degenerate a1 a2 a3 : det3 (arg1 a1) (arg2 a2) (arg3 a3) = 0 ->
  exists s, supercell a1 a2 a3 = Ok s /\ sc_N s = 0 /\ sc_cells s = [] /\
  forall R, to_supercell R s = Raise ValueError.
Proof.
  intros Hd. exists (sc_of a1 a2 a3). rewrite supercell_unfold.
  assert (Hc : sc_cells (sc_of a1 a2 a3) = []).
  { destruct (sc_cells (sc_of a1 a2 a3)) as [|c l] eqn:E; [reflexivity|].
    assert (Hin : In c (sc_cells (sc_of a1 a2 a3))) by (rewrite E; left; reflexivity).
    cbn [sc_of sc_cells] in Hin. apply in_cells in Hin. rewrite Hd in Hin. cbn in Hin. lia. }
  assert (HN : sc_N (sc_of a1 a2 a3) = 0) by (cbn [sc_of sc_N]; rewrite Hd; reflexivity).
  rewrite Hc, HN. cbn. split; [reflexivity|]. split; [reflexivity|]. split; [reflexivity|].
  intros R. unfold to_supercell. rewrite HN. reflexivity.
Qed.

(** ** to_supercell *)

Lemma div_scaled n x : n <> 0 -> n * x / n = x.
Proof. intros H. rewrite Z.mul_comm. apply Z.div_mul, H. Qed.

Lemma to_supercell_spec a1 a2 a3 s R : 
  det3 (arg1 a1) (arg2 a2) (arg3 a3) <> 0 -> supercell a1 a2 a3 = Ok s ->
  exists S i c, to_supercell R s = Ok (S, i) /\ nth_error (sc_cells s) i = Some c /\
    R = vadd (comb (arg1 a1) (arg2 a2) (arg3 a3) S) c.
Proof.
  intros Hd Hs. rewrite supercell_Ok in Hs by exact Hd. injection Hs as <-.
  unfold to_supercell. pose proof (N_pos _ _ _ Hd) as HN.
  destruct (Z.eqb_spec (sc_N (sc_of a1 a2 a3)) 0) as [E|_]; [cbn [sc_of sc_N] in E; lia|].
  cbn [sc_of sc_N sc_N1 sc_N2 sc_N3 sc_B1 sc_B2 sc_B3 sc_cells].
  destruct (decompose _ _ _ Hd R) as [Hr Hin].
  set (N1 := arg1 a1) in *. set (N2 := arg2 a2) in *. set (N3 := arg3 a3) in *.
  set (d := det3 N1 N2 N3) in *.
  set (B1 := vscale (Z.sgn d) (cross N2 N3)) in *. set (B2 := vscale (Z.sgn d) (cross N3 N1)) in *.
  set (B3 := vscale (Z.sgn d) (cross N1 N2)) in *. set (N := Z.abs d) in *.
  set (n := V3 (dot R B1 / N) (dot R B2 / N) (dot R B3 / N)) in *.
  unfold comb at 1 in Hr. cbn [vx vy vz] in Hr. rewrite Hr.
  set (r := vsub R (comb N1 N2 N3 n)) in *.
  replace (V3 (vx (vscale N r) / N) (vy (vscale N r) / N) (vz (vscale N r) / N)) with r.
  2: { apply vec_ext; cbn [vx vy vz vscale]; rewrite div_scaled by lia; reflexivity. }
  destruct (find_index (veqb r) (cells_in N N1 N2 N3 B1 B2 B3)) as [i|] eqn:E.
  - apply find_index_Some in E. destruct E as [(c & Hc & Hrc) _]. apply veqb_eq in Hrc. subst c.
    exists n, i, r. split; [reflexivity|]. split; [exact Hc|]. unfold r. vring.
  - exfalso.
    pose proof (proj1 (find_index_None _ _) E r Hin) as H. rewrite veqb_refl in H. discriminate.
Qed.

Lemma comb_inj N1 N2 N3 n m : det3 N1 N2 N3 <> 0 -> comb N1 N2 N3 n = comb N1 N2 N3 m -> n = m.
Proof.
  intros Hd H. destruct (dot_comb N1 N2 N3 n) as (E1 & E2 & E3). destruct (dot_comb N1 N2 N3 m) as (F1 & F2 & F3).
  rewrite H in E1, E2, E3. pose proof (N_pos _ _ _ Hd) as HN. apply vec_ext; nia.
Qed.

Lemma to_supercell_unique a1 a2 a3 s R S i c :
  det3 (arg1 a1) (arg2 a2) (arg3 a3) <> 0 -> supercell a1 a2 a3 = Ok s ->
  nth_error (sc_cells s) i = Some c ->
  R = vadd (comb (arg1 a1) (arg2 a2) (arg3 a3) S) c ->
  to_supercell R s = Ok (S, i).
Proof.
  intros Hd Hs Hi HR.
  destruct (to_supercell_spec a1 a2 a3 s R Hd Hs) as (S' & i' & c' & Ht & Hi' & HR').
  destruct (supercell_spec a1 a2 a3 Hd) as (s' & Hs' & _ & _ & _ & _ & _ & [Hnd Hr] & _).
  assert (s' = s) by congruence. subst s'.
  assert (Hc : c = c').
  { destruct (Hr R) as (c0 & _ & Hu).
    transitivity c0; [symmetry|]; apply Hu; (split; [eapply nth_error_In; eauto|]).
    - exists S. rewrite HR. vring.
    - exists S'. rewrite HR'. vring. }
  subst c'.
  assert (Hii : i = i') by (eapply NoDup_nth_error_inj; eauto). subst i'.
  assert (HS : S = S').
  { apply (comb_inj _ _ _ _ _ Hd).
    transitivity (vsub R c); [rewrite HR; vring|rewrite HR'; vring]. }
  subst S'. exact Ht.
Qed.
