(** Proofs about dynamical matrices on the full mesh: the loops of the code. *)
From Coq Require Import Reals Lra Lia Permutation.
From Verif Require Import Common CommonProofs SymModel SymSpec GeoModel GeoProofs Num NumProofs NumC PhModel WedgeModel WedgeSpec WedgeProofs.
Local Open Scope R_scope.

Add Ring CxW2 : (@n_ring C).

(** ** Matrices of all atoms *)
Lemma div3' n x : (x < 3)%nat -> ((3 * n + x) / 3 = n)%nat.
Proof. intros H. symmetry. apply (Nat.div_unique _ 3 n x); lia. Qed.
Lemma mod3' n x : (x < 3)%nat -> ((3 * n + x) mod 3 = x)%nat.
Proof. intros H. symmetry. apply (Nat.mod_unique _ 3 n x); lia. Qed.

Lemma nsum_seq3 (f : nat -> C) n : nsum f (seq 0 (n * 3)) = nsum (fun i => csum3 (fun x => f (3 * i + x)%nat)) (seq 0 n).
Proof.
  induction n as [|n IH]; [reflexivity|]. rewrite seq_S, nsum_app, <- IH.
  replace (S n * 3)%nat with (n * 3 + 3)%nat by lia. rewrite seq_app, nsum_app. f_equal.
  cbn [seq nsum Nat.add]. unfold csum3.
  replace (3 * n + 0)%nat with (n * 3)%nat by lia. replace (3 * n + 1)%nat with (S (n * 3)) by lia.
  replace (3 * n + 2)%nat with (S (S (n * 3))) by lia. ring.
Qed.

(** Block-diagonal matrices. *)
Definition blocks (B : op3) (i j : nat) : R := if (i / 3 =? j / 3)%nat then B (i mod 3)%nat (j mod 3)%nat else 0.

Lemma nsum_block nat_ (B : op3) n x (f : nat -> C) : (n < nat_)%nat -> (x < 3)%nat ->
  nsum (fun j => nmul (RtoC (blocks B (3 * n + x) j)) (f j)) (seq 0 (nat_ * 3)) =
  csum3 (fun x' => nmul (RtoC (B x x')) (f (3 * n + x')%nat)).
Proof.
  intros Hn Hx. rewrite nsum_seq3. rewrite (nsum_single _ _ n).
  - unfold csum3, blocks. rewrite !div3', !mod3', Nat.eqb_refl by lia. reflexivity.
  - apply seq_NoDup.
  - apply in_seq. lia.
  - intros m _ Hm. unfold csum3, blocks. rewrite !div3' by lia.
    destruct (Nat.eqb_spec n m) as [e|e]; [congruence|]. rewrite RtoC_0. ring.
Qed.

Lemma apply_blocks nat_ (D : cmat) U (B : op3) n m x y : (forall i j, U i j = blocks B i j) ->
  (n < nat_)%nat -> (m < nat_)%nat -> (x < 3)%nat -> (y < 3)%nat ->
  apply_op (nat_ * 3) D U (3 * n + x)%nat (3 * m + y)%nat = sand B D n m x y.
Proof.
  intros HU Hn Hm Hx Hy. unfold apply_op.
  transitivity (nsum (fun j => nmul (RtoC (blocks B (3 * n + x) j))
    (csum3 (fun y' => nmul (RtoC (B y y')) (D j (3 * m + y')%nat)))) (seq 0 (nat_ * 3))).
  - apply nsum_ext. intros j _. rewrite <- (nsum_block nat_ B m y (D j) Hm Hy), <- nsum_mul_l.
    apply nsum_ext. intros k _. rewrite RtoC_conj, !HU. ring.
  - rewrite nsum_block by assumption. unfold sand, csum3. ring.
Qed.

Lemma rotation_blocks phi i j : rotation phi i j = blocks (rot_block phi) i j.
Proof. reflexivity. Qed.

Lemma reflection_blocks i j : reflection i j = blocks mirror i j.
Proof.
  unfold reflection, blocks. pose proof (Nat.div_mod i 3 ltac:(lia)) as Ei. pose proof (Nat.div_mod j 3 ltac:(lia)) as Ej.
  pose proof (Nat.mod_upper_bound i 3 ltac:(lia)) as Hi. pose proof (Nat.mod_upper_bound j 3 ltac:(lia)) as Hj.
  set (a := (i mod 3)%nat) in *. set (b := (j mod 3)%nat) in *.
  destruct (Nat.eqb_spec i j) as [e|e].
  - subst j. rewrite Nat.eqb_refl. subst b. fold a.
    assert (a = 0 \/ a = 1 \/ a = 2)%nat as [-> | [-> | ->]] by lia; reflexivity.
  - destruct (Nat.eqb_spec (i / 3) (j / 3)) as [e'|e']; [|reflexivity].
    assert (a <> b) by (intros E; apply e; rewrite Ei, Ej, e', E; reflexivity).
    assert (a = 0 \/ a = 1 \/ a = 2)%nat as [-> | [-> | ->]] by lia;
    assert (b = 0 \/ b = 1 \/ b = 2)%nat as [-> | [-> | ->]] by lia; try reflexivity; congruence.
Qed.

(** ** Phases *)
Lemma in_atom_div n i : in_atom n i = (i / 3 =? n)%nat.
Proof.
  unfold in_atom. pose proof (Nat.div_mod i 3 ltac:(lia)) as Ei. pose proof (Nat.mod_upper_bound i 3 ltac:(lia)) as Hi.
  destruct (Nat.eqb_spec (i / 3) n) as [e|e].
  - apply andb_true_iff. rewrite Nat.leb_le, Nat.ltb_lt. lia.
  - apply andb_false_iff. rewrite Nat.leb_gt, Nat.ltb_ge. lia.
Qed.

Lemma mul_phases_eq nat_ p (D : cmat) n m x y : (n < nat_)%nat -> (m < nat_)%nat -> (x < 3)%nat -> (y < 3)%nat ->
  mul_phases nat_ p D (3 * n + x)%nat (3 * m + y)%nat = nmul (nmul (D (3 * n + x) (3 * m + y))%nat (nconj (p n))) (p m).
Proof.
  intros Hn Hm Hx Hy. unfold mul_phases.
  assert (G : forall l (D : cmat), NoDup l ->
    fold_left (fun (D : cmat) k =>
      let D : cmat := fun i j => if in_atom k i then nmul (D i j) (nconj (p k)) else D i j in
      fun i j => if in_atom k j then nmul (D i j) (p k) else D i j) l D (3 * n + x)%nat (3 * m + y)%nat =
    nmul (nmul (D (3 * n + x) (3 * m + y))%nat (if in_dec Nat.eq_dec n l then nconj (p n) else n1))
      (if in_dec Nat.eq_dec m l then p m else n1)).
  { induction l as [|k l IH]; intros D' N; cbn [fold_left].
    - destruct (in_dec Nat.eq_dec n []) as [[]|_], (in_dec Nat.eq_dec m []) as [[]|_]. ring.
    - inversion N as [|? ? Nk Nl]; subst. rewrite IH by exact Nl. cbn zeta. rewrite !in_atom_div, !div3' by assumption.
      destruct (in_dec Nat.eq_dec n (k :: l)) as [i|i], (in_dec Nat.eq_dec m (k :: l)) as [i'|i'];
      destruct (in_dec Nat.eq_dec n l) as [j|j], (in_dec Nat.eq_dec m l) as [j'|j'];
      destruct (Nat.eqb_spec n k) as [e|e], (Nat.eqb_spec m k) as [e'|e']; subst; cbn [In] in *;
      try ring; exfalso; intuition congruence. }
  rewrite G by apply seq_NoDup.
  destruct (in_dec Nat.eq_dec n (seq 0 nat_)) as [_|i]; [|exfalso; apply i, in_seq; lia].
  destruct (in_dec Nat.eq_dec m (seq 0 nat_)) as [_|i]; [reflexivity|exfalso; apply i, in_seq; lia].
Qed.

(** ** The operation of the code *)
Definition op_of (op : R * bool) : op3 := if snd op then mm mirror (rot_block (fst op)) else rot_block (fst op).

Lemma rot_planar phi : planar (rot_block phi).
Proof. unfold planar. cbn. auto. Qed.

Lemma image_q_op q op : image_q q (fst op) (snd op) = in_plane (op_of op) q.
Proof.
  unfold image_q, op_of. destruct op as [phi []]; cbn [fst snd].
  - rewrite in_plane_mm by apply rot_planar. reflexivity.
  - reflexivity.
Qed.

Lemma sand_mm A B (D : cmat) n m x y :
  sand A (fun i j => sand B D (i / 3) (j / 3) (i mod 3) (j mod 3))%nat n m x y = sand (mm A B) D n m x y.
Proof.
  unfold sand at 1. unfold csum3. rewrite !div3', !mod3' by lia.
  unfold sand, csum3, mm, sum3. rewrite !RtoC_add, !RtoC_mul. ring.
Qed.

Lemma image_D_op nat_ r q0 D0 op n m x y : (n < nat_)%nat -> (m < nat_)%nat -> (x < 3)%nat -> (y < 3)%nat ->
  let p k := expi (dot2 (add2 q0 (scale2 (-1) (in_plane (op_of op) q0))) (r k)) in
  image_D nat_ r q0 D0 (fst op) (snd op) (3 * n + x)%nat (3 * m + y)%nat =
  nmul (nmul (sand (op_of op) D0 n m x y) (nconj (p n))) (p m).
Proof.
  intros Hn Hm Hx Hy p. unfold image_D. rewrite mul_phases_eq by assumption. rewrite !image_q_op. fold (p n) (p m).
  f_equal. f_equal. unfold op_of. destruct op as [phi []]; cbn [fst snd].
  - rewrite (apply_blocks nat_ _ _ mirror _ _ _ _ reflection_blocks) by assumption. rewrite <- sand_mm.
    unfold sand at 1 2. unfold csum3. rewrite !div3', !mod3' by lia.
    rewrite !(apply_blocks nat_ _ _ (rot_block phi) _ _ _ _ (rotation_blocks phi)) by (assumption || lia). reflexivity.
  - apply (apply_blocks nat_ _ _ (rot_block phi) _ _ _ _ (rotation_blocks phi)); assumption.
Qed.
