(** Facts about complex numbers and sums. *)
From Coq Require Import Reals Lra Lia.
From Coquelicot Require Import Complex.
From Verif Require Import Cx.
Local Open Scope C_scope.

Lemma c_ext (z w : C) : fst z = fst w -> snd z = snd w -> z = w.
Proof. destruct z, w; cbn; intros -> ->; reflexivity. Qed.

Ltac cring := apply c_ext; unfold abs2, conj, RtoC; cbn; ring.

Lemma conj_plus z w : conj (z + w) = conj z + conj w. Proof. cring. Qed.
Lemma conj_minus z w : conj (z - w) = conj z - conj w. Proof. cring. Qed.
Lemma conj_mult z w : conj (z * w) = conj z * conj w. Proof. cring. Qed.
Lemma conj_opp z : conj (- z) = - conj z. Proof. cring. Qed.
Lemma conj_R (x : R) : conj (RtoC x) = RtoC x. Proof. cring. Qed.
Lemma conj_conj z : conj (conj z) = z. Proof. cring. Qed.
Lemma abs2_conj z : RtoC (abs2 z) = conj z * z. Proof. cring. Qed.
Lemma abs2_of_conj z : abs2 (conj z) = abs2 z. Proof. unfold abs2, conj. cbn. ring. Qed.
Lemma abs2_mult z w : abs2 (z * w) = (abs2 z * abs2 w)%R. Proof. unfold abs2. cbn. ring. Qed.
Lemma abs2_R (x : R) : abs2 (RtoC x) = (x * x)%R. Proof. unfold abs2. cbn. ring. Qed.
Lemma abs2_nonneg z : (0 <= abs2 z)%R. Proof. unfold abs2. nra. Qed.
Lemma RtoC_plus' (x y : R) : RtoC (x + y) = RtoC x + RtoC y. Proof. cring. Qed.
Lemma RtoC_minus' (x y : R) : RtoC (x - y) = RtoC x - RtoC y. Proof. cring. Qed.
Lemma RtoC_mult' (x y : R) : RtoC (x * y) = RtoC x * RtoC y. Proof. cring. Qed.
Lemma RtoC_inj' (x y : R) : RtoC x = RtoC y -> x = y. Proof. intros H. apply (f_equal fst) in H. exact H. Qed.
Lemma fst_RtoC_mult (x : R) z : fst (RtoC x * z) = (x * fst z)%R. Proof. cbn. ring. Qed.

(** Complex sums *)
Lemma csum_ext n f g : (forall i, (i < n)%nat -> f i = g i) -> csum n f = csum n g.
Proof. intros H. induction n as [|n IH]; [reflexivity|]. cbn [csum]. rewrite IH, H by (intros; try apply H; lia). reflexivity. Qed.

Lemma csum_zero n : csum n (fun _ => RtoC 0) = RtoC 0.
Proof. induction n as [|n IH]; [reflexivity|]. cbn [csum]. rewrite IH. ring. Qed.

Lemma csum_plus n f g : csum n (fun i => f i + g i) = csum n f + csum n g.
Proof. induction n as [|n IH]; cbn [csum]; [ring|]. rewrite IH. ring. Qed.

Lemma csum_minus n f g : csum n (fun i => f i - g i) = csum n f - csum n g.
Proof. induction n as [|n IH]; cbn [csum]; [ring|]. rewrite IH. ring. Qed.

Lemma csum_scal n c f : csum n (fun i => c * f i) = c * csum n f.
Proof. induction n as [|n IH]; cbn [csum]; [ring|]. rewrite IH. ring. Qed.

Lemma csum_scal_r n c f : csum n (fun i => f i * c) = csum n f * c.
Proof. induction n as [|n IH]; cbn [csum]; [ring|]. rewrite IH. ring. Qed.

Lemma csum_swap n m f : csum n (fun i => csum m (fun j => f i j)) = csum m (fun j => csum n (fun i => f i j)).
Proof.
  induction n as [|n IH]; cbn [csum]; [symmetry; apply csum_zero|]. rewrite IH, csum_plus. reflexivity.
Qed.

Lemma csum_conj n f : conj (csum n f) = csum n (fun i => conj (f i)).
Proof. induction n as [|n IH]; cbn [csum]; [cring|]. rewrite conj_plus, IH. reflexivity. Qed.

Lemma csum_delta n j f : (j < n)%nat -> csum n (fun i => if Nat.eqb i j then f i else RtoC 0) = f j.
Proof.
  intros H. induction n as [|n IH]; [lia|]. cbn [csum]. destruct (Nat.eqb_spec n j) as [->|NE].
  - rewrite (csum_ext j _ (fun _ => RtoC 0)), csum_zero; [ring|]. intros i Hi. destruct (Nat.eqb_spec i j); [lia|reflexivity].
  - rewrite IH by lia. ring.
Qed.

Lemma fst_csum n f : fst (csum n f) = rsum n (fun i => fst (f i)).
Proof. induction n as [|n IH]; [reflexivity|]. cbn [csum rsum]. cbn. rewrite IH. reflexivity. Qed.

Lemma snd_csum n f : snd (csum n f) = rsum n (fun i => snd (f i)).
Proof. induction n as [|n IH]; [reflexivity|]. cbn [csum rsum]. cbn. rewrite IH. reflexivity. Qed.

Lemma RtoC_rsum n f : RtoC (rsum n f) = csum n (fun i => RtoC (f i)).
Proof. induction n as [|n IH]; [reflexivity|]. cbn [csum rsum]. rewrite RtoC_plus', IH. reflexivity. Qed.

(** Real sums *)
Local Open Scope R_scope.

Lemma rsum_ext n f g : (forall i, (i < n)%nat -> f i = g i) -> rsum n f = rsum n g.
Proof. intros H. induction n as [|n IH]; [reflexivity|]. cbn [rsum]. rewrite IH, H by (intros; try apply H; lia). reflexivity. Qed.

Lemma rsum_zero n : rsum n (fun _ => 0) = 0.
Proof. induction n as [|n IH]; [reflexivity|]. cbn [rsum]. rewrite IH. ring. Qed.

Lemma rsum_const n c : rsum n (fun _ => c) = INR n * c.
Proof. induction n as [|n IH]; [cbn; ring|]. cbn [rsum]. rewrite IH, S_INR. ring. Qed.

Lemma rsum_plus n f g : rsum n (fun i => f i + g i) = rsum n f + rsum n g.
Proof. induction n as [|n IH]; cbn [rsum]; [ring|]. rewrite IH. ring. Qed.

Lemma rsum_minus n f g : rsum n (fun i => f i - g i) = rsum n f - rsum n g.
Proof. induction n as [|n IH]; cbn [rsum]; [ring|]. rewrite IH. ring. Qed.

Lemma rsum_scal n c f : rsum n (fun i => c * f i) = c * rsum n f.
Proof. induction n as [|n IH]; cbn [rsum]; [ring|]. rewrite IH. ring. Qed.

Lemma rsum_scal_r n c f : rsum n (fun i => f i * c) = rsum n f * c.
Proof. induction n as [|n IH]; cbn [rsum]; [ring|]. rewrite IH. ring. Qed.

Lemma rsum_swap n m f : rsum n (fun i => rsum m (fun j => f i j)) = rsum m (fun j => rsum n (fun i => f i j)).
Proof.
  induction n as [|n IH]; cbn [rsum]; [symmetry; apply rsum_zero|]. rewrite IH, rsum_plus. reflexivity.
Qed.

Lemma rsum_le n f g : (forall i, (i < n)%nat -> f i <= g i) -> rsum n f <= rsum n g.
Proof. intros H. induction n as [|n IH]; cbn [rsum]; [lra|]. specialize (IH (fun i Hi => H i ltac:(lia))). specialize (H n ltac:(lia)). lra. Qed.

Lemma rsum_nonneg n f : (forall i, (i < n)%nat -> 0 <= f i) -> 0 <= rsum n f.
Proof. intros H. rewrite <- (rsum_zero n). apply rsum_le, H. Qed.

Lemma rsum_lt n f g : (0 < n)%nat -> (forall i, (i < n)%nat -> f i < g i) -> rsum n f < rsum n g.
Proof.
  intros N H. destruct n as [|n]; [lia|]. clear N. induction n as [|n IH]; cbn [rsum] in *; [specialize (H O ltac:(lia)); lra|].
  specialize (IH (fun i Hi => H i ltac:(lia))). specialize (H (S n) ltac:(lia)). lra.
Qed.

Lemma rsum_abs n f : Rabs (rsum n f) <= rsum n (fun i => Rabs (f i)).
Proof. induction n as [|n IH]; cbn [rsum]; [rewrite Rabs_R0; lra|]. pose proof (Rabs_triang (rsum n f) (f n)). lra. Qed.

Lemma rsum_term n f i : (i < n)%nat -> (forall j, (j < n)%nat -> 0 <= f j) -> f i <= rsum n f.
Proof.
  intros Hi H. induction n as [|n IH]; [lia|]. cbn [rsum].
  assert (0 <= rsum n f) by (apply rsum_nonneg; intros; apply H; lia).
  destruct (Nat.eq_dec i n) as [->|NE]; [lra|]. specialize (IH ltac:(lia) (fun j Hj => H j ltac:(lia))). specialize (H n ltac:(lia)). lra.
Qed.

Lemma rsum_delta n j f : (j < n)%nat -> rsum n (fun i => if Nat.eqb i j then f i else 0) = f j.
Proof.
  intros H. induction n as [|n IH]; [lia|]. cbn [rsum]. destruct (Nat.eqb_spec n j) as [->|NE].
  - rewrite (rsum_ext j _ (fun _ => 0)), rsum_zero; [ring|]. intros i Hi. destruct (Nat.eqb_spec i j); [lia|reflexivity].
  - rewrite IH by lia. ring.
Qed.

(** |Re| <= |z|: bounds by squares. *)
Lemma abs_le_of_sq x c : 0 <= c -> x * x <= c * c -> Rabs x <= c.
Proof. intros Hc H. apply Rabs_le. split; nra. Qed.

Lemma fst_le_abs2 z c : 0 <= c -> abs2 z <= c * c -> Rabs (fst z) <= c.
Proof. intros Hc H. apply abs_le_of_sq; [exact Hc|]. unfold abs2 in H. nra. Qed.
