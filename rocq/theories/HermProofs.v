(** Functions of Hermitian matrices: first and second derivative of traces, without
    any assumption about degeneracies. *)
From Coq Require Import Reals Lra Lia.
From Coquelicot Require Import Complex.
From Verif Require Import Cx CxProofs HermSpec.
Local Open Scope C_scope.

Definition ip (N : nat) (u v : nat -> C) : C := csum N (fun i => conj (u i) * v i).
Definition mv (N : nat) (A : nat -> nat -> C) (v : nat -> C) : nat -> C := fun i => csum N (fun j => A i j * v j).
Definition col (U : nat -> nat -> C) (n : nat) : nat -> C := fun i => U i n.
Definition frob (N : nat) (D : nat -> nat -> C) : R := rsum N (fun i => rsum N (fun j => abs2 (D i j))).

Lemma element_ip N U V X m n : element N U V X m n = ip N (col U m) (mv N X (col V n)).
Proof.
  unfold element, ip, mv, col. apply csum_ext. intros i _. rewrite <- csum_scal. apply csum_ext. intros j _. ring.
Qed.

Lemma ip_conj N u v : conj (ip N u v) = ip N v u.
Proof. unfold ip. rewrite csum_conj. apply csum_ext. intros i _. rewrite conj_mult, conj_conj. ring. Qed.

Lemma ip_ext N u u' v v' : (forall i, (i < N)%nat -> u i = u' i) -> (forall i, (i < N)%nat -> v i = v' i) -> ip N u v = ip N u' v'.
Proof. intros Hu Hv. apply csum_ext. intros i Hi. rewrite Hu, Hv by exact Hi. reflexivity. Qed.

Lemma csum_delta_l N i f : (i < N)%nat -> csum N (fun j => delta i j * f j) = f i.
Proof.
  intros H. rewrite <- (csum_delta N i f H). apply csum_ext. intros j _. unfold delta. rewrite (Nat.eqb_sym j i).
  destruct (Nat.eqb i j); ring.
Qed.

Lemma csum_delta_r N i f : (i < N)%nat -> csum N (fun j => f j * delta j i) = f i.
Proof.
  intros H. rewrite <- (csum_delta N i f H). apply csum_ext. intros j _. unfold delta. destruct (Nat.eqb j i); ring.
Qed.

(** Completeness *)
Lemma ip_complete N U x y : unitary N U -> ip N x y = csum N (fun m => ip N x (col U m) * ip N (col U m) y).
Proof.
  intros [_ HU]. unfold ip, col.
  transitivity (csum N (fun m => csum N (fun i => csum N (fun j => conj (x i) * (U i m * conj (U j m)) * y j)))).
  - rewrite csum_swap. apply csum_ext. intros i Hi. rewrite csum_swap.
    rewrite <- (csum_delta_l N i y Hi), <- csum_scal. apply csum_ext. intros j Hj.
    rewrite <- (HU i j Hi Hj). rewrite csum_scal_r, csum_scal. ring.
  - apply csum_ext. intros m _. rewrite <- csum_scal_r. apply csum_ext. intros i _. rewrite <- csum_scal. apply csum_ext. intros j _. ring.
Qed.

Lemma ip_adjoint N X x y : ip N x (mv N X y) = ip N (mv N (fun i j => conj (X j i)) x) y.
Proof.
  unfold ip, mv. transitivity (csum N (fun i => csum N (fun j => conj (x i) * X i j * y j))).
  - apply csum_ext. intros i _. rewrite <- csum_scal. apply csum_ext. intros j _. ring.
  - rewrite csum_swap. apply csum_ext. intros j _. rewrite csum_conj, <- csum_scal_r. apply csum_ext. intros i _.
    rewrite conj_mult, conj_conj. ring.
Qed.

Lemma ip_complete_mv N U X x y : unitary N U ->
  ip N x (mv N X y) = csum N (fun m => ip N x (mv N X (col U m)) * ip N (col U m) y).
Proof.
  intros HU. rewrite ip_adjoint, (ip_complete N U) by exact HU. apply csum_ext. intros m _. rewrite <- ip_adjoint. reflexivity.
Qed.

Lemma ip_hermitian N A x y : hermitian N A -> ip N x (mv N A y) = ip N (mv N A x) y.
Proof.
  intros HA. rewrite ip_adjoint. apply ip_ext; [|reflexivity]. intros i Hi. unfold mv. apply csum_ext. intros j Hj.
  rewrite (HA i j Hi Hj), conj_conj. reflexivity.
Qed.

Lemma ip_ortho N U m n : unitary N U -> (m < N)%nat -> (n < N)%nat -> ip N (col U m) (col U n) = delta m n.
Proof. intros [HU _]. apply HU. Qed.

Definition mdiff (A B : nat -> nat -> C) : nat -> nat -> C := fun i j => A i j - B i j.

Lemma ip_mdiff N A B x y : ip N x (mv N (mdiff A B) y) = ip N x (mv N A y) - ip N x (mv N B y).
Proof.
  unfold ip, mv, mdiff. rewrite <- csum_minus. apply csum_ext. intros i _.
  replace (csum N (fun j => (A i j - B i j) * y j)) with (csum N (fun j => A i j * y j) - csum N (fun j => B i j * y j)); [ring|].
  rewrite <- csum_minus. apply csum_ext. intros j _. ring.
Qed.

Lemma ip_scal_r N c x y : ip N x (fun i => c * y i) = c * ip N x y.
Proof. unfold ip. rewrite <- csum_scal. apply csum_ext. intros i _. ring. Qed.

Lemma ip_scal_l N (c : R) x y : ip N (fun i => RtoC c * x i) y = RtoC c * ip N x y.
Proof. unfold ip. rewrite <- csum_scal. apply csum_ext. intros i _. rewrite conj_mult, conj_R. ring. Qed.

Lemma mv_eigen N A e U n i : eigensystem N A e U -> (n < N)%nat -> (i < N)%nat -> mv N A (col U n) i = RtoC (e n) * col U n i.
Proof. intros [_ H] Hn Hi. apply H; assumption. Qed.

Lemma braket N A B a b U V m n : hermitian N A -> eigensystem N A a U -> eigensystem N B b V -> (m < N)%nat -> (n < N)%nat ->
  ip N (col U m) (mv N (mdiff A B) (col V n)) = RtoC (a m - b n) * ip N (col U m) (col V n).
Proof.
  intros HA EA EB Hm Hn. rewrite ip_mdiff, (ip_hermitian N A) by exact HA.
  rewrite (ip_ext N (mv N A (col U m)) (fun i => RtoC (a m) * col U m i) (col V n) (col V n)); [|intros i Hi; apply (mv_eigen N A a U m i EA Hm Hi)|reflexivity].
  rewrite (ip_ext N (col U m) (col U m) (mv N B (col V n)) (fun i => RtoC (b n) * col V n i)); [|reflexivity|intros i Hi; apply (mv_eigen N B b V n i EB Hn Hi)].
  rewrite ip_scal_l, ip_scal_r, RtoC_minus'. ring.
Qed.

(** Weights *)
Definition P (N : nat) (U V : nat -> nat -> C) (m n : nat) : R := abs2 (ip N (col U m) (col V n)).

Lemma P_nonneg N U V m n : (0 <= P N U V m n)%R.
Proof. apply abs2_nonneg. Qed.

Lemma parseval N U y : unitary N U -> rsum N (fun m => abs2 (ip N (col U m) y)) = rsum N (fun i => abs2 (y i)).
Proof.
  intros HU. apply RtoC_inj'. rewrite !RtoC_rsum.
  transitivity (ip N y y).
  - rewrite (ip_complete N U y y HU). apply csum_ext. intros m _. rewrite abs2_conj, ip_conj. reflexivity.
  - apply csum_ext. intros i _. symmetry. apply abs2_conj.
Qed.

Lemma P_sum_l N U V n : unitary N U -> unitary N V -> (n < N)%nat -> rsum N (fun m => P N U V m n) = 1%R.
Proof.
  intros HU HV Hn. unfold P. rewrite parseval by exact HU. apply RtoC_inj'. rewrite RtoC_rsum.
  transitivity (ip N (col V n) (col V n)); [apply csum_ext; intros; apply abs2_conj|].
  rewrite (ip_ortho N V n n HV Hn Hn). unfold delta. rewrite Nat.eqb_refl. reflexivity.
Qed.

Lemma P_sym N U V m n : P N U V m n = P N V U n m.
Proof. unfold P. rewrite <- (ip_conj N (col V n)), abs2_of_conj. reflexivity. Qed.

Lemma P_sum_r N U V m : unitary N U -> unitary N V -> (m < N)%nat -> rsum N (P N U V m) = 1%R.
Proof.
  intros HU HV Hm. rewrite <- (P_sum_l N V U m HV HU Hm). apply rsum_ext. intros n _. apply P_sym.
Qed.

Lemma frob_unitary N U V D : unitary N U -> unitary N V ->
  rsum N (fun n => rsum N (fun m => abs2 (ip N (col U m) (mv N D (col V n))))) = frob N D.
Proof.
  intros HU HV. transitivity (rsum N (fun n => rsum N (fun i => abs2 (mv N D (col V n) i)))).
  - apply rsum_ext. intros n _. apply parseval, HU.
  - unfold frob. rewrite rsum_swap. apply rsum_ext. intros i _.
    transitivity (rsum N (fun n => abs2 (ip N (col V n) (fun j => conj (D i j))))).
    + apply rsum_ext. intros n _. rewrite <- (abs2_of_conj (ip N _ _)), ip_conj. unfold ip, mv, col. f_equal. apply csum_ext. intros j _. rewrite conj_conj. reflexivity.
    + rewrite parseval by exact HV. apply rsum_ext. intros j _. apply abs2_of_conj.
Qed.

Lemma frob_nonneg N D : (0 <= frob N D)%R.
Proof. apply rsum_nonneg. intros. apply rsum_nonneg. intros. apply abs2_nonneg. Qed.

Lemma abs2_le_frob N U V D m n : unitary N U -> unitary N V -> (m < N)%nat -> (n < N)%nat ->
  (abs2 (ip N (col U m) (mv N D (col V n))) <= frob N D)%R.
Proof.
  intros HU HV Hm Hn. rewrite <- (frob_unitary N U V D HU HV).
  eapply Rle_trans; [|apply (rsum_term N (fun n => rsum N (fun m => abs2 (ip N (col U m) (mv N D (col V n))))) n Hn); intros; apply rsum_nonneg; intros; apply abs2_nonneg].
  cbv beta. apply (rsum_term N (fun m => abs2 (ip N (col U m) (mv N D (col V n)))) m Hm). intros. apply abs2_nonneg.
Qed.

Lemma sq_abs z : (z * z = Rabs z * Rabs z)%R.
Proof. rewrite <- Rabs_mult, Rabs_right; [reflexivity|apply Rle_ge, Rle_0_sqr]. Qed.

Section Two.
  Variables (N : nat) (A B : nat -> nat -> C) (a b : nat -> R) (U V : nat -> nat -> C).
  Hypothesis (HA : hermitian N A) (EA : eigensystem N A a U) (EB : eigensystem N B b V).
  Let D := mdiff A B.
  Local Open Scope R_scope.

  Lemma variance : rsum N (fun n => rsum N (fun m => P N U V m n * ((a m - b n) * (a m - b n)))) = frob N D.
  Proof.
    rewrite <- (frob_unitary N U V D (proj1 EA) (proj1 EB)). apply rsum_ext. intros n Hn. apply rsum_ext. intros m Hm.
    unfold D. rewrite (braket N A B a b U V m n HA EA EB Hm Hn), abs2_mult, abs2_R. unfold P. ring.
  Qed.

  Lemma mean n : (n < N)%nat -> fst (ip N (col V n) (mv N D (col V n))) = rsum N (fun m => P N U V m n * (a m - b n)).
  Proof.
    intros Hn. rewrite (ip_complete N U) by apply EA.
    rewrite fst_csum. apply rsum_ext. intros m Hm. unfold D. rewrite (braket N A B a b U V m n HA EA EB Hm Hn).
    unfold P. rewrite <- (ip_conj N (col U m) (col V n)). unfold conj, abs2. cbn. ring.
  Qed.

  (** First-order expansion of a trace *)
  Lemma trace_first phi f K : (forall m n, (m < N)%nat -> (n < N)%nat -> Rabs (phi (a m) - phi (b n) - f (b n) * (a m - b n)) <= K * ((a m - b n) * (a m - b n))) ->
    Rabs (rsum N (fun m => phi (a m)) - rsum N (fun n => phi (b n)) - rsum N (fun n => f (b n) * fst (ip N (col V n) (mv N D (col V n))))) <= K * frob N D.
  Proof.
    intros H. replace (rsum N (fun m => phi (a m))) with (rsum N (fun n => rsum N (fun m => P N U V m n * phi (a m)))).
    2:{ rewrite rsum_swap. apply rsum_ext. intros m Hm. rewrite rsum_scal_r, (P_sum_r N U V m (proj1 EA) (proj1 EB) Hm). ring. }
    replace (rsum N (fun n => phi (b n))) with (rsum N (fun n => rsum N (fun m => P N U V m n * phi (b n)))).
    2:{ apply rsum_ext. intros n Hn. rewrite rsum_scal_r, (P_sum_l N U V n (proj1 EA) (proj1 EB) Hn). ring. }
    replace (rsum N (fun n => f (b n) * fst (ip N (col V n) (mv N D (col V n))))) with (rsum N (fun n => rsum N (fun m => P N U V m n * (f (b n) * (a m - b n))))).
    2:{ apply rsum_ext. intros n Hn. rewrite mean, <- rsum_scal by exact Hn. apply rsum_ext. intros m _. ring. }
    rewrite <- !rsum_minus. rewrite <- variance, <- rsum_scal.
    eapply Rle_trans; [apply rsum_abs|]. apply rsum_le. intros n Hn.
    rewrite <- !rsum_minus, <- rsum_scal. eapply Rle_trans; [apply rsum_abs|]. apply rsum_le. intros m Hm.
    replace (P N U V m n * phi (a m) - P N U V m n * phi (b n) - P N U V m n * (f (b n) * (a m - b n))) with (P N U V m n * (phi (a m) - phi (b n) - f (b n) * (a m - b n))) by ring.
    rewrite Rabs_mult, (Rabs_right (P N U V m n)) by apply Rle_ge, P_nonneg.
    pose proof (P_nonneg N U V m n). specialize (H m n Hm Hn). nra.
  Qed.

  (** Traces of Lipschitz functions *)
  Lemma trace_lipschitz f L s : 0 < s -> frob N D <= s * s -> 0 <= L -> (forall x y, Rabs (f x - f y) <= L * Rabs (x - y)) ->
    Rabs (rsum N (fun m => f (a m)) - rsum N (fun n => f (b n))) <= L * (INR N + 1) * s.
  Proof.
    intros Hs HD HL Hf. replace (rsum N (fun m => f (a m))) with (rsum N (fun n => rsum N (fun m => P N U V m n * f (a m)))).
    2:{ rewrite rsum_swap. apply rsum_ext. intros m Hm. rewrite rsum_scal_r, (P_sum_r N U V m (proj1 EA) (proj1 EB) Hm). ring. }
    replace (rsum N (fun n => f (b n))) with (rsum N (fun n => rsum N (fun m => P N U V m n * f (b n)))).
    2:{ apply rsum_ext. intros n Hn. rewrite rsum_scal_r, (P_sum_l N U V n (proj1 EA) (proj1 EB) Hn). ring. }
    rewrite <- rsum_minus. eapply Rle_trans; [apply rsum_abs|].
    apply Rle_trans with (rsum N (fun n => rsum N (fun m => L * s * P N U V m n + L / s * (P N U V m n * ((a m - b n) * (a m - b n)))))).
    - apply rsum_le. intros n Hn. rewrite <- rsum_minus. eapply Rle_trans; [apply rsum_abs|]. apply rsum_le. intros m Hm.
      replace (P N U V m n * f (a m) - P N U V m n * f (b n)) with (P N U V m n * (f (a m) - f (b n))) by ring.
      rewrite Rabs_mult, (Rabs_right (P N U V m n)) by apply Rle_ge, P_nonneg.
      replace (L * s * P N U V m n + L / s * (P N U V m n * ((a m - b n) * (a m - b n)))) with (P N U V m n * (L * (s + (a m - b n) * (a m - b n) / s))) by (field; lra).
      apply Rmult_le_compat_l; [apply P_nonneg|]. eapply Rle_trans; [apply Hf|]. apply Rmult_le_compat_l; [exact HL|].
      set (x := a m - b n). assert (Q : x * x / s = Rabs x * Rabs x / s) by (rewrite <- (sq_abs x); reflexivity).
      rewrite Q. pose proof (Rabs_pos x). set (y := Rabs x) in *. apply Rmult_le_reg_r with s; [exact Hs|].
      replace ((s + y * y / s) * s) with (s * s + y * y) by (field; lra). nra.
    - rewrite (rsum_ext N _ (fun n => L * s + L / s * rsum N (fun m => P N U V m n * ((a m - b n) * (a m - b n))))).
      2:{ intros n Hn. rewrite rsum_plus, !rsum_scal, (P_sum_l N U V n (proj1 EA) (proj1 EB) Hn). ring. }
      rewrite rsum_plus, rsum_const, rsum_scal, variance.
      replace (L * (INR N + 1) * s) with (INR N * (L * s) + L / s * (s * s)) by (field; lra).
      apply Rplus_le_compat_l, Rmult_le_compat_l; [|exact HD]. apply Rmult_le_pos; [exact HL|left; apply Rinv_0_lt_compat, Hs].
  Qed.

  (** Eigenvalues of the one matrix are close to eigenvalues of the other. *)
  Lemma eigenvalue_close s m : 0 <= s -> frob N D <= s * s -> (m < N)%nat -> exists n, (n < N)%nat /\ Rabs (a m - b n) <= s.
  Proof.
    intros Hs HD Hm.
    assert (C : (exists n, (n < N)%nat /\ Rabs (a m - b n) <= s) \/ forall n, (n < N)%nat -> s < Rabs (a m - b n)).
    { clear - s. induction N as [|k IH]; [right; intros; lia|]. destruct IH as [(n & Hn & H)|H]; [left; exists n; split; [lia|exact H]|].
      destruct (Rle_dec (Rabs (a m - b k)) s) as [L|L]; [left; exists k; split; [lia|exact L]|]. right. intros n Hn.
      destruct (Nat.eq_dec n k) as [->|NE]; [lra|apply H; lia]. }
    destruct C as [C|C]; [exact C|exfalso].
    assert (Q : rsum N (fun n => P N U V m n * ((a m - b n) * (a m - b n))) <= frob N D).
    { rewrite <- variance, rsum_swap. apply (rsum_term N (fun m => rsum N (fun n => P N U V m n * ((a m - b n) * (a m - b n)))) m Hm).
      intros j _. apply rsum_nonneg. intros. apply Rmult_le_pos; [apply P_nonneg|apply Rle_0_sqr]. }
    assert (S1 : rsum N (fun n => P N U V m n) = 1) by exact (P_sum_r N U V m (proj1 EA) (proj1 EB) Hm).
    assert (L : forall n, (n < N)%nat -> s * s * P N U V m n <= P N U V m n * ((a m - b n) * (a m - b n)) /\ (P N U V m n <> 0 -> s * s * P N U V m n < P N U V m n * ((a m - b n) * (a m - b n)))).
    { intros n Hn. specialize (C n Hn). pose proof (P_nonneg N U V m n).
      assert (s * s < (a m - b n) * (a m - b n)).
      { rewrite (sq_abs (a m - b n)). apply Rmult_le_0_lt_compat; assumption. }
      split; [rewrite (Rmult_comm (s * s)); apply Rmult_le_compat_l; lra|]. intros NZ. rewrite (Rmult_comm (s * s)). apply Rmult_lt_compat_l; lra. }
    assert (Lt : s * s * rsum N (fun n => P N U V m n) < rsum N (fun n => P N U V m n * ((a m - b n) * (a m - b n)))).
    { assert (Ex : exists n, (n < N)%nat /\ P N U V m n <> 0).
      { clear - S1. assert (X : (exists n, (n < N)%nat /\ P N U V m n <> 0) \/ forall n, (n < N)%nat -> P N U V m n = 0).
        { generalize (P N U V m) as g. clear S1. intros g. induction N as [|k IH]; [right; intros; lia|]. destruct IH as [(n & Hn & H)|H]; [left; exists n; split; [lia|exact H]|].
          destruct (Req_dec (g k) 0) as [Z|Z]; [|left; exists k; split; [lia|exact Z]]. right. intros n Hn. destruct (Nat.eq_dec n k) as [->|NE]; [exact Z|apply H; lia]. }
        destruct X as [X|X]; [exact X|]. pose proof (rsum_ext N (fun n => P N U V m n) (fun _ => 0) X) as X0. rewrite rsum_zero in X0. lra. }
      destruct Ex as (n & Hn & NZ). rewrite <- rsum_scal.
      assert (Z : 0 < rsum N (fun n => P N U V m n * ((a m - b n) * (a m - b n)) - s * s * P N U V m n)).
      { eapply Rlt_le_trans; [|apply (rsum_term N (fun n => P N U V m n * ((a m - b n) * (a m - b n)) - s * s * P N U V m n) n Hn)].
        - destruct (L n Hn) as [_ L2]. specialize (L2 NZ). lra.
        - intros j Hj. destruct (L j Hj). lra. }
      rewrite rsum_minus in Z. lra. }
    rewrite S1 in Lt. lra.
  Qed.

  (** First-order expansion of tr f(A) X *)
  Lemma trace_second X f dd L c : 0 <= c -> 0 <= L -> frob N X <= c * c ->
    (forall m n, (m < N)%nat -> (n < N)%nat -> (a m - b n) * dd (a m) (b n) = f (a m) - f (b n)) ->
    (forall m n k, (m < N)%nat -> (n < N)%nat -> (k < N)%nat -> Rabs (dd (a m) (b n) - dd (b k) (b n)) <= L * Rabs (a m - b k)) ->
    Rabs (rsum N (fun m => f (a m) * fst (ip N (col U m) (mv N X (col U m)))) - rsum N (fun n => f (b n) * fst (ip N (col V n) (mv N X (col V n))))
      - fst (csum N (fun n => csum N (fun k => RtoC (dd (b k) (b n)) * (ip N (col V n) (mv N X (col V k)) * ip N (col V k) (mv N D (col V n)))))%C))
      <= INR N * INR N * INR N * (L * c) * frob N D.
  Proof.
    intros Hc HL HX Hdd Hlip.
    assert (EQ : rsum N (fun m => f (a m) * fst (ip N (col U m) (mv N X (col U m)))) - rsum N (fun n => f (b n) * fst (ip N (col V n) (mv N X (col V n))))
      - fst (csum N (fun n => csum N (fun k => RtoC (dd (b k) (b n)) * (ip N (col V n) (mv N X (col V k)) * ip N (col V k) (mv N D (col V n)))))%C)
      = fst (csum N (fun n => csum N (fun m => csum N (fun k => RtoC (dd (a m) (b n) - dd (b k) (b n)) *
          (ip N (col V n) (mv N X (col U m)) * ip N (col U m) (col V k) * ip N (col V k) (mv N D (col V n))))))%C)).
    { transitivity (fst (csum N (fun m => RtoC (f (a m)) * ip N (col U m) (mv N X (col U m))) - csum N (fun n => RtoC (f (b n)) * ip N (col V n) (mv N X (col V n)))
        - csum N (fun n => csum N (fun k => RtoC (dd (b k) (b n)) * (ip N (col V n) (mv N X (col V k)) * ip N (col V k) (mv N D (col V n))))))%C).
      { unfold Cminus, Cplus, Copp. cbn [fst]. rewrite !fst_csum. unfold Rminus. f_equal. f_equal; [|f_equal]; apply rsum_ext; intros; rewrite fst_RtoC_mult; reflexivity. }
      f_equal.
      rewrite (csum_ext N (fun m => RtoC (f (a m)) * ip N (col U m) (mv N X (col U m)))%C (fun m => csum N (fun n => RtoC (f (a m)) * (ip N (col V n) (mv N X (col U m)) * ip N (col U m) (col V n))))%C).
      2:{ intros m Hm. rewrite csum_scal. f_equal. rewrite (ip_complete N V) by apply EB. apply csum_ext. intros n _. apply Cmult_comm. }
      rewrite csum_swap.
      rewrite (csum_ext N (fun n => RtoC (f (b n)) * ip N (col V n) (mv N X (col V n)))%C (fun n => csum N (fun m => RtoC (f (b n)) * (ip N (col V n) (mv N X (col U m)) * ip N (col U m) (col V n))))%C).
      2:{ intros n Hn. rewrite csum_scal. f_equal. apply ip_complete_mv, EA. }
      rewrite <- !csum_minus. apply csum_ext. intros n Hn. rewrite <- csum_minus.
      rewrite (csum_ext N _ (fun m => csum N (fun k => RtoC (dd (a m) (b n)) * (ip N (col V n) (mv N X (col U m)) * ip N (col U m) (col V k) * ip N (col V k) (mv N D (col V n))))%C)).
      2:{ intros m Hm. rewrite csum_scal.
        rewrite (csum_ext N _ (fun k => ip N (col V n) (mv N X (col U m)) * (ip N (col U m) (col V k) * ip N (col V k) (mv N D (col V n))))%C) by (intros; ring).
        rewrite csum_scal, <- (ip_complete N V (col U m) (mv N D (col V n)) (proj1 EB)). unfold D. rewrite (braket N A B a b U V m n HA EA EB Hm Hn).
        replace (RtoC (dd (a m) (b n)) * (ip N (col V n) (mv N X (col U m)) * (RtoC (a m - b n) * ip N (col U m) (col V n))))%C
          with ((RtoC (a m - b n) * RtoC (dd (a m) (b n))) * (ip N (col V n) (mv N X (col U m)) * ip N (col U m) (col V n)))%C by ring.
        rewrite <- RtoC_mult', Hdd, RtoC_minus' by assumption. ring. }
      rewrite (csum_ext N (fun k => RtoC (dd (b k) (b n)) * (ip N (col V n) (mv N X (col V k)) * ip N (col V k) (mv N D (col V n))))%C
        (fun k => csum N (fun m => RtoC (dd (b k) (b n)) * (ip N (col V n) (mv N X (col U m)) * ip N (col U m) (col V k) * ip N (col V k) (mv N D (col V n)))))%C).
      2:{ intros k Hk. rewrite csum_scal, csum_scal_r. rewrite <- (ip_complete_mv N U X (col V n) (col V k) (proj1 EA)). reflexivity. }
      rewrite (csum_swap N N (fun k m => RtoC (dd (b k) (b n)) * (ip N (col V n) (mv N X (col U m)) * ip N (col U m) (col V k) * ip N (col V k) (mv N D (col V n))))%C). rewrite <- csum_minus. apply csum_ext. intros m Hm. rewrite <- csum_minus. apply csum_ext. intros k Hk.
      rewrite RtoC_minus'. ring. }
    rewrite EQ, fst_csum. eapply Rle_trans; [apply rsum_abs|].
    replace (INR N * INR N * INR N * (L * c) * frob N D) with (rsum N (fun _ => INR N * INR N * (L * c) * frob N D)) by (rewrite rsum_const; ring).
    apply rsum_le. intros n Hn. rewrite fst_csum. eapply Rle_trans; [apply rsum_abs|].
    replace (INR N * INR N * (L * c) * frob N D) with (rsum N (fun _ => INR N * (L * c) * frob N D)) by (rewrite rsum_const; ring).
    apply rsum_le. intros m Hm. rewrite fst_csum. eapply Rle_trans; [apply rsum_abs|].
    replace (INR N * (L * c) * frob N D) with (rsum N (fun _ => (L * c) * frob N D)) by (rewrite rsum_const; ring).
    apply rsum_le. intros k Hk. pose proof (frob_nonneg N D) as FD.
    apply fst_le_abs2; [apply Rmult_le_pos; [apply Rmult_le_pos; assumption|exact FD]|].
    rewrite !abs2_mult, abs2_R.
    assert (X1 : abs2 (ip N (col V n) (mv N X (col U m))) <= c * c) by (eapply Rle_trans; [apply abs2_le_frob; [apply EB|apply EA|assumption|assumption]|exact HX]).
    assert (X2 : abs2 (ip N (col V k) (mv N D (col V n))) <= frob N D) by (apply abs2_le_frob; [apply EB|apply EB|assumption|assumption]).
    assert (X3 : (dd (a m) (b n) - dd (b k) (b n)) * (dd (a m) (b n) - dd (b k) (b n)) * abs2 (ip N (col U m) (col V k)) <= L * L * frob N D).
    { assert (B1 : (dd (a m) (b n) - dd (b k) (b n)) * (dd (a m) (b n) - dd (b k) (b n)) <= L * L * ((a m - b k) * (a m - b k))).
      { specialize (Hlip m n k Hm Hn Hk). pose proof (Rabs_pos (dd (a m) (b n) - dd (b k) (b n))). pose proof (Rabs_pos (a m - b k)).
        rewrite (sq_abs (dd (a m) (b n) - dd (b k) (b n))), (sq_abs (a m - b k)).
        replace (L * L * (Rabs (a m - b k) * Rabs (a m - b k))) with ((L * Rabs (a m - b k)) * (L * Rabs (a m - b k))) by ring. apply Rmult_le_compat; assumption. }
      assert (B2 : (a m - b k) * (a m - b k) * abs2 (ip N (col U m) (col V k)) <= frob N D).
      { rewrite <- abs2_R, <- abs2_mult, <- (braket N A B a b U V m k HA EA EB Hm Hk). apply abs2_le_frob; [apply EA|apply EB|assumption|assumption]. }
      pose proof (abs2_nonneg (ip N (col U m) (col V k))).
      apply Rle_trans with (L * L * ((a m - b k) * (a m - b k)) * abs2 (ip N (col U m) (col V k))); [apply Rmult_le_compat_r; assumption|].
      rewrite Rmult_assoc. apply Rmult_le_compat_l; [nra|exact B2]. }
    pose proof (abs2_nonneg (ip N (col U m) (col V k))) as Z1. pose proof (abs2_nonneg (ip N (col V n) (mv N X (col U m)))) as Z2. pose proof (abs2_nonneg (ip N (col V k) (mv N D (col V n)))) as Z3.
    set (q := (dd (a m) (b n) - dd (b k) (b n)) * (dd (a m) (b n) - dd (b k) (b n))) in *.
    assert (Z0 : 0 <= q) by (unfold q; apply Rle_0_sqr).
    replace (q * (abs2 (ip N (col V n) (mv N X (col U m))) * abs2 (ip N (col U m) (col V k)) * abs2 (ip N (col V k) (mv N D (col V n)))))
      with ((q * abs2 (ip N (col U m) (col V k))) * (abs2 (ip N (col V n) (mv N X (col U m))) * abs2 (ip N (col V k) (mv N D (col V n))))) by ring.
    replace (L * c * frob N D * (L * c * frob N D)) with ((L * L * frob N D) * ((c * c) * frob N D)) by ring.
    apply Rmult_le_compat; [apply Rmult_le_pos; assumption|apply Rmult_le_pos; assumption|exact X3|].
    apply Rmult_le_compat; assumption.
  Qed.
End Two.
