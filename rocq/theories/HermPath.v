(** Free energy of electrons with a Hamiltonian H + t D at fixed number of electrons:
    derivatives with respect to t. *)
From Coq Require Import Reals Lra Lia.
From Coquelicot Require Import Complex.
From Verif Require Import Cx CxProofs HermSpec HermProofs.
Local Open Scope R_scope.

(** For all sufficiently small t *)
Definition near (P : R -> Prop) : Prop := exists d, 0 < d /\ forall t, Rabs t < d -> P t.

Lemma near_and (P Q : R -> Prop) : near P -> near Q -> near (fun t => P t /\ Q t).
Proof.
  intros (d & Hd & HP) (d' & Hd' & HQ). exists (Rmin d d'). split; [apply Rmin_pos; assumption|].
  intros t Ht. pose proof (Rmin_l d d'). pose proof (Rmin_r d d'). split; [apply HP|apply HQ]; lra.
Qed.

Lemma near_imp (P Q : R -> Prop) : (forall t, P t -> Q t) -> near P -> near Q.
Proof. intros H (d & Hd & HP). exists d. split; [exact Hd|]. intros t Ht. apply H, HP, Ht. Qed.

Lemma near_all (P : R -> Prop) : (forall t, P t) -> near P.
Proof. intros H. exists 1. split; [lra|]. intros t _. apply H. Qed.

Lemma near_lt c y : 0 < y -> 0 <= c -> near (fun t => c * Rabs t < y).
Proof.
  intros Hy Hc. exists (y / (c + 1)). split; [apply Rdiv_lt_0_compat; lra|]. intros t Ht.
  pose proof (Rabs_pos t). apply (Rmult_lt_compat_r (c + 1)) in Ht; [|lra]. replace (y / (c + 1) * (c + 1)) with y in Ht by (field; lra). nra.
Qed.

(** Terms that vanish quadratically *)
Definition quadratic (g : R -> R) : Prop := exists c, 0 <= c /\ near (fun t => Rabs (g t) <= c * (t * t)).

Lemma quadratic_ext g h : (forall t, g t = h t) -> quadratic g -> quadratic h.
Proof. intros E (c & Hc & H). exists c. split; [exact Hc|]. revert H. apply near_imp. intros t. rewrite E. auto. Qed.

Lemma quadratic_zero : quadratic (fun _ => 0).
Proof. exists 0. split; [lra|]. apply near_all. intros t. rewrite Rabs_R0. lra. Qed.

Lemma quadratic_plus g h : quadratic g -> quadratic h -> quadratic (fun t => g t + h t).
Proof.
  intros (c & Hc & Hg) (c' & Hc' & Hh). exists (c + c'). split; [lra|]. generalize (near_and _ _ Hg Hh). apply near_imp.
  intros t [H1 H2]. pose proof (Rabs_triang (g t) (h t)). nra.
Qed.

Lemma quadratic_scal a g : quadratic g -> quadratic (fun t => a * g t).
Proof.
  intros (c & Hc & H). exists (Rabs a * c). split; [apply Rmult_le_pos; [apply Rabs_pos|exact Hc]|]. revert H. apply near_imp.
  intros t H. rewrite Rabs_mult, Rmult_assoc. apply Rmult_le_compat_l; [apply Rabs_pos|exact H].
Qed.

Lemma quadratic_minus g h : quadratic g -> quadratic h -> quadratic (fun t => g t - h t).
Proof.
  intros Hg Hh. apply (quadratic_ext (fun t => g t + -1 * h t)); [intros; ring|]. apply quadratic_plus; [exact Hg|]. apply quadratic_scal, Hh.
Qed.

Lemma quadratic_rsum n (g : nat -> R -> R) : (forall k, (k < n)%nat -> quadratic (g k)) -> quadratic (fun t => rsum n (fun k => g k t)).
Proof.
  induction n as [|n IH]; intros H; cbn [rsum]; [apply quadratic_zero|].
  apply (quadratic_plus (fun t => rsum n (fun k => g k t)) (g n)); [apply IH; intros; apply H; lia|apply H; lia].
Qed.

Lemma quadratic_sq a : quadratic (fun t => a * (t * t)).
Proof.
  exists (Rabs a). split; [apply Rabs_pos|]. apply near_all. intros t. rewrite Rabs_mult, (Rabs_right (t * t)); [lra|apply Rle_ge, Rle_0_sqr].
Qed.

Lemma quadratic_derivable E J : quadratic (fun t => E t - E 0 - t * J) -> derivable_pt_lim E 0 J.
Proof.
  intros (c & Hc & d & Hd & H) eps He. assert (Hm : 0 < Rmin d (eps / (c + 1))) by (apply Rmin_pos; [exact Hd|apply Rdiv_lt_0_compat; lra]).
  exists (mkposreal _ Hm). intros h Hh Hlt. cbn in Hlt. rewrite Rplus_0_l.
  pose proof (Rmin_l d (eps / (c + 1))). pose proof (Rmin_r d (eps / (c + 1))).
  specialize (H h ltac:(lra)). replace ((E h - E 0) / h - J) with ((E h - E 0 - h * J) / h) by (field; exact Hh).
  unfold Rdiv. rewrite Rabs_mult, Rabs_inv. assert (Ph : 0 < Rabs h) by (apply Rabs_pos_lt, Hh).
  apply Rmult_lt_reg_r with (Rabs h); [exact Ph|]. rewrite Rmult_assoc, Rinv_l, Rmult_1_r by lra.
  eapply Rle_lt_trans; [exact H|]. rewrite (sq_abs h).
  assert (B : Rabs h * (c + 1) < eps).
  { apply Rlt_le_trans with (eps / (c + 1) * (c + 1)); [apply Rmult_lt_compat_r; lra|right; field; lra]. }
  nra.
Qed.

(** Mean-value estimates *)
Section Mean.
  Variables (Y L K : R) (f phi g : R -> R).
  Hypothesis HL : 0 <= L.
  Hypothesis HK : 0 <= K.
  Hypothesis f_lip : forall x y, Rabs (f x - f y) <= L * Rabs (x - y).
  Hypothesis phi_der : forall x, Rabs x < Y -> derivable_pt_lim phi x (f x).
  Hypothesis f_der : forall x, Rabs x < Y -> derivable_pt_lim f x (g x).
  Hypothesis g_lip : forall x y, Rabs x < Y -> Rabs y < Y -> Rabs (g x - g y) <= K * Rabs (x - y).

  Lemma mvt h h' x y : Rabs x < Y -> Rabs y < Y -> (forall z, Rabs z < Y -> derivable_pt_lim h z (h' z)) -> exists z, Rmin x y <= z <= Rmax x y /\ h x - h y = h' z * (x - y).
  Proof.
    intros Hx Hy Hh. apply Rabs_def2 in Hx, Hy.
    assert (In : forall z, Rmin x y <= z <= Rmax x y -> Rabs z < Y).
    { intros z Hz. apply Rabs_def1; unfold Rmin, Rmax in Hz; destruct (Rle_dec x y); lra. }
    destruct (Rtotal_order x y) as [Lt|[->|Gt]].
    - destruct (MVT_cor2 h h' x y Lt) as (z & Ez & Hz).
      + intros z Hz. apply Hh, In. rewrite Rmin_left, Rmax_right by lra. exact Hz.
      + exists z. rewrite Rmin_left, Rmax_right by lra. split; [lra|]. lra.
    - exists y. rewrite Rmin_left, Rmax_left by lra. split; lra.
    - destruct (MVT_cor2 h h' y x Gt) as (z & Ez & Hz).
      + intros z Hz. apply Hh, In. rewrite Rmin_right, Rmax_left by lra. exact Hz.
      + exists z. rewrite Rmin_right, Rmax_left by lra. split; lra.
  Qed.

  Lemma between_abs x y z : Rmin x y <= z <= Rmax x y -> Rabs (z - y) <= Rabs (x - y).
  Proof. unfold Rmin, Rmax. destruct (Rle_dec x y); intros; unfold Rabs; destruct (Rcase_abs (z - y)), (Rcase_abs (x - y)); lra. Qed.

  Lemma between_in x y z : Rabs x < Y -> Rabs y < Y -> Rmin x y <= z <= Rmax x y -> Rabs z < Y.
  Proof. intros Hx Hy Hz. apply Rabs_def2 in Hx, Hy. apply Rabs_def1; unfold Rmin, Rmax in Hz; destruct (Rle_dec x y); lra. Qed.

  Lemma phi_second x y : Rabs x < Y -> Rabs y < Y -> Rabs (phi x - phi y - f y * (x - y)) <= L * ((x - y) * (x - y)).
  Proof.
    intros Hx Hy. destruct (mvt phi f x y Hx Hy phi_der) as (z & Hz & E). rewrite E.
    replace (f z * (x - y) - f y * (x - y)) with ((f z - f y) * (x - y)) by ring.
    rewrite Rabs_mult, (sq_abs (x - y)), <- Rmult_assoc. apply Rmult_le_compat_r; [apply Rabs_pos|].
    eapply Rle_trans; [apply f_lip|]. apply Rmult_le_compat_l; [exact HL|]. apply between_abs, Hz.
  Qed.

  (** Divided differences *)
  Definition dd (x y : R) : R := if Req_EM_T x y then g y else (f x - f y) / (x - y).

  Lemma dd_mult x y : (x - y) * dd x y = f x - f y.
  Proof. unfold dd. destruct (Req_EM_T x y) as [->|NE]; [ring|field; lra]. Qed.

  Lemma dd_diag y : dd y y = g y.
  Proof. unfold dd. destruct (Req_EM_T y y); [reflexivity|congruence]. Qed.

  Lemma dd_near x y : Rabs x < Y -> Rabs y < Y -> Rabs (dd x y - g y) <= K * Rabs (x - y).
  Proof.
    intros Hx Hy. unfold dd. destruct (Req_EM_T x y) as [->|NE].
    - rewrite !Rminus_diag_eq, !Rabs_R0 by reflexivity. lra.
    - destruct (mvt f g x y Hx Hy f_der) as (z & Hz & E). rewrite E. replace (g z * (x - y) / (x - y) - g y) with (g z - g y) by (field; lra).
      eapply Rle_trans; [apply g_lip; [apply (between_in x y z Hx Hy Hz)|exact Hy]|]. apply Rmult_le_compat_l; [exact HK|apply between_abs, Hz].
  Qed.

  (** On one side of y *)
  Definition dd' (y x : R) : R := (g x * (x - y) - (f x - f y)) / ((x - y) * (x - y)).

  Lemma dd_derivable x y : Rabs x < Y -> x <> y -> derivable_pt_lim (fun x => (f x - f y) / (x - y)) x (dd' y x).
  Proof.
    intros Hx NE. unfold dd'.
    replace ((g x * (x - y) - (f x - f y)) / ((x - y) * (x - y))) with (((g x - 0) * (x - y) - (1 - 0) * (f x - f y)) / Rsqr (x - y)) by (unfold Rsqr; field; lra).
    apply (derivable_pt_lim_div (fun x => f x - f y) (fun x => x - y)); [| |lra].
    - apply (derivable_pt_lim_minus f (fun _ => f y)); [apply f_der, Hx|apply derivable_pt_lim_const].
    - apply (derivable_pt_lim_minus id (fun _ => y)); [apply derivable_pt_lim_id|apply derivable_pt_lim_const].
  Qed.

  Lemma dd'_bound x y : Rabs x < Y -> Rabs y < Y -> x <> y -> Rabs (dd' y x) <= K.
  Proof.
    intros Hx Hy NE. unfold dd'. destruct (mvt f g x y Hx Hy f_der) as (z & Hz & E). rewrite E.
    replace ((g x * (x - y) - g z * (x - y)) / ((x - y) * (x - y))) with ((g x - g z) / (x - y)) by (field; lra).
    unfold Rdiv. rewrite Rabs_mult, Rabs_inv. assert (Pxy : 0 < Rabs (x - y)) by (apply Rabs_pos_lt; lra).
    apply Rmult_le_reg_r with (Rabs (x - y)); [exact Pxy|]. rewrite Rmult_assoc, Rinv_l, Rmult_1_r by lra.
    eapply Rle_trans; [apply g_lip; [exact Hx|apply (between_in x y z Hx Hy Hz)]|]. apply Rmult_le_compat_l; [exact HK|].
    unfold Rmin, Rmax in Hz. destruct (Rle_dec x y); unfold Rabs; destruct (Rcase_abs (x - z)), (Rcase_abs (x - y)); lra.
  Qed.

  Lemma dd_side x x' y : Rabs x < Y -> Rabs x' < Y -> Rabs y < Y -> x < x' -> x' < y \/ y < x -> Rabs (dd x' y - dd x y) <= K * Rabs (x' - x).
  Proof.
    intros Hx Hx' Hy Lt S. destruct (MVT_cor2 (fun x => (f x - f y) / (x - y)) (dd' y) x x' Lt) as (z & Ez & Hz).
    - intros z Hz. apply Rabs_def2 in Hx, Hx'. apply dd_derivable; [apply Rabs_def1; lra|lra].
    - unfold dd. destruct (Req_EM_T x' y); [lra|]. destruct (Req_EM_T x y); [lra|]. cbv beta in Ez. rewrite Ez, Rabs_mult.
      apply Rmult_le_compat_r; [apply Rabs_pos|]. apply Rabs_def2 in Hx, Hx'. apply dd'_bound; [apply Rabs_def1; lra|exact Hy|lra].
  Qed.

  Lemma dd_lipschitz x x' y : Rabs x < Y -> Rabs x' < Y -> Rabs y < Y -> Rabs (dd x y - dd x' y) <= K * Rabs (x - x').
  Proof.
    intros Hx Hx' Hy.
    assert (W : forall x x', Rabs x < Y -> Rabs x' < Y -> x < x' -> Rabs (dd x' y - dd x y) <= K * Rabs (x' - x)).
    { clear x x' Hx Hx'. intros x x' Hx Hx' Lt. destruct (Rlt_dec x' y) as [A|A]; [apply dd_side; auto|]. destruct (Rlt_dec y x) as [B|B]; [apply dd_side; auto|].
      replace (dd x' y - dd x y) with ((dd x' y - g y) + - (dd x y - g y)) by ring. eapply Rle_trans; [apply Rabs_triang|]. rewrite Rabs_Ropp.
      pose proof (dd_near x' y Hx' Hy) as N1. pose proof (dd_near x y Hx Hy) as N2.
      rewrite (Rabs_right (x' - y)) in N1 by lra. rewrite (Rabs_left1 (x - y)) in N2 by lra. rewrite (Rabs_right (x' - x)) by lra.
      replace (K * (x' - x)) with (K * (x' - y) + K * - (x - y)) by ring. lra. }
    destruct (Rtotal_order x x') as [Lt|[->|Gt]].
    - rewrite Rabs_minus_sym, (Rabs_minus_sym x). apply W; assumption.
    - rewrite !Rminus_diag_eq, !Rabs_R0 by reflexivity. lra.
    - apply W; assumption.
  Qed.
End Mean.

(** Inverse of an increasing function *)
Lemma inverse_lipschitz (G : R -> R) m0 c : (forall x y, x <= y -> G x <= G y) -> derivable_pt_lim G m0 c -> 0 < c ->
  exists eta, 0 < eta /\ forall m, Rabs (G m - G m0) < eta -> Rabs (m - m0) <= 2 / c * Rabs (G m - G m0).
Proof.
  intros Mono Der Hc. destruct (Der (c / 2) ltac:(lra)) as ((d & Hd) & Hdel). cbn in Hdel.
  assert (B : forall h, Rabs h < d -> c / 2 * Rabs h <= Rabs (G (m0 + h) - G m0)).
  { intros h Hh. destruct (Req_dec h 0) as [->|NZ]; [rewrite Rabs_R0, Rmult_0_r; apply Rabs_pos|]. specialize (Hdel h NZ Hh).
    assert (E : G (m0 + h) - G m0 = (G (m0 + h) - G m0) / h * h) by (field; exact NZ). rewrite E, Rabs_mult. apply Rmult_le_compat_r; [apply Rabs_pos|].
    apply Rabs_def2 in Hdel. rewrite Rabs_right; lra. }
  exists (c / 2 * (d / 2)). split; [apply Rmult_lt_0_compat; lra|]. intros m Hm.
  assert (Hnear : Rabs (m - m0) < d).
  { apply Rnot_le_lt. intros Far. destruct (Rle_dec m0 m) as [Le|Gt].
    - rewrite Rabs_right in Far by lra. pose proof (Mono (m0 + d / 2) m ltac:(lra)) as M1. pose proof (Mono m0 (m0 + d / 2) ltac:(lra)) as M2.
      specialize (B (d / 2)). rewrite (Rabs_right (d / 2)) in B by lra. specialize (B ltac:(lra)). rewrite Rabs_right in B by lra. rewrite Rabs_right in Hm by lra. lra.
    - rewrite Rabs_left in Far by lra. pose proof (Mono m (m0 + - (d / 2)) ltac:(lra)) as M1. pose proof (Mono (m0 + - (d / 2)) m0 ltac:(lra)) as M2.
      specialize (B (- (d / 2))). rewrite Rabs_Ropp, (Rabs_right (d / 2)) in B by lra. specialize (B ltac:(lra)). rewrite Rabs_left1 in B by lra. rewrite Rabs_left1 in Hm by lra. lra. }
  specialize (B (m - m0) Hnear). replace (m0 + (m - m0)) with m in B by ring.
  apply Rmult_le_reg_l with (c / 2); [lra|]. replace (c / 2 * (2 / c * Rabs (G m - G m0))) with (Rabs (G m - G m0)) by (field; lra). exact B.
Qed.

Lemma finite_max n (h : nat -> R) Y : (forall i, (i < n)%nat -> Rabs (h i) < Y) -> 0 < Y -> exists M, M < Y /\ forall i, (i < n)%nat -> Rabs (h i) <= M.
Proof.
  intros H HY. induction n as [|n IH]; [exists 0; split; [exact HY|intros; lia]|]. destruct IH as (M & HM & B); [intros; apply H; lia|].
  exists (Rmax M (Rabs (h n))). split; [apply Rmax_lub_lt; [exact HM|apply H; lia]|]. intros i Hi. destruct (Nat.eq_dec i n) as [->|NE]; [apply Rmax_r|].
  eapply Rle_trans; [apply B; lia|apply Rmax_l].
Qed.

Lemma rsum_derivable n (h : nat -> R -> R) (h' : nat -> R) x : (forall i, (i < n)%nat -> derivable_pt_lim (h i) x (h' i)) ->
  derivable_pt_lim (fun x => rsum n (fun i => h i x)) x (rsum n h').
Proof.
  intros E. induction n as [|n IH]; cbn [rsum]; [apply derivable_pt_lim_const|].
  apply (derivable_pt_lim_plus (fun x => rsum n (fun i => h i x)) (h n)); [apply IH; intros; apply E; lia|apply E; lia].
Qed.

Section Path.
  Variables (nk N : nat) (H D1 : nat -> nat -> nat -> C).
  Variables (ev : R -> nat -> nat -> R) (U : R -> nat -> nat -> nat -> C) (mu : R -> R).
  Variables (Y L K num : R) (f phi g : R -> R).
  Hypothesis HL : 0 <= L.
  Hypothesis HK : 0 <= K.
  Hypothesis f_mono : forall x y, x <= y -> f y <= f x.
  Hypothesis f_lip : forall x y, Rabs (f x - f y) <= L * Rabs (x - y).
  Hypothesis phi_der : forall x, Rabs x < Y -> derivable_pt_lim phi x (f x).
  Hypothesis f_der : forall x, Rabs x < Y -> derivable_pt_lim f x (g x).
  Hypothesis g_neg : forall x, Rabs x < Y -> g x < 0.
  Hypothesis g_lip : forall x y, Rabs x < Y -> Rabs y < Y -> Rabs (g x - g y) <= K * Rabs (x - y).

  Hypothesis Hnk : (0 < nk)%nat.
  Hypothesis HN : (0 < N)%nat.
  Hypothesis HH : forall k, (k < nk)%nat -> hermitian N (H k).
  Hypothesis HD : forall k, (k < nk)%nat -> hermitian N (D1 k).
  Hypothesis Heig : forall t k, (k < nk)%nat -> eigensystem N (fun i j => H k i j + RtoC t * D1 k i j)%C (ev t k) (U t k).
  Hypothesis Hnum : forall t, rsum nk (fun k => rsum N (fun n => f (ev t k n - mu t))) = num.
  Hypothesis Hrange : forall k n, (k < nk)%nat -> (n < N)%nat -> Rabs (ev 0 k n - mu 0) < Y.

  Let Ht t k := fun i j => (H k i j + RtoC t * D1 k i j)%C.
  Let At t k := fun i j => (Ht t k i j - RtoC (mu t) * delta i j)%C.
  Let e t k n := ev t k n - mu t.

  Lemma herm_t t k : (k < nk)%nat -> hermitian N (Ht t k).
  Proof. intros Hk i j Hi Hj. unfold Ht. rewrite conj_plus, conj_mult, conj_R, (HH k Hk i j Hi Hj), (HD k Hk i j Hi Hj). reflexivity. Qed.

  Lemma delta_sym i j : delta j i = conj (delta i j).
  Proof. unfold delta. rewrite Nat.eqb_sym. destruct (Nat.eqb i j); symmetry; apply conj_R. Qed.

  Lemma herm_A t k : (k < nk)%nat -> hermitian N (At t k).
  Proof. intros Hk i j Hi Hj. unfold At. rewrite conj_minus, conj_mult, conj_R, (herm_t t k Hk i j Hi Hj), delta_sym. reflexivity. Qed.

  Lemma eig_A t k : (k < nk)%nat -> eigensystem N (At t k) (e t k) (U t k).
  Proof.
    intros Hk. destruct (Heig t k Hk) as [HU E]. split; [exact HU|]. intros i n Hi Hn. unfold At, e.
    transitivity (csum N (fun j => Ht t k i j * U t k j n) - RtoC (mu t) * csum N (fun j => delta i j * U t k j n))%C.
    - rewrite <- csum_scal, <- csum_minus. apply csum_ext. intros. ring.
    - unfold Ht. rewrite (E i n Hi Hn), (csum_delta_l N i (fun j => U t k j n) Hi), RtoC_minus'. ring.
  Qed.

  (** The total perturbation, used in place of the maximum over k *)
  Definition cD : R := rsum nk (fun k => frob N (D1 k)) + 1.

  Lemma cD_ge k : (k < nk)%nat -> frob N (D1 k) <= cD.
  Proof.
    intros Hk. unfold cD. pose proof (rsum_term nk (fun k => frob N (D1 k)) k Hk (fun j _ => frob_nonneg N (D1 j))). cbv beta in H0. lra.
  Qed.

  Lemma cD_pos : 1 <= cD.
  Proof. unfold cD. pose proof (rsum_nonneg nk (fun k => frob N (D1 k)) (fun j _ => frob_nonneg N (D1 j))). lra. Qed.

  Lemma frob_scal (c : R) X : frob N (fun i j => RtoC c * X i j)%C = c * c * frob N X.
  Proof. unfold frob. rewrite <- rsum_scal. apply rsum_ext. intros i _. rewrite <- rsum_scal. apply rsum_ext. intros j _. rewrite abs2_mult, abs2_R. reflexivity. Qed.

  Lemma frob_ext X X' : (forall i j, (i < N)%nat -> (j < N)%nat -> X i j = X' i j) -> frob N X = frob N X'.
  Proof. intros E. unfold frob. apply rsum_ext. intros i Hi. apply rsum_ext. intros j Hj. rewrite E by assumption. reflexivity. Qed.

  Lemma frob_delta : frob N delta = INR N.
  Proof.
    unfold frob. rewrite (rsum_ext N _ (fun _ => 1)); [rewrite rsum_const; ring|]. intros i Hi. rewrite <- (rsum_delta N i (fun _ => 1) Hi). apply rsum_ext. intros j _.
    unfold delta. rewrite Nat.eqb_sym. destruct (Nat.eqb j i); unfold abs2, RtoC; cbn; ring.
  Qed.

  Lemma frob_minus X X' : frob N (fun i j => X i j - X' i j)%C <= 2 * frob N X + 2 * frob N X'.
  Proof.
    unfold frob. rewrite <- !rsum_scal, <- rsum_plus. apply rsum_le. intros i _. rewrite <- !rsum_scal, <- rsum_plus. apply rsum_le. intros j _.
    destruct (X i j) as [x y], (X' i j) as [x' y']. unfold abs2, Cminus, Cplus, Copp. cbn.
    pose proof (Rle_0_sqr (x + x')) as S1. pose proof (Rle_0_sqr (y + y')) as S2. unfold Rsqr in *. lra.
  Qed.

  Lemma diff_A t k i j : mdiff (At t k) (At 0 k) i j = (RtoC t * D1 k i j - RtoC (mu t - mu 0) * delta i j)%C.
  Proof. unfold mdiff, At, Ht. rewrite RtoC_minus'. ring. Qed.

  Lemma frob_A t k : (k < nk)%nat -> frob N (mdiff (At t k) (At 0 k)) <= 2 * (t * t * cD) + 2 * ((mu t - mu 0) * (mu t - mu 0) * INR N).
  Proof.
    intros Hk. rewrite (frob_ext _ _ (fun i j _ _ => diff_A t k i j)). eapply Rle_trans; [apply frob_minus|].
    rewrite !frob_scal, frob_delta. pose proof (cD_ge k Hk). pose proof (Rle_0_sqr t). unfold Rsqr in *. nra.
  Qed.

  Lemma frob_H t k : (k < nk)%nat -> frob N (mdiff (Ht t k) (Ht 0 k)) <= (cD * Rabs t) * (cD * Rabs t).
  Proof.
    intros Hk. rewrite (frob_ext _ (fun i j => RtoC t * D1 k i j)%C) by (intros; unfold mdiff, Ht; ring). rewrite frob_scal.
    pose proof (cD_ge k Hk). pose proof cD_pos. replace (cD * Rabs t * (cD * Rabs t)) with ((t * t) * (cD * cD)) by (rewrite (sq_abs t); ring).
    apply Rmult_le_compat_l; [apply Rle_0_sqr|]. nra.
  Qed.

  (** Number of electrons at t = 0 as a function of the chemical potential *)
  Definition G (m : R) : R := rsum nk (fun k => rsum N (fun n => f (ev 0 k n - m))).
  Definition dG : R := rsum nk (fun k => rsum N (fun n => - g (e 0 k n))).

  Lemma G_derivable : derivable_pt_lim G (mu 0) dG.
  Proof.
    unfold G, dG. apply (rsum_derivable nk (fun k m => rsum N (fun n => f (ev 0 k n - m)))). intros k Hk.
    apply (rsum_derivable N (fun n m => f (ev 0 k n - m))). intros n Hn.
    replace (- g (e 0 k n)) with (g (ev 0 k n - mu 0) * (0 - 1)) by (unfold e; ring).
    apply (derivable_pt_lim_comp (fun m => ev 0 k n - m) f).
    - apply (derivable_pt_lim_minus (fun _ => ev 0 k n) id); [apply derivable_pt_lim_const|apply derivable_pt_lim_id].
    - apply f_der, Hrange; assumption.
  Qed.

  Lemma dG_pos : 0 < dG.
  Proof.
    unfold dG. apply Rle_lt_trans with (rsum nk (fun _ => 0)); [rewrite rsum_zero; lra|]. apply rsum_lt; [exact Hnk|]. intros k Hk.
    apply Rle_lt_trans with (rsum N (fun _ => 0)); [rewrite rsum_zero; lra|]. apply rsum_lt; [exact HN|]. intros n Hn.
    pose proof (g_neg (e 0 k n) (Hrange k n Hk Hn)). lra.
  Qed.

  Lemma G_mono x y : x <= y -> G x <= G y.
  Proof. intros Hxy. unfold G. apply rsum_le. intros k _. apply rsum_le. intros n _. apply f_mono. lra. Qed.

  Lemma G_close t : t <> 0 -> Rabs (G (mu t) - G (mu 0)) <= INR nk * (L * (INR N + 1) * cD) * Rabs t.
  Proof.
    intros Ht0. replace (G (mu 0)) with num by (symmetry; apply (Hnum 0)). rewrite <- (Hnum t). unfold G. rewrite <- rsum_minus.
    eapply Rle_trans; [apply rsum_abs|]. replace (INR nk * (L * (INR N + 1) * cD) * Rabs t) with (rsum nk (fun _ => L * (INR N + 1) * (cD * Rabs t))) by (rewrite rsum_const; ring).
    apply rsum_le. intros k Hk. rewrite Rabs_minus_sym.
    apply (trace_lipschitz N (Ht t k) (Ht 0 k) (ev t k) (ev 0 k) (U t k) (U 0 k) (herm_t t k Hk) (Heig t k Hk) (Heig 0 k Hk) (fun x => f (x - mu t)) L (cD * Rabs t)).
    - apply Rmult_lt_0_compat; [pose proof cD_pos; lra|apply Rabs_pos_lt, Ht0].
    - apply frob_H, Hk.
    - exact HL.
    - intros x y. replace (x - y) with (x - mu t - (y - mu t)) by ring. apply f_lip.
  Qed.

  Lemma mu_lipschitz : exists c, 0 <= c /\ near (fun t => Rabs (mu t - mu 0) <= c * Rabs t).
  Proof.
    destruct (inverse_lipschitz G (mu 0) dG G_mono G_derivable dG_pos) as (eta & He & B).
    set (a := INR nk * (L * (INR N + 1) * cD)). assert (Ha : 0 <= a).
    { unfold a. pose proof (pos_INR nk). pose proof (pos_INR N). pose proof cD_pos. repeat apply Rmult_le_pos; lra. }
    exists (2 / dG * a). split; [apply Rmult_le_pos; [left; apply Rdiv_lt_0_compat; [lra|apply dG_pos]|exact Ha]|].
    generalize (near_lt a eta He Ha). apply near_imp. intros t Ht'. destruct (Req_dec t 0) as [->|NZ].
    - rewrite Rminus_diag_eq, !Rabs_R0 by reflexivity. lra.
    - pose proof (G_close t NZ) as C1. fold a in C1. eapply Rle_trans; [apply B; lra|]. rewrite Rmult_assoc. apply Rmult_le_compat_l; [|exact C1].
      left; apply Rdiv_lt_0_compat; [lra|apply dG_pos].
  Qed.

  Lemma frob_quadratic : exists c, 0 <= c /\ near (fun t => forall k, (k < nk)%nat -> frob N (mdiff (At t k) (At 0 k)) <= c * (t * t)).
  Proof.
    destruct mu_lipschitz as (c & Hc & Hmu). exists (2 * cD + 2 * (c * c * INR N)). pose proof cD_pos. pose proof (pos_INR N). split.
    - assert (0 <= c * c * INR N) by (repeat apply Rmult_le_pos; assumption). lra.
    - revert Hmu. apply near_imp. intros t Hmu k Hk. eapply Rle_trans; [apply frob_A, Hk|].
      assert (S : (mu t - mu 0) * (mu t - mu 0) <= c * c * (t * t)).
      { rewrite (sq_abs (mu t - mu 0)), (sq_abs t). replace (c * c * (Rabs t * Rabs t)) with ((c * Rabs t) * (c * Rabs t)) by ring. apply Rmult_le_compat; try assumption; apply Rabs_pos. }
      apply (Rmult_le_compat_r (INR N)) in S; [|assumption]. nra.
  Qed.

  (** Eigenvalues stay in the range where the occupation is smooth. *)
  Lemma range_near : near (fun t => forall k n, (k < nk)%nat -> (n < N)%nat -> Rabs (e t k n) < Y).
  Proof.
    assert (HY : 0 < Y) by (eapply Rle_lt_trans; [apply Rabs_pos|apply (Hrange 0 0 Hnk HN)]).
    assert (M : exists M, M < Y /\ forall k n, (k < nk)%nat -> (n < N)%nat -> Rabs (e 0 k n) <= M).
    { clear - Hrange HY. assert (Q : forall k, (k < nk)%nat -> exists M, M < Y /\ forall n, (n < N)%nat -> Rabs (e 0 k n) <= M) by (intros k Hk; apply finite_max; [intros; apply Hrange; assumption|exact HY]).
      clear Hrange. induction nk as [|m IH]; [exists 0; split; [exact HY|intros; lia]|]. destruct IH as (M & HM & B); [intros; apply Q; lia|].
      destruct (Q m ltac:(lia)) as (M' & HM' & B'). exists (Rmax M M'). split; [apply Rmax_lub_lt; assumption|]. intros k n Hk Hn.
      destruct (Nat.eq_dec k m) as [->|NE]; [eapply Rle_trans; [apply B', Hn|apply Rmax_r]|eapply Rle_trans; [apply B; [lia|exact Hn]|apply Rmax_l]]. }
    destruct M as (M & HM & B). destruct frob_quadratic as (c & Hc & Hf).
    generalize (near_and _ _ Hf (near_lt (c + 1) (Y - M) ltac:(lra) ltac:(lra))). apply near_imp. intros t [F S] k n Hk Hn.
    assert (Q : frob N (mdiff (At t k) (At 0 k)) <= ((c + 1) * Rabs t) * ((c + 1) * Rabs t)).
    { eapply Rle_trans; [apply F, Hk|]. rewrite (sq_abs t). pose proof (Rle_0_sqr (Rabs t)). unfold Rsqr in *. nra. }
    destruct (eigenvalue_close N (At t k) (At 0 k) (e t k) (e 0 k) (U t k) (U 0 k) (herm_A t k Hk) (eig_A t k Hk) (eig_A 0 k Hk) ((c + 1) * Rabs t) n) as (m & Hm & C1); [|exact Q|exact Hn|].
    { apply Rmult_le_pos; [lra|apply Rabs_pos]. }
    specialize (B k m Hk Hm). replace (e t k n) with ((e t k n - e 0 k m) + e 0 k m) by ring. eapply Rle_lt_trans; [apply Rabs_triang|]. lra.
  Qed.

  (** Expectation values of the perturbation *)
  Lemma ip_diff t k x y : ip N x (mv N (mdiff (At t k) (At 0 k)) y) = (RtoC t * ip N x (mv N (D1 k) y) - RtoC (mu t - mu 0) * ip N x y)%C.
  Proof.
    unfold ip, mv. transitivity (csum N (fun i => conj (x i) * (RtoC t * csum N (fun j => D1 k i j * y j) - RtoC (mu t - mu 0) * y i)))%C.
    - apply csum_ext. intros i Hi. f_equal. rewrite <- (csum_delta_l N i y Hi), <- !csum_scal, <- csum_minus. apply csum_ext. intros j _. rewrite diff_A. ring.
    - rewrite <- !csum_scal, <- csum_minus. apply csum_ext. intros i _. ring.
  Qed.

  Let x0 k X n := fst (ip N (col (U 0 k) n) (mv N X (col (U 0 k) n))).

  Lemma x0_diff t k n : (k < nk)%nat -> (n < N)%nat -> x0 k (mdiff (At t k) (At 0 k)) n = t * x0 k (D1 k) n - (mu t - mu 0).
  Proof.
    intros Hk Hn. unfold x0. rewrite ip_diff, (ip_ortho N (U 0 k) n n (proj1 (Heig 0 k Hk)) Hn Hn). unfold delta. rewrite Nat.eqb_refl. cbn. ring.
  Qed.

  (** First derivative of the free energy *)
  Definition free (t : R) : R := rsum nk (fun k => rsum N (fun n => phi (e t k n))) + mu t * num.

  Theorem free_derivable : derivable_pt_lim free 0 (rsum nk (fun k => rsum N (fun n => f (e 0 k n) * x0 k (D1 k) n))).
  Proof.
    apply quadratic_derivable. destruct frob_quadratic as (c & Hc & Hf).
    apply (quadratic_ext (fun t => rsum nk (fun k => rsum N (fun n => phi (e t k n)) - rsum N (fun n => phi (e 0 k n)) - rsum N (fun n => f (e 0 k n) * x0 k (mdiff (At t k) (At 0 k)) n)))).
    { intros t. unfold free. rewrite (rsum_ext nk _ (fun k => rsum N (fun n => phi (e t k n)) - rsum N (fun n => phi (e 0 k n)) - (t * rsum N (fun n => f (e 0 k n) * x0 k (D1 k) n) - (mu t - mu 0) * rsum N (fun n => f (e 0 k n))))).
      2:{ intros k Hk. f_equal. rewrite <- !rsum_scal, <- rsum_minus. apply rsum_ext. intros n Hn. rewrite x0_diff by assumption. ring. }
      rewrite !rsum_minus, !rsum_scal. pose proof (Hnum 0) as N0. fold (e 0) in N0. unfold e in *. rewrite N0. ring. }
    exists (INR nk * (L * c)). split; [pose proof (pos_INR nk); repeat apply Rmult_le_pos; assumption|].
    generalize (near_and _ _ Hf range_near). apply near_imp. intros t [F B]. eapply Rle_trans; [apply rsum_abs|].
    replace (INR nk * (L * c) * (t * t)) with (rsum nk (fun _ => L * (c * (t * t)))) by (rewrite rsum_const; ring).
    apply rsum_le. intros k Hk. eapply Rle_trans.
    - apply (trace_first N (At t k) (At 0 k) (e t k) (e 0 k) (U t k) (U 0 k) (herm_A t k Hk) (eig_A t k Hk) (eig_A 0 k Hk) phi f L).
      intros m n Hm Hn. apply (phi_second Y L f phi HL f_lip phi_der); [apply B; assumption|apply Hrange; assumption].
    - apply Rmult_le_compat_l; [exact HL|apply F, Hk].
  Qed.

  (** Derivative of the expectation value of X (for each k) *)
  Variable X : nat -> nat -> nat -> C.
  Definition expect (t : R) (Z : nat -> nat -> nat -> C) : R := rsum nk (fun k => rsum N (fun n => f (e t k n) * fst (ip N (col (U t k) n) (mv N (Z k) (col (U t k) n))))).
  Definition response (k : nat) (Z W : nat -> nat -> C) : R :=
    fst (csum N (fun n => csum N (fun m => RtoC (dd f g (e 0 k m) (e 0 k n)) * (ip N (col (U 0 k) n) (mv N Z (col (U 0 k) m)) * ip N (col (U 0 k) m) (mv N W (col (U 0 k) n)))))%C).

  Lemma expect_quadratic Z : quadratic (fun t => expect t Z - expect 0 Z - rsum nk (fun k => response k (Z k) (mdiff (At t k) (At 0 k)))).
  Proof.
    destruct frob_quadratic as (c & Hc & Hf).
    apply (quadratic_ext (fun t => rsum nk (fun k => rsum N (fun n => f (e t k n) * fst (ip N (col (U t k) n) (mv N (Z k) (col (U t k) n))))
      - rsum N (fun n => f (e 0 k n) * fst (ip N (col (U 0 k) n) (mv N (Z k) (col (U 0 k) n)))) - response k (Z k) (mdiff (At t k) (At 0 k))))).
    { intros t. rewrite !rsum_minus. reflexivity. }
    apply (quadratic_rsum nk (fun k t => rsum N (fun n => f (e t k n) * fst (ip N (col (U t k) n) (mv N (Z k) (col (U t k) n))))
      - rsum N (fun n => f (e 0 k n) * fst (ip N (col (U 0 k) n) (mv N (Z k) (col (U 0 k) n)))) - response k (Z k) (mdiff (At t k) (At 0 k)))).
    intros k Hk. set (cz := frob N (Z k) + 1). assert (Hz : 1 <= cz) by (unfold cz; pose proof (frob_nonneg N (Z k)); lra).
    exists (INR N * INR N * INR N * (K * cz) * c). split.
    - pose proof (pos_INR N). repeat apply Rmult_le_pos; lra.
    - generalize (near_and _ _ Hf range_near). apply near_imp. intros t [F B]. eapply Rle_trans.
      + apply (trace_second N (At t k) (At 0 k) (e t k) (e 0 k) (U t k) (U 0 k) (herm_A t k Hk) (eig_A t k Hk) (eig_A 0 k Hk) (Z k) f (dd f g) K cz); [lra|exact HK| | |].
        * unfold cz. pose proof (frob_nonneg N (Z k)). nra.
        * intros. apply dd_mult.
        * intros m n j Hm Hn Hj. apply (dd_lipschitz Y K f g HK f_der g_lip); [apply B; assumption|apply Hrange; assumption|apply Hrange; assumption].
      + rewrite Rmult_assoc with (r3 := t * t). apply Rmult_le_compat_l; [pose proof (pos_INR N); repeat apply Rmult_le_pos; lra|apply F, Hk].
  Qed.

  Lemma response_diff t k Z : (k < nk)%nat ->
    response k Z (mdiff (At t k) (At 0 k)) = t * response k Z (D1 k) - (mu t - mu 0) * rsum N (fun n => g (e 0 k n) * x0 k Z n).
  Proof.
    intros Hk. unfold response.
    transitivity (fst (RtoC t * csum N (fun n => csum N (fun m => RtoC (dd f g (e 0 k m) (e 0 k n)) * (ip N (col (U 0 k) n) (mv N Z (col (U 0 k) m)) * ip N (col (U 0 k) m) (mv N (D1 k) (col (U 0 k) n)))))
      - RtoC (mu t - mu 0) * csum N (fun n => RtoC (g (e 0 k n)) * ip N (col (U 0 k) n) (mv N Z (col (U 0 k) n))))%C).
    - f_equal. rewrite <- !csum_scal, <- csum_minus. apply csum_ext. intros n Hn. rewrite <- csum_scal.
      transitivity (csum N (fun m => RtoC t * (RtoC (dd f g (e 0 k m) (e 0 k n)) * (ip N (col (U 0 k) n) (mv N Z (col (U 0 k) m)) * ip N (col (U 0 k) m) (mv N (D1 k) (col (U 0 k) n))))) -
        csum N (fun m => RtoC (mu t - mu 0) * (RtoC (dd f g (e 0 k m) (e 0 k n)) * ip N (col (U 0 k) n) (mv N Z (col (U 0 k) m))) * delta m n))%C.
      + rewrite <- csum_minus. apply csum_ext. intros m Hm. rewrite ip_diff, (ip_ortho N (U 0 k) m n (proj1 (Heig 0 k Hk)) Hm Hn). ring.
      + f_equal. rewrite (csum_delta_r N n (fun m => RtoC (mu t - mu 0) * (RtoC (dd f g (e 0 k m) (e 0 k n)) * ip N (col (U 0 k) n) (mv N Z (col (U 0 k) m))))%C Hn), dd_diag. reflexivity.
    - unfold Cminus. unfold Cplus at 1. cbn [fst]. unfold Copp. cbn [fst]. rewrite !fst_RtoC_mult. unfold Rminus. f_equal. f_equal. f_equal. rewrite fst_csum. apply rsum_ext. intros n _. rewrite fst_RtoC_mult. reflexivity.
  Qed.

  Definition sum_g : R := rsum nk (fun k => rsum N (fun n => g (e 0 k n))).
  Definition sum_gx (Z : nat -> nat -> nat -> C) : R := rsum nk (fun k => rsum N (fun n => g (e 0 k n) * x0 k (Z k) n)).

  Lemma ip_one k n : (k < nk)%nat -> (n < N)%nat -> ip N (col (U 0 k) n) (mv N delta (col (U 0 k) n)) = RtoC 1.
  Proof.
    intros Hk Hn. rewrite (ip_ext N (col (U 0 k) n) (col (U 0 k) n) (mv N delta (col (U 0 k) n)) (col (U 0 k) n)); [|reflexivity|].
    - rewrite (ip_ortho N (U 0 k) n n (proj1 (Heig 0 k Hk)) Hn Hn). unfold delta. rewrite Nat.eqb_refl. reflexivity.
    - intros i Hi. unfold mv. apply (csum_delta_l N i (col (U 0 k) n) Hi).
  Qed.

  Lemma ip_one_t t k n : (k < nk)%nat -> (n < N)%nat -> ip N (col (U t k) n) (mv N delta (col (U t k) n)) = RtoC 1.
  Proof.
    intros Hk Hn. rewrite (ip_ext N (col (U t k) n) (col (U t k) n) (mv N delta (col (U t k) n)) (col (U t k) n)); [|reflexivity|].
    - rewrite (ip_ortho N (U t k) n n (proj1 (Heig t k Hk)) Hn Hn). unfold delta. rewrite Nat.eqb_refl. reflexivity.
    - intros i Hi. unfold mv. apply (csum_delta_l N i (col (U t k) n) Hi).
  Qed.

  Lemma ip_one' k m n : (k < nk)%nat -> (m < N)%nat -> (n < N)%nat -> ip N (col (U 0 k) m) (mv N delta (col (U 0 k) n)) = delta m n.
  Proof.
    intros Hk Hm Hn. rewrite (ip_ext N (col (U 0 k) m) (col (U 0 k) m) (mv N delta (col (U 0 k) n)) (col (U 0 k) n)); [|reflexivity|].
    - apply (ip_ortho N (U 0 k) m n (proj1 (Heig 0 k Hk)) Hm Hn).
    - intros i Hi. unfold mv. apply (csum_delta_l N i (col (U 0 k) n) Hi).
  Qed.

  Lemma expect_one t : expect t (fun _ => delta) = num.
  Proof.
    unfold expect. rewrite <- (Hnum t). apply rsum_ext. intros k Hk. apply rsum_ext. intros n Hn. rewrite ip_one_t by assumption. cbn. unfold e. ring.
  Qed.

  Lemma response_one k W : (k < nk)%nat -> response k delta W = rsum N (fun n => g (e 0 k n) * x0 k W n).
  Proof.
    intros Hk. unfold response. rewrite fst_csum. apply rsum_ext. intros n Hn.
    rewrite (csum_ext N _ (fun m => RtoC (dd f g (e 0 k m) (e 0 k n)) * ip N (col (U 0 k) m) (mv N W (col (U 0 k) n)) * delta m n)%C).
    - rewrite (csum_delta_r N n (fun m => RtoC (dd f g (e 0 k m) (e 0 k n)) * ip N (col (U 0 k) m) (mv N W (col (U 0 k) n)))%C Hn), dd_diag, fst_RtoC_mult. reflexivity.
    - intros m Hm. rewrite ip_one' by assumption. unfold delta. rewrite (Nat.eqb_sym n m). ring.
  Qed.

  (** First-order change of the chemical potential *)
  Definition mu1 : R := sum_gx D1 / sum_g.

  Lemma sum_g_neg : sum_g < 0.
  Proof.
    pose proof dG_pos as P1. assert (E : dG = - sum_g).
    { unfold dG, sum_g. rewrite (rsum_ext nk _ (fun k => -1 * rsum N (fun n => g (e 0 k n)))); [rewrite rsum_scal; ring|].
      intros k _. rewrite <- rsum_scal. apply rsum_ext. intros. ring. }
    lra.
  Qed.

  Lemma mu_quadratic : quadratic (fun t => mu t - mu 0 - t * mu1).
  Proof.
    apply (quadratic_ext (fun t => / sum_g * (expect t (fun _ => delta) - expect 0 (fun _ => delta) - rsum nk (fun k => response k delta (mdiff (At t k) (At 0 k)))))).
    - intros t. rewrite !expect_one. pose proof sum_g_neg.
      rewrite (rsum_ext nk _ (fun k => t * rsum N (fun n => g (e 0 k n) * x0 k (D1 k) n) - (mu t - mu 0) * rsum N (fun n => g (e 0 k n)))).
      + rewrite rsum_minus, !rsum_scal. fold sum_g. fold (sum_gx D1). unfold mu1. field. lra.
      + intros k Hk. rewrite response_diff, response_one by exact Hk. f_equal. f_equal. apply rsum_ext. intros n Hn. unfold x0. rewrite ip_one by assumption. cbn. ring.
    - apply (quadratic_scal (/ sum_g) (fun t => expect t (fun _ => delta) - expect 0 (fun _ => delta) - rsum nk (fun k => response k delta (mdiff (At t k) (At 0 k))))). apply expect_quadratic.
  Qed.

  Theorem expect_derivable : derivable_pt_lim (fun t => expect t X) 0 (rsum nk (fun k => response k (X k) (D1 k)) - mu1 * sum_gx X).
  Proof.
    apply quadratic_derivable.
    apply (quadratic_ext (fun t => (expect t X - expect 0 X - rsum nk (fun k => response k (X k) (mdiff (At t k) (At 0 k)))) + - sum_gx X * (mu t - mu 0 - t * mu1))).
    - intros t. rewrite (rsum_ext nk (fun k => response k (X k) (mdiff (At t k) (At 0 k))) (fun k => t * response k (X k) (D1 k) - (mu t - mu 0) * rsum N (fun n => g (e 0 k n) * x0 k (X k) n))).
      + rewrite rsum_minus, !rsum_scal. fold (sum_gx X). ring.
      + intros k Hk. apply response_diff, Hk.
    - apply quadratic_plus; [apply expect_quadratic|]. apply (quadratic_scal (- sum_gx X) (fun t => mu t - mu 0 - t * mu1)). apply mu_quadratic.
  Qed.
End Path.
