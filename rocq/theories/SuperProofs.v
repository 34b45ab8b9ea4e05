(** Proofs for effective couplings and phonon frequencies. *)
From Coq Require Import Reals List Lra Lia.
From Verif Require PhModel.
From Verif Require Import Common Cx CxProofs HermSpec HermProofs MdModel MdSpec DiagModel DiagSpec DiagProofs DiagProofs4 SpecFSpec SuperModel SuperSpec.
Notation delta := MdModel.delta.
Local Open Scope R_scope.

(** ** Sums *)

Lemma asum_ext n m f g : (forall i j, (i < n)%nat -> (j < m)%nat -> f i j = g i j) -> asum n m f = asum n m g.
Proof. intros H. apply rsum_ext. intros i Hi. apply rsum_ext. intros j Hj. apply H; assumption. Qed.

Lemma asum_scal n m c f : asum n m (fun i j => c * f i j) = c * asum n m f.
Proof. unfold asum. rewrite <- rsum_scal. apply rsum_ext. intros. apply rsum_scal. Qed.

Lemma asum_plus n m f g : asum n m (fun i j => f i j + g i j) = asum n m f + asum n m g.
Proof. unfold asum. rewrite <- rsum_plus. apply rsum_ext. intros. apply rsum_plus. Qed.

Lemma asum_le n m f g : (forall i j, (i < n)%nat -> (j < m)%nat -> f i j <= g i j) -> asum n m f <= asum n m g.
Proof. intros H. apply rsum_le. intros i Hi. apply rsum_le. intros j Hj. apply H; assumption. Qed.

Lemma asum_nonneg n m f : (forall i j, (i < n)%nat -> (j < m)%nat -> 0 <= f i j) -> 0 <= asum n m f.
Proof. intros H. apply rsum_nonneg. intros i Hi. apply rsum_nonneg. intros j Hj. apply H; assumption. Qed.

Lemma mesh_sum_ext nk F G : (forall k, on_mesh nk k -> F k = G k) -> mesh_sum nk F = mesh_sum nk G.
Proof.
  destruct nk as [[a b] c]. intros H. unfold mesh_sum. apply rsum_ext. intros i Hi. apply rsum_ext. intros j Hj. apply rsum_ext. intros l Hl.
  apply H. cbn. auto.
Qed.

Lemma mesh_sum_scal nk c F : mesh_sum nk (fun k => c * F k) = c * mesh_sum nk F.
Proof.
  destruct nk as [[n1 n2] n3]. unfold mesh_sum. rewrite <- rsum_scal. apply rsum_ext. intros. rewrite <- rsum_scal. apply rsum_ext. intros. apply rsum_scal.
Qed.

Lemma mesh_sum_rsum nk n F : mesh_sum nk (fun k => rsum n (fun i => F k i)) = rsum n (fun i => mesh_sum nk (fun k => F k i)).
Proof.
  destruct nk as [[n1 n2] n3]. unfold mesh_sum. rewrite (rsum_swap n n1). apply rsum_ext. intros i _. rewrite (rsum_swap n n2). apply rsum_ext. intros j _. apply rsum_swap.
Qed.

Lemma mesh_sum_nonneg nk F : (forall k, on_mesh nk k -> 0 <= F k) -> 0 <= mesh_sum nk F.
Proof.
  destruct nk as [[a b] c]. intros H. unfold mesh_sum. apply rsum_nonneg. intros i Hi. apply rsum_nonneg. intros j Hj. apply rsum_nonneg. intros l Hl.
  apply H. cbn. auto.
Qed.

Lemma fst_ksum' nk F : fst (ksum nk F) = mesh_sum nk (fun k => fst (F k)).
Proof. rewrite fst_ksum. reflexivity. Qed.

(** ** Logarithm *)

Lemma ln_le_pred y : 0 < y -> ln y <= y - 1.
Proof. intros H. pose proof (exp_ineq1_le (ln y)) as E. rewrite exp_ln in E by exact H. lra. Qed.

(** ** Independence of the basis *)

Lemma spectral_unique N A a b U V F y : hermitian N A -> eigensystem N A a U -> eigensystem N A b V ->
  rsum N (fun m => F (a m) * abs2 (ip N (col U m) y)) = rsum N (fun m => F (b m) * abs2 (ip N (col V m) y)).
Proof.
  intros HA EA EB. apply RtoC_inj'. rewrite !RtoC_rsum.
  assert (Z : forall m n, (m < N)%nat -> (n < N)%nat -> (RtoC (F (a m)) * ip N (col U m) (col V n) = RtoC (F (b n)) * ip N (col U m) (col V n))%C).
  { intros m n Hm Hn. pose proof (braket N A A a b U V m n HA EA EB Hm Hn) as B. rewrite ip_mdiff in B.
    replace (ip N (col U m) (mv N A (col V n)) - ip N (col U m) (mv N A (col V n)))%C with (RtoC 0) in B by ring.
    destruct (Req_dec (a m) (b n)) as [->|NE]; [reflexivity|].
    assert (ip N (col U m) (col V n) = RtoC 0) as ->; [|ring].
    apply c_ext; [apply (f_equal fst) in B|apply (f_equal snd) in B]; cbn in B |- *; apply Rmult_eq_reg_l with (a m - b n); lra. }
  rewrite (csum_ext N _ (fun m => csum N (fun n => RtoC (F (b n)) * (ip N y (col U m) * ip N (col U m) (col V n) * ip N (col V n) y)))%C).
  - rewrite csum_swap. apply csum_ext. intros n Hn. rewrite csum_scal, csum_scal_r, <- (ip_complete N U y (col V n) (proj1 EA)), RtoC_mult', abs2_conj, ip_conj. reflexivity.
  - intros m Hm. rewrite RtoC_mult', abs2_conj, ip_conj, (ip_complete N V (col U m) y (proj1 EB)).
    replace (RtoC (F (a m)) * (ip N y (col U m) * csum N (fun n => ip N (col U m) (col V n) * ip N (col V n) y)))%C
      with ((ip N y (col U m) * RtoC (F (a m))) * csum N (fun n => ip N (col U m) (col V n) * ip N (col V n) y))%C by ring.
    rewrite <- csum_scal. apply csum_ext. intros n Hn.
    transitivity (ip N y (col U m) * (RtoC (F (a m)) * ip N (col U m) (col V n)) * ip N (col V n) y)%C; [ring|]. rewrite (Z m n Hm Hn). ring.
Qed.

(** Eigenvalues of the same matrix *)
Lemma eigenvalue_shared N A a b U V m : hermitian N A -> eigensystem N A a U -> eigensystem N A b V -> (m < N)%nat ->
  exists n, (n < N)%nat /\ b n = a m.
Proof.
  intros HA EA EB Hm. destruct (eigenvalue_close N A A a b U V HA EA EB 0 m (Rle_refl 0)) as (n & Hn & H).
  - unfold frob. rewrite (rsum_ext N _ (fun _ => 0)); [rewrite rsum_zero; lra|]. intros i _. rewrite <- (rsum_zero N). apply rsum_ext. intros j _. unfold mdiff, abs2. cbn. ring.
  - exact Hm.
  - exists n. split; [exact Hn|]. pose proof (Rabs_pos (a m - b n)). apply Rminus_diag_uniq. assert (Z : Rabs (a m - b n) = 0) by lra.
    destruct (Req_dec (a m - b n) 0) as [E|E]; [lra|]. apply Rabs_no_R0 in E. lra.
Qed.

(** ** Minimum *)

Lemma minimum_le n f i : (i <= n)%nat -> minimum n f <= f i.
Proof.
  induction n as [|n IH]; intros H; cbn [minimum]; [replace i with 0%nat by lia; lra|].
  destruct (Nat.eq_dec i (S n)) as [->|NE]; [apply Rmin_r|]. eapply Rle_trans; [apply Rmin_l|apply IH; lia].
Qed.

Lemma minimum_in n f : exists i, (i <= n)%nat /\ minimum n f = f i.
Proof.
  induction n as [|n (i & Hi & E)]; cbn [minimum]; [exists 0%nat; auto|].
  unfold Rmin. destruct Rle_dec; [exists i; split; [lia|exact E]|exists (S n); split; [lia|reflexivity]].
Qed.

Lemma amin_le n m a i j : (i < n)%nat -> (j < m)%nat -> amin n m a <= a i j.
Proof.
  intros Hi Hj. unfold amin. eapply Rle_trans; [apply (minimum_le (n - 1) _ i); lia|]. apply minimum_le. lia.
Qed.

Lemma amin_in n m a : (0 < n)%nat -> (0 < m)%nat -> exists i j, (i < n)%nat /\ (j < m)%nat /\ amin n m a = a i j.
Proof.
  intros Hn Hm. unfold amin. destruct (minimum_in (n - 1) (fun i => minimum (m - 1) (a i))) as (i & Hi & E).
  destruct (minimum_in (m - 1) (a i)) as (j & Hj & E'). exists i, j. split; [lia|]. split; [lia|]. rewrite E, E'. reflexivity.
Qed.

Lemma amin_unique n m a b : (0 < n)%nat -> (0 < m)%nat ->
  (forall i j, (i < n)%nat -> (j < m)%nat -> exists j', (j' < m)%nat /\ b i j' = a i j) ->
  (forall i j, (i < n)%nat -> (j < m)%nat -> exists j', (j' < m)%nat /\ a i j' = b i j) -> amin n m a = amin n m b.
Proof.
  intros Hn Hm H1 H2. apply Rle_antisym.
  - destruct (amin_in n m b Hn Hm) as (i & j & Hi & Hj & ->). destruct (H2 i j Hi Hj) as (j' & Hj' & <-). apply amin_le; assumption.
  - destruct (amin_in n m a Hn Hm) as (i & j & Hi & Hj & ->). destruct (H1 i j Hi Hj) as (j' & Hj' & <-). apply amin_le; assumption.
Qed.

(** ** The function *)

Section Super.
  Context (nk : pt) (nbnd : nat) (e : pt -> nat -> R) (kT : R) (s : smearing).
  Context (M : nat -> R) (nq nm : nat) (q : nat -> R * R * R).
  Context (eigh : nat -> (nat -> nat -> C) -> (nat -> R) * (nat -> nat -> C)) (eps : R).
  Context (D : nat -> nat -> nat -> C) (d : nat -> nat -> pt -> nat -> nat -> C).
  Hypothesis HkT : 0 < kT.
  Hypothesis Hs : nonneg (delta s).
  Hypothesis Heps : 0 < eps.
  Hypothesis HM : forall a, 0 < M a.
  Hypothesis Heigh : eigh_contract nm eigh.
  Hypothesis HD : forall iq, (iq < nq)%nat -> hermitian nm (D iq).
  Notation W := (fermi_sum nk nbnd e kT s nq q).
  Notation dd := (fermi_sum nk nbnd e kT s nq q (fun _ _ _ _ => 1)).
  Hypothesis Hdd : 0 < dd.
  Notation mw := (mass_weighted M D).
  Notation w2 := (fun iq => fst (eigh nm (mw iq))).
  Notation u := (fun iq => snd (eigh nm (mw iq))).
  (** The couplings of a pair of states as a vector, conjugate and divided by masses *)
  Definition vec (iq : nat) (k : pt) (m n x : nat) : C := (conj (d iq x k m n) * RtoC (mm12 M x))%C.

  Lemma mm12_pos x : 0 < mm12 M x.
  Proof. apply Rinv_0_lt_compat, sqrt_lt_R0, HM. Qed.

  Lemma mw_hermitian iq : (iq < nq)%nat -> hermitian nm (mw iq).
  Proof. intros Hi i j Hii Hj. unfold mass_weighted. rewrite !conj_mult, !conj_R, <- (HD iq Hi i j Hii Hj). ring. Qed.

  Lemma mw_eigen iq : (iq < nq)%nat -> eigensystem nm (mw iq) (w2 iq) (u iq).
  Proof. intros Hi. apply Heigh, mw_hermitian, Hi. Qed.

  Lemma mode_squared_eq U iq nu k m n : mode_squared M nm U d iq nu k m n = RtoC (abs2 (ip nm (col (U iq) nu) (vec iq k m n))).
  Proof.
    unfold mode_squared. rewrite abs2_conj.
    assert (E : mode_coupling M nm U d iq nu k m n = conj (ip nm (col (U iq) nu) (vec iq k m n))).
    { rewrite ip_conj. unfold mode_coupling, ip, vec, col. apply csum_ext. intros x _. rewrite conj_mult, conj_conj, conj_R. reflexivity. }
    rewrite E, conj_conj. reflexivity.
  Qed.

  Lemma deno_eq : rsum nq (fun iq => fst (fs_deno nk nbnd e kT s (q iq))) = dd.
  Proof.
    unfold fermi_sum. apply rsum_ext. intros iq _. unfold fs_deno. rewrite fst_ksum'. apply mesh_sum_ext. intros k _.
    rewrite fst_csum. apply rsum_ext. intros m _. rewrite fst_csum. apply rsum_ext. intros n _. cbn [fst RtoC]. unfold fs_weight, fsd. rewrite at_kq_eq. ring.
  Qed.

  (** Sums over modes of couplings times functions of the frequencies *)
  Lemma mode_sum (F : R -> R) : asum nq nm (fun iq nu => F (w2 iq nu) * g2dd nk nbnd e kT s M nq nm q u d iq nu) =
    fermi_average nk nbnd e kT s nq q (fun iq k m n => rsum nm (fun nu => F (w2 iq nu) * abs2 (ip nm (col (u iq) nu) (vec iq k m n)))).
  Proof.
    unfold fermi_average, g2dd, Rdiv. rewrite deno_eq.
    rewrite (asum_ext nq nm _ (fun iq nu => / dd * (F (w2 iq nu) * fst (fs_enum nk nbnd e kT s (q iq) (mode_squared M nm u d iq) nu)))) by (intros; ring).
    rewrite asum_scal, Rmult_comm. apply f_equal2; [|reflexivity]. unfold fermi_sum, asum. apply rsum_ext. intros iq _.
    rewrite (rsum_ext nm _ (fun nu => mesh_sum nk (fun k => rsum nbnd (fun m => rsum nbnd (fun n =>
      F (w2 iq nu) * abs2 (ip nm (col (u iq) nu) (vec iq k m n)) * (delta s (e (kadd nk (q_indices nk (q iq)) k) m / kT) / kT * (delta s (e k n / kT) / kT))))))).
    - rewrite <- mesh_sum_rsum. apply mesh_sum_ext. intros k _. rewrite rsum_swap. apply rsum_ext. intros m _. rewrite rsum_swap. apply rsum_ext. intros n _.
      rewrite rsum_scal_r. reflexivity.
    - intros nu _. unfold fs_enum. rewrite fst_ksum', <- mesh_sum_scal. apply mesh_sum_ext. intros k _.
      rewrite fst_csum, <- rsum_scal. apply rsum_ext. intros m _. rewrite fst_csum, <- rsum_scal. apply rsum_ext. intros n _.
      rewrite mode_squared_eq, <- RtoC_mult'. cbn [fst RtoC]. unfold fs_weight, fsd. rewrite at_kq_eq. unfold Rdiv. ring.
  Qed.

  Lemma g2dd_nonneg iq nu : 0 <= g2dd nk nbnd e kT s M nq nm q u d iq nu.
  Proof.
    unfold g2dd. rewrite deno_eq. apply Rmult_le_pos; [|left; apply Rinv_0_lt_compat, Hdd].
    unfold fs_enum. apply ksum_nonneg. intros k _. rewrite fst_csum. apply rsum_nonneg. intros m _. rewrite fst_csum. apply rsum_nonneg. intros n _.
    rewrite mode_squared_eq, <- RtoC_mult'. cbn [fst RtoC]. apply Rmult_le_pos; [apply abs2_nonneg|apply fs_weight_nonneg; assumption].
  Qed.

  (** Effective attraction as a function of the frequency *)
  Definition act (h : R -> R) (x : R) : R := if Rlt_dec x eps then 0 else h x.
  Definition B (h : R -> R) : R := asum nq nm (fun iq nu => act h (w2 iq nu) * g2dd nk nbnd e kT s M nq nm q u d iq nu).

  Lemma super_eq : superconductivity nk nbnd e kT s M nq nm q eigh eps D d =
    (dos nk nbnd e kT s * B (fun x => / x), exp (B (fun x => / x * (ln x / 2)) / B (fun x => / x)), sqrt (B (fun _ => 1) / B (fun x => / x)), PhModel.sgnsqrt (amin nq nm w2)).
  Proof.
    unfold superconductivity, B. cbv zeta.
    assert (EN : N0 nk nbnd e kT s = dos nk nbnd e kT s).
    { unfold N0, dos. rewrite fst_ksum'. apply f_equal2; [|reflexivity].
      rewrite (mesh_sum_ext nk (fun k => rsum nbnd (fun n => delta s (e k n / kT) / kT)) (fun k => / kT * fst (csum nbnd (fun n => RtoC (delta s (e k n / kT)))))).
      - rewrite mesh_sum_scal. unfold Rdiv. ring.
      - intros k _. rewrite fst_csum, <- rsum_scal. apply rsum_ext. intros n _. cbn [fst RtoC]. unfold Rdiv. ring. }
    rewrite EN.
    match goal with |- (_ * ?x, exp (?y / _), sqrt (?z / _), _) = (_ * ?x', exp (?y' / _), sqrt (?z' / _), _) =>
      assert (E1 : x = x'); [|assert (E2 : y = y'); [|assert (E3 : z = z'); [|rewrite E1, E2, E3; reflexivity]]] end.
    - apply asum_ext. intros i j _ _. unfold act. destruct Rlt_dec; unfold Rdiv; ring.
    - apply asum_ext. intros i j _ _. unfold act. destruct Rlt_dec; unfold Rdiv; ring.
    - apply asum_ext. intros i j _ _. unfold act. destruct Rlt_dec; [unfold Rdiv; ring|]. field. lra.
  Qed.

  Lemma B_nonneg h : (forall x, eps <= x -> 0 <= h x) -> 0 <= B h.
  Proof.
    intros H. apply asum_nonneg. intros i j _ _. apply Rmult_le_pos; [|apply g2dd_nonneg]. unfold act. destruct Rlt_dec; [lra|apply H; lra].
  Qed.

  Lemma B_le h h' : (forall iq nu, (iq < nq)%nat -> (nu < nm)%nat -> eps <= w2 iq nu -> h (w2 iq nu) <= h' (w2 iq nu)) -> B h <= B h'.
  Proof.
    intros H. apply asum_le. intros i j Hi Hj. apply Rmult_le_compat_r; [apply g2dd_nonneg|]. unfold act. destruct Rlt_dec; [lra|apply H; [exact Hi|exact Hj|lra]].
  Qed.

  Lemma B_ext h h' : (forall iq nu, (iq < nq)%nat -> (nu < nm)%nat -> eps <= w2 iq nu -> h (w2 iq nu) = h' (w2 iq nu)) -> B h = B h'.
  Proof. intros H. apply Rle_antisym; apply B_le; intros i j Hi Hj Hw; rewrite (H i j Hi Hj Hw); lra. Qed.

  Lemma B_lin a b h h' : B (fun x => a * h x + b * h' x) = a * B h + b * B h'.
  Proof.
    unfold B. rewrite <- !asum_scal, <- asum_plus. apply asum_ext. intros i j _ _. unfold act. destruct Rlt_dec; ring.
  Qed.

  Lemma B_scal a h : B (fun x => a * h x) = a * B h.
  Proof. unfold B. rewrite <- asum_scal. apply asum_ext. intros i j _ _. unfold act. destruct Rlt_dec; ring. Qed.

  (** Jensen's inequality *)
  Lemma mean_le : 0 < B (fun x => / x) -> B (fun x => / x * (ln x / 2)) / B (fun x => / x) <= ln (B (fun _ => 1) / B (fun x => / x)) / 2.
  Proof.
    intros H. set (b := B (fun x => / x)) in *. set (A := B (fun _ => 1) / b).
    assert (H1 : eps * b <= B (fun _ => 1)).
    { unfold b. rewrite <- B_scal. apply B_le. intros i j Hi Hj Hw. apply Rmult_le_reg_r with (w2 i j); [lra|]. rewrite Rmult_assoc, Rinv_l by lra. lra. }
    assert (HA : 0 < A). { unfold A. apply Rmult_lt_0_compat; [|apply Rinv_0_lt_compat, H]. assert (0 < eps * b) by (apply Rmult_lt_0_compat; assumption). lra. }
    apply Rmult_le_reg_r with b; [exact H|]. unfold Rdiv at 1. rewrite Rmult_assoc, Rinv_l, Rmult_1_r by lra.
    apply Rle_trans with (B (fun x => ((ln A - 1) / 2) * / x + (/ A / 2) * 1)).
    - apply B_le. intros i j Hi Hj Hw. set (x := w2 i j) in *. 
      assert (L : ln (x / A) <= x / A - 1) by (apply ln_le_pred, Rdiv_lt_0_compat; lra).
      unfold Rdiv in L. rewrite ln_mult, ln_Rinv in L by (try apply Rinv_0_lt_compat; lra).
      assert (I : 0 < / x) by (apply Rinv_0_lt_compat; lra).
      apply Rle_trans with (/ x * ((ln A - 1 + x * / A) / 2)); [apply Rmult_le_compat_l; lra|]. right. field. split; lra.
    - rewrite (B_lin ((ln A - 1) / 2) (/ A / 2) (fun x => / x) (fun _ => 1)). fold b.
      replace (B (fun _ => 1)) with (A * b) by (unfold A; field; lra). right. field. lra.
  Qed.
End Super.
