(** Further properties of diagrams: finite frequencies (C72) and the third-order
    diagram as a whole (C88). *)
From Coq Require Import Reals Lra Lia List.
From Verif Require Import Common Cx CxProofs MdModel DiagModel DiagSpec DiagProofs DiagProofs2 DiagProofs3 DiagProofs4 DiagProps DiagMoreProofs.
Local Open Scope R_scope.

Lemma on_mesh_nonempty nk M : on_mesh nk M -> nonempty nk.
Proof. destruct nk as [[n1 n2] n3], M as [[i j] l]. cbn. lia. Qed.

(** The formula in the documentation, with c for the coupling and M for the indices of
    q on the mesh:
    2/N sum_{k m n} c_{k m n} (f(e_{k n}) - f(e_{k+q m})) / (e_{k n} - e_{k+q m} + omega) *)
Definition lindhard_sum (nk : pt) (nbnd : nat) (e : pt -> nat -> R) (kT : R) (s : smearing) (omega : C) (M : pt)
    (c : pt -> nat -> nat -> C) : C :=
  (RtoC (2 / INR (prod nk)) * ksum nk (fun k => csum nbnd (fun m => csum nbnd (fun n =>
    let kq := kadd nk M k in
    c k m n * (RtoC (occ s (e k n / kT) - occ s (e kq m / kT)) / (RtoC (e k n - e kq m) + omega))))))%C.

Theorem C72_dynamic nk nbnd e kT eps s omega M g g2 symmetrize mu nu : on_mesh nk M -> omega <> RtoC 0 ->
  let q := q_point nk M in
  self_energy_g2 nk nbnd e kT eps s omega None q (Some g2) nu = lindhard_sum nk nbnd e kT s omega M (g2 nu) /\
  self_energy_g2 nk nbnd e kT eps s omega None q None nu = lindhard_sum nk nbnd e kT s omega M (fun _ _ _ => RtoC 1) /\
  self_energy_g nk nbnd e kT eps s omega None q g None symmetrize false None mu nu =
    lindhard_sum nk nbnd e kT s omega M (fun k m n => conj (g mu k m n) * g nu k m n)%C.
Proof.
  intros HM Ho q. subst q. unfold self_energy_g2, self_energy_g. cbn [andb]. rewrite !q_indices_point by (assumption || eapply on_mesh_nonempty; eassumption).
  assert (E : forall c, bubble nk nbnd e kT eps s omega None M c = lindhard_sum nk nbnd e kT s omega M c).
  { intros c. rewrite bubble_dynamic by exact Ho. unfold lindhard_sum, pref. apply f_equal. apply total_ext. intros k m n _ _ _.
    unfold wdyn. cbn [envelope]. ring. }
  rewrite !E. repeat split; reflexivity.
Qed.
Print Assumptions C72_dynamic.

(** The response at conjugate and at opposite frequencies *)
Theorem C72_dynamic_symmetry nk nbnd e kT eps s window q (g g' : nat -> pt -> nat -> nat -> C) symmetrize omega mu nu : nonempty nk -> snd omega <> 0 ->
  let Pi := fun omega q g => self_energy_g nk nbnd e kT eps s omega window q g None symmetrize false None in
  Pi (conj omega) q g nu mu = conj (Pi omega q g mu nu) /\
  ((forall x k m n, on_mesh nk k -> (m < nbnd)%nat -> (n < nbnd)%nat -> g' x (kadd nk (q_indices nk q) k) n m = conj (g x k m n)) ->
   Pi omega (qneg q) g' mu nu = Pi (- omega)%C q g nu mu).
Proof.
  intros Hnk Ho Pi. subst Pi. cbv beta. unfold self_energy_g. cbn [andb].
  assert (O1 : omega <> RtoC 0) by (intros ->; apply Ho; reflexivity).
  assert (O2 : conj omega <> RtoC 0) by (intros E; apply (f_equal snd) in E; cbn in E; lra).
  assert (O3 : (- omega)%C <> RtoC 0) by (intros E; apply (f_equal snd) in E; cbn in E; lra).
  rewrite !bubble_dynamic by assumption. split.
  - rewrite conj_mult, conj_R, total_conj. apply f_equal. apply total_ext. intros k m n _ _ _.
    cbn [vertices]. rewrite !conj_mult, conj_conj. unfold wdyn. rewrite conj_mult, conj_R.
    rewrite Cdiv_conj by (apply denominator; exact Ho). rewrite conj_plus, !conj_R. ring.
  - intros Hg. apply f_equal. rewrite (total_swap nk nbnd _ (q_indices nk q)). apply total_ext. intros k m n Hk Hm Hn.
    rewrite wdyn_swap by assumption. cbn [vertices]. rewrite !Hg, conj_conj by assumption. ring.
Qed.
Print Assumptions C72_dynamic_symmetry.

(** For imaginary frequencies (real part of the response), phonons are softened, but
    not more than in the static case. *)
Theorem C72_matsubara nk nbnd e kT eps s nmodes window q g symmetrize freq v : nonempty nk -> 0 < kT -> 0 <= eps -> decreasing s ->
  nonneg (delta s) -> envelope_ok window -> separated nk nbnd e eps -> freq <> 0 ->
  let Pi := fun omega => self_energy_g nk nbnd e kT eps s omega window q g None symmetrize false None in
  fst (form nmodes (Pi (RtoC 0)) v) <= fst (form nmodes (Pi (0, freq)) v) <= 0.
Proof.
  intros Hnk HkT Heps D N O Sep Hf Pi. subst Pi. cbv beta. unfold self_energy_g. cbn [andb].
  assert (Of : ((0, freq) : C) <> RtoC 0) by (intros E; apply (f_equal snd) in E; cbn in E; lra).
  assert (E1 : form nmodes (fun mu nu => bubble nk nbnd e kT eps s (0, freq) window (q_indices nk q) (vertices g None symmetrize mu nu)) v =
    (RtoC (pref nk) * total nk nbnd (fun k m n => wdyn nk e kT s window (0, freq)%R (q_indices nk q) k m n * RtoC (abs2 (csum nmodes (fun a => g a k m n * v a)))))%C).
  { rewrite <- form_total_C. apply csum_ext. intros a _. apply csum_ext. intros b _. apply f_equal2; [|reflexivity]. apply f_equal.
    rewrite bubble_dynamic by exact Of. apply f_equal. apply total_ext. intros. cbn [vertices]. ring. }
  assert (E2 : form nmodes (fun mu nu => bubble nk nbnd e kT eps s (RtoC 0) window (q_indices nk q) (vertices g None symmetrize mu nu)) v =
    (RtoC (pref nk) * total nk nbnd (fun k m n => RtoC (W0 nk e kT eps s window (q_indices nk q) k m n) * RtoC (abs2 (csum nmodes (fun a => g a k m n * v a)))))%C).
  { rewrite <- form_total_C. apply csum_ext. intros a _. apply csum_ext. intros b _. apply f_equal2; [|reflexivity]. apply f_equal.
    rewrite bubble_vertices by exact Heps. reflexivity. }
  rewrite E1, E2, !fst_RtoC_mult. pose proof (pref_nonneg nk Hnk) as Hp.
  assert (B : forall k m n, on_mesh nk k -> (m < nbnd)%nat -> (n < nbnd)%nat ->
    W0 nk e kT eps s window (q_indices nk q) k m n <= fst (wdyn nk e kT s window (0, freq) (q_indices nk q) k m n) <= 0).
  { intros k m n Hk Hm Hn. rewrite wdyn_imag by exact Hf. unfold W0. pose proof (envelope_nonneg nk e window (q_indices nk q) k m n O) as HE.
    set (E := envelope _ _ _ _ _ _ _) in *. set (a := e k n). set (b := e (kadd nk (q_indices nk q) k) m).
    assert (Hs : Rabs (b - a) <= eps -> b = a) by (apply Sep; auto using kadd_on).
    assert (Hf2 : 0 < freq ^ 2) by (rewrite <- Rsqr_pow2; apply Rsqr_pos_lt; exact Hf).
    assert (Hp2 : 0 < (a - b) ^ 2 + freq ^ 2) by (pose proof (pow2_ge_0 (a - b)); lra).
    assert (Hfd : (occ s (a / kT) - occ s (b / kT)) * (a - b) <= 0).
    { destruct (Rle_dec a b) as [L|L].
      - pose proof (D _ _ (div_le kT HkT a b L)). pose proof (Rmult_le_pos (occ s (a / kT) - occ s (b / kT)) (b - a) ltac:(lra) ltac:(lra)). lra.
      - pose proof (D _ _ (div_le kT HkT b a ltac:(lra))). pose proof (Rmult_le_pos (occ s (b / kT) - occ s (a / kT)) (a - b) ltac:(lra) ltac:(lra)). lra. }
    set (x := (occ s (a / kT) - occ s (b / kT)) * (a - b)) in *.
    assert (Hx : x / ((a - b) ^ 2 + freq ^ 2) <= 0).
    { unfold Rdiv. pose proof (Rinv_0_lt_compat _ Hp2). nra. }
    assert (Hw : weight kT eps s b a <= x / ((a - b) ^ 2 + freq ^ 2)).
    { destruct (Req_dec a b) as [EQ|NE].
      - replace x with 0 by (unfold x; rewrite EQ; ring). unfold Rdiv. rewrite Rmult_0_l. apply weight_nonpos; assumption.
      - unfold weight. destruct Rlt_dec as [L|L]; [|exfalso; apply NE; symmetry; apply Hs; lra].
        replace ((occ s (b / kT) - occ s (a / kT)) / (b - a)) with (x / (a - b) ^ 2) by (unfold x; field; lra).
        assert (0 < (a - b) ^ 2) by (rewrite <- Rsqr_pow2; apply Rsqr_pos_lt; lra). unfold Rdiv.
        assert (/ ((a - b) ^ 2 + freq ^ 2) <= / (a - b) ^ 2) by (apply Rinv_le_contravar; lra). nra. }
    split; [apply Rmult_le_compat_r; assumption|nra]. }
  split.
  - apply Rmult_le_compat_l; [exact Hp|]. apply total_le. intros k m n Hk Hm Hn. rewrite fst_RtoC_mult. cbn [fst RtoC].
    pose proof (abs2_nonneg (csum nmodes (fun a => g a k m n * v a)%C)). destruct (B k m n Hk Hm Hn).
    rewrite (Cmult_comm (wdyn _ _ _ _ _ _ _ _ _ _)), fst_RtoC_mult. cbn [fst RtoC]. nra.
  - match goal with |- _ * ?x <= 0 => assert (x <= 0); [|nra] end. apply total_nonpos. intros k m n Hk Hm Hn.
    pose proof (abs2_nonneg (csum nmodes (fun a => g a k m n * v a)%C)). destruct (B k m n Hk Hm Hn).
    rewrite Cmult_comm, fst_RtoC_mult. nra.
Qed.
Print Assumptions C72_matsubara.

Example C72_matsubara_example : exists e : pt -> nat -> R, nonempty (2, 2, 1)%nat /\ decreasing fd_smearing /\ nonneg (delta fd_smearing) /\ envelope_ok None /\
  separated (2, 2, 1)%nat 1 e (1 / 2) /\ e (0, 0, 0)%nat 0%nat <> e (1, 0, 0)%nat 0%nat.
Proof.
  exists (fun k _ => INR (fst (fst k))). destruct fd_ok as (A & B & C). cbn [envelope_ok]. repeat split; try assumption; try (cbn; lia).
  - intros k k' m n _ _ _ _ H. cbn in *. destruct k as [[i j] l], k' as [[i' j'] l']. cbn in *.
    destruct (Nat.lt_trichotomy i i') as [L|[L|L]]; [|rewrite L; reflexivity|]; exfalso;
      apply le_INR in L; rewrite S_INR in L; unfold Rabs in H; destruct Rcase_abs in H; lra.
  - cbn. lra.
Qed.

(** The third-order diagram: the weights of C88_weight and the coupling between the
    states at k, k + q and k + Q *)
Theorem C88_triangle nk nbnd e kT eps s dp M M' gq gQ gqQ : on_mesh nk M -> on_mesh nk M' ->
  triangle nk nbnd e kT eps s dp (q_point nk M) (q_point nk M') gq gQ gqQ =
  (RtoC (4 / INR (prod nk)) * ksum nk (fun k => csum nbnd (fun a => csum nbnd (fun b => csum nbnd (fun c =>
    let kq := kadd nk M k in
    let kQ := kadd nk M' k in
    let f x := occ s (x / kT)%R in
    let d x := (delta s (x / kT) / kT)%R in
    let p x := (dp (x / kT) / kT ^ 2)%R in
    let x := e k a in let y := e kq b in let z := e kQ c in
    RtoC (chi3 eps x y z (f x) (f y) (f z) (d x) (d y) (d z) (p x)) *
    (conj (gq k b a) * gQ k c a * gqQ kQ b c))))))%C.
Proof.
  intros HM HM'. unfold triangle. rewrite !q_indices_point by (assumption || eapply on_mesh_nonempty; eassumption). apply f_equal.
  apply ksum_ext. intros k _. apply csum_ext. intros a _. apply csum_ext. intros b _. apply csum_ext. intros c _.
  unfold triangle_chi, f_, dT, pT. rewrite !at_kq_eq. cbv zeta. ring.
Qed.
Print Assumptions C88_triangle.

(** It does not depend on the phases of the states. *)
Theorem C88_gauge nk nbnd e kT eps s dp M M' gq gQ gqQ (t : pt -> nat -> C) : on_mesh nk M -> on_mesh nk M' ->
  (forall k n, abs2 (t k n) = 1) ->
  forall hq hQ hqQ,
  (forall k b a, hq k b a = conj (t (kadd nk M k) b) * gq k b a * t k a)%C ->
  (forall k c a, hQ k c a = conj (t (kadd nk M' k) c) * gQ k c a * t k a)%C ->
  (forall k b c, hqQ (kadd nk M' k) b c = conj (t (kadd nk M k) b) * gqQ (kadd nk M' k) b c * t (kadd nk M' k) c)%C ->
  triangle nk nbnd e kT eps s dp (q_point nk M) (q_point nk M') hq hQ hqQ =
  triangle nk nbnd e kT eps s dp (q_point nk M) (q_point nk M') gq gQ gqQ.
Proof.
  intros HM HM' Ht hq hQ hqQ Hq HQ HqQ. rewrite !C88_triangle by assumption. apply f_equal.
  apply ksum_ext. intros k _. apply csum_ext. intros a _. apply csum_ext. intros b _. apply csum_ext. intros c _. cbv zeta.
  apply f_equal. rewrite Hq, HQ, HqQ, !conj_mult, conj_conj.
  set (A := t k a). set (B := t (kadd nk M k) b). set (D := t (kadd nk M' k) c).
  transitivity ((conj A * A) * (conj B * B) * (conj D * D) * (conj (gq k b a) * gQ k c a * gqQ (kadd nk M' k) b c))%C; [ring|].
  rewrite <- !abs2_conj. unfold A, B, D. rewrite !Ht. ring.
Qed.
Print Assumptions C88_gauge.

(** With a state-independent phase that differs between k points *)
Example C88_gauge_example : exists t : pt -> nat -> C, (forall k n, abs2 (t k n) = 1) /\ t (0, 0, 0)%nat 0%nat <> t (1, 0, 0)%nat 0%nat.
Proof.
  exists (fun k _ => match fst (fst k) with O => RtoC 1 | _ => (0, 1) end). split.
  - intros [[[|i] j] l] n; unfold abs2; cbn; lra.
  - cbn. intros E. apply (f_equal fst) in E. cbn in E. lra.
Qed.
