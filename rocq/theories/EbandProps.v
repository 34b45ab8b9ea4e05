(** Property C119: band energy and entropy contribution from the output of pw.x. *)
From Coq Require Import Reals Lra Lia.
From Verif Require Import Common Text OccModel OccSpec OccProps EbandModel EbandSpec EbandProofs.
Local Open Scope R_scope.

(** The bands of a list contribute once each, no matter how often or from which end they are
    counted, and others do not contribute. *)
Theorem C119_subset Ry nk nbnd e wk f mu kT l : valid nbnd l ->
  (exists E, eband Ry nk nbnd e wk f mu kT (List l) = Ok (E / Ry) /\
    sum_over (chosen nbnd l) nk nbnd (fun k n => wk k * occ f ((e k n - mu) / kT) * e k n) E) /\
  (forall s, (forall x, entropy f x = Ok (s x)) -> exists TS, demet Ry nk nbnd e wk f mu kT (List l) = Ok (- TS / Ry) /\
    sum_over (chosen nbnd l) nk nbnd (fun k n => wk k * kT * s ((e k n - mu) / kT)) TS).
Proof.
  intros V. assert (C : forall n, chosenb nbnd l n = true <-> chosen nbnd l n) by (intros n; apply chosenb_iff). split.
  - eexists. split; [unfold eband; apply (band_sum_spec Ry nk nbnd (fun ik n => e ik n * wk ik * occ f ((e ik n - mu) / kT))); [reflexivity|reflexivity|exact V]|].
    eexists. split; [|reflexivity]. intros k n. cbn beta. destruct (chosenb nbnd l n) eqn:E; rewrite <- C, E; split; intros H; try congruence; try lra.
  - intros s Hs. exists (- sum_states nk nbnd (fun k n => if chosenb nbnd l n then wk k * kT * - s ((e k n - mu) / kT) else 0)). split.
    + unfold demet. rewrite (band_sum_spec Ry nk nbnd (fun ik n => wk ik * kT * - s ((e ik n - mu) / kT)) _ (List l) l); [|intros k n; rewrite Hs; reflexivity|reflexivity|exact V]. f_equal. rewrite Ropp_involutive. reflexivity.
    + exists (fun k n => if chosenb nbnd l n then wk k * kT * s ((e k n - mu) / kT) else 0). split.
      * intros k n. destruct (chosenb nbnd l n) eqn:E; rewrite <- C, E; split; intros H; congruence.
      * transitivity (-1 * sum_states nk nbnd (fun k n => if chosenb nbnd l n then wk k * kT * - s ((e k n - mu) / kT) else 0)); [lra|]. rewrite <- sum_states_scale. apply sum_states_ext. intros k n _ _. destruct (chosenb nbnd l n); lra.
Qed.
Print Assumptions C119_subset.

(** By default, all bands contribute. *)
Theorem C119_all Ry nk nbnd e wk f mu kT :
  eband Ry nk nbnd e wk f mu kT All = Ok (sum_states nk nbnd (fun k n => wk k * occ f ((e k n - mu) / kT) * e k n) / Ry) /\
  (forall s, (forall x, entropy f x = Ok (s x)) -> demet Ry nk nbnd e wk f mu kT All = Ok (- sum_states nk nbnd (fun k n => wk k * kT * s ((e k n - mu) / kT)) / Ry)).
Proof.
  split.
  - unfold eband. rewrite (band_sum_all Ry nk nbnd (fun ik n => e ik n * wk ik * occ f ((e ik n - mu) / kT))) by reflexivity. f_equal. f_equal. apply sum_states_ext. intros. lra.
  - intros s Hs. unfold demet. rewrite (band_sum_all Ry nk nbnd (fun ik n => wk ik * kT * - s ((e ik n - mu) / kT))); [|intros k n; rewrite Hs; reflexivity]. f_equal. f_equal.
    rewrite (sum_states_ext nk nbnd _ (fun k n => -1 * (wk k * kT * s ((e k n - mu) / kT)))) by (intros; lra). rewrite sum_states_scale. lra.
Qed.
Print Assumptions C119_all.

(** The contributions of complementary lists of bands add up to the total. *)
Theorem C119_additive Ry nk nbnd e wk f mu kT l1 l2 : valid nbnd l1 -> valid nbnd l2 ->
  (forall n, (n < nbnd)%nat -> (chosen nbnd l1 n \/ chosen nbnd l2 n) /\ ~ (chosen nbnd l1 n /\ chosen nbnd l2 n)) ->
  (exists E1 E2, eband Ry nk nbnd e wk f mu kT (List l1) = Ok E1 /\ eband Ry nk nbnd e wk f mu kT (List l2) = Ok E2 /\ eband Ry nk nbnd e wk f mu kT All = Ok (E1 + E2)) /\
  (forall s, (forall x, entropy f x = Ok (s x)) -> exists E1 E2, demet Ry nk nbnd e wk f mu kT (List l1) = Ok E1 /\ demet Ry nk nbnd e wk f mu kT (List l2) = Ok E2 /\ demet Ry nk nbnd e wk f mu kT All = Ok (E1 + E2)).
Proof.
  intros V1 V2 D.
  assert (G : forall g r, (forall k n, r k n = Ok (g k n)) -> exists E1 E2, band_sum Ry nk nbnd r (List l1) = Ok E1 /\ band_sum Ry nk nbnd r (List l2) = Ok E2 /\ band_sum Ry nk nbnd r All = Ok (E1 + E2)).
  { intros g r H. eexists. eexists. split; [exact (band_sum_spec Ry nk nbnd g r (List l1) l1 H eq_refl V1)|]. split; [exact (band_sum_spec Ry nk nbnd g r (List l2) l2 H eq_refl V2)|].
    rewrite (band_sum_all Ry nk nbnd g r H). f_equal. rewrite <- Rdiv_plus_distr. f_equal. rewrite <- sum_states_plus. apply sum_states_ext. intros k n _ N. destruct (D n N) as [Or And]. rewrite <- !chosenb_iff in Or, And.
    destruct (chosenb nbnd l1 n), (chosenb nbnd l2 n); [exfalso; apply And; split; reflexivity|lra|lra|exfalso; destruct Or; discriminate]. }
  split; [apply (G (fun ik n => e ik n * wk ik * occ f ((e ik n - mu) / kT))); reflexivity|].
  intros s Hs. apply (G (fun ik n => wk ik * kT * - s ((e ik n - mu) / kT))). intros k n. rewrite Hs. reflexivity.
Qed.
Print Assumptions C119_additive.

(** Wrong indices are refused. *)
Theorem C119_out_of_range Ry nk nbnd e wk f mu kT l s : (0 < nk)%nat -> ~ valid nbnd l -> (forall x, entropy f x = Ok (s x)) ->
  eband Ry nk nbnd e wk f mu kT (List l) = Raise IndexError /\ demet Ry nk nbnd e wk f mu kT (List l) = Raise IndexError.
Proof.
  intros K V Hs. destruct nk as [|nk]; [lia|].
  assert (X : exists i, In i l /\ ~ (- Z.of_nat nbnd <= i < Z.of_nat nbnd)%Z).
  { destruct (List.Exists_dec (fun i => ~ (- Z.of_nat nbnd <= i < Z.of_nat nbnd)%Z) l) as [X|X].
    - intros i. destruct (Z_le_dec (- Z.of_nat nbnd) i); [destruct (Z_lt_dec i (Z.of_nat nbnd))|]; [right|left|left]; lia.
    - apply List.Exists_exists in X. exact X.
    - exfalso. apply V. intros i J. destruct (Z_le_dec (- Z.of_nat nbnd) i); [destruct (Z_lt_dec i (Z.of_nat nbnd)); [lia|]|]; exfalso; apply X, List.Exists_exists; exists i; (split; [exact J|lia]). }
  destruct X as (i & J & N). unfold eband, demet, band_sum. cbn [band_range bind seq map_res]. split.
  - rewrite (fill_invalid nbnd (fun n => e 0%nat n * wk 0%nat * occ f ((e 0%nat n - mu) / kT)) _ i (fun _ => eq_refl) N l _ J). reflexivity.
  - rewrite (fill_invalid nbnd (fun n => wk 0%nat * kT * - s ((e 0%nat n - mu) / kT)) _ i); [reflexivity|intros n; rewrite Hs; reflexivity|exact N|exact J].
Qed.
Print Assumptions C119_out_of_range.

(** The documentation allows arrays of indices, which are not accepted if there are several. *)
Theorem C119_array_refuted : ~ forall Ry nk nbnd e wk f mu kT l, valid nbnd l ->
  demet Ry nk nbnd e wk f mu kT (Array l) = demet Ry nk nbnd e wk f mu kT (List l).
Proof.
  intros H. specialize (H 1 1%nat 2%nat (fun _ _ => 0) (fun _ => 1) fd 0 1 [0; 1]%Z).
  destruct (proj2 (C119_subset 1 1 2 (fun _ _ => 0) (fun _ => 1) fd 0 1 [0; 1]%Z ltac:(intros i [<-|[<-|[]]]; lia)) fermi_dirac_entropy (fun _ => eq_refl)) as (TS & E & _).
  rewrite E in H. discriminate H. intros i [<-|[<-|[]]]; lia.
Qed.
Print Assumptions C119_array_refuted.

(** ** Consistency of both: the derivative of the grand potential with respect to one energy is the
    weighted occupation (Hellmann-Feynman) *)
Definition grand (Ry : R) (nk nbnd : nat) (wk : nat -> R) (f : smear) (mu kT : R) (s : subset) (e : nat -> nat -> R) : res R :=
  do E <- eband Ry nk nbnd e wk f mu kT s ;;
  do D <- demet Ry nk nbnd e wk f mu kT s ;;
  Ok (E + D - mu * sum_states nk nbnd (fun k n => wk k * occ f ((e k n - mu) / kT)) / Ry).
Lemma grand_deriv Ry nk nbnd wk f s d mu kT e k0 n0 : (forall x, entropy f x = Ok (s x)) -> Ry <> 0 -> kT <> 0 -> (k0 < nk)%nat -> (n0 < nbnd)%nat ->
  let x := (e k0 n0 - mu) / kT in derivable_pt_lim (occ f) x (- d x) -> entropy_at s d x ->
  exists G, (forall t, grand Ry nk nbnd wk f mu kT All (change e k0 n0 t) = Ok (G t)) /\ derivable_pt_lim G (e k0 n0) (wk k0 * occ f x / Ry).
Proof.
  intros Hs HR HT K N x Df Ds.
  set (F := fun k n t => wk k * (change e k0 n0 t k n * occ f ((change e k0 n0 t k n - mu) / kT) - kT * s ((change e k0 n0 t k n - mu) / kT) - mu * occ f ((change e k0 n0 t k n - mu) / kT))).
  exists (fun t => / Ry * sum_states nk nbnd (fun k n => F k n t)). split.
  - intros t. unfold grand. destruct (C119_all Ry nk nbnd (change e k0 n0 t) wk f mu kT) as [-> H]. rewrite (H s Hs). cbn [bind]. f_equal.
    transitivity (/ Ry * (sum_states nk nbnd (fun k n => wk k * occ f ((change e k0 n0 t k n - mu) / kT) * change e k0 n0 t k n) + (-1 * sum_states nk nbnd (fun k n => wk k * kT * s ((change e k0 n0 t k n - mu) / kT)) + - mu * sum_states nk nbnd (fun k n => wk k * occ f ((change e k0 n0 t k n - mu) / kT))))); [field; exact HR|].
    f_equal. rewrite <- !sum_states_scale, <- !sum_states_plus. apply sum_states_ext. intros k n _ _. unfold F. ring.
  - replace (wk k0 * occ f x / Ry) with (/ Ry * sum_states nk nbnd (fun k n => if (Nat.eqb k k0 && Nat.eqb n n0)%bool then wk k0 * occ f x else 0)) by (rewrite single_state by assumption; unfold Rdiv; ring).
    apply (derivable_pt_lim_scal (fun t => sum_states nk nbnd (fun k n => F k n t))). apply deriv_states. intros k n. unfold F, change.
    destruct (Nat.eqb_spec k k0) as [->|Nk]; cbn [andb]; [destruct (Nat.eqb_spec n n0) as [->|Nn]|].
    + apply (derivable_pt_lim_scal (fun t => t * occ f ((t - mu) / kT) - kT * s ((t - mu) / kT) - mu * occ f ((t - mu) / kT))). apply deriv_state with (d := d); [exact HT|exact Df|exact Ds].
    + apply derivable_pt_lim_const.
    + apply derivable_pt_lim_const.
Qed.
Theorem C119_Hellmann_Feynman Ry nk nbnd wk f mu kT e k n : Ry <> 0 -> kT <> 0 -> (k < nk)%nat -> (n < nbnd)%nat ->
  let x := (e k n - mu) / kT in f = fd /\ Rabs x < 709 \/ f = gs \/ f = mv ->
  exists G, (forall t, grand Ry nk nbnd wk f mu kT All (change e k n t) = Ok (G t)) /\ derivable_pt_lim G (e k n) (wk k * occ f x / Ry).
Proof.
  intros HR HT K N x [[-> X]|[->| ->]].
  - apply (grand_deriv Ry nk nbnd wk fd fermi_dirac_entropy fermi_dirac_delta); try assumption; [reflexivity|apply (C42_fermi_dirac _ X)|apply (proj1 C44_fermi_dirac), X].
  - apply (grand_deriv Ry nk nbnd wk gs gauss_entropy gauss_delta); try assumption; [reflexivity|apply (C42_gauss _)|apply C44_gauss].
  - apply (grand_deriv Ry nk nbnd wk mv marzari_vanderbilt_entropy marzari_vanderbilt_delta); try assumption; [reflexivity|apply (C42_marzari_vanderbilt _)|apply C44_marzari_vanderbilt].
Qed.
Print Assumptions C119_Hellmann_Feynman.

(** The entropy contribution to the free energy is negative for Fermi-Dirac and Gaussian smearing. *)
Theorem C119_negative Ry nk nbnd e wk mu kT f : 0 < Ry -> 0 < kT -> (0 < nk)%nat -> (0 < nbnd)%nat -> (forall k, 0 < wk k) -> f = fd \/ f = gs ->
  exists D, demet Ry nk nbnd e wk f mu kT All = Ok D /\ D < 0.
Proof.
  intros HR HT K N W Hf.
  assert (P : forall m g, (0 < m)%nat -> (forall i, 0 < g i) -> 0 < add g m).
  { induction m as [|m IH]; intros g M H; [lia|]. cbn [add]. destruct m as [|m]; [cbn [add]; specialize (H 0%nat); lra|]. specialize (IH g ltac:(lia) H). specialize (H (S m)). lra. }
  assert (G : forall s, (forall x, entropy f x = Ok (s x)) -> (forall x, 0 < s x) -> exists D, demet Ry nk nbnd e wk f mu kT All = Ok D /\ D < 0).
  { intros s Hs Ps. rewrite (proj2 (C119_all Ry nk nbnd e wk f mu kT) s Hs). eexists. split; [reflexivity|].
    assert (S : 0 < sum_states nk nbnd (fun k n => wk k * kT * s ((e k n - mu) / kT))). { apply P; [exact K|]. intros k. apply P; [exact N|]. intros n. apply Rmult_lt_0_compat; [apply Rmult_lt_0_compat; [apply W|exact HT]|apply Ps]. }
    unfold Rdiv. rewrite Ropp_mult_distr_l_reverse. apply Ropp_lt_gt_0_contravar. apply Rmult_lt_0_compat; [exact S|apply Rinv_0_lt_compat, HR]. }
  destruct Hf as [-> | ->].
  - apply (G fermi_dirac_entropy); [reflexivity|apply (proj2 (proj2 C44_fermi_dirac))].
  - apply (G gauss_entropy); [reflexivity|]. intros x. unfold gauss_entropy, gauss_delta. assert (0 < exp (- x * x) / sqrt PI); [|lra]. apply Rdiv_lt_0_compat; [apply exp_pos|apply sqrt_lt_R0, PI_RGT_0].
Qed.
Print Assumptions C119_negative.

(** One k point of weight 2, bands at -1, 0 and 1 with the chemical potential zero, last and second
    band: only the second band contributes to a half. *)
Example C119_example : valid 3 [-1; 1; 2]%Z /\ (forall n, (n < 3)%nat -> (chosen 3 [-1; 1; 2]%Z n \/ chosen 3 [-3]%Z n) /\ ~ (chosen 3 [-1; 1; 2]%Z n /\ chosen 3 [-3]%Z n)) /\ ~ valid 3 [3]%Z /\
  eband 1 1 3 (fun _ n => INR n - 1) (fun _ => 2) fd 0 1 (List [1; -2; 1]%Z) = Ok 0 /\
  demet 1 1 3 (fun _ n => INR n - 1) (fun _ => 2) fd 0 1 (List [1; -2; 1]%Z) = Ok (-2 * ln 2).
Proof.
  assert (V : valid 3 [1; -2; 1]%Z) by (intros i J; cbn [In] in J; lia).
  split; [intros i J; cbn [In] in J; lia|]. split.
  { intros n L. unfold chosen. cbn [In]. lia. }
  split. { intros H. specialize (H 3%Z (or_introl eq_refl)). lia. }
  split.
  - unfold eband. rewrite (band_sum_spec 1 1 3 (fun ik n => (INR n - 1) * 2 * occ fd ((INR n - 1 - 0) / 1)) _ (List [1; -2; 1]%Z) [1; -2; 1]%Z); [|reflexivity|reflexivity|exact V].
    f_equal. unfold sum_states. cbn [add]. change (chosenb 3 [1; -2; 1]%Z 0) with false. change (chosenb 3 [1; -2; 1]%Z 1) with true. change (chosenb 3 [1; -2; 1]%Z 2) with false. cbv iota. cbn [INR]. lra.
  - unfold demet. rewrite (band_sum_spec 1 1 3 (fun ik n => 2 * 1 * - fermi_dirac_entropy ((INR n - 1 - 0) / 1)) _ (List [1; -2; 1]%Z) [1; -2; 1]%Z); [|reflexivity|reflexivity|exact V].
    f_equal. unfold sum_states. cbn [add]. change (chosenb 3 [1; -2; 1]%Z 0) with false. change (chosenb 3 [1; -2; 1]%Z 1) with true. change (chosenb 3 [1; -2; 1]%Z 2) with false. cbv iota. cbn [INR].
    replace ((1 - 1 - 0) / 1) with 0 by lra. rewrite (proj2 C44_example). lra.
Qed.
