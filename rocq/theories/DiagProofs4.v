(** Proofs about diagrams: grand potential, triangle, screened couplings, Fan-Migdal
    self-energy, conductivity and Fermi-surface averages. *)
From Coq Require Import Reals Lra Lia List ZArith Arith.
From Coquelicot Require Import Coquelicot.
From Verif Require Import Common Cx CxProofs MPIModel MdModel OccModel OccProofs DiagModel DiagSpec DiagProofs DiagProofs2 DiagProofs3.
Import ListNotations.
Local Open Scope R_scope.

(** ** Grand potential *)

Definition fd_smearing : MdModel.smearing := mk_smearing fermi_dirac fermi_dirac_delta fermi_dirac_entropy.

Lemma fd_log x : Rabs x <= 709 -> ln (fermi_dirac (- x)) = fermi_dirac x * x - fermi_dirac_entropy x.
Proof.
  intros H. assert (H1 : - x <= xmax) by (unfold xmax; pose proof (Rabs_maj2 x); lra). assert (H2 : x <= xmax) by (unfold xmax; pose proof (Rle_abs x); lra).
  rewrite fds_in by exact H. rewrite !fd_in by assumption. unfold FDs. pose proof (FDf_bound x) as B. pose proof (FDf_bound (- x)) as B'.
  assert (E : FDf (- x) = exp x * FDf x).
  { unfold FDf. pose proof (exp_pos x). rewrite exp_Ropp. field. split; lra. }
  rewrite E, ln_mult, ln_exp by (apply exp_pos || lra). ring.
Qed.

Lemma ksum_n_ext nk nb F G : (forall k n, on_mesh nk k -> (n < nb)%nat -> F k n = G k n) -> ksum_n nk nb F = ksum_n nk nb G.
Proof. intros H. unfold ksum_n. f_equal. apply ksum_ext. intros k Hk. apply csum_ext. intros n Hn. rewrite H by assumption. reflexivity. Qed.

Lemma ksum_n_minus nk nb F G : ksum_n nk nb (fun k n => F k n - G k n) = ksum_n nk nb F - ksum_n nk nb G.
Proof.
  unfold ksum_n. rewrite (ksum_ext nk _ (fun k => csum nb (fun n => RtoC (F k n)) + - csum nb (fun n => RtoC (G k n)))%C).
  - rewrite ksum_plus, ksum_opp. reflexivity.
  - intros k _. rewrite (csum_ext nb _ (fun n => RtoC (F k n) - RtoC (G k n))%C) by (intros; apply RtoC_minus'). rewrite csum_minus. reflexivity.
Qed.

Lemma ksum_n_scal nk nb c F : ksum_n nk nb (fun k n => c * F k n) = c * ksum_n nk nb F.
Proof.
  unfold ksum_n. rewrite <- fst_RtoC_mult, <- ksum_scal. f_equal. apply ksum_ext. intros k _. rewrite <- csum_scal. apply csum_ext. intros n _. apply RtoC_mult'.
Qed.

Lemma grand_potential_fd nk nbnd e kT : (forall k n, on_mesh nk k -> (n < nbnd)%nat -> Rabs (e k n / kT) <= 709) ->
  grand_potential nk nbnd e kT fd_smearing true = grand_potential nk nbnd e kT fd_smearing false.
Proof.
  intros H. unfold grand_potential. f_equal. rewrite <- ksum_n_minus. apply ksum_n_ext. intros k n Hk Hn. apply fd_log, H; assumption.
Qed.

(** Derivatives of sums *)
Lemma is_derive_rsum n (F : nat -> R -> R) (G : nat -> R) t : (forall i, (i < n)%nat -> is_derive (F i) t (G i)) -> is_derive (fun t => rsum n (fun i => F i t)) t (rsum n G).
Proof.
  induction n as [|n IH]; intros H.
  - cbn. apply (is_derive_const (0 : R)).
  - cbn. apply (is_derive_plus (fun t => rsum n (fun i => F i t)) (F n)); [apply IH; intros; apply H; lia|apply H; lia].
Qed.

Lemma fst_ksum nk F : fst (ksum nk F) = let '(n1, n2, n3) := nk in rsum n1 (fun i => rsum n2 (fun j => rsum n3 (fun l => fst (F (i, j, l))))).
Proof. destruct nk as [[n1 n2] n3]. cbn [ksum]. rewrite fst_csum. apply rsum_ext. intros i _. rewrite fst_csum. apply rsum_ext. intros j _. apply fst_csum. Qed.

Lemma is_derive_ksum_n nk nb (F : pt -> nat -> R -> R) (G : pt -> nat -> R) t :
  (forall k n, on_mesh nk k -> (n < nb)%nat -> is_derive (F k n) t (G k n)) -> is_derive (fun t => ksum_n nk nb (fun k n => F k n t)) t (ksum_n nk nb G).
Proof.
  intros H. unfold ksum_n. eapply (is_derive_ext (fun t => let '(n1, n2, n3) := nk in rsum n1 (fun i => rsum n2 (fun j => rsum n3 (fun l => rsum nb (fun n => F (i, j, l) n t)))))).
  - intros u. rewrite fst_ksum. destruct nk as [[n1 n2] n3]. apply rsum_ext. intros i _. apply rsum_ext. intros j _. apply rsum_ext. intros l _. rewrite fst_csum. reflexivity.
  - rewrite fst_ksum. destruct nk as [[n1 n2] n3].
    apply (is_derive_rsum n1 (fun i t => rsum n2 (fun j => rsum n3 (fun l => rsum nb (fun n => F (i, j, l) n t))))). intros i Hi.
    apply (is_derive_rsum n2 (fun j t => rsum n3 (fun l => rsum nb (fun n => F (i, j, l) n t)))). intros j Hj.
    apply (is_derive_rsum n3 (fun l t => rsum nb (fun n => F (i, j, l) n t))). intros l Hl.
    rewrite fst_csum. apply (is_derive_rsum nb (fun n t => F (i, j, l) n t)). intros n Hn. apply H; [cbn; auto|exact Hn].
Qed.

Section GrandPotential.
  Variables (nk : pt) (nbnd : nat) (kT : R) (s : MdModel.smearing).
  Hypotheses (HkT : 0 < kT).

  (** Change of the energies along [h] *)
  Lemma grand_potential_derive (e h : pt -> nat -> R) :
    (forall k n, on_mesh nk k -> (n < nbnd)%nat -> derivable_pt_lim (occ s) (e k n / kT) (- delta s (e k n / kT)) /\
      derivable_pt_lim (entropy s) (e k n / kT) (e k n / kT * - delta s (e k n / kT))) ->
    is_derive (fun t => grand_potential nk nbnd (fun k n => e k n + t * h k n) kT s false) 0
      (2 / INR (prod nk) * ksum_n nk nbnd (fun k n => occ s (e k n / kT) * h k n)).
  Proof.
    intros H. unfold grand_potential. set (c := 2 * kT / INR (prod nk)).
    apply (is_derive_ext (fun t => c * ksum_n nk nbnd (fun k n => occ s ((e k n + t * h k n) / kT) * ((e k n + t * h k n) / kT) - entropy s ((e k n + t * h k n) / kT)))).
    { intros t. cbv beta iota. f_equal. symmetry. symmetry. apply ksum_n_minus. }
    apply is_derive_eq with (c * ksum_n nk nbnd (fun k n => occ s (e k n / kT) * (h k n / kT))).
    - apply (is_derive_scal (fun t => ksum_n nk nbnd (fun k n => occ s ((e k n + t * h k n) / kT) * ((e k n + t * h k n) / kT) - entropy s ((e k n + t * h k n) / kT)))).
      apply (is_derive_ksum_n nk nbnd (fun k n t => occ s ((e k n + t * h k n) / kT) * ((e k n + t * h k n) / kT) - entropy s ((e k n + t * h k n) / kT))).
      intros k n Hk Hn. destruct (H k n Hk Hn) as [H1 H2].
      assert (E0 : (e k n + 0 * h k n) / kT = e k n / kT) by (rewrite Rmult_0_l, Rplus_0_r; reflexivity).
      assert (L : is_derive (fun t => (e k n + t * h k n) / kT) 0 (h k n / kT)) by (auto_derive; [lra|field; lra]).
      apply is_derive_Reals in H1. apply is_derive_Reals in H2. rewrite <- E0 in H1 at 1. rewrite <- E0 in H2 at 1.
      pose proof (is_derive_comp (occ s) (fun t => (e k n + t * h k n) / kT) 0 _ _ H1 L) as D1.
      pose proof (is_derive_comp (entropy s) (fun t => (e k n + t * h k n) / kT) 0 _ _ H2 L) as D2.
      pose proof (is_derive_mult (fun t => occ s ((e k n + t * h k n) / kT)) (fun t => (e k n + t * h k n) / kT) 0 _ _ D1 L Rmult_comm) as D3.
      pose proof (is_derive_minus _ _ _ _ _ D3 D2) as D4. eapply is_derive_eq; [exact D4|].
      cbv beta. rewrite E0. cbv [minus plus opp mult scal]; cbn. unfold mult; cbn. ring.
    - unfold c. rewrite (ksum_n_ext nk nbnd _ (fun k n => / kT * (occ s (e k n / kT) * h k n))) by (intros; unfold Rdiv; ring). rewrite ksum_n_scal.
      generalize (ksum_n nk nbnd (fun k n => occ s (e k n / kT) * h k n)). intros X.
      replace (2 * kT / INR (prod nk) * (/ kT * X)) with (2 / INR (prod nk) * (kT * / kT) * X) by (unfold Rdiv; ring). rewrite Rinv_r by lra. ring.
  Qed.
End GrandPotential.

(** ** First order *)
Lemma first_order_basis nk nbnd e kT s norb U g x :
  first_order_orbital nk nbnd e kT s norb U g x = first_order_diagonal nk nbnd e kT s (fun x k => to_bands norb (U k) (U k) (g x k)) x.
Proof.
  unfold first_order_orbital, first_order_diagonal. f_equal. apply ksum_ext. intros k _.
  rewrite (csum_ext norb _ (fun a => csum nbnd (fun m => csum norb (fun b => U k a m * RtoC (f_ e kT s k m) * conj (U k b m) * g x k b a))))%C.
  - rewrite csum_swap. apply csum_ext. intros m _. unfold to_bands. rewrite csum_swap, <- csum_scal. apply csum_ext. intros a _. rewrite <- csum_scal. apply csum_ext. intros b _. ring.
  - intros a _. rewrite csum_swap. apply csum_ext. intros b _. unfold density_matrix. rewrite <- csum_scal_r. reflexivity.
Qed.

Lemma fst_first_order nk nbnd e kT s g x : (forall k n, on_mesh nk k -> (n < nbnd)%nat -> snd (g x k n n) = 0) ->
  first_order_diagonal nk nbnd e kT s g x = RtoC (2 / INR (prod nk) * ksum_n nk nbnd (fun k n => occ s (e k n / kT) * fst (g x k n n))).
Proof.
  intros H. unfold first_order_diagonal, ksum_n.
  rewrite (ksum_ext nk _ (fun k => csum nbnd (fun n => RtoC (occ s (e k n / kT) * fst (g x k n n))))).
  - assert (R : forall F : pt -> nat -> R, ksum nk (fun k => csum nbnd (fun n => RtoC (F k n))) = RtoC (fst (ksum nk (fun k => csum nbnd (fun n => RtoC (F k n)))))).
    { intros F. rewrite (ksum_ext nk _ (fun k => RtoC (rsum nbnd (F k)))) by (intros; symmetry; apply RtoC_rsum). apply ksum_R. }
    rewrite R. cring.
  - intros k Hk. apply csum_ext. intros n Hn. unfold f_. specialize (H k n Hk Hn). apply c_ext; cbn; [ring|rewrite H; ring].
Qed.

(** ** Triangle *)
Section Triangle.
  Variables (kT eps : R) (s : MdModel.smearing) (dp : R -> R).
  Hypotheses (HkT : 0 < kT) (Heps : 0 <= eps).

  Definition fe (x : R) : R := occ s (x / kT).
  Definition de (x : R) : R := delta s (x / kT) / kT.
  Definition pe (x : R) : R := dp (x / kT) / kT ^ 2.
  Definition chi (a b c : R) : R := chi3 eps a b c (fe a) (fe b) (fe c) (de a) (de b) (de c) (pe a).
  Definition apart (x y : R) : Prop := Rabs (x - y) <= eps -> x = y.

  Lemma gtb_apart x y : apart x y -> (gtb (Rabs (x - y)) eps = true /\ x <> y) \/ (gtb (Rabs (x - y)) eps = false /\ x = y).
  Proof.
    intros H. unfold gtb. destruct Rlt_dec as [L|L].
    - left. split; [reflexivity|]. intros ->. rewrite Rminus_diag_eq, Rabs_R0 in L by reflexivity. lra.
    - right. split; [reflexivity|]. apply H. lra.
  Qed.

  Lemma apart_sym x y : apart x y -> apart y x.
  Proof. intros H L. symmetry. apply H. rewrite Rabs_minus_sym. exact L. Qed.

  (** The four cases *)
  Lemma chi_cases a b c : apart a b -> apart b c -> apart c a ->
    (a <> b /\ b <> c /\ c <> a /\ chi a b c = (a * (fe b - fe c) + b * (fe c - fe a) + c * (fe a - fe b)) / ((b - c) * (c - a) * (a - b))) \/
    (a <> b /\ b = c /\ chi a b c = (de b + (fe a - fe b) / (a - b)) / (a - b)) \/
    (b <> c /\ c = a /\ chi a b c = (de c + (fe b - fe c) / (b - c)) / (b - c)) \/
    (c <> a /\ a = b /\ chi a b c = (de a + (fe c - fe a) / (c - a)) / (c - a)) \/
    (a = b /\ b = c /\ chi a b c = - (5 / 10) * pe a).
  Proof.
    intros Hab Hbc Hca. unfold chi, chi3.
    destruct (gtb_apart _ _ Hab) as [(-> & Nab)|(-> & Eab)], (gtb_apart _ _ Hbc) as [(-> & Nbc)|(-> & Ebc)], (gtb_apart _ _ Hca) as [(-> & Nca)|(-> & Eca)]; cbn [andb negb];
      try (exfalso; congruence).
    - left. auto.
    - right. right. left. auto.
    - right. left. auto.
    - do 3 right. left. auto.
    - do 4 right. auto.
  Qed.

  Definition Q := quotient fe (fun x => - de x).

  Ltac q0 := unfold Q, quotient; repeat (destruct Req_EM_T; try congruence; try (exfalso; congruence)).

  Lemma chi_quotients a b c : apart a b -> apart b c -> apart c a -> chi a b c * (a - b) = Q a c - Q b c.
  Proof.
    intros Hab Hbc Hca. destruct (chi_cases a b c Hab Hbc Hca) as [(N1 & N2 & N3 & E)|[(N1 & E1 & E)|[(N1 & E1 & E)|[(N1 & E1 & E)|(E1 & E2 & E)]]]]; rewrite E; q0; subst.
    - field. repeat split; lra.
    - field. lra.
    - field. lra.
    - ring.
    - ring.
  Qed.

  Lemma chi_swap a b c : apart a b -> apart b c -> apart c a -> chi a b c = chi b a c.
  Proof.
    intros Hab Hbc Hca. destruct (chi_cases a b c Hab Hbc Hca) as [(N1 & N2 & N3 & E)|[(N1 & E1 & E)|[(N1 & E1 & E)|[(N1 & E1 & E)|(E1 & E2 & E)]]]];
    destruct (chi_cases b a c (apart_sym _ _ Hab) (apart_sym _ _ Hca) (apart_sym _ _ Hbc)) as [(N1' & N2' & N3' & E')|[(N1' & E1' & E')|[(N1' & E1' & E')|[(N1' & E1' & E')|(E1' & E2' & E')]]]];
      try congruence; rewrite E, E'; subst; try reflexivity; try (field; repeat split; lra).
  Qed.

  Lemma chi_rot a b c : apart a b -> apart b c -> apart c a -> chi a b c = chi b c a.
  Proof.
    intros Hab Hbc Hca. destruct (chi_cases a b c Hab Hbc Hca) as [(N1 & N2 & N3 & E)|[(N1 & E1 & E)|[(N1 & E1 & E)|[(N1 & E1 & E)|(E1 & E2 & E)]]]];
    destruct (chi_cases b c a Hbc Hca Hab) as [(N1' & N2' & N3' & E')|[(N1' & E1' & E')|[(N1' & E1' & E')|[(N1' & E1' & E')|(E1' & E2' & E')]]]];
      try congruence; rewrite E, E'; subst; try reflexivity; try (field; repeat split; lra).
  Qed.

  Lemma chi_same a : chi a a a = - pe a / 2.
  Proof.
    assert (A : apart a a) by (intros _; reflexivity).
    destruct (chi_cases a a a A A A) as [(N1 & N2 & N3 & E)|[(N1 & E1 & E)|[(N1 & E1 & E)|[(N1 & E1 & E)|(E1 & E2 & E)]]]]; try congruence. rewrite E. field.
  Qed.

  Lemma chi_derivative a c : apart a c -> a <> c -> derivable_pt_lim (occ s) (a / kT) (- delta s (a / kT)) ->
    derivable_pt_lim (fun x => (fe x - fe c) / (x - c)) a (chi a a c).
  Proof.
    intros A NE H. assert (AA : apart a a) by (intros _; reflexivity).
    destruct (chi_cases a a c AA A (apart_sym _ _ A)) as [(N1 & N2 & N3 & E)|[(N1 & E1 & E)|[(N1 & E1 & E)|[(N1 & E1 & E)|(E1 & E2 & E)]]]]; try congruence. rewrite E.
    apply is_derive_Reals. apply is_derive_Reals in H.
    assert (L : is_derive (fun x => x / kT) a (/ kT)) by (auto_derive; [lra|field; lra]).
    pose proof (is_derive_comp (occ s) (fun x => x / kT) a _ _ H L) as D1. fold fe in D1.
    assert (D2 : is_derive (fun x => fe x - fe c) a (- de a)).
    { eapply is_derive_eq; [apply (is_derive_minus fe (fun _ => fe c) a); [exact D1|apply is_derive_const]|]. unfold de. cbv [minus plus opp mult scal zero]; cbn. unfold mult; cbn. field. lra. }
    assert (D3 : is_derive (fun x => x - c) a 1) by (auto_derive; [exact I|ring]).
    eapply is_derive_eq; [apply (is_derive_div _ _ a _ _ D2 D3); lra|]. field. split; lra.
  Qed.
End Triangle.

(** ** Couplings *)
Section Couplings.
  Variables (nk : pt) (nbnd : nat) (e : pt -> nat -> R) (kT eps : R) (s : MdModel.smearing) (norb : nat) (U : pt -> nat -> nat -> C) (q : pt).
  Notation Ukq k := (U (kadd nk q k)).

  Lemma csum4 (F : nat -> nat -> nat -> nat -> C) n m : csum n (fun a => csum n (fun b => csum m (fun c => csum m (fun d => F a b c d)))) = csum m (fun c => csum m (fun d => csum n (fun a => csum n (fun b => F a b c d)))).
  Proof.
    rewrite (csum_ext n _ (fun a => csum m (fun c => csum m (fun d => csum n (fun b => F a b c d))))).
    - rewrite csum_swap. apply csum_ext. intros c _. apply csum_swap.
    - intros a _. rewrite csum_swap. apply csum_ext. intros c _. apply csum_swap.
  Qed.

  Lemma Pi_g_bands g x c d : Pi_g nk nbnd e kT eps s norb U q g x c d = band_Pig nk e kT eps s U q nbnd (fun x k => to_bands norb (Ukq k) (U k) (g x k)) x c d.
  Proof.
    unfold Pi_g, band_Pig. f_equal. apply ksum_ext. intros k _. apply csum_ext. intros m _. apply csum_ext. intros n _. unfold to_bands. rewrite !at_kq_eq.
    rewrite <- csum_scal. apply csum_ext. intros a _. rewrite <- csum_scal. apply csum_ext. intros b _. ring.
  Qed.

  Lemma to_bands_plus Vk V g h m n : to_bands norb Vk V (fun a b => g a b + h a b)%C m n = (to_bands norb Vk V g m n + to_bands norb Vk V h m n)%C.
  Proof. unfold to_bands. rewrite <- csum_plus. apply csum_ext. intros a _. rewrite <- csum_plus. apply csum_ext. intros b _. ring. Qed.

  Lemma to_bands_ext Vk V g h m n : (forall a b, (a < norb)%nat -> (b < norb)%nat -> g a b = h a b) -> to_bands norb Vk V g m n = to_bands norb Vk V h m n.
  Proof. intros H. unfold to_bands. apply csum_ext. intros a Ha. apply csum_ext. intros b Hb. rewrite H by assumption. reflexivity. Qed.

  Lemma add_axes_dd fuel : forall n g, (n <= g - 1)%nat -> (g - 1 - n <= fuel)%nat -> add_axes fuel true n g = Ok (g - 1)%nat.
  Proof using Type. clear.
    induction fuel as [|fuel IH]; intros n g H1 H2; cbn [add_axes].
    - replace (n <? g - 1)%nat with false by (symmetry; apply Nat.ltb_ge; lia). f_equal. lia.
    - destruct (Nat.ltb_spec n (g - 1)); [apply IH; lia|]. f_equal. lia.
  Qed.

  Lemma add_axes_general fuel : forall n g, (0 < g)%nat -> add_axes fuel false n g = Raise IndexError.
  Proof using Type. clear.
    induction fuel as [|fuel IH]; intros n g H; cbn [add_axes]; destruct (Nat.eqb_spec g 0); try lia; cbn [negb]; [reflexivity|]. apply IH. exact H.
  Qed.

  Lemma renormalize_dd ndim g W x k : (4 <= ndim <= 33)%nat -> exists g',
    (forall a b, renormalize_orbital_dd nk nbnd e kT eps s norb U q ndim g W x k a b = Ok (g' a b)) /\
    forall m n, renormalize_band_dd nk e kT eps s norb U q nbnd (fun x k => to_bands norb (Ukq k) (U k) (g x k)) W x k m n = to_bands norb (Ukq k) (U k) g' m n.
  Proof.
    intros H. unfold renormalize_orbital_dd. rewrite add_axes_dd by lia. cbn [bind]. eexists. split; [intros; reflexivity|]. intros m n.
    rewrite (to_bands_ext _ _ _ (fun a b => g x k a b + (if Nat.eqb a b then csum norb (fun c => W a c * Pi_g nk nbnd e kT eps s norb U q g x c c) else RtoC 0))%C) by (intros a b _ _; destruct Nat.eqb; [reflexivity|symmetry; apply Cplus_0_r]).
    rewrite to_bands_plus. unfold renormalize_band_dd. f_equal. unfold to_bands. apply csum_ext. intros a Ha.
    rewrite (csum_ext norb (fun b => conj (Ukq k a m) * _ * U k b n)%C (fun b => if Nat.eqb b a then conj (Ukq k a m) * csum norb (fun c => W a c * Pi_g nk nbnd e kT eps s norb U q g x c c) * U k b n else RtoC 0)%C).
    - rewrite csum_delta by exact Ha. rewrite <- csum_scal, <- csum_scal_r. apply csum_ext. intros c _. rewrite Pi_g_bands, at_kq_eq. unfold to_bands. ring.
    - intros b Hb. rewrite (Nat.eqb_sym b a). destruct (Nat.eqb_spec a b); [reflexivity|cring].
  Qed.

  Lemma renormalize_general ndim g W x k a b : (0 < ndim)%nat -> renormalize_orbital nk nbnd e kT eps s norb U q ndim g W x k a b = Raise IndexError.
  Proof. intros H. unfold renormalize_orbital. rewrite add_axes_general by exact H. reflexivity. Qed.

  (** The band version corresponds to the intended result. *)
  Lemma renormalize_band_general g W x k m n :
    renormalize_band nk e kT eps s norb U q nbnd (fun x k => to_bands norb (Ukq k) (U k) (g x k)) W x k m n =
    to_bands norb (Ukq k) (U k) (fun a b => g x k a b + csum norb (fun c => csum norb (fun d => W a b c d * Pi_g nk nbnd e kT eps s norb U q g x c d)))%C m n.
  Proof.
    rewrite to_bands_plus. unfold renormalize_band. f_equal. unfold to_bands. apply csum_ext. intros a _. apply csum_ext. intros b _.
    rewrite <- csum_scal, <- csum_scal_r. apply csum_ext. intros c _. rewrite <- csum_scal, <- csum_scal_r. apply csum_ext. intros d _. rewrite Pi_g_bands, at_kq_eq. unfold to_bands. ring.
  Qed.

  Lemma renormalize_band_of_dd nsub g W x k m n :
    renormalize_band nk e kT eps s norb U q nsub g (fun a b c d => if (Nat.eqb b a && Nat.eqb d c)%bool then W a c else RtoC 0) x k m n =
    renormalize_band_dd nk e kT eps s norb U q nsub g W x k m n.
  Proof.
    unfold renormalize_band, renormalize_band_dd. f_equal. apply csum_ext. intros a Ha. rewrite csum_swap. apply csum_ext. intros c Hc.
    rewrite (csum_ext norb _ (fun b => if Nat.eqb b a then conj (at_kq nk q U k a m) * U k b n * W a c * band_Pig nk e kT eps s U q nsub g x c c else RtoC 0)%C).
    - rewrite csum_delta by exact Ha. reflexivity.
    - intros b _. destruct (Nat.eqb b a); cbn [andb].
      + rewrite (csum_ext norb _ (fun d => if Nat.eqb d c then conj (at_kq nk q U k a m) * U k b n * W a c * band_Pig nk e kT eps s U q nsub g x c d else RtoC 0)%C); [apply csum_delta, Hc|].
        intros d _. destruct Nat.eqb; [reflexivity|cring].
      + rewrite (csum_ext norb _ (fun _ => RtoC 0)); [apply csum_zero|]. intros. cring.
  Qed.
End Couplings.

(** ** Fan-Migdal self-energy *)
Section FanMigdal.
  Variables (nk : pt) (nbnd : nat) (e : pt -> nat -> R) (kT : R) (s : MdModel.smearing) (nmodes : nat) (w : pt -> nat -> R) (g2 : pt -> nat -> nat -> nat -> R).
  Hypotheses (Hnk : nonempty nk) (HkT : 0 < kT) (F : fraction s) (Hw : forall q nu, 0 < w q nu) (Hg : forall q nu m n, 0 <= g2 q nu m n).

  Lemma bose_pos x : 0 < x -> 0 < bose_einstein x.
  Proof.
    intros H. unfold bose_einstein. apply Rdiv_lt_0_compat; [lra|]. assert (0 < Rmin x xmax) by (apply Rmin_glb_lt; unfold xmax; lra). pose proof (exp_increasing 0 (Rmin x xmax) ltac:(assumption)) as E. rewrite exp_0 in E. lra.
  Qed.

  Lemma im_quotient (a : R) (z : C) : 0 <= a -> 0 < snd z -> snd (RtoC a / z)%C <= 0.
  Proof.
    destruct z as [x y]. cbn [snd]. intros Ha Hy. cbn. assert (P : 0 < x * (x * 1) + y * (y * 1)) by nra. pose proof (Rinv_0_lt_compat _ P) as I.
    assert (0 <= a * (y * / (x * (x * 1) + y * (y * 1)))) by (apply Rmult_le_pos; [exact Ha|apply Rmult_le_pos; lra]). unfold Rdiv. lra.
  Qed.

  Lemma snd_ksum mesh G : snd (ksum mesh G) = fst (ksum mesh (fun k => RtoC (snd (G k)))).
  Proof.
    destruct mesh as [[n1 n2] n3]. cbn [ksum]. rewrite snd_csum, fst_csum. apply rsum_ext. intros i _. rewrite snd_csum, fst_csum. apply rsum_ext. intros j _. rewrite snd_csum, fst_csum. reflexivity.
  Qed.

  Lemma fan_migdal_im omega k n : 0 < snd omega -> snd (fan_migdal nk nbnd e kT s nmodes w g2 omega k n) <= 0.
  Proof.
    intros Ho. unfold fan_migdal. pose proof (nonempty_prod nk Hnk) as P.
    assert (M : forall (x : R) z, snd (RtoC x * z)%C = x * snd z) by (intros; cbn; ring). rewrite M.
    assert (I : 0 < 1 / INR (prod nk)) by (apply Rdiv_lt_0_compat; lra).
    match goal with |- _ * ?x <= 0 => assert (x <= 0); [|nra] end. rewrite snd_ksum. apply ksum_nonpos. intros q Hq. cbn [fst RtoC]. rewrite snd_csum.
    assert (S : forall N (h : nat -> R), (forall i, (i < N)%nat -> h i <= 0) -> rsum N h <= 0).
    { intros N h Hh. rewrite <- (rsum_zero N). apply rsum_le. exact Hh. }
    apply S. intros nu _. cbv beta. rewrite snd_csum. apply S. intros m _. cbv beta zeta. rewrite M.
    pose proof (Hg q nu m n) as G. pose proof (bose_pos (w q nu / kT) ltac:(apply Rdiv_lt_0_compat; auto)) as B.
    pose proof (F (at_kq nk (q_indices nk k) e q m / kT)) as Fk.
    assert (EF : at_kq nk (q_indices nk k) (f_ e kT s) q m = occ s (at_kq nk (q_indices nk k) e q m / kT)) by (rewrite !at_kq_eq; reflexivity).
    rewrite EF.
    assert (A1 : snd (RtoC (occ s (at_kq nk (q_indices nk k) e q m / kT) + bose_einstein (w q nu / kT)) / (omega - RtoC (at_kq nk (q_indices nk k) e q m) + RtoC (w q nu)))%C <= 0) by (apply im_quotient; [lra|cbn; lra]).
    assert (A2 : snd (RtoC (1 - occ s (at_kq nk (q_indices nk k) e q m / kT) + bose_einstein (w q nu / kT)) / (omega - RtoC (at_kq nk (q_indices nk k) e q m) - RtoC (w q nu)))%C <= 0) by (apply im_quotient; [lra|cbn; lra]).
    assert (PL : forall a b : C, snd (a + b)%C = snd a + snd b) by reflexivity. rewrite PL. nra.
  Qed.

  Lemma fan_migdal_conj omega k n : snd omega <> 0 -> fan_migdal nk nbnd e kT s nmodes w g2 (conj omega) k n = conj (fan_migdal nk nbnd e kT s nmodes w g2 omega k n).
  Proof.
    intros Ho. unfold fan_migdal. rewrite conj_mult, conj_R, ksum_conj. f_equal. apply ksum_ext. intros q _. rewrite csum_conj. apply csum_ext. intros nu _. rewrite csum_conj. apply csum_ext. intros m _. cbv beta zeta.
    rewrite conj_mult, conj_R, conj_plus, !Cdiv_conj by (intros E; apply (f_equal snd) in E; cbn in E; lra). rewrite conj_plus, !conj_minus, !conj_R. reflexivity.
  Qed.
End FanMigdal.

(** ** Averages over the Fermi surface *)
Section Fermi.
  Variables (nk : pt) (nbnd : nat) (e : pt -> nat -> R) (kT : R) (s : MdModel.smearing).
  Hypotheses (Hnk : nonempty nk) (HkT : 0 < kT) (N : nonneg (delta s)).

  Lemma fs_weight_nonneg q k m n : 0 <= fs_weight nk e kT s q k m n.
  Proof. unfold fs_weight, fsd. rewrite at_kq_eq. apply Rmult_le_pos; (apply Rmult_le_pos; [apply N|left; apply Rinv_0_lt_compat, HkT]). Qed.

  Lemma fs_deno_nonneg q : 0 <= fst (fs_deno nk nbnd e kT s q).
  Proof.
    unfold fs_deno. apply ksum_nonneg. intros k _. rewrite fst_csum. apply rsum_nonneg. intros m _. rewrite fst_csum. apply rsum_nonneg. intros n _. apply fs_weight_nonneg.
  Qed.

  Lemma fs_bounds q g2 nu lo hi : (forall k m n, on_mesh nk k -> (m < nbnd)%nat -> (n < nbnd)%nat -> lo <= fst (g2 nu k m n) <= hi) ->
    lo * fst (fs_deno nk nbnd e kT s q) <= fst (fs_enum nk nbnd e kT s q g2 nu) <= hi * fst (fs_deno nk nbnd e kT s q).
  Proof.
    intros H. unfold fs_enum, fs_deno. rewrite <- !fst_RtoC_mult. fold (total nk nbnd (fun k m n => RtoC (fs_weight nk e kT s (q_indices nk q) k m n))).
    fold (total nk nbnd (fun k m n => g2 nu k m n * RtoC (fs_weight nk e kT s (q_indices nk q) k m n)))%C. rewrite <- !total_scal.
    split; apply total_le; intros k m n Hk Hm Hn; specialize (H k m n Hk Hm Hn); pose proof (fs_weight_nonneg (q_indices nk q) k m n); cbn [fst RtoC Cmult snd]; nra.
  Qed.

  Lemma fs_deno_neg q : fs_deno nk nbnd e kT s (qneg q) = fs_deno nk nbnd e kT s q.
  Proof.
    unfold fs_deno. fold (total nk nbnd (fun k m n => RtoC (fs_weight nk e kT s (q_indices nk (qneg q)) k m n))). fold (total nk nbnd (fun k m n => RtoC (fs_weight nk e kT s (q_indices nk q) k m n))).
    rewrite (total_swap nk nbnd _ (q_indices nk q)). apply total_ext. intros k m n Hk _ _. unfold fs_weight. rewrite !at_kq_eq, kadd_neg by exact Hk. f_equal. ring.
  Qed.

  Lemma kadd_comm q k : kadd nk q k = kadd nk k q.
  Proof. destruct nk as [[n1 n2] n3], q as [[a b] c], k as [[i j] l]. cbn. rewrite (Nat.add_comm a), (Nat.add_comm b), (Nat.add_comm c). reflexivity. Qed.

  Lemma ksum_swap (G : pt -> pt -> C) : ksum nk (fun q => ksum nk (fun k => G q k)) = ksum nk (fun k => ksum nk (fun q => G q k)).
  Proof.
    destruct nk as [[n1 n2] n3] eqn:E. rewrite <- E at 2. change (csum n1 (fun a => csum n2 (fun b => csum n3 (fun c => ksum (n1, n2, n3) (fun k => G (a, b, c) k)))) = ksum nk (fun k => csum n1 (fun a => csum n2 (fun b => csum n3 (fun c => G (a, b, c) k))))).
    rewrite E. rewrite ksum_csum. apply csum_ext. intros a _. rewrite ksum_csum. apply csum_ext. intros b _. rewrite ksum_csum. reflexivity.
  Qed.

  Lemma fs_sum_rule : ksum nk (fun q => fs_deno nk nbnd e kT s (q_point nk q)) =
    (ksum nk (fun k => csum nbnd (fun n => RtoC (fsd e kT s k n))) * ksum nk (fun k => csum nbnd (fun n => RtoC (fsd e kT s k n))))%C.
  Proof.
    set (D := fun k => csum nbnd (fun n => RtoC (fsd e kT s k n))).
    rewrite (ksum_ext nk _ (fun q => ksum nk (fun k => D (kadd nk k q) * D k)))%C.
    - rewrite ksum_swap. rewrite (ksum_ext nk _ (fun k => ksum nk D * D k))%C; [apply ksum_scal|]. intros k _. rewrite ksum_scal_r. f_equal. apply (ksum_shift nk k D).
    - intros q Hq. unfold fs_deno. rewrite q_indices_point by assumption. apply ksum_ext. intros k _. unfold D. rewrite <- csum_scal_r. apply csum_ext. intros m _. rewrite <- csum_scal. apply csum_ext. intros n _.
      unfold fs_weight. rewrite at_kq_eq, RtoC_mult', kadd_comm. reflexivity.
  Qed.
End Fermi.

(** ** Conductivity *)
Section Conductivity.
  Variables (nkn nq nw : nat) (v A : nat -> nat -> R) (omega : nat -> R) (kT eps : R) (s : MdModel.smearing).
  Hypotheses (Hnq : (0 < nq)%nat) (HkT : 0 < kT) (N : nonneg (delta s)) (D : decreasing s).

  Definition rform (nd : nat) (M : nat -> nat -> R) (u : nat -> R) : R := rsum nd (fun x => rsum nd (fun y => u x * M x y * u y)).

  Lemma gk_prefactor_pos : 0 < gk_prefactor nq.
  Proof. unfold gk_prefactor. apply Rdiv_lt_0_compat; [pose proof PI_RGT_0; lra|]. apply (lt_INR 0). exact Hnq. Qed.

  Lemma rform_weighted nd n (c : R) (a : nat -> R) (b : nat -> nat -> nat -> R) u :
    rform nd (fun x y => c * rsum n (fun j => a j * b j x y)) u = c * rsum n (fun j => a j * rform nd (b j) u).
  Proof.
    unfold rform.
    transitivity (rsum nd (fun x => rsum nd (fun y => c * rsum n (fun j => a j * (u x * b j x y * u y))))).
    { apply rsum_ext. intros x _. apply rsum_ext. intros y _. transitivity (c * (u x * u y * rsum n (fun j => a j * b j x y))); [ring|]. f_equal. rewrite <- rsum_scal. apply rsum_ext. intros. ring. }
    rewrite (rsum_ext nd _ (fun x => c * rsum nd (fun y => rsum n (fun j => a j * (u x * b j x y * u y))))) by (intros; apply rsum_scal).
    rewrite rsum_scal. f_equal. rewrite (rsum_ext nd _ (fun x => rsum n (fun j => rsum nd (fun y => a j * (u x * b j x y * u y))))) by (intros; apply rsum_swap).
    rewrite rsum_swap. apply rsum_ext. intros j _. rewrite <- rsum_scal. apply rsum_ext. intros x _. rewrite rsum_scal. reflexivity.
  Qed.

  Lemma rform_square nd n (w : nat -> R) (p : nat -> nat -> R) u :
    rform nd (fun x y => rsum n (fun i => w i * (p i x * p i y))) u = rsum n (fun i => w i * (rsum nd (fun x => p i x * u x) * rsum nd (fun x => p i x * u x))).
  Proof.
    unfold rform.
    transitivity (rsum nd (fun x => rsum nd (fun y => rsum n (fun i => w i * (p i x * u x * (p i y * u y)))))).
    { apply rsum_ext. intros x _. apply rsum_ext. intros y _. transitivity (u x * u y * rsum n (fun i => w i * (p i x * p i y))); [ring|]. rewrite <- rsum_scal. apply rsum_ext. intros. ring. }
    rewrite (rsum_ext nd _ (fun x => rsum n (fun i => rsum nd (fun y => w i * (p i x * u x * (p i y * u y)))))) by (intros; apply rsum_swap).
    rewrite rsum_swap. apply rsum_ext. intros i _. transitivity (rsum nd (fun x => p i x * u x * (w i * rsum nd (fun y => p i y * u y)))).
    - apply rsum_ext. intros x _. rewrite <- !rsum_scal. apply rsum_ext. intros. ring.
    - rewrite rsum_scal_r. ring.
  Qed.

  Lemma rform_ext nd M M' u : (forall x y, M x y = M' x y) -> rform nd M u = rform nd M' u.
  Proof. intros H. unfold rform. apply rsum_ext. intros x _. apply rsum_ext. intros y _. rewrite H. reflexivity. Qed.

  Lemma gk_b jm jp x y : rsum nkn (fun i => vA v A i jm x * vA v A i jp y) = rsum nkn (fun i => A i jm * A i jp * (v i x * v i y)).
  Proof. apply rsum_ext. intros. unfold vA. ring. Qed.

  Lemma gk_dc_sym x y : gk_dc nkn nq nw v A omega kT s x y = gk_dc nkn nq nw v A omega kT s y x.
  Proof using Type. unfold gk_dc. f_equal. apply rsum_ext. intros iw _. f_equal. apply rsum_ext. intros. ring. Qed.

  Lemma gk_dc_nonneg nd u : (2 <= nw)%nat -> (forall i, (i + 1 < nw)%nat -> omega i <= omega (i + 1)%nat) -> 0 <= rform nd (gk_dc nkn nq nw v A omega kT s) u.
  Proof.
    intros Hw Mono. rewrite (rform_ext nd _ (fun x y => gk_prefactor nq * rsum nw (fun iw => differential nw omega iw * gk_d omega kT s iw * rsum nkn (fun i => A i iw * A i iw * (v i x * v i y))))).
    - rewrite rform_weighted. apply Rmult_le_pos; [left; apply gk_prefactor_pos|]. apply rsum_nonneg. intros iw Hiw. apply Rmult_le_pos; [apply Rmult_le_pos|].
      + unfold differential. assert (P : forall x, 0 <= x -> 0 <= x / 2) by (intros; lra). apply P.
        destruct (Nat.eqb_spec iw 0) as [E|E]; [pose proof (Mono 0%nat ltac:(lia)) as M; cbn [Nat.add] in M; lra|]. destruct (Nat.eqb_spec iw (nw - 1)) as [E'|E'].
        * pose proof (Mono (nw - 2)%nat ltac:(lia)) as M. replace (nw - 2 + 1)%nat with (nw - 1)%nat in M by lia. lra.
        * pose proof (Mono iw ltac:(lia)). pose proof (Mono (iw - 1)%nat ltac:(lia)) as M. replace (iw - 1 + 1)%nat with iw in M by lia. lra.
      + unfold gk_d. apply Rmult_le_pos; [apply N|left; apply Rinv_0_lt_compat, HkT].
      + rewrite rform_square. apply rsum_nonneg. intros i _. pose proof (Rle_0_sqr (A i iw)) as S1. pose proof (Rle_0_sqr (rsum nd (fun x => v i x * u x))) as S2. unfold Rsqr in *. apply Rmult_le_pos; assumption.
    - intros x y. unfold gk_dc. f_equal. apply rsum_ext. intros iw _. rewrite gk_b. reflexivity.
  Qed.

  (** Weights of the optical conductivity *)
  Definition gk_a (iw0 iw j : nat) : R :=
    if Nat.eqb iw iw0 then gk_d omega kT s j else (gk_f omega kT s ((iw0 - iw) + j)%nat - gk_f omega kT s ((iw - iw0) + j)%nat) / omega iw.

  Lemma gk_sigma_eq iw0 iw x y : gk_sigma nkn nq nw v A omega kT s iw0 iw x y =
    gk_prefactor nq * gk_domega omega * rsum (nw - (iw - iw0) - (iw0 - iw)) (fun j => gk_a iw0 iw j * rsum nkn (fun i => A i (iw0 - iw + j)%nat * A i (iw - iw0 + j)%nat * (v i x * v i y))).
  Proof using Type. unfold gk_sigma, gk_a. f_equal. apply rsum_ext. intros j _. rewrite gk_b. reflexivity. Qed.

  Lemma gk_sigma_sym iw0 iw x y : gk_sigma nkn nq nw v A omega kT s iw0 iw x y = gk_sigma nkn nq nw v A omega kT s iw0 iw y x.
  Proof using Type. rewrite !gk_sigma_eq. f_equal. apply rsum_ext. intros j _. f_equal. apply rsum_ext. intros. ring. Qed.

  (** Frequencies that increase and of which the one with index [iw0] is zero *)
  Lemma mono_le (Mono : forall i, (i + 1 < nw)%nat -> omega i <= omega (i + 1)%nat) i j : (i <= j < nw)%nat -> omega i <= omega j.
  Proof using Type. clear - Mono.
    intros [H1 H2]. induction j as [|j IH]; [replace i with 0%nat by lia; lra|]. destruct (Nat.eq_dec i (S j)) as [->|NE]; [lra|].
    eapply Rle_trans; [apply IH; lia|]. pose proof (Mono j ltac:(lia)) as M. replace (j + 1)%nat with (S j) in M by lia. exact M.
  Qed.

  Lemma gk_a_nonneg iw0 iw j : (forall i, (i + 1 < nw)%nat -> omega i <= omega (i + 1)%nat) -> omega iw0 = 0 -> (iw0 < nw)%nat -> (iw < nw)%nat -> (j < nw - (iw - iw0) - (iw0 - iw))%nat ->
    0 <= gk_a iw0 iw j.
  Proof.
    intros Mono Z H0 Hw Hj. unfold gk_a. destruct (Nat.eqb_spec iw iw0) as [E|E].
    - unfold gk_d. apply Rmult_le_pos; [apply N|left; apply Rinv_0_lt_compat, HkT].
    - unfold gk_f. assert (Sg : forall a b, 0 <= a * b -> 0 <= a / b).
      { intros a b Hab. destruct (Req_dec b 0) as [->|NZ]; [unfold Rdiv; rewrite Rinv_0, Rmult_0_r; lra|].
        replace (a / b) with (a * b * / (b * b)) by (field; exact NZ). apply Rmult_le_pos; [exact Hab|]. left. apply Rinv_0_lt_compat. pose proof (Rsqr_pos_lt b NZ) as P. exact P. }
      apply Sg. destruct (Nat.lt_ge_cases iw iw0) as [L|L].
      + replace (iw - iw0)%nat with 0%nat in * by lia. pose proof (mono_le Mono iw iw0 ltac:(lia)) as O. rewrite Z in O.
        pose proof (D _ _ (div_le kT HkT _ _ (mono_le Mono (0 + j) (iw0 - iw + j) ltac:(lia)))). nra.
      + replace (iw0 - iw)%nat with 0%nat in * by lia. pose proof (mono_le Mono iw0 iw ltac:(lia)) as O. rewrite Z in O.
        pose proof (D _ _ (div_le kT HkT _ _ (mono_le Mono (0 + j) (iw - iw0 + j) ltac:(lia)))). nra.
  Qed.

  Lemma gk_sigma_nonneg nd u iw0 iw : (2 <= nw)%nat -> (forall i, (i + 1 < nw)%nat -> omega i <= omega (i + 1)%nat) -> omega iw0 = 0 -> (iw0 < nw)%nat -> (iw < nw)%nat ->
    (forall i j, 0 <= A i j) -> 0 <= rform nd (gk_sigma nkn nq nw v A omega kT s iw0 iw) u.
  Proof.
    intros H2 Mono Z H0 Hw HA. rewrite (rform_ext nd _ _ u (gk_sigma_eq iw0 iw)), rform_weighted. apply Rmult_le_pos.
    - apply Rmult_le_pos; [left; apply gk_prefactor_pos|]. unfold gk_domega. pose proof (Mono 0%nat ltac:(lia)) as M. cbn [Nat.add] in M. lra.
    - apply rsum_nonneg. intros j Hj. apply Rmult_le_pos; [apply gk_a_nonneg; assumption|]. rewrite rform_square. apply rsum_nonneg. intros i _.
      pose proof (Rle_0_sqr (rsum nd (fun x => v i x * u x))) as S2. unfold Rsqr in S2. apply Rmult_le_pos; [apply Rmult_le_pos; apply HA|exact S2].
  Qed.

  Lemma gk_sigma_opp iw0 d x y : (0 < d <= iw0)%nat -> (iw0 + d < nw)%nat -> omega (iw0 - d)%nat = - omega (iw0 + d)%nat -> omega (iw0 + d)%nat <> 0 ->
    gk_sigma nkn nq nw v A omega kT s iw0 (iw0 - d) x y = gk_sigma nkn nq nw v A omega kT s iw0 (iw0 + d) x y.
  Proof using Type. clear.
    intros H1 H2 E NZ. rewrite !gk_sigma_eq. f_equal. replace (iw0 - d - iw0)%nat with 0%nat by lia. replace (iw0 - (iw0 - d))%nat with d by lia. replace (iw0 + d - iw0)%nat with d by lia. replace (iw0 - (iw0 + d))%nat with 0%nat by lia.
    replace (nw - 0 - d)%nat with (nw - d - 0)%nat by lia. apply rsum_ext. intros j _. f_equal.
    - unfold gk_a. destruct (Nat.eqb_spec (iw0 - d) iw0); [lia|]. destruct (Nat.eqb_spec (iw0 + d) iw0); [lia|]. replace (iw0 - d - iw0)%nat with 0%nat by lia. replace (iw0 - (iw0 - d))%nat with d by lia. replace (iw0 + d - iw0)%nat with d by lia. replace (iw0 - (iw0 + d))%nat with 0%nat by lia.
      rewrite E. field. exact NZ.
    - apply rsum_ext. intros. ring.
  Qed.

  (** Which frequencies are accepted *)
  Lemma argmin_from_spec h n : (0 < n)%nat -> (argmin_from h n < n)%nat /\ forall i, (i < n)%nat -> h (argmin_from h n) <= h i.
  Proof using Type. clear.
    induction n as [|n IH]; [lia|]. intros _. cbn [argmin_from]. destruct (Nat.eqb_spec n 0) as [->|NE].
    - split; [lia|]. intros i Hi. replace i with 0%nat by lia. lra.
    - destruct IH as [I1 I2]; [lia|]. destruct Rlt_dec as [L|L].
      + split; [lia|]. intros i Hi. destruct (Nat.eq_dec i n) as [->|Ni]; [lra|]. specialize (I2 i ltac:(lia)). lra.
      + split; [lia|]. intros i Hi. destruct (Nat.eq_dec i n) as [->|Ni]; [lra|]. apply I2. lia.
  Qed.

  Lemma gk_checks_spec : (2 <= nw)%nat ->
    if existsb (fun i => if Rlt_dec eps (Rabs (omega (i + 1)%nat - omega i - gk_domega omega)) then true else false) (seq 0 (nw - 1)) then gk_checks nw omega eps = Raise SystemExit
    else (gk_checks nw omega eps = Raise SystemExit /\ forall i, (i < nw)%nat -> eps < Rabs (omega i)) \/
      exists iw0, gk_checks nw omega eps = Ok iw0 /\ (iw0 < nw)%nat /\ Rabs (omega iw0) <= eps.
  Proof using Type. clear.
    intros H. unfold gk_checks. destruct existsb; [reflexivity|]. destruct (argmin_from_spec (fun i => Rabs (omega i)) nw ltac:(lia)) as [A1 A2].
    destruct Rlt_dec as [L|L].
    - left. split; [reflexivity|]. intros i Hi. specialize (A2 i Hi). cbv beta in A2. lra.
    - right. eexists. split; [reflexivity|]. split; [exact A1|lra].
  Qed.

  Lemma green_kubo_accepts iw x y : (2 <= nw)%nat ->
    ((exists r, green_kubo nkn nq nw v A omega kT eps s false iw x y = Ok r) <->
      (forall i, (i + 1 < nw)%nat -> Rabs (omega (i + 1)%nat - omega i - gk_domega omega) <= eps) /\ exists i, (i < nw)%nat /\ Rabs (omega i) <= eps).
  Proof using Type. clear.
    intros H. pose proof (gk_checks_spec H) as S. unfold green_kubo. destruct existsb eqn:Ex.
    - rewrite S. cbn [bind]. split; [intros (r & E); discriminate|]. intros (Eq & _). exfalso. apply existsb_exists in Ex. destruct Ex as (i & Hi & B). apply in_seq in Hi.
      destruct Rlt_dec as [L|L]; [|discriminate]. specialize (Eq i ltac:(lia)). lra.
    - assert (Eq : forall i, (i + 1 < nw)%nat -> Rabs (omega (i + 1)%nat - omega i - gk_domega omega) <= eps).
      { intros i Hi. apply Rnot_lt_le. intros L. assert (existsb (fun i => if Rlt_dec eps (Rabs (omega (i + 1)%nat - omega i - gk_domega omega)) then true else false) (seq 0 (nw - 1)) = true); [|congruence].
        apply existsb_exists. exists i. split; [apply in_seq; lia|]. destruct Rlt_dec; [reflexivity|contradiction]. }
      destruct S as [(S & Z)|(iw0 & S & H0 & Z)]; rewrite S; cbn [bind].
      + split; [intros (r & E); discriminate|]. intros (_ & i & Hi & Li). specialize (Z i Hi). lra.
      + split; [intros _|intros _; eexists; reflexivity]. split; [exact Eq|]. exists iw0. auto.
  Qed.
End Conductivity.
