(** Proofs about the driver of molecular dynamics. *)
From Coq Require Import Reals Lra Lia List Arith.
From Verif Require Import Cx CxProofs HermSpec HermProofs HermPath MdModel MdSpec.
Local Open Scope R_scope.

(** ** Centre of mass *)
Lemma average_linear N u v t c : average N (along u v t) c = average N u c + t * average N v c.
Proof. unfold average, along. rewrite rsum_plus, rsum_scal. unfold Rdiv. ring. Qed.

Lemma center_along N u v t x : center_mass N (along u v t) x = along (center_mass N u) (center_mass N v) t x.
Proof. unfold center_mass. rewrite average_linear. unfold along. ring. Qed.

Lemma center_centred N v : (0 < N)%nat -> centred N (center_mass N v).
Proof.
  intros HN c Hc. unfold center_mass. rewrite rsum_minus. rewrite (rsum_ext N (fun a => average N v ((3 * a + c) mod 3)) (fun _ => average N v c)).
  - rewrite rsum_const. unfold average. field. apply not_0_INR. lia.
  - intros a _. f_equal. rewrite Nat.add_comm, Nat.mul_comm, Nat.mod_add by lia. apply Nat.mod_small, Hc.
Qed.

Lemma centred_average N v c : centred N v -> (c < 3)%nat -> average N v c = 0.
Proof. intros H Hc. unfold average. rewrite (H c Hc). unfold Rdiv. ring. Qed.

Lemma centred_fixed N v x : centred N v -> center_mass N v x = v x.
Proof. intros H. unfold center_mass. rewrite (centred_average N v) by (auto; apply Nat.mod_upper_bound; lia). ring. Qed.

Lemma center_idem N v x : (0 < N)%nat -> center_mass N (center_mass N v) x = center_mass N v x.
Proof. intros HN. apply centred_fixed, center_centred, HN. Qed.

Lemma half : 0.5 = / 2.
Proof. lra. Qed.

(** ** Matrix elements *)
Lemma ip_mv_sum N n (D : nat -> nat -> nat -> C) (w : nat -> R) x y :
  ip N x (mv N (fun a b => csum n (fun i => D i a b * RtoC (w i))) y)%C = csum n (fun i => RtoC (w i) * ip N x (mv N (D i) y))%C.
Proof.
  unfold ip, mv. transitivity (csum N (fun a => csum n (fun i => RtoC (w i) * (conj (x a) * csum N (fun b => D i a b * y b)))))%C.
  - apply csum_ext. intros a _. transitivity (conj (x a) * csum N (fun b => csum n (fun i => D i a b * RtoC (w i) * y b)))%C.
    + f_equal. apply csum_ext. intros b _. rewrite csum_scal_r. reflexivity.
    + rewrite csum_swap, <- csum_scal. apply csum_ext. intros i _. rewrite <- !csum_scal. apply csum_ext. intros b _. ring.
  - rewrite csum_swap. apply csum_ext. intros i _. rewrite csum_scal. reflexivity.
Qed.

Lemma ip_self_real N A x : hermitian N A -> snd (ip N x (mv N A x)) = 0.
Proof.
  intros HA. pose proof (ip_conj N x (mv N A x)) as E. rewrite <- (ip_hermitian N A x x HA) in E.
  destruct (ip N x (mv N A x)) as [a b]. unfold conj in E. cbn in *. injection E. lra.
Qed.

Section State.
  Variables (dr : driver) (st : state).
  Let N := norb dr.
  Definition braket_x (st : state) (Z : nat -> nat -> C) (k m n : nat) : C := ip (norb dr) (col (U st k) m) (mv (norb dr) Z (col (U st k) n)).

  Lemma coupling_ip x k m n : coupling dr st x k m n = braket_x st (d0 dr x k) k m n.
  Proof.
    unfold coupling, braket_x, ip, mv, col. fold N.
    transitivity (csum N (fun b => csum N (fun a => conj (U st k a m) * d0 dr x k a b * U st k b n)))%C.
    - apply csum_ext. intros b _. rewrite csum_scal_r. reflexivity.
    - rewrite csum_swap. apply csum_ext. intros a _. rewrite <- csum_scal. apply csum_ext. intros b _. ring.
  Qed.

  Lemma coupling_conj x k m n : hermitian (norb dr) (d0 dr x k) -> conj (coupling dr st x k m n) = coupling dr st x k n m.
  Proof. intros H. rewrite !coupling_ip. unfold braket_x. rewrite ip_conj, <- ip_hermitian by exact H. reflexivity. Qed.

  Lemma first_order_ip g x : first_order dr st g x =
    (RtoC (2 / INR (nk dr)) * csum (nk dr) (fun k => csum (norb dr) (fun m => RtoC (occ (f dr) (e st k m / kT dr)) * braket_x st (g x k) k m m)))%C.
  Proof.
    unfold first_order. cbv zeta. f_equal. apply csum_ext. intros k _. unfold braket_x, ip, mv, col. fold N.
    transitivity (csum N (fun a => csum N (fun b => csum N (fun m => U st k a m * RtoC (occ (f dr) (e st k m / kT dr)) * conj (U st k b m) * g x k b a))))%C.
    { apply csum_ext. intros a _. apply csum_ext. intros b _. rewrite csum_scal_r. reflexivity. }
    transitivity (csum N (fun m => csum N (fun a => csum N (fun b => U st k a m * RtoC (occ (f dr) (e st k m / kT dr)) * conj (U st k b m) * g x k b a))))%C.
    { rewrite (csum_swap N N (fun m a => csum N (fun b => U st k a m * RtoC (occ (f dr) (e st k m / kT dr)) * conj (U st k b m) * g x k b a)%C)).
      apply csum_ext. intros a _. rewrite csum_swap. reflexivity. }
    apply csum_ext. intros m _. rewrite csum_swap, <- csum_scal. apply csum_ext. intros b _. rewrite <- !csum_scal. apply csum_ext. intros a _. ring.
  Qed.

  Lemma first_order_fst g x : fst (first_order dr st g x) =
    2 / INR (nk dr) * sum_kn dr (fun k m => occ (f dr) (e st k m / kT dr) * fst (braket_x st (g x k) k m m)).
  Proof.
    rewrite first_order_ip, fst_RtoC_mult. f_equal. rewrite fst_csum. apply rsum_ext. intros k _. rewrite fst_csum. apply rsum_ext. intros m _. apply fst_RtoC_mult.
  Qed.
End State.

Lemma sum_kn_ext dr g h : (forall k m, (k < nk dr)%nat -> (m < norb dr)%nat -> g k m = h k m) -> sum_kn dr g = sum_kn dr h.
Proof. intros E. unfold sum_kn. apply rsum_ext. intros k Hk. apply rsum_ext. intros m Hm. apply E; assumption. Qed.

Lemma sum_kn_plus dr g h : sum_kn dr (fun k m => g k m + h k m) = sum_kn dr g + sum_kn dr h.
Proof. unfold sum_kn. rewrite <- rsum_plus. apply rsum_ext. intros k _. apply rsum_plus. Qed.

Lemma sum_kn_scal dr c g : sum_kn dr (fun k m => c * g k m) = c * sum_kn dr g.
Proof. unfold sum_kn. rewrite <- rsum_scal. apply rsum_ext. intros k _. apply rsum_scal. Qed.

Lemma sum_kn_rsum dr n (g : nat -> nat -> nat -> R) : rsum n (fun x => sum_kn dr (g x)) = sum_kn dr (fun k m => rsum n (fun x => g x k m)).
Proof.
  unfold sum_kn. rewrite rsum_swap. apply rsum_ext. intros k _. rewrite rsum_swap. apply rsum_ext. intros m _. reflexivity.
Qed.

(** Polynomials *)
Lemma derivable_quadratic A B D : derivable_pt_lim (fun t => A + t * B + t * t * D) 0 B.
Proof.
  apply quadratic_derivable. apply (quadratic_ext (fun t => D * (t * t))); [intros; ring|apply quadratic_sq].
Qed.

Lemma derivable_ext (g h : R -> R) x l : (forall t, g t = h t) -> derivable_pt_lim g x l -> derivable_pt_lim h x l.
Proof. intros E Dg eps He. destruct (Dg eps He) as (d & Hd). exists d. intros t. rewrite <- !E. apply Hd. Qed.

Lemma eigensystem_ext N A B a U : (forall i j, (i < N)%nat -> (j < N)%nat -> A i j = B i j) -> eigensystem N A a U -> eigensystem N B a U.
Proof.
  intros E [HU HE]. split; [exact HU|]. intros i n Hi Hn. rewrite <- (HE i n Hi Hn). apply csum_ext. intros j Hj. rewrite E by assumption. reflexivity.
Qed.

Lemma hermitian_sum N n (D : nat -> nat -> nat -> C) (w : nat -> R) : (forall i, (i < n)%nat -> hermitian N (D i)) -> hermitian N (fun a b => csum n (fun i => D i a b * RtoC (w i)))%C.
Proof. intros H a b Ha Hb. rewrite csum_conj. apply csum_ext. intros i Hi. rewrite conj_mult, conj_R, (H i Hi a b Ha Hb). reflexivity. Qed.

Lemma hermitian_plus N A B : hermitian N A -> hermitian N B -> hermitian N (fun a b => A a b + B a b)%C.
Proof. intros HA HB a b Ha Hb. rewrite conj_plus, (HA a b Ha Hb), (HB a b Ha Hb). reflexivity. Qed.

Lemma hamiltonian_hermitian dr u k : physical dr -> (k < nk dr)%nat -> hermitian (norb dr) (hamiltonian dr u k).
Proof.
  intros P Hk. unfold hamiltonian. apply hermitian_plus; [apply (ph_H0 dr P k Hk)|]. apply (hermitian_sum (norb dr) (size dr) (fun x => d0 dr x k)). intros x Hx. apply (ph_d0 dr P x k Hx Hk).
Qed.

(** ** The path u + t v *)
Section Gradient.
  Variable eigh : nat -> (nat -> nat -> C) -> (nat -> R) * (nat -> nat -> C).
  Variable find_Fermi_level : R -> nat * nat -> (nat -> nat -> R) -> R -> smearing -> option R -> R.
  Variables (dr : driver) (st : state) (X : R).
  Hypothesis Phys : physical dr.
  Hypothesis Sm : smooth X (f dr).
  Hypothesis Ceigh : eigh_contract (norb dr) eigh.
  Hypothesis Cfermi : fermi_contract find_Fermi_level dr.
  Variables (u0 v : nat -> R).
  Let N := norb dr.
  Let cu := center_mass (nat_ dr) u0.
  Let cv := center_mass (nat_ dr) v.
  Definition after (t : R) : state := snd (free_energy eigh find_Fermi_level dr st (along u0 v t)).
  Definition lev (t : R) : R := match mu (after t) with Some mu => mu | None => 0 end.
  Hypothesis Hrange : in_range X dr (after 0).

  Let D1 k := fun a b => csum (size dr) (fun x => d0 dr x k a b * RtoC (cv x))%C.
  Let ev t k m := e (after t) k m + lev t.
  Let fT x := occ (f dr) (x / kT dr).
  Let phi x := occ (f dr) (x / kT dr) * x - kT dr * entropy (f dr) (x / kT dr).
  Let gT x := delta (f dr) (x / kT dr) / - kT dr.

  Lemma kT_pos : 0 < kT dr. Proof. exact (ph_kT dr Phys). Qed.
  Lemma nk_pos : 0 < INR (nk dr). Proof. apply lt_0_INR, (ph_nk dr Phys). Qed.

  Lemma ham_path t k a b : hamiltonian dr (u (after t)) k a b = (hamiltonian dr (u (after 0)) k a b + RtoC t * D1 k a b)%C.
  Proof.
    unfold hamiltonian, D1, after, free_energy, diagonalize, solve. cbn [snd u]. rewrite <- csum_scal, <- Cplus_assoc, <- csum_plus. f_equal. apply csum_ext. intros x _.
    rewrite !center_along. unfold along. fold cu cv. rewrite !RtoC_plus', !RtoC_mult'. ring.
  Qed.

  Lemma ev_eigh t k : ev t k = fun m => fst (eigh (norb dr) (hamiltonian dr (u (after t)) k)) m - lev t + lev t.
  Proof. reflexivity. Qed.

  Lemma eig_path t k : (k < nk dr)%nat -> eigensystem N (fun i j => hamiltonian dr (u (after 0)) k i j + RtoC t * D1 k i j)%C (ev t k) (U (after t) k).
  Proof.
    intros Hk. apply (eigensystem_ext N (hamiltonian dr (u (after t)) k)); [intros; apply ham_path|].
    pose proof (Ceigh (hamiltonian dr (u (after t)) k) (hamiltonian_hermitian dr _ k Phys Hk)) as [HU HE]. split; [exact HU|].
    intros i m Hi Hm. eapply eq_trans; [exact (HE i m Hi Hm)|]. rewrite ev_eigh. fold N. cbv beta. f_equal. apply f_equal. ring.
  Qed.

  Lemma num_path t : rsum (nk dr) (fun k => rsum N (fun m => fT (ev t k m - lev t))) = n dr * INR (nk dr) / 2.
  Proof.
    pose proof nk_pos. rewrite <- (Cfermi (fun k => fst (eigh (norb dr) (hamiltonian dr (u (after t)) k))) (mu st)).
    match goal with |- ?a = 2 / ?b * ?c * ?b / 2 => transitivity c; [|field; lra] end.
    apply rsum_ext. intros k _. apply rsum_ext. intros m _. unfold fT, ev. f_equal. f_equal.
    replace (e (after t) k m + lev t - lev t) with (e (after t) k m) by ring. reflexivity.
  Qed.

  Lemma ev_minus t k m : ev t k m - lev t = e (after t) k m.
  Proof. unfold ev. ring. Qed.

  (** Conditions in terms of energies in place of x = e / kT *)
  Lemma div_sub x y : x / kT dr - y / kT dr = (x - y) / kT dr.
  Proof. pose proof kT_pos. field. lra. Qed.

  Lemma abs_div x : Rabs (x / kT dr) = Rabs x / kT dr.
  Proof. pose proof kT_pos. unfold Rdiv. rewrite Rabs_mult, Rabs_inv, (Rabs_right (kT dr)) by lra. reflexivity. Qed.

  Lemma range_div x : Rabs x < X * kT dr -> Rabs (x / kT dr) < X.
  Proof. pose proof kT_pos as K. intros H. rewrite abs_div. apply Rmult_lt_reg_r with (kT dr); [exact K|]. unfold Rdiv. rewrite Rmult_assoc, Rinv_l by lra. lra. Qed.

  Lemma range_mul x : Rabs (x / kT dr) < X -> Rabs x < X * kT dr.
  Proof. pose proof kT_pos as K. rewrite abs_div. intros H. apply (Rmult_lt_compat_r (kT dr)) in H; [|exact K]. unfold Rdiv in H. rewrite Rmult_assoc, Rinv_l in H by lra. lra. Qed.

  Lemma f_mono' x y : x <= y -> fT y <= fT x.
  Proof. intros H. apply (sm_decreasing X (f dr) Sm). apply Rmult_le_compat_r; [left; apply Rinv_0_lt_compat, kT_pos|exact H]. Qed.

  Lemma f_lip' : exists L, 0 <= L /\ forall x y, Rabs (fT x - fT y) <= L * Rabs (x - y).
  Proof.
    pose proof kT_pos as K. destruct (sm_lipschitz X (f dr) Sm) as (L & HL & H). exists (L / kT dr). split; [apply Rmult_le_pos; [exact HL|left; apply Rinv_0_lt_compat, K]|].
    intros x y. unfold fT. eapply Rle_trans; [apply H|]. rewrite div_sub, abs_div. unfold Rdiv. right. ring.
  Qed.

  Lemma derivable_div h x l : derivable_pt_lim h (x / kT dr) l -> derivable_pt_lim (fun x => h (x / kT dr)) x (l * / kT dr).
  Proof.
    intros H. apply (derivable_pt_lim_comp (fun x => x / kT dr) h); [|exact H].
    apply (derivable_ext (fun x => / kT dr * id x)); [intros; unfold id, Rdiv; ring|]. pose proof (derivable_pt_lim_scal id (/ kT dr) x 1 (derivable_pt_lim_id x)) as D0. rewrite Rmult_1_r in D0. exact D0.
  Qed.

  Lemma f_der' x : Rabs x < X * kT dr -> derivable_pt_lim fT x (gT x).
  Proof.
    intros H. pose proof kT_pos. replace (gT x) with (- delta (f dr) (x / kT dr) * / kT dr) by (unfold gT; field; lra).
    apply (derivable_div (occ (f dr))). apply (sm_slope X (f dr) Sm), range_div, H.
  Qed.

  Lemma phi_der' x : Rabs x < X * kT dr -> derivable_pt_lim phi x (fT x).
  Proof.
    intros H. pose proof kT_pos. unfold phi.
    replace (fT x) with ((gT x * x + fT x * 1) - kT dr * (x / kT dr * - delta (f dr) (x / kT dr) * / kT dr)) by (unfold gT, fT; field; lra).
    apply (derivable_pt_lim_minus (fun x => fT x * id x) (fun x => kT dr * entropy (f dr) (x / kT dr))).
    - apply (derivable_pt_lim_mult fT id); [apply f_der', H|apply derivable_pt_lim_id].
    - apply (derivable_pt_lim_scal (fun x => entropy (f dr) (x / kT dr))). apply (derivable_div (entropy (f dr))). apply (sm_entropy X (f dr) Sm), range_div, H.
  Qed.

  Lemma g_neg' x : Rabs x < X * kT dr -> gT x < 0.
  Proof.
    intros H. pose proof kT_pos. pose proof (sm_positive X (f dr) Sm _ (range_div x H)). unfold gT.
    replace (delta (f dr) (x / kT dr) / - kT dr) with (- (delta (f dr) (x / kT dr) / kT dr)) by (field; lra). apply Ropp_lt_gt_0_contravar, Rdiv_lt_0_compat; assumption.
  Qed.

  Lemma g_lip' : exists K, 0 <= K /\ forall x y, Rabs x < X * kT dr -> Rabs y < X * kT dr -> Rabs (gT x - gT y) <= K * Rabs (x - y).
  Proof.
    pose proof kT_pos as P. destruct (sm_delta X (f dr) Sm) as (K & HK & H). exists (K / kT dr / kT dr). split; [apply Rmult_le_pos; [apply Rmult_le_pos; [exact HK|]|]; left; apply Rinv_0_lt_compat, P|].
    intros x y Hx Hy. unfold gT. replace (delta (f dr) (x / kT dr) / - kT dr - delta (f dr) (y / kT dr) / - kT dr) with (- ((delta (f dr) (x / kT dr) - delta (f dr) (y / kT dr)) / kT dr)) by (field; lra).
    rewrite Rabs_Ropp, abs_div. apply Rle_trans with (K * Rabs (x / kT dr - y / kT dr) / kT dr).
    - apply Rmult_le_compat_r; [left; apply Rinv_0_lt_compat, P|]. apply H; apply range_div; assumption.
    - rewrite div_sub, abs_div. right. field. lra.
  Qed.

  Lemma range0 k m : (k < nk dr)%nat -> (m < N)%nat -> Rabs (ev 0 k m - lev 0) < X * kT dr.
  Proof. intros Hk Hm. rewrite ev_minus. apply range_mul, Hrange; assumption. Qed.

  Lemma D1_hermitian k : (k < nk dr)%nat -> hermitian N (D1 k).
  Proof. intros Hk. apply (hermitian_sum N (size dr) (fun x => d0 dr x k)). intros x Hx. apply (ph_d0 dr Phys x k Hx Hk). Qed.

  (** Lattice part *)
  Lemma u_path t x : u (after t) x = cu x + t * cv x.
  Proof. unfold after, free_energy, diagonalize, solve. cbn [snd u]. rewrite center_along. reflexivity. Qed.

  Lemma u_zero x : u (after 0) x = cu x.
  Proof. rewrite u_path. ring. Qed.

  Lemma form_path t : quadratic_form dr (u (after t)) = quadratic_form dr cu + t * (2 * dot (size dr) (fun x => rsum (size dr) (fun y => fst (C0 dr x y) * cu y)) cv) + t * t * quadratic_form dr cv.
  Proof.
    unfold quadratic_form, dot. rewrite (rsum_ext (size dr) _ (fun y => (rsum (size dr) (fun x => cu x * fst (C0 dr x y)) + t * rsum (size dr) (fun x => cv x * fst (C0 dr x y))) * (cu y + t * cv y))).
    2:{ intros y _. rewrite u_path, <- rsum_scal, <- rsum_plus. f_equal. apply rsum_ext. intros x _. rewrite u_path. ring. }
    assert (S : rsum (size dr) (fun y => rsum (size dr) (fun x => cu x * fst (C0 dr x y)) * cv y) = rsum (size dr) (fun x => rsum (size dr) (fun y => fst (C0 dr x y) * cu y) * cv x)).
    { apply rsum_ext. intros y Hy. f_equal. apply rsum_ext. intros x Hx. rewrite (ph_C0 dr Phys x y Hx Hy). ring. }
    assert (S' : rsum (size dr) (fun y => rsum (size dr) (fun x => cv x * fst (C0 dr x y)) * cu y) = rsum (size dr) (fun x => rsum (size dr) (fun y => fst (C0 dr x y) * cu y) * cv x)).
    { transitivity (rsum (size dr) (fun y => rsum (size dr) (fun x => cv x * fst (C0 dr x y) * cu y))); [apply rsum_ext; intros; symmetry; apply rsum_scal_r|].
      rewrite rsum_swap. apply rsum_ext. intros x _. rewrite <- rsum_scal_r. apply rsum_ext. intros y _. ring. }
    transitivity (rsum (size dr) (fun y => rsum (size dr) (fun x => cu x * fst (C0 dr x y)) * cu y) + t * (rsum (size dr) (fun y => rsum (size dr) (fun x => cu x * fst (C0 dr x y)) * cv y) + rsum (size dr) (fun y => rsum (size dr) (fun x => cv x * fst (C0 dr x y)) * cu y)) + t * t * rsum (size dr) (fun y => rsum (size dr) (fun x => cv x * fst (C0 dr x y)) * cv y)).
    - rewrite <- rsum_plus, <- !rsum_scal, <- !rsum_plus. apply rsum_ext. intros y _. ring.
    - rewrite S, S'. ring.
  Qed.

  Definition energy (t : R) : R := fst (free_energy eigh find_Fermi_level dr st (along u0 v t)).

  Lemma energy_path t : energy t = 2 / INR (nk dr) * free (nk dr) N ev lev (n dr * INR (nk dr) / 2) phi t
    + (0.5 * quadratic_form dr (u (after t)) + rsum (size dr) (fun x => F0 dr x * u (after t) x)).
  Proof.
    pose proof nk_pos. unfold energy, free_energy. cbv zeta. cbn [fst]. unfold total_energy, free, prefactor.
    assert (E : rsum (nk dr) (fun k => rsum N (fun n => phi (ev t k n - lev t))) =
      sum_kn dr (fun k n => occ (f dr) (e (after t) k n / kT dr) * e (after t) k n) - kT dr * sum_kn dr (fun k n => entropy (f dr) (e (after t) k n / kT dr))).
    { unfold sum_kn. rewrite <- rsum_scal, <- rsum_minus. apply rsum_ext. intros k _. rewrite <- rsum_scal, <- rsum_minus. apply rsum_ext. intros m _. rewrite ev_minus. reflexivity. }
    rewrite E. unfold lev. unfold after, free_energy. cbn [snd]. field. lra.
  Qed.

  Lemma jacobian_dot : dot (size dr) (jacobian dr (after 0)) cv =
    2 / INR (nk dr) * rsum (nk dr) (fun k => rsum N (fun m => fT (ev 0 k m - lev 0) * fst (ip N (col (U (after 0) k) m) (mv N (D1 k) (col (U (after 0) k) m)))))
    + dot (size dr) (fun x => rsum (size dr) (fun y => fst (C0 dr x y) * cu y)) cv + rsum (size dr) (fun x => F0 dr x * cv x).
  Proof.
    unfold dot, jacobian.
    transitivity (rsum (size dr) (fun x => fst (first_order dr (after 0) (d0 dr) x) * cv x) + rsum (size dr) (fun x => rsum (size dr) (fun y => fst (C0 dr x y) * cu y) * cv x) + rsum (size dr) (fun x => F0 dr x * cv x)).
    - rewrite <- !rsum_plus. apply rsum_ext. intros x _. rewrite (rsum_ext (size dr) (fun y => fst (C0 dr x y) * u (after 0) y) (fun y => fst (C0 dr x y) * cu y)); [ring|]. intros y _. rewrite u_zero. reflexivity.
    - f_equal. f_equal.
      transitivity (2 / INR (nk dr) * rsum (size dr) (fun x => sum_kn dr (fun k m => cv x * (fT (e (after 0) k m) * fst (braket_x dr (after 0) (d0 dr x k) k m m))))).
      + rewrite <- rsum_scal. apply rsum_ext. intros x _. rewrite first_order_fst, sum_kn_scal. unfold fT. ring.
      + f_equal. rewrite sum_kn_rsum. apply sum_kn_ext. intros k m _ _. unfold D1. rewrite (ip_mv_sum N (size dr) (fun x => d0 dr x k)), fst_csum, <- rsum_scal.
        apply rsum_ext. intros x _. rewrite fst_RtoC_mult, ev_minus. unfold braket_x. fold N. ring.
  Qed.

  Theorem gradient : derivable_pt_lim energy 0 (dot (size dr) (jacobian dr (after 0)) cv).
  Proof.
    destruct f_lip' as (L & HL & Lf). rewrite jacobian_dot.
    apply (derivable_ext (fun t => 2 / INR (nk dr) * free (nk dr) N ev lev (n dr * INR (nk dr) / 2) phi t +
      ((0.5 * quadratic_form dr cu + rsum (size dr) (fun x => F0 dr x * cu x)) + t * (dot (size dr) (fun x => rsum (size dr) (fun y => fst (C0 dr x y) * cu y)) cv + rsum (size dr) (fun x => F0 dr x * cv x)) + t * t * (0.5 * quadratic_form dr cv)))).
    - intros t. rewrite energy_path, form_path. f_equal. rewrite (rsum_ext (size dr) (fun x => F0 dr x * u (after t) x) (fun x => F0 dr x * cu x + t * (F0 dr x * cv x))).
      + rewrite rsum_plus, rsum_scal, half. field.
      + intros x _. rewrite u_path. ring.
    - rewrite Rplus_assoc. apply (derivable_pt_lim_plus (fun t => 2 / INR (nk dr) * free (nk dr) N ev lev (n dr * INR (nk dr) / 2) phi t)
        (fun t => (0.5 * quadratic_form dr cu + rsum (size dr) (fun x => F0 dr x * cu x)) + t * (dot (size dr) (fun x => rsum (size dr) (fun y => fst (C0 dr x y) * cu y)) cv + rsum (size dr) (fun x => F0 dr x * cv x)) + t * t * (0.5 * quadratic_form dr cv))).
      + apply (derivable_pt_lim_scal (free (nk dr) N ev lev (n dr * INR (nk dr) / 2) phi)).
        apply (free_derivable (nk dr) N (hamiltonian dr (u (after 0))) D1 ev (fun t => U (after t)) lev (X * kT dr) L (n dr * INR (nk dr) / 2) fT phi gT HL).
        * exact f_mono'.
        * exact Lf.
        * exact phi_der'.
        * exact f_der'.
        * exact g_neg'.
        * exact (ph_nk dr Phys).
        * exact (ph_norb dr Phys).
        * intros k Hk. apply (hamiltonian_hermitian dr _ k Phys Hk).
        * exact D1_hermitian.
        * intros t k Hk. apply eig_path, Hk.
        * exact num_path.
        * exact range0.
      + apply derivable_quadratic.
  Qed.

  (** ** Second derivatives *)
  Variables (eps : R) (x : nat).
  Hypothesis Hx : (x < size dr)%nat.
  Hypothesis Heps : 0 <= eps.
  Hypothesis Hsep : well_separated eps dr (after 0).

  Let Zx := fun k => d0 dr x k.
  Let B Z k m n := braket_x dr (after 0) Z k m n.

  Lemma dfde_dd k m m' : (k < nk dr)%nat -> (m < N)%nat -> (m' < N)%nat -> dfde dr (after 0) eps k m m' = dd fT gT (ev 0 k m - lev 0) (ev 0 k m' - lev 0).
  Proof.
    intros Hk Hm Hm'. rewrite !ev_minus. unfold dfde, dd. cbv zeta. destruct (Rlt_dec eps (Rabs (e (after 0) k m' - e (after 0) k m))) as [G|G].
    - destruct (Req_EM_T (e (after 0) k m) (e (after 0) k m')) as [E|NE].
      + rewrite E, Rminus_diag_eq, Rabs_R0 in G by reflexivity. lra.
      + unfold fT. field. lra.
    - assert (E : e (after 0) k m' = e (after 0) k m) by (apply Hsep; auto; lra). rewrite E. destruct (Req_EM_T (e (after 0) k m) (e (after 0) k m)); [reflexivity|contradiction].
  Qed.

  Lemma response_linear k : (k < nk dr)%nat -> response N ev (fun t => U (after t)) lev fT gT k (Zx k) (D1 k) =
    rsum (size dr) (fun y => fst (csum N (fun m => csum N (fun m' => conj (coupling dr (after 0) x k m m') * coupling dr (after 0) y k m m' * RtoC (dfde dr (after 0) eps k m m'))))%C * cv y).
  Proof.
    intros Hk. unfold response. cbv zeta.
    transitivity (fst (csum (size dr) (fun y => RtoC (cv y) * csum N (fun m => csum N (fun m' => conj (coupling dr (after 0) x k m m') * coupling dr (after 0) y k m m' * RtoC (dfde dr (after 0) eps k m m')))))%C).
    - f_equal. rewrite csum_swap.
      transitivity (csum N (fun m => csum N (fun m' => csum (size dr) (fun y => RtoC (cv y) * (conj (coupling dr (after 0) x k m m') * coupling dr (after 0) y k m m' * RtoC (dfde dr (after 0) eps k m m'))))))%C.
      + apply csum_ext. intros m Hm. apply csum_ext. intros m' Hm'. rewrite dfde_dd by assumption. unfold D1 at 1. rewrite (ip_mv_sum N (size dr) (fun y => d0 dr y k)), <- !csum_scal.
        apply csum_ext. intros y _. rewrite (coupling_conj dr (after 0) x k m m' (ph_d0 dr Phys x k Hx Hk)), !coupling_ip. unfold braket_x, Zx. fold N. ring.
      + rewrite (csum_ext N _ (fun m => csum (size dr) (fun y => csum N (fun m' => RtoC (cv y) * (conj (coupling dr (after 0) x k m m') * coupling dr (after 0) y k m m' * RtoC (dfde dr (after 0) eps k m m'))))))%C by (intros; apply csum_swap).
        rewrite csum_swap. apply csum_ext. intros y _. rewrite <- csum_scal. apply csum_ext. intros m _. apply csum_scal.
    - rewrite fst_csum. apply rsum_ext. intros y _. rewrite fst_RtoC_mult. ring.
  Qed.

  Lemma self_energy_dot : 2 / INR (nk dr) * rsum (nk dr) (fun k => response N ev (fun t => U (after t)) lev fT gT k (Zx k) (D1 k)) =
    dot (size dr) (fun y => fst (phonon_self_energy dr (after 0) (coupling dr (after 0)) eps x y)) cv.
  Proof.
    unfold dot, phonon_self_energy. rewrite (rsum_ext (nk dr) _ _ (fun k Hk => response_linear k Hk)), rsum_swap, <- rsum_scal. apply rsum_ext. intros y _.
    rewrite fst_RtoC_mult, fst_csum, Rmult_assoc. f_equal. apply rsum_scal_r.
  Qed.

  Definition gx (Z : nat -> nat -> nat -> C) : R := sum_gx (nk dr) N ev (fun t => U (after t)) lev gT Z.

  Lemma gx_linear : gx D1 = dot (size dr) (fun y => gx (fun k => d0 dr y k)) cv.
  Proof.
    unfold gx, sum_gx, dot. cbv zeta.
    transitivity (rsum (nk dr) (fun k => rsum N (fun m => rsum (size dr) (fun y => gT (ev 0 k m - lev 0) * fst (ip N (col (U (after 0) k) m) (mv N (d0 dr y k) (col (U (after 0) k) m))) * cv y)))).
    - apply rsum_ext. intros k _. apply rsum_ext. intros m _. unfold D1. rewrite (ip_mv_sum N (size dr) (fun x => d0 dr x k)), fst_csum, <- rsum_scal. apply rsum_ext. intros y _. rewrite fst_RtoC_mult. ring.
    - rewrite (rsum_ext (nk dr) _ (fun k => rsum (size dr) (fun y => rsum N (fun m => gT (ev 0 k m - lev 0) * fst (ip N (col (U (after 0) k) m) (mv N (d0 dr y k) (col (U (after 0) k) m))) * cv y)))) by (intros; apply rsum_swap).
      rewrite rsum_swap. apply rsum_ext. intros y _. rewrite <- rsum_scal_r. apply rsum_ext. intros k _. rewrite <- rsum_scal_r. reflexivity.
  Qed.

  Definition dos : R := sum_kn dr (fun k m => delta (f dr) (e (after 0) k m / kT dr) / kT dr).

  Lemma dos_sum_g : dos = - sum_g (nk dr) N ev lev gT.
  Proof.
    pose proof kT_pos. unfold dos, sum_kn, sum_g. cbv zeta. replace (- rsum (nk dr) (fun k => rsum N (fun m => gT (ev 0 k m - lev 0)))) with (-1 * rsum (nk dr) (fun k => rsum N (fun m => gT (ev 0 k m - lev 0)))) by ring.
    rewrite <- rsum_scal. apply rsum_ext. intros k _. rewrite <- rsum_scal. apply rsum_ext. intros m _. rewrite ev_minus. unfold gT. field. lra.
  Qed.

  Lemma dos_pos : 0 < dos.
  Proof.
    unfold dos, sum_kn. apply Rle_lt_trans with (rsum (nk dr) (fun _ => 0)); [rewrite rsum_zero; lra|]. apply rsum_lt; [exact (ph_nk dr Phys)|]. intros k Hk.
    apply Rle_lt_trans with (rsum (norb dr) (fun _ => 0)); [rewrite rsum_zero; lra|]. apply rsum_lt; [exact (ph_norb dr Phys)|]. intros m Hm.
    apply Rdiv_lt_0_compat; [apply (sm_positive X (f dr) Sm), Hrange; assumption|apply kT_pos].
  Qed.

  (** Averages are real numbers. *)
  Lemma avg_real y : (y < size dr)%nat -> csum (nk dr) (fun k => csum (norb dr) (fun m => RtoC (delta (f dr) (e (after 0) k m / kT dr) / kT dr) * coupling dr (after 0) y k m m)%C) = RtoC (- gx (fun k => d0 dr y k)).
  Proof.
    intros Hy. pose proof kT_pos. unfold gx, sum_gx. cbv zeta.
    replace (- rsum (nk dr) (fun k => rsum N (fun m => gT (ev 0 k m - lev 0) * fst (ip N (col (U (after 0) k) m) (mv N (d0 dr y k) (col (U (after 0) k) m))))))
      with (rsum (nk dr) (fun k => rsum N (fun m => -1 * (gT (ev 0 k m - lev 0) * fst (ip N (col (U (after 0) k) m) (mv N (d0 dr y k) (col (U (after 0) k) m))))))).
    2:{ rewrite (rsum_ext (nk dr) _ (fun k => -1 * rsum N (fun m => gT (ev 0 k m - lev 0) * fst (ip N (col (U (after 0) k) m) (mv N (d0 dr y k) (col (U (after 0) k) m)))))) by (intros; apply rsum_scal). rewrite rsum_scal. ring. }
    rewrite RtoC_rsum. apply csum_ext. intros k Hk. rewrite RtoC_rsum. apply csum_ext. intros m Hm. rewrite coupling_ip. unfold braket_x.
    pose proof (ip_self_real (norb dr) (d0 dr y k) (col (U (after 0) k) m) (ph_d0 dr Phys y k Hy Hk)) as S0. fold N in S0. fold N. rewrite ev_minus. unfold gT.
    destruct (ip N (col (U (after 0) k) m) (mv N (d0 dr y k) (col (U (after 0) k) m))) as [a b]. cbn [snd] in S0. subst b. unfold RtoC, Cmult. cbn [fst snd].
    f_equal; field; lra.
  Qed.

  Lemma shift_dot : 2 / INR (nk dr) * - (mu1 (nk dr) N D1 ev (fun t => U (after t)) lev gT * gx Zx) = dot (size dr) (fun y => fst (fermi_shift dr (after 0) (coupling dr (after 0)) x y)) cv.
  Proof.
    pose proof dos_pos as DP. pose proof nk_pos. unfold mu1. cbv zeta. fold (gx D1). rewrite gx_linear. pose proof dos_sum_g as DS. unfold dot.
    replace (sum_g (nk dr) N ev lev gT) with (- dos) by lra.
    transitivity (rsum (size dr) (fun y => 2 / INR (nk dr) * dos * (- gx Zx / dos * (- gx (fun k => d0 dr y k) / dos)) * cv y)).
    - transitivity (2 / INR (nk dr) * (gx Zx / dos) * rsum (size dr) (fun y => gx (fun k => d0 dr y k) * cv y)); [field; lra|].
      rewrite <- rsum_scal. apply rsum_ext. intros y _. field. lra.
    - apply rsum_ext. intros y Hy. f_equal. unfold fermi_shift. cbv zeta. fold (sum_kn dr (fun k m => delta (f dr) (e (after 0) k m / kT dr) / kT dr)). fold dos.
      rewrite !avg_real by assumption. rewrite fst_RtoC_mult. f_equal. unfold Cdiv. rewrite <- RtoC_inv by lra. rewrite <- !RtoC_mult'. reflexivity.
  Qed.

  Theorem second : derivable_pt_lim (fun t => jacobian dr (after t) x) 0 (dot (size dr) (hessian dr (after 0) eps x) cv).
  Proof.
    destruct f_lip' as (L & HL & Lf). destruct g_lip' as (K & HK & Lg).
    replace (dot (size dr) (hessian dr (after 0) eps x) cv) with
      (2 / INR (nk dr) * (rsum (nk dr) (fun k => response N ev (fun t => U (after t)) lev fT gT k (Zx k) (D1 k)) - mu1 (nk dr) N D1 ev (fun t => U (after t)) lev gT * gx Zx) + rsum (size dr) (fun y => fst (C0 dr x y) * cv y)).
    2:{ replace (2 / INR (nk dr) * (rsum (nk dr) (fun k => response N ev (fun t => U (after t)) lev fT gT k (Zx k) (D1 k)) - mu1 (nk dr) N D1 ev (fun t => U (after t)) lev gT * gx Zx)) with
          (2 / INR (nk dr) * rsum (nk dr) (fun k => response N ev (fun t => U (after t)) lev fT gT k (Zx k) (D1 k)) + 2 / INR (nk dr) * - (mu1 (nk dr) N D1 ev (fun t => U (after t)) lev gT * gx Zx)) by ring.
        rewrite self_energy_dot, shift_dot. unfold dot, hessian, force_constants. rewrite <- !rsum_plus. apply rsum_ext. intros y _. cbn [fst Cplus]. ring. }
    apply (derivable_ext (fun t => 2 / INR (nk dr) * expect (nk dr) N ev (fun t => U (after t)) lev fT t Zx + ((rsum (size dr) (fun y => fst (C0 dr x y) * cu y) + F0 dr x) + t * rsum (size dr) (fun y => fst (C0 dr x y) * cv y) + t * t * 0))).
    - intros t. unfold jacobian. rewrite first_order_fst.
      rewrite (rsum_ext (size dr) (fun y => fst (C0 dr x y) * u (after t) y) (fun y => fst (C0 dr x y) * cu y + t * (fst (C0 dr x y) * cv y))); [|intros y _; rewrite u_path; ring].
      rewrite rsum_plus, rsum_scal. unfold expect. cbv zeta. rewrite (rsum_ext (nk dr) _ (fun k => rsum (norb dr) (fun m => occ (f dr) (e (after t) k m / kT dr) * fst (braket_x dr (after t) (d0 dr x k) k m m)))).
      + unfold sum_kn. ring.
      + intros k _. apply rsum_ext. intros m _. rewrite ev_minus. reflexivity.
    - apply (derivable_pt_lim_plus (fun t => 2 / INR (nk dr) * expect (nk dr) N ev (fun t => U (after t)) lev fT t Zx)
        (fun t => (rsum (size dr) (fun y => fst (C0 dr x y) * cu y) + F0 dr x) + t * rsum (size dr) (fun y => fst (C0 dr x y) * cv y) + t * t * 0)); [|apply derivable_quadratic].
      apply (derivable_pt_lim_scal (fun t => expect (nk dr) N ev (fun t => U (after t)) lev fT t Zx)).
      apply (expect_derivable (nk dr) N (hamiltonian dr (u (after 0))) D1 ev (fun t => U (after t)) lev (X * kT dr) L K (n dr * INR (nk dr) / 2) fT gT HL HK).
      + exact f_mono'.
      + exact Lf.
      + exact f_der'.
      + exact g_neg'.
      + exact Lg.
      + exact (ph_nk dr Phys).
      + exact (ph_norb dr Phys).
      + intros k Hk. apply (hamiltonian_hermitian dr _ k Phys Hk).
      + exact D1_hermitian.
      + intros t k Hk. apply eig_path, Hk.
      + exact num_path.
      + exact range0.
  Qed.
End Gradient.
