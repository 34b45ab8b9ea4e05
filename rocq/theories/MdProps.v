(** Properties C65-C67, C70, C83: the driver of molecular dynamics. *)
From Coq Require Import Reals Lra Lia List Arith Permutation.
From Verif Require Import Cx CxProofs HermSpec HermProofs MdModel MdSpec MdProofs MdProofs2 MdProofs3 MdExample.
Import ListNotations.
Local Open Scope R_scope.

Local Ltac mods := change (0 mod 3)%nat with 0%nat; change (1 mod 3)%nat with 1%nat; change (2 mod 3)%nat with 2%nat;
  change (3 mod 3)%nat with 0%nat; change (4 mod 3)%nat with 1%nat; change (5 mod 3)%nat with 2%nat.

(** ** C65: centre of mass *)

(** The sum over atoms vanishes for all directions. *)
Theorem C65_centred nat_ u : (0 < nat_)%nat -> centred nat_ (center_mass nat_ u).
Proof. apply center_centred. Qed.
Print Assumptions C65_centred.

(** Distances between atoms a and b do not change. *)
Theorem C65_relative nat_ u a b c : (c < 3)%nat ->
  center_mass nat_ u (3 * a + c) - center_mass nat_ u (3 * b + c) = u (3 * a + c)%nat - u (3 * b + c)%nat.
Proof.
  intros H. unfold center_mass. assert (M : forall a, ((3 * a + c) mod 3 = c)%nat) by (intros i; rewrite Nat.add_comm, Nat.mul_comm, Nat.mod_add by lia; apply Nat.mod_small, H).
  rewrite !M. ring.
Qed.
Print Assumptions C65_relative.

(** These two determine the result. *)
Theorem C65_unique nat_ u w : (0 < nat_)%nat -> centred nat_ w ->
  (forall a b c, (a < nat_)%nat -> (b < nat_)%nat -> (c < 3)%nat -> w (3 * a + c)%nat - w (3 * b + c)%nat = u (3 * a + c)%nat - u (3 * b + c)%nat) ->
  forall a c, (a < nat_)%nat -> (c < 3)%nat -> w (3 * a + c)%nat = center_mass nat_ u (3 * a + c).
Proof.
  intros Hn Hw Hr a c Ha Hc. pose proof (lt_0_INR nat_ Hn) as P.
  assert (E : rsum nat_ (fun b => w (3 * a + c)%nat - w (3 * b + c)%nat) = rsum nat_ (fun b => u (3 * a + c)%nat - u (3 * b + c)%nat)) by (apply rsum_ext; intros b Hb; apply Hr; assumption).
  rewrite !rsum_minus, !rsum_const, (Hw c Hc) in E. unfold center_mass, average. rewrite Nat.add_comm, Nat.mul_comm, Nat.mod_add, Nat.mod_small by lia. rewrite Nat.mul_comm, Nat.add_comm.
  apply Rmult_eq_reg_l with (INR nat_); [|lra]. rewrite Rminus_0_r in E. rewrite E. field. lra.
Qed.
Print Assumptions C65_unique.

Theorem C65_idempotent nat_ u x : (0 < nat_)%nat -> center_mass nat_ (center_mass nat_ u) x = center_mass nat_ u x.
Proof. apply center_idem. Qed.
Print Assumptions C65_idempotent.

Example C65_example : center_mass 2 (fun x => if Nat.eqb x 0 then 1 else 0) 0 = 1 / 2 /\ center_mass 2 (fun x => if Nat.eqb x 0 then 1 else 0) 3 = - (1 / 2).
Proof. unfold center_mass, average. mods. cbn. split; lra. Qed.

(** ** C66: forces and force constants *)

(** For every displacement and every direction (also if it moves the centre of mass),
    the derivative of the free energy is the product of what [jacobian] returns after
    the call of [free_energy] and the direction without motion of the centre of mass.
    Degenerate energies are allowed. *)
Theorem C66_gradient eigh fermi dr st X u v :
  physical dr -> smooth X (f dr) -> eigh_contract (norb dr) eigh -> fermi_contract fermi dr ->
  in_range X dr (snd (free_energy eigh fermi dr st (along u v 0))) ->
  derivable_pt_lim (fun t => fst (free_energy eigh fermi dr st (along u v t))) 0
    (dot (size dr) (jacobian dr (snd (free_energy eigh fermi dr st (along u v 0)))) (center_mass (nat_ dr) v)).
Proof. intros P S E F R. exact (gradient eigh fermi dr st X P S E F u v R). Qed.
Print Assumptions C66_gradient.

(** Directions that keep the centre of mass *)
Corollary C66_gradient_centred eigh fermi dr st X u v :
  physical dr -> smooth X (f dr) -> eigh_contract (norb dr) eigh -> fermi_contract fermi dr ->
  in_range X dr (snd (free_energy eigh fermi dr st (along u v 0))) -> centred (nat_ dr) v ->
  derivable_pt_lim (fun t => fst (free_energy eigh fermi dr st (along u v t))) 0
    (dot (size dr) (jacobian dr (snd (free_energy eigh fermi dr st (along u v 0)))) v).
Proof.
  intros P S E F R Cv. pose proof (C66_gradient eigh fermi dr st X u v P S E F R) as G.
  replace (dot (size dr) (jacobian dr (snd (free_energy eigh fermi dr st (along u v 0)))) v) with
    (dot (size dr) (jacobian dr (snd (free_energy eigh fermi dr st (along u v 0)))) (center_mass (nat_ dr) v)); [exact G|].
  unfold dot. apply rsum_ext. intros x _. rewrite centred_fixed by exact Cv. reflexivity.
Qed.
Print Assumptions C66_gradient_centred.

(** Given the acoustic sum rule, the components of [jacobian] are the partial
    derivatives of the free energy. *)
Theorem C66_components eigh fermi dr st X u x :
  physical dr -> smooth X (f dr) -> eigh_contract (norb dr) eigh -> fermi_contract fermi dr -> acoustic dr ->
  in_range X dr (snd (free_energy eigh fermi dr st (along u (unit_vector x) 0))) -> (x < size dr)%nat ->
  derivable_pt_lim (fun t => fst (free_energy eigh fermi dr st (along u (unit_vector x) t))) 0
    (jacobian dr (snd (free_energy eigh fermi dr st (along u (unit_vector x) 0))) x).
Proof.
  intros P S E F A R Hx. pose proof (C66_gradient eigh fermi dr st X u (unit_vector x) P S E F R) as G. unfold size in *.
  rewrite dot_center in G by (intros c Hc; apply net_force; assumption). rewrite dot_unit in G by exact Hx. exact G.
Qed.
Print Assumptions C66_components.

(** The change of forces along any direction: [hessian]. Energies are either
    degenerate or differ by more than the threshold. *)
Theorem C66_hessian eigh fermi dr st X u v eps x :
  physical dr -> smooth X (f dr) -> eigh_contract (norb dr) eigh -> fermi_contract fermi dr ->
  in_range X dr (snd (free_energy eigh fermi dr st (along u v 0))) ->
  0 <= eps -> well_separated eps dr (snd (free_energy eigh fermi dr st (along u v 0))) ->
  centred (nat_ dr) v -> (x < size dr)%nat ->
  derivable_pt_lim (fun t => jacobian dr (snd (free_energy eigh fermi dr st (along u v t))) x) 0
    (dot (size dr) (hessian dr (snd (free_energy eigh fermi dr st (along u v 0))) eps x) v).
Proof.
  intros P S E F R He W Cv Hx. pose proof (second eigh fermi dr st X P S E F u v R eps x Hx He W) as G.
  replace (dot (size dr) (hessian dr (snd (free_energy eigh fermi dr st (along u v 0))) eps x) v) with
    (dot (size dr) (hessian dr (after eigh fermi dr st u v 0) eps x) (center_mass (nat_ dr) v)); [exact G|].
  unfold dot. apply rsum_ext. intros y _. rewrite centred_fixed by exact Cv. reflexivity.
Qed.
Print Assumptions C66_hessian.

(** These smearing functions are allowed; Fermi-Dirac as long as nothing is clipped. *)
Theorem C66_smearings :
  smooth 709 (mk_smearing OccModel.fermi_dirac OccModel.fermi_dirac_delta OccModel.fermi_dirac_entropy) /\
  forall X, smooth X (mk_smearing OccModel.gauss OccModel.gauss_delta OccModel.gauss_entropy).
Proof. split; [exact fermi_dirac_smooth|exact gauss_smooth]. Qed.
Print Assumptions C66_smearings.

(** The variants for sparse matrices yield the same. *)
Theorem C66_sparse dr st mu eps x y :
  (forall x a b, (x < s_size dr)%nat -> (a < s_norb dr)%nat -> (b < s_norb dr)%nat -> s_d0 dr x a b = s_d0 dr x b a) ->
  0 < s_kT dr -> 0 < rsum (s_norb dr) (fun m => delta (s_f dr) (s_e st m / s_kT dr)) -> 0 <= eps ->
  (x < s_size dr)%nat -> (y < s_size dr)%nat ->
  (forall u k a b, hamiltonian (embed dr) u k a b = RtoC (sparse_hamiltonian dr u a b)) /\
  sparse_jacobian dr st x = jacobian (embed dr) (embed_state st mu) x /\
  sparse_hessian dr st eps x y = hessian (embed dr) (embed_state st mu) eps x y.
Proof.
  intros Sym K D He Hx Hy. split; [intros; apply embed_hamiltonian|]. split; symmetry; [apply embed_jacobian; assumption|apply embed_hessian; assumption].
Qed.
Print Assumptions C66_sparse.

(** A case where all conditions are met: two atoms with opposite coupling to one
    orbital, and force constants that violate the acoustic sum rule. *)
Definition ex_C0 (x y : nat) : C := if Nat.eqb x y then RtoC (if Nat.ltb x 3 then 1 else 2) else RtoC 0.
Definition ex_d0 (x k a b : nat) : C := RtoC (if Nat.eqb x 0 then 1 else if Nat.eqb x 3 then -1 else 0).
Definition ex_dr : driver := mk_driver 2 1 1 1 fermi_dirac_smearing 1 (fun _ _ _ => RtoC 0) ex_d0 ex_C0 (fun _ => 0).
Definition ex_eigh (N : nat) (A : nat -> nat -> C) : (nat -> R) * (nat -> nat -> C) := (fun _ => fst (A 0%nat 0%nat), HermSpec.delta).
Definition ex_fermi (n : R) (s : nat * nat) (e : nat -> nat -> R) (kT : R) (f : smearing) (mu : option R) : R := e 0%nat 0%nat.
Definition ex_st : state := mk_state (fun _ => 0) None (fun _ _ => 0) (fun _ _ _ => RtoC 0).
Definition ex_v (x : nat) : R := if Nat.eqb x 0 then 1 else if Nat.eqb x 3 then -1 else 0.

Lemma ex_physical : physical ex_dr.
Proof.
  constructor; try (cbn; lia); try (cbn; lra).
  - intros k _ i j _ _. cbn. rewrite conj_R. reflexivity.
  - intros x k _ _ i j _ _. cbn. unfold ex_d0. rewrite conj_R. reflexivity.
  - intros x y _ _. cbn. unfold ex_C0. rewrite (Nat.eqb_sym y x). destruct (Nat.eqb_spec x y); [subst; reflexivity|reflexivity].
Qed.

Lemma ex_eigh_ok : eigh_contract 1 ex_eigh.
Proof.
  intros A HA. assert (Re : snd (A 0%nat 0%nat) = 0).
  { pose proof (HA 0%nat 0%nat ltac:(lia) ltac:(lia)) as E. destruct (A 0%nat 0%nat) as [a b]. unfold conj in E. cbn in *. injection E. lra. }
  split; [split|].
  - intros m n Hm Hn. assert (m = 0)%nat by lia. assert (n = 0)%nat by lia. subst. cbn. unfold HermSpec.delta, conj. cbn. unfold RtoC, Cplus, Cmult. cbn. f_equal; ring.
  - intros m n Hm Hn. assert (m = 0)%nat by lia. assert (n = 0)%nat by lia. subst. cbn. unfold HermSpec.delta, conj. cbn. unfold RtoC, Cplus, Cmult. cbn. f_equal; ring.
  - intros i n Hi Hn. assert (i = 0)%nat by lia. assert (n = 0)%nat by lia. subst. cbn [csum ex_eigh fst snd]. destruct (A 0%nat 0%nat) as [a b]. cbn in Re. subst b.
    unfold HermSpec.delta. cbn. unfold RtoC, Cplus, Cmult. cbn. f_equal; ring.
Qed.

Lemma ex_fermi_ok : fermi_contract ex_fermi ex_dr.
Proof.
  intros e mu0. cbn [nk norb n kT f ex_dr fermi_dirac_smearing occ rsum]. unfold ex_fermi.
  replace ((e 0%nat 0%nat - e 0%nat 0%nat) / 1) with 0 by field. unfold OccModel.fermi_dirac. rewrite Rmin_left by (unfold OccModel.xmax; lra). rewrite exp_0. cbn. lra.
Qed.

Lemma ex_range u : in_range 709 ex_dr (snd (free_energy ex_eigh ex_fermi ex_dr ex_st u)).
Proof.
  intros k m Hk Hm. cbn in Hk, Hm. assert (k = 0)%nat by lia. assert (m = 0)%nat by lia. subst. cbn [kT ex_dr]. unfold free_energy, diagonalize, solve. cbn [snd e]. unfold ex_fermi, ex_eigh. cbn [fst].
  rewrite Rminus_diag_eq by reflexivity. unfold Rdiv. rewrite Rmult_0_l, Rabs_R0. lra.
Qed.

Example C66_example : physical ex_dr /\ smooth 709 (f ex_dr) /\ eigh_contract (norb ex_dr) ex_eigh /\ fermi_contract ex_fermi ex_dr /\
  (forall u, in_range 709 ex_dr (snd (free_energy ex_eigh ex_fermi ex_dr ex_st u))) /\
  (forall u eps, well_separated eps ex_dr (snd (free_energy ex_eigh ex_fermi ex_dr ex_st u))) /\
  centred (nat_ ex_dr) ex_v /\ ex_v 0 = 1 /\
  jacobian ex_dr (snd (free_energy ex_eigh ex_fermi ex_dr ex_st (fun _ => 0))) 0 = 1.
Proof.
  split; [exact ex_physical|]. split; [exact fermi_dirac_smooth|]. split; [exact ex_eigh_ok|]. split; [exact ex_fermi_ok|]. split; [exact ex_range|].
  split; [|split; [|split; [reflexivity|]]].
  - intros u eps k m m' _ Hm Hm' _. cbn in Hm, Hm'. assert (m = 0)%nat by lia. assert (m' = 0)%nat by lia. subst. reflexivity.
  - intros c Hc. cbn [nat_ ex_dr rsum]. unfold ex_v. destruct c as [|[|[|c]]]; [..|lia]; cbn; ring.
  - unfold jacobian. replace (fst (first_order ex_dr (snd (free_energy ex_eigh ex_fermi ex_dr ex_st (fun _ => 0))) (d0 ex_dr) 0)) with 1.
    + rewrite (rsum_ext (size ex_dr) _ (fun _ => 0)); [rewrite rsum_zero; cbn; ring|]. intros y _. unfold free_energy, diagonalize, solve. cbn [snd u]. rewrite center_zero. ring.
    + unfold first_order, free_energy, diagonalize, solve, ex_fermi, ex_eigh. cbn [snd e U fst nk norb ex_dr csum kT f occ fermi_dirac_smearing d0].
      rewrite Rminus_diag_eq by reflexivity. unfold OccModel.fermi_dirac. rewrite Rmin_left by (unfold OccModel.xmax; lra).
      replace (0 / 1) with 0 by field. rewrite exp_0. unfold HermSpec.delta, ex_d0, conj, RtoC, Cplus, Cmult. cbn. field.
Qed.

(** Another one with two orbitals, where the acoustic sum rule holds *)
Example C66_example2 : physical dr2 /\ smooth 1000 (f dr2) /\ eigh_contract (norb dr2) eigh2 /\ fermi_contract fermi2 dr2 /\ acoustic dr2 /\
  in_range 1000 dr2 (snd (free_energy eigh2 fermi2 dr2 ex_st (fun _ => 0))) /\ well_separated 1 dr2 (snd (free_energy eigh2 fermi2 dr2 ex_st (fun _ => 0))) /\
  e (snd (free_energy eigh2 fermi2 dr2 ex_st (fun _ => 0))) 0 1 = sqrt 2.
Proof.
  split; [exact dr2_physical|]. split; [apply gauss_smooth|]. split; [exact eigh2_ok|]. split; [exact fermi2_ok|]. split; [exact dr2_acoustic|].
  pose proof dr2_energies as E. cbv zeta in E. destruct E as [E0 E1]. fold ex_st in E0, E1. assert (S : 1 < sqrt 2 < 2) by (split; [rewrite <- sqrt_1 at 1; apply sqrt_lt_1; lra|apply Rsqr_incrst_0; unfold Rsqr; rewrite ?sqrt_sqrt; try lra; apply sqrt_pos]).
  split; [|split; [|exact E1]].
  - intros k m Hk Hm. cbn in Hk, Hm. replace k with 0%nat by lia. assert (m = 0 \/ m = 1)%nat by lia. destruct H as [-> | ->]; rewrite ?E0, ?E1; cbn [kT dr2]; apply Rabs_def1; lra.
  - intros k m m' Hk Hm Hm'. cbn in Hk, Hm, Hm'. replace k with 0%nat by lia. assert (m = 0 \/ m = 1)%nat by lia. assert (m' = 0 \/ m' = 1)%nat by lia.
    destruct H as [-> | ->], H0 as [-> | ->]; try reflexivity; rewrite E0, E1; intros H; revert H; unfold Rabs; destruct Rcase_abs; lra.
Qed.

(** Without the acoustic sum rule, components of [jacobian] are not the partial
    derivatives: the net force has not been removed, although a rigid displacement
    does not change the energy. *)
Theorem C66_components_refuted :
  ~ (forall eigh fermi dr st X u x, physical dr -> smooth X (f dr) -> eigh_contract (norb dr) eigh -> fermi_contract fermi dr ->
     in_range X dr (snd (free_energy eigh fermi dr st (along u (unit_vector x) 0))) -> (x < size dr)%nat ->
     derivable_pt_lim (fun t => fst (free_energy eigh fermi dr st (along u (unit_vector x) t))) 0
       (jacobian dr (snd (free_energy eigh fermi dr st (along u (unit_vector x) 0))) x)).
Proof.
  intros H. pose proof (H ex_eigh ex_fermi ex_dr ex_st 709 (unit_vector 1) 1%nat ex_physical fermi_dirac_smooth ex_eigh_ok ex_fermi_ok (ex_range _) ltac:(cbn; lia)) as D1.
  pose proof (C66_gradient ex_eigh ex_fermi ex_dr ex_st 709 (unit_vector 1) (unit_vector 1) ex_physical fermi_dirac_smooth ex_eigh_ok ex_fermi_ok (ex_range _)) as D2.
  pose proof (uniqueness_limite _ _ _ _ D1 D2) as E. clear D1 D2.
  set (s := snd (free_energy ex_eigh ex_fermi ex_dr ex_st (along (unit_vector 1) (unit_vector 1) 0))) in E.
  assert (Ju : forall x, u s x = along (center_mass 2 (unit_vector 1)) (center_mass 2 (unit_vector 1)) 0 x) by (intros x; apply center_along).
  assert (c1 : u s 1%nat = 1 / 2) by (rewrite Ju; unfold along, center_mass, average, unit_vector; mods; cbn; lra).
  assert (c4 : u s 4%nat = - (1 / 2)) by (rewrite Ju; unfold along, center_mass, average, unit_vector; mods; cbn; lra).
  assert (F1 : forall x, x = 1%nat \/ x = 4%nat -> fst (first_order ex_dr s (d0 ex_dr) x) = 0).
  { intros x Hx. rewrite first_order_fst. unfold sum_kn. cbn [nk norb ex_dr rsum]. unfold braket_x, ip, mv, ex_dr. cbn [norb csum d0].
    replace (ex_d0 x 0 0 0) with (RtoC 0) by (destruct Hx as [-> | ->]; reflexivity). unfold RtoC, Cmult, Cplus. cbn. ring. }
  assert (J1 : jacobian ex_dr s 1 = 1 / 2).
  { unfold jacobian. rewrite F1 by (left; reflexivity). cbn [size nat_ ex_dr Nat.mul Nat.add rsum C0 F0]. generalize dependent (u s). intros g _ c1 c4. unfold ex_C0. cbn. change (1 <? 3)%nat with true; change (4 <? 3)%nat with false; cbn. rewrite c1. lra. }
  assert (J4 : jacobian ex_dr s 4 = - 1).
  { unfold jacobian. rewrite F1 by (right; reflexivity). cbn [size nat_ ex_dr Nat.mul Nat.add rsum C0 F0]. generalize dependent (u s). intros g _ c1 c4. unfold ex_C0. cbn. change (1 <? 3)%nat with true; change (4 <? 3)%nat with false; cbn. rewrite c4. lra. }
  rewrite J1 in E. unfold dot in E. cbn [size nat_ ex_dr Nat.mul Nat.add rsum] in E. rewrite J1, J4 in E.
  revert E. unfold center_mass, average, unit_vector. mods. cbn. lra.
Qed.
Print Assumptions C66_components_refuted.

(** ** C67: the argument of free_energy *)

(** The array that is passed gets the centred values, all other arrays keep theirs;
    result and state are those for the given displacements. *)
Theorem C67_argument eigh fermi dr hs a :
  let r := heap_free_energy eigh fermi dr hs (Some a) in
  hp (snd r) a = center_mass (nat_ dr) (hp hs a) /\ (forall b, b <> a -> hp (snd r) b = hp hs b) /\
  fst r = fst (free_energy eigh fermi dr (view hs) (hp hs a)) /\ view (snd r) = snd (free_energy eigh fermi dr (view hs) (hp hs a)).
Proof. cbv zeta. destruct (heap_free_energy_arg eigh fermi dr hs a) as (H1 & H2 & _ & H3). auto. Qed.
Print Assumptions C67_argument.

(** It is left alone if and only if it is centred. *)
Theorem C67_unchanged_iff eigh fermi dr hs a : (0 < nat_ dr)%nat ->
  (forall x, (x < size dr)%nat -> hp (snd (heap_free_energy eigh fermi dr hs (Some a))) a x = hp hs a x) <-> centred (nat_ dr) (hp hs a).
Proof.
  intros Hn. rewrite (proj1 (heap_free_energy_arg eigh fermi dr hs a)). split.
  - intros H c Hc. rewrite <- (center_centred (nat_ dr) (hp hs a) Hn c Hc). apply rsum_ext. intros i Hi. symmetry. apply H. unfold size. lia.
  - intros H x _. apply centred_fixed, H.
Qed.
Print Assumptions C67_unchanged_iff.

Theorem C67_unchanged_refuted :
  ~ (forall eigh fermi dr hs a x, physical dr -> (x < size dr)%nat -> hp (snd (heap_free_energy eigh fermi dr hs (Some a))) a x = hp hs a x).
Proof.
  intros H. set (hs := mk_heap_state (fun _ => unit_vector 1) 0 None (fun _ _ => 0) (fun _ _ _ => RtoC 0)).
  pose proof (proj1 (C67_unchanged_iff ex_eigh ex_fermi ex_dr hs 1 ltac:(cbn; lia)) (fun x Hx => H ex_eigh ex_fermi ex_dr hs 1%nat x ex_physical Hx) 1%nat ltac:(lia)) as E.
  cbn in E. unfold unit_vector in E. cbn in E. lra.
Qed.
Print Assumptions C67_unchanged_refuted.

(** Without argument, the driver's own array is used. *)
Theorem C67_own eigh fermi dr hs : heap_free_energy eigh fermi dr hs None = heap_free_energy eigh fermi dr hs (Some (h_u hs)).
Proof. unfold heap_free_energy, heap_center_mass, view. destruct hs. reflexivity. Qed.
Print Assumptions C67_own.

(** ** C70: electron density *)
Theorem C70_density eigh fermi dr st u : physical dr -> eigh_contract (norb dr) eigh -> fermi_contract fermi dr ->
  rsum (norb dr) (density dr (snd (free_energy eigh fermi dr st u))) = n dr.
Proof.
  intros P E F. rewrite density_sum.
  - etransitivity; [|apply (F (fun k => fst (eigh (norb dr) (hamiltonian dr (center_mass (nat_ dr) u) k))) (mu st))]. reflexivity.
  - intros k Hk. apply (E _ (hamiltonian_hermitian dr (center_mass (nat_ dr) u) k P Hk)).
Qed.
Print Assumptions C70_density.

(** Each atom gets the density of its orbitals, in each of nc primitive cells. *)
Theorem C70_per_atom nc norb basis rho : (0 < nc)%nat -> (0 < length basis)%nat -> (0 < norb)%nat ->
  (forall l no, In l basis -> In no l -> (no < norb)%nat) ->
  exists r, density_per_atom (nc * length basis) (nc * norb) basis rho = Some r /\
    forall a c, (a < length basis)%nat -> (c < nc)%nat ->
      r (a + c * length basis)%nat = fold_right (fun no s => rho (no + c * norb)%nat + s) 0 (nth a basis []).
Proof. intros H1 H2 H3 H. apply (density_per_atom_ok nc (length basis) norb H1 H2 H3 rho basis eq_refl H). Qed.
Print Assumptions C70_per_atom.

(** If each orbital belongs to one atom, nothing gets lost. *)
Theorem C70_per_atom_sum nc norb basis rho r : (0 < nc)%nat -> (0 < length basis)%nat -> (0 < norb)%nat ->
  Permutation (concat basis) (seq 0 norb) -> density_per_atom (nc * length basis) (nc * norb) basis rho = Some r ->
  rsum (nc * length basis) r = rsum (nc * norb) rho.
Proof. intros H1 H2 H3 H. apply (per_atom_sum nc (length basis) norb H1 H2 H3 rho basis r eq_refl H). Qed.
Print Assumptions C70_per_atom_sum.

Example C70_example : Permutation (concat [[1%nat]; [0%nat; 2%nat]]) (seq 0 3) /\
  option_map (fun r => map r (seq 0 4)) (density_per_atom 4 6 [[1%nat]; [0%nat; 2%nat]] INR) = Some [1; 0 + 0 + 2; 4; 0 + 3 + 5].
Proof.
  split; [apply perm_swap|]. unfold density_per_atom. change (6 * length [[1%nat]; [0%nat; 2%nat]] / 4)%nat with 3%nat. unfold add_atoms, add_orbitals, add_orbital. cbv [strided length Nat.add Nat.sub Nat.mul Nat.eqb map seq Nat.div Nat.divmod fst combine find option_map]. repeat (f_equal; []). cbn [INR]. repeat (apply f_equal2; [ring|]). reflexivity.
Qed.

(** ** C83: initialization
    Whatever has been done with the driver since ([s] is any state), if the atoms are
    moved back to their original positions (up to a rigid displacement), the forces
    vanish, and, with [unscreen], the force constants are those of the given model. *)
Theorem C83_forces eigh fermi dr X unscreen eps s w x :
  physical dr -> smooth X (f dr) -> fermi_contract fermi dr ->
  let (dr', st) := initialize eigh fermi dr unscreen eps in
  in_range X dr st -> (forall y, center_mass (nat_ dr) w y = 0) ->
  jacobian dr' (snd (free_energy eigh fermi dr' s w)) x = 0.
Proof.
  intros P S F. destruct (initialize eigh fermi dr unscreen eps) as [dr' st] eqn:E. intros R Hw.
  pose proof (init_force eigh fermi dr X eps unscreen P S F s w Hw) as I. unfold dr1, st1, later in I. unfold dr1 in I. rewrite E in I. cbn [fst snd] in I. apply I, R.
Qed.
Print Assumptions C83_forces.

Theorem C83_force_constants eigh fermi dr X eps s w x y :
  physical dr -> smooth X (f dr) -> fermi_contract fermi dr ->
  let (dr', st) := initialize eigh fermi dr true eps in
  in_range X dr st -> (forall y, center_mass (nat_ dr) w y = 0) ->
  hessian dr' (snd (free_energy eigh fermi dr' s w)) eps x y = fst (C0 dr x y).
Proof.
  intros P S F. destruct (initialize eigh fermi dr true eps) as [dr' st] eqn:E. intros R Hw. unfold hessian. f_equal.
  pose proof (init_hessian eigh fermi dr X eps true P S F s w Hw) as I. unfold dr1, st1, later in I. unfold dr1 in I. rewrite E in I. cbn [fst snd] in I. apply I; [exact R|reflexivity].
Qed.
Print Assumptions C83_force_constants.

(** Without [unscreen], the screened force constants are added to those of the model. *)
Theorem C83_not_unscreened eigh fermi dr eps x y :
  C0 (fst (initialize eigh fermi dr false eps)) x y = C0 dr x y.
Proof. reflexivity. Qed.
Print Assumptions C83_not_unscreened.

Example C83_example : in_range 709 ex_dr (snd (initialize ex_eigh ex_fermi ex_dr true 0)) /\
  F0 (fst (initialize ex_eigh ex_fermi ex_dr true 0)) 0 = -1 /\ (forall y, center_mass 2 (fun _ => 7) y = 0).
Proof.
  split; [|split].
  - exact (ex_range (fun _ => 0)).
  - change (F0 (fst (initialize ex_eigh ex_fermi ex_dr true 0)) 0) with (F0 (dr1 ex_eigh ex_fermi ex_dr 0 true) 0). rewrite F0_dr1, first_order_fst. unfold sum_kn. cbn [nk norb ex_dr rsum].
    unfold braket_x, ip, mv, st1, initialize, diagonalize, solve, ex_eigh, ex_fermi, ex_d0. cbn. unfold OccModel.fermi_dirac. rewrite Rmin_left by (unfold OccModel.xmax; lra).
    match goal with |- context [exp ?a] => replace a with 0 by (unfold hamiltonian; field) end. rewrite exp_0. unfold HermSpec.delta. cbn. field.
  - intros y. unfold center_mass, average. cbn. lra.
Qed.
