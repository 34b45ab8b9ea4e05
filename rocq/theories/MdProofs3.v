(** Initialization, densities, aliasing. *)
From Coq Require Import Reals Lra Lia List Arith Permutation FunctionalExtensionality.
From Verif Require Import Cx CxProofs HermSpec HermProofs HermPath MdModel MdSpec MdProofs MdProofs2.
Import ListNotations.
Local Open Scope R_scope.

(** ** The chemical potential is unique *)
Section Unique.
  Variables (dr : driver) (X : R).
  Hypothesis Phys : physical dr.
  Hypothesis Sm : smooth X (f dr).

  Lemma mu_unique (ev : nat -> nat -> R) m0 m : (forall k i, (k < nk dr)%nat -> (i < norb dr)%nat -> Rabs ((ev k i - m0) / kT dr) < X) ->
    sum_kn dr (fun k i => occ (f dr) ((ev k i - m) / kT dr)) = sum_kn dr (fun k i => occ (f dr) ((ev k i - m0) / kT dr)) -> m = m0.
  Proof.
    intros Hr E. pose proof (ph_kT dr Phys) as K.
    set (G := fun m => sum_kn dr (fun k i => occ (f dr) ((ev k i - m) / kT dr))).
    set (c := sum_kn dr (fun k i => delta (f dr) ((ev k i - m0) / kT dr) / kT dr)).
    assert (Mono : forall x y, x <= y -> G x <= G y).
    { intros x y H. unfold G, sum_kn. apply rsum_le. intros k _. apply rsum_le. intros i _. apply (sm_decreasing X (f dr) Sm). apply Rmult_le_compat_r; [left; apply Rinv_0_lt_compat, K|lra]. }
    assert (Der : derivable_pt_lim G m0 c).
    { unfold G, c, sum_kn. apply (rsum_derivable (nk dr) (fun k m => rsum (norb dr) (fun i => occ (f dr) ((ev k i - m) / kT dr)))). intros k Hk.
      apply (rsum_derivable (norb dr) (fun i m => occ (f dr) ((ev k i - m) / kT dr))). intros i Hi.
      replace (delta (f dr) ((ev k i - m0) / kT dr) / kT dr) with (- delta (f dr) ((ev k i - m0) / kT dr) * (- / kT dr)) by (field; lra).
      apply (derivable_pt_lim_comp (fun m => (ev k i - m) / kT dr) (occ (f dr))); [|apply (sm_slope X (f dr) Sm), Hr; assumption].
      apply (derivable_ext (fun m => ev k i / kT dr + (- / kT dr) * id m)); [intros; unfold id; field; lra|].
      pose proof (derivable_pt_lim_scal id (- / kT dr) m0 1 (derivable_pt_lim_id m0)) as D0. rewrite Rmult_1_r in D0.
      pose proof (derivable_pt_lim_plus (fun _ => ev k i / kT dr) (fun m => - / kT dr * id m) m0 0 (- / kT dr) (derivable_pt_lim_const _ _) D0) as D1. rewrite Rplus_0_l in D1. exact D1. }
    assert (Pos : 0 < c).
    { unfold c, sum_kn. apply Rle_lt_trans with (rsum (nk dr) (fun _ => 0)); [rewrite rsum_zero; lra|]. apply rsum_lt; [exact (ph_nk dr Phys)|]. intros k Hk.
      apply Rle_lt_trans with (rsum (norb dr) (fun _ => 0)); [rewrite rsum_zero; lra|]. apply rsum_lt; [exact (ph_norb dr Phys)|]. intros i Hi.
      apply Rdiv_lt_0_compat; [apply (sm_positive X (f dr) Sm), Hr; assumption|exact K]. }
    destruct (inverse_lipschitz G m0 c Mono Der Pos) as (eta & He & B). specialize (B m). change (G m = G m0) in E.
    rewrite E, Rminus_diag_eq, Rabs_R0, Rmult_0_r in B by reflexivity. specialize (B He). pose proof (Rabs_pos (m - m0)). assert (Z : Rabs (m - m0) = 0) by lra.
    destruct (Req_dec (m - m0) 0) as [Q|Q]; [lra|]. pose proof (Rabs_no_R0 _ Q). contradiction.
  Qed.
End Unique.

(** ** Initialization *)
Section Init.
  Variable eigh : nat -> (nat -> nat -> C) -> (nat -> R) * (nat -> nat -> C).
  Variable find_Fermi_level : R -> nat * nat -> (nat -> nat -> R) -> R -> smearing -> option R -> R.
  Variables (dr : driver) (X eps : R) (unscreen : bool).
  Hypothesis Phys : physical dr.
  Hypothesis Sm : smooth X (f dr).

  Definition dr1 : driver := fst (initialize eigh find_Fermi_level dr unscreen eps).
  Definition st1 : state := snd (initialize eigh find_Fermi_level dr unscreen eps).

  Lemma dr1_eq : dr1 = mk_driver (nat_ dr) (norb dr) (nk dr) (kT dr) (f dr) (n dr) (H0 dr) (d0 dr) (C0 dr1) (F0 dr1).
  Proof. unfold dr1, initialize. destruct unscreen; reflexivity. Qed.

  Lemma center_zero N x : center_mass N (fun _ => 0) x = 0.
  Proof. unfold center_mass, average. rewrite rsum_zero. unfold Rdiv. ring. Qed.

  Lemma jacobian_C0 d s x : (forall y, u s y = 0) -> jacobian d s x = fst (first_order d s (d0 d) x) + F0 d x.
  Proof. intros Z. unfold jacobian. rewrite (rsum_ext (size d) _ (fun _ => 0)); [rewrite rsum_zero; ring|]. intros y _. rewrite Z. ring. Qed.

  Lemma first_order_dr1 s x : first_order dr1 s (d0 dr1) x = first_order dr s (d0 dr) x.
  Proof. rewrite dr1_eq. reflexivity. Qed.

  Lemma F0_dr1 x : F0 dr1 x = - fst (first_order dr st1 (d0 dr) x).
  Proof.
    assert (Z : forall y, u st1 y = 0) by (intros y; apply center_zero).
    unfold dr1, st1, initialize in *. destruct unscreen; cbn [fst snd set_F0 F0] in *; rewrite jacobian_C0 by exact Z; cbn [F0 set_F0]; rewrite Rplus_0_r; reflexivity.
  Qed.

  Lemma force_constants_dr1 s x y : force_constants dr1 s eps x y = (force_constants dr s eps x y - C0 dr x y + C0 dr1 x y)%C.
  Proof.
    unfold force_constants. rewrite dr1_eq at 1 2 3 4. unfold phonon_self_energy, fermi_shift, dfde, coupling. cbn [nk norb kT f d0]. ring.
  Qed.

  Lemma C0_dr1 x y : unscreen = true -> C0 dr1 x y = (C0 dr x y - (force_constants dr st1 eps x y - C0 dr x y))%C.
  Proof. intros E. unfold dr1, st1, initialize. rewrite E. reflexivity. Qed.

  (** Only energies and eigenvectors matter. *)
  Lemma force_constants_state s s' x y : (forall k m, (k < nk dr)%nat -> (m < norb dr)%nat -> e s k m = e s' k m) ->
    (forall k a m, (k < nk dr)%nat -> (a < norb dr)%nat -> (m < norb dr)%nat -> U s k a m = U s' k a m) ->
    force_constants dr s eps x y = force_constants dr s' eps x y.
  Proof.
    intros He HU. assert (Hc : forall z k m m', (k < nk dr)%nat -> (m < norb dr)%nat -> (m' < norb dr)%nat -> coupling dr s z k m m' = coupling dr s' z k m m').
    { intros z k m m' Hk Hm Hm'. unfold coupling. apply csum_ext. intros b Hb. rewrite (HU k b m' Hk Hb Hm'). f_equal. apply csum_ext. intros a Ha. rewrite (HU k a m Hk Ha Hm). reflexivity. }
    unfold force_constants. f_equal. f_equal.
    - unfold phonon_self_energy. f_equal. apply csum_ext. intros k Hk. apply csum_ext. intros m Hm. apply csum_ext. intros m' Hm'. rewrite !Hc by assumption. unfold dfde. cbv zeta. rewrite !He by assumption. reflexivity.
    - unfold fermi_shift. cbv zeta.
      assert (D : rsum (nk dr) (fun k => rsum (norb dr) (fun n => delta (f dr) (e s k n / kT dr) / kT dr)) = rsum (nk dr) (fun k => rsum (norb dr) (fun n => delta (f dr) (e s' k n / kT dr) / kT dr))).
      { apply rsum_ext. intros k Hk. apply rsum_ext. intros m Hm. rewrite He by assumption. reflexivity. }
      assert (A : forall z, csum (nk dr) (fun k => csum (norb dr) (fun n => RtoC (delta (f dr) (e s k n / kT dr) / kT dr) * coupling dr s z k n n))%C =
        csum (nk dr) (fun k => csum (norb dr) (fun n => RtoC (delta (f dr) (e s' k n / kT dr) / kT dr) * coupling dr s' z k n n))%C).
      { intros z. apply csum_ext. intros k Hk. apply csum_ext. intros m Hm. rewrite Hc, He by assumption. reflexivity. }
      rewrite D, !A. reflexivity.
  Qed.

  Lemma first_order_state s s' x : (forall k m, (k < nk dr)%nat -> (m < norb dr)%nat -> e s k m = e s' k m) ->
    (forall k a m, (k < nk dr)%nat -> (a < norb dr)%nat -> (m < norb dr)%nat -> U s k a m = U s' k a m) ->
    first_order dr s (d0 dr) x = first_order dr s' (d0 dr) x.
  Proof.
    intros He HU. unfold first_order. cbv zeta. f_equal. apply csum_ext. intros k Hk. apply csum_ext. intros a Ha. apply csum_ext. intros b Hb. f_equal. apply csum_ext. intros m Hm.
    rewrite He, !HU by assumption. reflexivity.
  Qed.

  (** The same undisplaced structure later on, whatever happened in between *)
  Hypothesis Cfermi : fermi_contract find_Fermi_level dr.
  Variables (s : state) (w : nat -> R).
  Hypothesis Hw : forall x, center_mass (nat_ dr) w x = 0.
  Hypothesis Hrange : in_range X dr st1.
  Definition FL ev mu := find_Fermi_level (n dr) (nk dr, norb dr) ev (kT dr) (f dr) mu.
  Definition later : state := snd (free_energy eigh find_Fermi_level dr1 s w).

  Lemma later_u x : u later x = 0.
  Proof. unfold later, free_energy, diagonalize, solve. cbn [snd u]. rewrite dr1_eq. apply Hw. Qed.

  Definition ev0 k := fst (eigh (norb dr) (hamiltonian dr (center_mass (nat_ dr) (fun _ => 0)) k)).

  Lemma eigh_later k : eigh (norb dr1) (hamiltonian dr1 (center_mass (nat_ dr1) w) k) = eigh (norb dr) (hamiltonian dr (center_mass (nat_ dr) (fun _ => 0)) k).
  Proof.
    rewrite dr1_eq. cbn [norb nat_]. f_equal. extensionality i. extensionality j. unfold hamiltonian, size. cbn [H0 d0 nat_]. f_equal. apply csum_ext. intros x _. rewrite Hw, center_zero. reflexivity.
  Qed.

  Lemma e_later k m : e later k m = ev0 k m - FL (fun k => fst (eigh (norb dr1) (hamiltonian dr1 (center_mass (nat_ dr1) w) k))) (mu s).
  Proof. unfold later, free_energy, diagonalize, solve. cbn [snd e u mu]. rewrite eigh_later. unfold ev0, FL. f_equal. rewrite dr1_eq. reflexivity. Qed.

  Lemma e_st1 k m : e st1 k m = ev0 k m - FL ev0 None.
  Proof. reflexivity. Qed.

  Lemma mu_later : FL (fun k => fst (eigh (norb dr1) (hamiltonian dr1 (center_mass (nat_ dr1) w) k))) (mu s) = FL ev0 None.
  Proof.
    set (ev := fun k => fst (eigh (norb dr1) (hamiltonian dr1 (center_mass (nat_ dr1) w) k))).
    assert (Eev : forall k m, ev k m = ev0 k m) by (intros; unfold ev; rewrite eigh_later; reflexivity).
    apply (mu_unique dr X Phys Sm ev0).
    - intros k i Hk Hi. rewrite <- e_st1. apply Hrange; assumption.
    - pose proof (Cfermi ev (mu s)) as E1. pose proof (Cfermi ev0 None) as E2. pose proof (nk_pos dr Phys) as NP. pose proof (eq_trans E2 (eq_sym E1)) as E3. clear E1 E2. apply Rmult_eq_reg_l in E3; [|apply Rgt_not_eq, Rdiv_lt_0_compat; lra].
      unfold sum_kn. eapply eq_trans; [|symmetry; exact E3]. apply rsum_ext. intros k _. apply rsum_ext. intros i _. rewrite Eev. reflexivity.
  Qed.

  Lemma e_same k m : (k < nk dr)%nat -> (m < norb dr)%nat -> e later k m = e st1 k m.
  Proof. intros _ _. rewrite e_later, e_st1, mu_later. reflexivity. Qed.

  Lemma U_same k a m : (k < nk dr)%nat -> (a < norb dr)%nat -> (m < norb dr)%nat -> U later k a m = U st1 k a m.
  Proof. intros _ _ _. unfold later, st1, initialize, free_energy, diagonalize, solve. cbn [snd U u]. rewrite eigh_later. reflexivity. Qed.

  Theorem init_force x : jacobian dr1 later x = 0.
  Proof.
    rewrite jacobian_C0 by exact later_u. rewrite first_order_dr1, F0_dr1, (first_order_state later st1 x e_same U_same). ring.
  Qed.

  Theorem init_hessian x y : unscreen = true -> force_constants dr1 later eps x y = C0 dr x y.
  Proof.
    intros E. rewrite force_constants_dr1, (C0_dr1 x y E), (force_constants_state later st1 x y e_same U_same). ring.
  Qed.
End Init.

(** ** Density *)
Lemma density_sum dr st : (forall k, (k < nk dr)%nat -> unitary (norb dr) (U st k)) ->
  rsum (norb dr) (density dr st) = 2 / INR (nk dr) * sum_kn dr (fun k m => occ (f dr) (e st k m / kT dr)).
Proof.
  intros HU. unfold density. rewrite rsum_scal. rewrite (rsum_ext (norb dr) _ (fun a => rsum (norb dr) (fun m => rsum (nk dr) (fun k => abs2 (U st k a m) * occ (f dr) (e st k m / kT dr))) * / INR (nk dr))).
  2:{ intros a _. rewrite <- rsum_scal_r. reflexivity. }
  rewrite rsum_scal_r. replace (2 / INR (nk dr) * sum_kn dr (fun k m => occ (f dr) (e st k m / kT dr))) with (2 * (sum_kn dr (fun k m => occ (f dr) (e st k m / kT dr)) * / INR (nk dr))) by (unfold Rdiv; ring).
  f_equal. f_equal. rewrite (rsum_ext (norb dr) _ (fun a => rsum (nk dr) (fun k => rsum (norb dr) (fun m => abs2 (U st k a m) * occ (f dr) (e st k m / kT dr))))) by (intros; apply rsum_swap).
  rewrite rsum_swap. unfold sum_kn. apply rsum_ext. intros k Hk. rewrite rsum_swap. apply rsum_ext. intros m Hm. rewrite rsum_scal_r. replace (rsum (norb dr) (fun a => abs2 (U st k a m))) with 1; [ring|].
  apply RtoC_inj'. rewrite RtoC_rsum. rewrite (csum_ext (norb dr) _ (fun i => conj (U st k i m) * U st k i m)%C) by (intros; apply abs2_conj).
  rewrite (proj1 (HU k Hk) m m Hm Hm). unfold HermSpec.delta. rewrite Nat.eqb_refl. reflexivity.
Qed.

Section PerAtom.
  Variables (nc nat_ norb_ : nat).
  Hypothesis Hnc : (0 < nc)%nat.
  Hypothesis Hnat : (0 < nat_)%nat.
  Hypothesis Hnorb : (0 < norb_)%nat.
  Variable rho : nat -> R.

  Lemma strided_full step o : (o < step)%nat -> strided step o (nc * step) = map (fun i => (o + i * step)%nat) (seq 0 nc).
  Proof.
    intros H. unfold strided. do 2 f_equal. symmetry. apply (Nat.div_unique _ _ _ (step - 1 - o)); [lia|]. nia.
  Qed.

  Lemma find_strided na no l c : (na < nat_)%nat -> find (fun p => Nat.eqb (fst p) (na + c * nat_)%nat) (combine (map (fun i => (na + i * nat_)%nat) l) (map (fun i => (no + i * norb_)%nat) l)) =
    (if in_dec Nat.eq_dec c l then Some ((na + c * nat_)%nat, (no + c * norb_)%nat) else None).
  Proof.
    intros H. induction l as [|i l IH]; [reflexivity|]. cbn [map combine find fst]. destruct (Nat.eqb_spec (na + i * nat_) (na + c * nat_)) as [E|NE].
    - assert (i = c) by nia. subst i. destruct (in_dec Nat.eq_dec c (c :: l)) as [_|No]; [reflexivity|exfalso; apply No; left; reflexivity].
    - rewrite IH. destruct (in_dec Nat.eq_dec c l) as [I|I], (in_dec Nat.eq_dec c (i :: l)) as [J|J]; try reflexivity.
      + exfalso. apply J. right. exact I.
      + exfalso. destruct J as [->|J]; [apply NE; reflexivity|contradiction].
  Qed.

  Lemma find_other na no l a c : (na < nat_)%nat -> (a < nat_)%nat -> a <> na -> find (fun p => Nat.eqb (fst p) (a + c * nat_)%nat) (combine (map (fun i => (na + i * nat_)%nat) l) (map (fun i => (no + i * norb_)%nat) l)) = None.
  Proof.
    intros H Ha N. induction l as [|i l IH]; [reflexivity|]. cbn [map combine find fst]. destruct (Nat.eqb_spec (na + i * nat_) (a + c * nat_)) as [E|NE]; [|exact IH].
    exfalso. apply N. assert (Q : ((na + i * nat_) mod nat_ = (a + c * nat_) mod nat_)%nat) by (rewrite E; reflexivity). rewrite !Nat.mod_add, !Nat.mod_small in Q by lia. symmetry. exact Q.
  Qed.

  Lemma add_orbital_ok na no rho_at : (na < nat_)%nat -> (no < norb_)%nat ->
    exists r, add_orbital (nc * nat_) (nc * norb_) nat_ norb_ na no rho rho_at = Some r /\
      forall a c, (a < nat_)%nat -> (c < nc)%nat -> r (a + c * nat_)%nat = rho_at (a + c * nat_)%nat + (if Nat.eqb a na then rho (no + c * norb_)%nat else 0).
  Proof.
    intros Hna Hno. unfold add_orbital. rewrite !strided_full by assumption. cbv zeta. rewrite !map_length, Nat.eqb_refl. eexists. split; [reflexivity|].
    intros a c Ha Hc. cbv beta. destruct (Nat.eqb_spec a na) as [->|N].
    - rewrite find_strided by assumption. destruct (in_dec Nat.eq_dec c (seq 0 nc)) as [_|J]; [reflexivity|]. exfalso. apply J, in_seq. lia.
    - rewrite find_other by assumption. ring.
  Qed.

  Definition lsum (l : list nat) (g : nat -> R) : R := fold_right (fun x s => g x + s) 0 l.

  Lemma add_orbitals_ok na orbitals : forall rho_at, (na < nat_)%nat -> (forall no, In no orbitals -> (no < norb_)%nat) ->
    exists r, add_orbitals (nc * nat_) (nc * norb_) nat_ norb_ na orbitals rho rho_at = Some r /\
      forall a c, (a < nat_)%nat -> (c < nc)%nat -> r (a + c * nat_)%nat = rho_at (a + c * nat_)%nat + (if Nat.eqb a na then lsum orbitals (fun no => rho (no + c * norb_)%nat) else 0).
  Proof.
    induction orbitals as [|no rest IH]; intros rho_at Hna Hin; cbn [add_orbitals].
    - exists rho_at. split; [reflexivity|]. intros a c _ _. cbn. destruct (Nat.eqb a na); ring.
    - destruct (add_orbital_ok na no rho_at Hna (Hin no (or_introl eq_refl))) as (r & -> & Hr). destruct (IH r Hna) as (r' & -> & Hr'); [intros; apply Hin; right; assumption|].
      exists r'. split; [reflexivity|]. intros a c Ha Hc. rewrite Hr', Hr by assumption. cbn [lsum fold_right]. fold (lsum rest (fun no => rho (no + c * norb_)%nat)). destruct (Nat.eqb a na); ring.
  Qed.

  Lemma add_atoms_ok basis : forall na rho_at, (na + length basis = nat_)%nat -> (forall l no, In l basis -> In no l -> (no < norb_)%nat) ->
    exists r, add_atoms (nc * nat_) (nc * norb_) nat_ norb_ na basis rho rho_at = Some r /\
      forall a c, (a < nat_)%nat -> (c < nc)%nat -> r (a + c * nat_)%nat = rho_at (a + c * nat_)%nat + (if Nat.leb na a then lsum (nth (a - na) basis []) (fun no => rho (no + c * norb_)%nat) else 0).
  Proof.
    induction basis as [|orb rest IH]; intros na rho_at Hlen Hin; cbn [add_atoms].
    - exists rho_at. split; [reflexivity|]. intros a c Ha _. cbn in Hlen. destruct (Nat.leb_spec na a); [lia|ring].
    - cbn [length] in Hlen. destruct (add_orbitals_ok na orb rho_at) as (r & -> & Hr); [lia|intros no Hno; apply (Hin orb no); [left; reflexivity|exact Hno]|].
      destruct (IH (S na) r) as (r' & -> & Hr'); [lia|intros l no Hl; apply Hin; right; exact Hl|]. exists r'. split; [reflexivity|]. intros a c Ha Hc. rewrite Hr', Hr by assumption.
      destruct (Nat.eqb_spec a na) as [->|N].
      + rewrite Nat.leb_refl, Nat.sub_diag. destruct (Nat.leb_spec (S na) na); [lia|]. cbn [nth]. ring.
      + destruct (Nat.leb_spec na a), (Nat.leb_spec (S na) a); try lia; [|ring]. replace (a - na)%nat with (S (a - S na)) by lia. cbn [nth]. ring.
  Qed.

  Lemma density_per_atom_ok basis : length basis = nat_ -> (forall l no, In l basis -> In no l -> (no < norb_)%nat) ->
    exists r, density_per_atom (nc * nat_) (nc * norb_) basis rho = Some r /\
      forall a c, (a < nat_)%nat -> (c < nc)%nat -> r (a + c * nat_)%nat = lsum (nth a basis []) (fun no => rho (no + c * norb_)%nat).
  Proof.
    intros Hlen Hin. unfold density_per_atom. rewrite Hlen. replace (nc * norb_ * nat_ / (nc * nat_))%nat with norb_.
    2:{ apply (Nat.div_unique _ _ _ 0); nia. }
    destruct (add_atoms_ok basis 0 (fun _ => 0)) as (r & -> & Hr); [lia|exact Hin|]. exists r. split; [reflexivity|]. intros a c Ha Hc. rewrite Hr by assumption. cbn [Nat.leb]. rewrite Nat.sub_0_r. ring.
  Qed.

  (** Sums over cells and atoms *)
  Lemma rsum_add m k g : rsum (k + m) g = rsum k g + rsum m (fun i => g (i + k)%nat).
  Proof. induction m as [|m IH]; [rewrite Nat.add_0_r; cbn [rsum]; ring|]. rewrite Nat.add_succ_r. cbn [rsum]. rewrite IH, (Nat.add_comm m k). ring. Qed.

  Lemma rsum_blocks m k g : rsum (k * m) g = rsum k (fun c => rsum m (fun i => g (i + c * m)%nat)).
  Proof. induction k as [|k IH]; [reflexivity|]. cbn [rsum]. rewrite <- IH. replace (S k * m)%nat with (k * m + m)%nat by lia. apply rsum_add. Qed.

  Lemma lsum_app l l' g : lsum (l ++ l') g = lsum l g + lsum l' g.
  Proof. unfold lsum. induction l as [|x l IH]; cbn [app fold_right]; [ring|]. rewrite IH. ring. Qed.

  Lemma lsum_perm l l' g : Permutation l l' -> lsum l g = lsum l' g.
  Proof. unfold lsum. induction 1; cbn [fold_right]; lra. Qed.

  Lemma lsum_seq m g : lsum (seq 0 m) g = rsum m g.
  Proof. induction m as [|m IH]; [reflexivity|]. rewrite seq_S, lsum_app, IH. cbn. ring. Qed.

  Lemma rsum_nth basis g : rsum (length basis) (fun a => lsum (nth a basis []) g) = lsum (concat basis) g.
  Proof.
    induction basis as [|x l IH] using rev_ind; [reflexivity|]. rewrite app_length, Nat.add_1_r, concat_app, lsum_app. cbn [rsum concat]. rewrite app_nil_r.
    rewrite app_nth2, Nat.sub_diag by lia. cbn [nth]. f_equal. rewrite <- IH. apply rsum_ext. intros a Ha. rewrite app_nth1 by exact Ha. reflexivity.
  Qed.

  Lemma per_atom_sum basis r : length basis = nat_ -> Permutation (concat basis) (seq 0 norb_) -> density_per_atom (nc * nat_) (nc * norb_) basis rho = Some r ->
    rsum (nc * nat_) r = rsum (nc * norb_) rho.
  Proof.
    intros Hlen HP E. destruct (density_per_atom_ok basis Hlen) as (r' & E' & Hr).
    { intros l no Hl Hno. assert (I : In no (seq 0 norb_)) by (apply (Permutation_in _ HP), in_concat; exists l; auto). apply in_seq in I. lia. }
    rewrite E in E'. injection E' as <-. rewrite (rsum_blocks nat_), (rsum_blocks norb_). apply rsum_ext. intros c Hc.
    rewrite (rsum_ext nat_ _ (fun a => lsum (nth a basis []) (fun no => rho (no + c * norb_)%nat))) by (intros; apply Hr; assumption).
    rewrite <- Hlen, rsum_nth, (lsum_perm _ _ _ HP), lsum_seq. reflexivity.
  Qed.
End PerAtom.

(** ** Aliasing *)
Lemma heap_free_energy_arg eigh fl dr hs a :
  let r := heap_free_energy eigh fl dr hs (Some a) in
  hp (snd r) a = center_mass (nat_ dr) (hp hs a) /\ (forall b, b <> a -> hp (snd r) b = hp hs b) /\
  h_u (snd r) = a /\
  fst r = fst (free_energy eigh fl dr (view hs) (hp hs a)) /\ view (snd r) = snd (free_energy eigh fl dr (view hs) (hp hs a)).
Proof.
  cbv zeta. unfold heap_free_energy, heap_center_mass, view, write. cbn [hp h_u h_mu h_e h_U u mu snd fst]. rewrite Nat.eqb_refl. repeat split.
  intros b Hb. destruct (Nat.eqb_spec a b); [congruence|reflexivity].
Qed.
