(** Ranges, symmetries and limits of the smearing functions; names. *)
From Coq Require Import Reals Lra Lia Psatz String.
From Coquelicot Require Import Coquelicot.
From Verif Require Import Common OccModel OccSpec GaussProofs OccProofs OccFermi OccMats.
Local Open Scope R_scope.

Lemma fd_occupation : occupation fermi_dirac.
Proof.
  split; intros x.
  - rewrite fd_Rmin. pose proof (FDf_bound (Rmin x xmax)). lra.
  - intros y H. rewrite !fd_Rmin. apply FDf_nonincreasing. unfold Rmin. destruct (Rle_dec x xmax), (Rle_dec y xmax); lra.
Qed.

Lemma fd_strict x y : x < y <= xmax -> fermi_dirac y < fermi_dirac x.
Proof. intros H. rewrite !fd_in by lra. apply FDf_decreasing. lra. Qed.

Lemma fd_symmetric x : Rabs x <= xmax -> fermi_dirac (- x) = 1 - fermi_dirac x.
Proof.
  intros H. assert (- xmax <= x <= xmax) by (unfold Rabs in H; destruct (Rcase_abs x); lra). rewrite !fd_in by lra. apply FDf_opp.
Qed.

Lemma FDf_exp x : FDf x <= exp (- x).
Proof.
  unfold FDf. pose proof (exp_pos x). pose proof (exp_inv x). pose proof (exp_pos (- x)). apply Rle_div_l; [lra|]. nra.
Qed.

Lemma fd_symmetric_outside x : xmax < Rabs x -> Rabs (fermi_dirac (- x) + fermi_dirac x - 1) <= exp (- xmax).
Proof.
  intros H.
  assert (G : forall y, xmax < y -> Rabs (fermi_dirac (- y) + fermi_dirac y - 1) <= exp (- xmax)).
  { intros y Hy. rewrite (fd_in (- y)) by (unfold xmax in *; lra). rewrite (fd_Rmin y), Rmin_right by lra. rewrite FDf_opp.
    pose proof (FDf_exp xmax). pose proof (FDf_decreasing xmax y Hy). pose proof (FDf_bound y). apply Rabs_le. lra. }
  unfold Rabs in H. destruct (Rcase_abs x) as [n|n]; [|apply G, H].
  specialize (G (- x) H). rewrite Ropp_involutive in G. rewrite (Rplus_comm (fermi_dirac (- x))). exact G.
Qed.

Lemma fd_tails x : (fermi_dirac x <= exp (- Rmin x xmax)) /\ (x <= 0 -> 1 - fermi_dirac x <= exp x).
Proof.
  split; [rewrite fd_Rmin; apply FDf_exp|]. intros H. rewrite fd_in by (unfold xmax; lra).
  pose proof (FDf_exp (- x)) as E. rewrite FDf_opp, Ropp_involutive in E. exact E.
Qed.

Lemma decreasing_of (f d : R -> R) x y : (forall x, is_derive f x (- d x)) -> (forall x, 0 < d x) -> x <= y -> f y <= f x.
Proof.
  intros D P H. assert (- f x <= - f y); [|lra]. apply (incr_le (fun x => - f x) d); [|exact H|intros; left; apply P].
  intros z. eapply is_derive_eq; [apply @is_derive_opp, D|unfold opp; cbn; ring].
Qed.

Lemma gauss_occupation : occupation gauss.
Proof.
  split; [intros x; pose proof (gauss_bound x); lra|]. intros x y. apply (decreasing_of gauss gauss_delta); [exact gauss_derive|exact gauss_delta_pos].
Qed.

Lemma lorentz_occupation : occupation lorentz.
Proof.
  split; [intros x; pose proof (lorentz_bound x); lra|]. intros x y. apply (decreasing_of lorentz lorentz_delta); [exact lorentz_derive|exact lorentz_delta_pos].
Qed.

Lemma heaviside_cases x : (x < 0 -> heaviside x = 1) /\ (x = 0 -> heaviside x = 1 / 2) /\ (0 < x -> heaviside x = 0).
Proof. unfold heaviside, sgn. destruct (Rlt_dec x 0), (Rlt_dec 0 x); repeat split; intros; lra. Qed.

Lemma heaviside_occupation : occupation heaviside.
Proof.
  split; [intros x|intros x y H]; unfold heaviside, sgn.
  - destruct (Rlt_dec x 0), (Rlt_dec 0 x); lra.
  - destruct (Rlt_dec x 0), (Rlt_dec 0 x), (Rlt_dec y 0), (Rlt_dec 0 y); lra.
Qed.

Lemma heaviside_symmetric : symmetric heaviside.
Proof. intros x. unfold heaviside, sgn. destruct (Rlt_dec x 0), (Rlt_dec 0 x), (Rlt_dec (- x) 0), (Rlt_dec 0 (- x)); lra. Qed.

Lemma heaviside_step : step heaviside.
Proof.
  apply step_of; [exact heaviside_symmetric|]. intros c Hc. exists 1. intros x Hx. destruct (heaviside_cases x) as (_ & _ & E).
  rewrite E by lra. rewrite Rabs_R0. exact Hc.
Qed.

Lemma dfd_occupation d : occupation (double_fermi_dirac d).
Proof.
  destruct fd_occupation as [B M]. unfold double_fermi_dirac. split.
  - intros x. pose proof (B (x - d)). pose proof (B (x + d)). lra.
  - intros x y H. pose proof (M (x - d) (y - d) ltac:(lra)). pose proof (M (x + d) (y + d) ltac:(lra)). lra.
Qed.

Lemma dfd_symmetric d x : Rabs (x - d) <= xmax -> Rabs (x + d) <= xmax -> double_fermi_dirac d (- x) = 1 - double_fermi_dirac d x.
Proof.
  intros H1 H2. unfold double_fermi_dirac. replace (- x - d) with (- (x + d)) by ring. replace (- x + d) with (- (x - d)) by ring.
  rewrite !fd_symmetric by assumption. field.
Qed.

(** Two Fermi levels: still between zero and one, but not monotone. *)
Lemma tfd_range d x : 0 <= two_fermi_dirac d x <= 1.
Proof. unfold two_fermi_dirac. apply fd_occupation. Qed.

Lemma mv_positive x : 0 < marzari_vanderbilt x.
Proof.
  unfold marzari_vanderbilt. cbn zeta. pose proof (erf_bound (x + 1 / sqrt 2)). pose proof (exp_pos (- (x + 1 / sqrt 2) * (x + 1 / sqrt 2))).
  assert (0 < sqrt (2 * PI)) by (apply sqrt_lt_R0; pose proof PI_RGT_0; lra).
  assert (0 < exp (- (x + 1 / sqrt 2) * (x + 1 / sqrt 2)) / sqrt (2 * PI)) by (apply Rdiv_lt_0_compat; assumption). lra.
Qed.


Lemma exp_not_1 x : x <> 0 -> exp x <> 1.
Proof. intros N E. apply N. apply Rpower.exp_inv. rewrite exp_0. exact E. Qed.

Lemma be_opp x : x <> 0 -> Rabs x <= xmax -> bose_einstein (- x) = - 1 - bose_einstein x.
Proof.
  intros N H. assert (- xmax <= x <= xmax) by (unfold Rabs in H; destruct (Rcase_abs x); lra). unfold bose_einstein. rewrite !Rmin_left by lra.
  pose proof (OccProofs.exp_inv x). pose proof (exp_pos x). pose proof (exp_not_1 x N). pose proof (exp_not_1 (- x) ltac:(lra)).
  replace (exp (- x)) with (/ exp x) in * by (apply Rmult_eq_reg_r with (exp x); [rewrite Rinv_l; lra|lra]).
  set (p := exp x) in *. field. repeat split; lra.
Qed.

Lemma be_fd x : x <> 0 -> 2 * Rabs x <= xmax -> fermi_dirac x = bose_einstein x - 2 * bose_einstein (2 * x).
Proof.
  intros N H. assert (- xmax <= 2 * x <= xmax) by (unfold Rabs in H; destruct (Rcase_abs x); lra).
  unfold bose_einstein, fermi_dirac. rewrite !Rmin_left by (unfold xmax in *; lra). replace (2 * x) with (x + x) by ring. rewrite exp_plus.
  pose proof (exp_pos x). pose proof (exp_not_1 x N). set (p := exp x) in *. field. repeat split; nra.
Qed.

(** ** Entropies *)

Lemma FDs_formula x : FDs x = - (FDf x * ln (FDf x) + (1 - FDf x) * ln (1 - FDf x)).
Proof.
  unfold FDs. assert (E : ln (1 - FDf x) = x + ln (FDf x)).
  { rewrite <- FDf_opp. unfold FDf. pose proof (exp_pos x). rewrite <- (ln_exp x) at 2.
    rewrite <- ln_mult; [|exact H|apply FDf_bound]. f_equal. pose proof (OccProofs.exp_inv x). pose proof (exp_pos (- x)).
    replace (exp (- x)) with (/ exp x) by (apply Rmult_eq_reg_r with (exp x); [rewrite Rinv_l; lra|lra]). field. split; nra. }
  rewrite E. ring.
Qed.

Lemma fds_formula x : Rabs x <= xmax ->
  fermi_dirac_entropy x = - (fermi_dirac x * ln (fermi_dirac x) + (1 - fermi_dirac x) * ln (1 - fermi_dirac x)).
Proof. intros H. rewrite fds_in by exact H. rewrite fd_in by (apply abs_le, H). apply FDs_formula. Qed.

Lemma ln_neg x : 0 < x < 1 -> ln x < 0.
Proof. intros H. rewrite <- ln_1. apply ln_increasing; lra. Qed.

Lemma FDs_pos x : 0 < FDs x.
Proof.
  rewrite FDs_formula. pose proof (FDf_bound x). pose proof (ln_neg (FDf x) ltac:(lra)). pose proof (ln_neg (1 - FDf x) ltac:(lra)). nra.
Qed.

Lemma FDs_even x : FDs (- x) = FDs x.
Proof. rewrite !FDs_formula, FDf_opp. replace (1 - (1 - FDf x)) with (FDf x) by ring. ring. Qed.

Lemma fds_clip x : exists y, Rabs y <= xmax /\ fermi_dirac_entropy x = FDs y.
Proof.
  set (y := sgn x * Rmin (Rabs x) xmax). assert (B : Rabs y <= xmax).
  { unfold y. pose proof (Rmin_r (Rabs x) xmax). assert (0 <= Rmin (Rabs x) xmax) by (apply Rmin_glb; [apply Rabs_pos|unfold xmax; lra]).
    unfold sgn. destruct (Rlt_dec x 0), (Rlt_dec 0 x); apply Rabs_le; unfold xmax in *; lra. }
  exists y. split; [exact B|]. unfold fermi_dirac_entropy. cbn zeta. fold y. rewrite fd_in by (apply abs_le, B). reflexivity.
Qed.

Lemma fds_pos x : 0 < fermi_dirac_entropy x.
Proof. destruct (fds_clip x) as (y & _ & ->). apply FDs_pos. Qed.

Lemma tfds_continuous d : Rabs d < xmax -> continuity_pt (two_fermi_dirac_entropy d) 0.
Proof.
  intros Hd.
  set (L := fun x => FDs (x + d) - d * FDf (x + d) + d). set (Rr := fun x => FDs (x - d) + d * FDf (x - d)).
  assert (E0 : L 0 = Rr 0).
  { unfold L, Rr. rewrite Rplus_0_l. replace (0 - d) with (- d) by ring. rewrite FDs_even, FDf_opp. ring. }
  assert (CF : forall (F F' : R -> R) c, (forall x, is_derive F x (F' x)) -> forall x, is_derive (fun t => F (t + c)) x (F' (x + c))).
  { intros F F' c D x. apply is_derive_eq with (scal 1 (F' (x + c))); [|unfold scal; cbn; unfold mult; cbn; ring].
    apply (is_derive_comp F (fun t => t + c) x); [apply D|auto_derive; [exact I|ring]]. }
  assert (CL : continuity_pt L 0).
  { apply continuity_pt_filterlim. apply @ex_derive_continuous. unfold L. eexists. apply @is_derive_plus; [|apply @is_derive_const]. apply @is_derive_minus.
    - apply (CF FDs _ d FDs_derive).
    - apply (is_derive_scal (fun t => FDf (t + d))). apply (CF FDf _ d FDf_derive). }
  assert (CR : continuity_pt Rr 0).
  { apply continuity_pt_filterlim. apply @ex_derive_continuous. unfold Rr. eexists. apply @is_derive_plus.
    - apply (CF FDs _ (- d) FDs_derive).
    - apply (is_derive_scal (fun t => FDf (t - d))). apply (CF FDf _ (- d) FDf_derive). }
  assert (EL : forall x, Rabs x < xmax - Rabs d -> x < 0 -> two_fermi_dirac_entropy d x = L x).
  { intros x Hx H. assert (T : two_dy d x = d) by (unfold two_dy; destruct (Rlt_dec x 0); lra).
    unfold two_fermi_dirac_entropy, two_dx. rewrite T. replace (x + (2 * d - d)) with (x + d) by ring.
    pose proof (Rabs_triang x d). rewrite fds_in by lra. rewrite fd_in by (apply abs_le; lra). unfold L. ring. }
  assert (ER : forall x, Rabs x < xmax - Rabs d -> ~ x < 0 -> two_fermi_dirac_entropy d x = Rr x).
  { intros x Hx H. assert (T : two_dy d x = 0) by (unfold two_dy; destruct (Rlt_dec x 0); lra).
    unfold two_fermi_dirac_entropy, two_dx. rewrite T. replace (x + (2 * 0 - d)) with (x - d) by ring.
    pose proof (Rabs_triang x (- d)) as TR. rewrite Rabs_Ropp in TR. fold (x - d) in TR. rewrite fds_in by lra. rewrite fd_in by (apply abs_le; lra). unfold Rr. ring. }
  assert (Z : two_fermi_dirac_entropy d 0 = Rr 0) by (apply ER; [rewrite Rabs_R0; lra|lra]).
  intros e He. destruct (CL e He) as (a & Ha & A). destruct (CR e He) as (b & Hb & B).
  set (m := Rmin (Rmin a b) (xmax - Rabs d)).
  assert (M : 0 < m /\ m <= a /\ m <= b /\ m <= xmax - Rabs d).
  { unfold m. pose proof (Rmin_l (Rmin a b) (xmax - Rabs d)). pose proof (Rmin_r (Rmin a b) (xmax - Rabs d)). pose proof (Rmin_l a b). pose proof (Rmin_r a b).
    repeat split; [|lra|lra|lra]. repeat apply Rmin_glb_lt; lra. }
  exists m. split; [apply M|]. intros x [Dx Hx]. cbn in Hx. unfold R_dist in Hx. cbn. unfold R_dist. rewrite Z. rewrite Rminus_0_r in Hx.
  destruct (Rlt_dec x 0) as [n|n].
  - rewrite EL by lra. rewrite <- E0. apply A. split; [exact Dx|]. cbn. unfold R_dist. rewrite Rminus_0_r. lra.
  - rewrite ER by lra. apply B. split; [exact Dx|]. cbn. unfold R_dist. rewrite Rminus_0_r. lra.
Qed.

(** ** Orders of Methfessel-Paxton smearing beyond the available polynomials *)

Lemma mp_loop_stop k : forall n a s h, (List.length h < 2 * k)%nat -> mp_loop k n a s h = Raise StopIteration.
Proof.
  induction k as [|k IH]; intros n a s h H; [lia|]. cbn [mp_loop]. destruct h as [|y [|z h]]; [reflexivity|reflexivity|].
  apply IH. cbn [List.length] in H. lia.
Qed.

Lemma mp_stop order x : (50 < order)%nat -> methfessel_paxton order x = Raise StopIteration.
Proof.
  intros H. unfold methfessel_paxton, methfessel_paxton_term. rewrite hermite_ok, mp_skip_ok by lia. cbn [bind].
  rewrite mp_loop_stop; [reflexivity|]. rewrite map_length, seq_length. lia.
Qed.

(** ** Matsubara *)

Lemma nu_pole n : cos (nu n) = -1 /\ sin (nu n) = 0.
Proof.
  unfold nu. replace ((2 * INR n + 1) * PI) with (INR n * PI + INR n * PI + PI) by ring. rewrite neg_cos, neg_sin, cos_plus, sin_plus, sin_pi.
  pose proof (sin2_cos2 (INR n * PI)) as E. rewrite sin_pi in E. unfold Rsqr in E. split; lra.
Qed.

Lemma inv_complex x nu' : 0 < nu' ->
  inv_re x nu' * - x - inv_im x nu' * nu' = 1 /\ inv_re x nu' * nu' + inv_im x nu' * - x = 0.
Proof. intros H. unfold inv_re, inv_im. assert (0 < x * x + nu' * nu') by nra. split; field; lra. Qed.

Lemma fdm_symmetric N : symmetric (fermi_dirac_matsubara N).
Proof.
  intros x. unfold fermi_dirac_matsubara.
  assert (E : sumR (fun n => inv_re (- x) (nu n)) N = - sumR (fun n => inv_re x (nu n)) N).
  { induction N as [|N IH]; [unfold sumR; cbn; ring|]. rewrite !sumR_S, IH. unfold inv_re. pose proof (nu_pos N).
    assert (0 < x * x + nu N * nu N) by nra. replace (- x * - x) with (x * x) by ring. field. lra. }
  rewrite E. field.
Qed.

(** ** Names *)

Lemma lower_lower_char c : lower_char (lower_char c) = lower_char c.
Proof. destruct c as [[] [] [] [] [] [] [] []]; reflexivity. Qed.

Lemma lower_lower s : lower (lower s) = lower s.
Proof. induction s as [|c s IH]; cbn [lower]; [reflexivity|]. rewrite lower_lower_char, IH. reflexivity. Qed.

Lemma smearing_case s s' : lower s = lower s' -> smearing s = smearing s'.
Proof. unfold smearing. intros ->. reflexivity. Qed.

Definition known : list string := ["gaussian"; "gauss"; "methfessel-paxton"; "m-p"; "mp"; "marzari-vanderbilt"; "cold"; "m-v"; "mv";
  "fermi-dirac"; "f-d"; "fd"; "lorentzian"; "lorentz"; "heaviside"]%string.

Lemma smearing_known s : smearing s = None <-> ~ In (lower s) known.
Proof.
  unfold smearing, among, known. cbn [existsb]. set (n := lower s). split.
  - intros H I. cbn in I. repeat (destruct I as [I|I]; [rewrite <- I in H; cbv in H; discriminate H|]). exact I.
  - intros H. repeat match goal with |- context [String.eqb n ?k] => destruct (String.eqb_spec n k) as [->|_]; [exfalso; apply H; cbn; tauto|] end. reflexivity.
Qed.

Definition same_letterb (c c' : Ascii.ascii) : bool := (Ascii.eqb c c' || existsb (fun i =>
  match get i "ABCDEFGHIJKLMNOPQRSTUVWXYZ", get i "abcdefghijklmnopqrstuvwxyz" with
  | Some A, Some a => Ascii.eqb A c && Ascii.eqb a c' || Ascii.eqb a c && Ascii.eqb A c'
  | _, _ => false
  end) (seq 0 26))%bool.

Lemma get_lt s i c : get i s = Some c -> (i < String.length s)%nat.
Proof. revert i. induction s as [|d s IH]; intros [|i] H; try discriminate H; cbn [String.length]; [lia|]. apply IH in H. lia. Qed.

Lemma same_letterb_iff c c' : same_letterb c c' = true <-> same_letter c c'.
Proof.
  unfold same_letterb, same_letter. rewrite Bool.orb_true_iff, Ascii.eqb_eq, existsb_exists. split.
  - intros [H|(i & _ & H)]; [left; exact H|]. right. exists i.
    destruct (get i "ABCDEFGHIJKLMNOPQRSTUVWXYZ"), (get i "abcdefghijklmnopqrstuvwxyz"); try discriminate H.
    rewrite Bool.orb_true_iff, !Bool.andb_true_iff, !Ascii.eqb_eq in H. destruct H as [[-> ->]|[-> ->]]; tauto.
  - intros [H|(i & H)]; [left; exact H|]. right. exists i. split; [apply in_seq|].
    + destruct H as [[H _]|[H _]]; apply get_lt in H; cbn in H; lia.
    + destruct H as [[-> ->]|[-> ->]]; rewrite !Ascii.eqb_refl; rewrite ?Bool.orb_true_r; reflexivity.
Qed.

Lemma all_ascii c : In c (map Ascii.ascii_of_nat (seq 0 256)).
Proof.
  rewrite <- (Ascii.ascii_nat_embedding c). apply in_map, in_seq. pose proof (Ascii.nat_ascii_bounded c). lia.
Qed.

Lemma lower_same c c' : lower_char c = lower_char c' <-> same_letter c c'.
Proof.
  rewrite <- same_letterb_iff, <- Ascii.eqb_eq.
  assert (H : forallb (fun c => forallb (fun c' => Bool.eqb (Ascii.eqb (lower_char c) (lower_char c')) (same_letterb c c'))
    (map Ascii.ascii_of_nat (seq 0 256))) (map Ascii.ascii_of_nat (seq 0 256)) = true) by (vm_compute; reflexivity).
  rewrite forallb_forall in H. specialize (H c (all_ascii c)). rewrite forallb_forall in H. specialize (H c' (all_ascii c')).
  apply Bool.eqb_prop in H. rewrite H. reflexivity.
Qed.

Lemma lower_up_to_case s : forall s', lower s = lower s' <-> up_to_case s s'.
Proof.
  induction s as [|c s IH]; intros [|c' s']; cbn [lower up_to_case]; [tauto|split; [discriminate|tauto]..|].
  rewrite <- IH, <- lower_same. split; [intros H; injection H; auto|intros [-> ->]; reflexivity].
Qed.

Definition name_table : list (string * kind) :=
  [("gaussian", Gauss); ("gauss", Gauss); ("methfessel-paxton", MP); ("m-p", MP); ("mp", MP); ("marzari-vanderbilt", MV); ("cold", MV);
   ("m-v", MV); ("mv", MV); ("fermi-dirac", FD); ("f-d", FD); ("fd", FD); ("lorentzian", Lorentz); ("lorentz", Lorentz); ("heaviside", Heaviside)]%string.

Lemma smearing_table s f : smearing s = Some f <-> exists name, In (name, f) name_table /\ up_to_case s name.
Proof.
  assert (L : forall name g, In (name, g) name_table -> lower name = name /\ smearing name = Some g).
  { intros name g H. cbn in H. repeat (destruct H as [H|H]; [injection H as <- <-; split; vm_compute; reflexivity|]). destruct H. }
  split.
  - intros H. destruct (in_dec string_dec (lower s) known) as [I|N]; [|apply smearing_known in N; congruence].
    assert (J : In (lower s) (map fst name_table)) by exact I. apply in_map_iff in J as ([name g] & E & J). cbn [fst] in E.
    destruct (L _ _ J) as [L1 L2]. exists name. assert (E' : lower s = lower name) by congruence.
    rewrite (smearing_case _ _ E'), L2 in H. injection H as <-. split; [exact J|]. apply lower_up_to_case, E'.
  - intros (name & I & U). apply lower_up_to_case in U. rewrite (smearing_case _ _ U). apply L, I.
Qed.
