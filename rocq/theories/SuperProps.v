(** C95: effective coupling strength and phonon frequencies of superconductors. *)
From Coq Require Import Reals List Lra Lia.
From Verif Require PhModel PhProofs DiagProps.
From Verif Require Import Common Cx CxProofs HermSpec HermProofs MdModel MdSpec MdExample DiagModel DiagSpec DiagProofs DiagProofs4 SpecFSpec SpecFProps SuperModel SuperSpec SuperProofs.
Local Open Scope R_scope.

Section Super.
  Context (nk : pt) (nbnd : nat) (e : pt -> nat -> R) (kT : R) (s : smearing).
  Context (M : nat -> R) (nq nm : nat) (q : nat -> R * R * R).
  Context (eigh : nat -> (nat -> nat -> C) -> (nat -> R) * (nat -> nat -> C)) (eps : R).
  Context (D : nat -> nat -> nat -> C) (d : nat -> nat -> pt -> nat -> nat -> C).
  Hypothesis HkT : 0 < kT.
  Hypothesis Hs : nonneg (MdModel.delta s).
  Hypothesis Heps : 0 < eps.
  Hypothesis HM : forall a, 0 < M a.
  Hypothesis Heigh : eigh_contract nm eigh.
  Hypothesis HD : forall iq, (iq < nq)%nat -> hermitian nm (D iq).
  Hypothesis Hdd : 0 < fermi_sum nk nbnd e kT s nq q (fun _ _ _ _ => 1).
  Notation average := (fermi_average nk nbnd e kT s nq q).
  Notation result := (superconductivity nk nbnd e kT s M nq nm q eigh eps D d).
  Notation lamda := (fst (fst (fst result))).
  Notation wlog := (snd (fst (fst result))).
  Notation w2nd := (snd (fst result)).
  Notation wmin := (snd result).

  Lemma mw_dynamical iq x y : mass_weighted M D iq x y = dynamical_matrix M (D iq) x y.
  Proof.
    unfold mass_weighted, dynamical_matrix, mm12. pose proof (sqrt_lt_R0 _ (HM (x / 3))). pose proof (sqrt_lt_R0 _ (HM (y / 3))).
    assert (RtoC (sqrt (M (x / 3)) * sqrt (M (y / 3))) <> RtoC 0) as NZ.
    { intros E. apply RtoC_inj' in E. assert (0 < sqrt (M (x / 3)) * sqrt (M (y / 3))) by (apply Rmult_lt_0_compat; assumption). lra. }
    transitivity (D iq x y * RtoC (sqrt (M (x / 3)) * sqrt (M (y / 3))) * (RtoC (/ sqrt (M (y / 3))) * RtoC (/ sqrt (M (x / 3)))) / RtoC (sqrt (M (x / 3)) * sqrt (M (y / 3))))%C; [field; exact NZ|].
    rewrite <- RtoC_mult', <- Cmult_assoc, <- RtoC_mult'. replace (sqrt (M (x / 3)) * sqrt (M (y / 3)) * (/ sqrt (M (y / 3)) * / sqrt (M (x / 3)))) with 1 by (field; lra). unfold Cdiv. ring.
  Qed.

  Lemma coupling2_eq iq k m n U nu : coupling2 M nm U (fun x => d iq x k m n) nu = abs2 (ip nm (col U nu) (vec M d iq k m n)).
  Proof.
    rewrite <- abs2_of_conj, ip_conj. unfold coupling2, ip, vec, col, mm12. f_equal. apply csum_ext. intros x _. rewrite conj_mult, conj_conj, conj_R.
    pose proof (sqrt_lt_R0 _ (HM (x / 3))) as P. unfold Cdiv. rewrite <- RtoC_inv by lra. ring.
  Qed.

  Section Modes.
    (** Any choice of squared frequencies and polarization vectors of the modes *)
    Context (w2 : nat -> nat -> R) (U : nat -> nat -> nat -> C).
    Hypothesis HU : forall iq, (iq < nq)%nat -> eigensystem nm (dynamical_matrix M (D iq)) (w2 iq) (U iq).

    (** Average of a function of the frequency, weighted with the coupling, over the
        modes whose squared frequency is not below the threshold *)
    Notation mode_average F := (average (fun iq k m n => rsum nm (fun nu =>
      if Rlt_dec (w2 iq nu) eps then 0 else F (w2 iq nu) * coupling2 M nm (U iq) (fun x => d iq x k m n) nu))).

    Lemma B_average h : B nk nbnd e kT s M nq nm q eigh eps D d h = mode_average h.
    Proof.
      unfold B. rewrite mode_sum. unfold fermi_average. apply f_equal2; [|reflexivity]. unfold fermi_sum. apply rsum_ext. intros iq Hq. apply mesh_sum_ext. intros k _.
      apply rsum_ext. intros m _. apply rsum_ext. intros n _. apply f_equal2; [|reflexivity].
      transitivity (rsum nm (fun nu => act eps h (w2 iq nu) * abs2 (ip nm (col (U iq) nu) (vec M d iq k m n)))).
      - apply (spectral_unique nm (mass_weighted M D iq)).
        + apply (mw_hermitian M nq nm D HD). exact Hq.
        + apply (mw_eigen M nq nm eigh D Heigh HD iq Hq).
        + apply (MdProofs.eigensystem_ext nm (dynamical_matrix M (D iq))); [intros; symmetry; apply mw_dynamical|]. apply HU, Hq.
      - apply rsum_ext. intros nu _. rewrite coupling2_eq. unfold act. destruct Rlt_dec; ring.
    Qed.

    (** All returned values in terms of the modes. The choice of the eigenvectors,
        of the order of the modes, and of their phases does not matter. *)
    Theorem C95_formula : (0 < nq)%nat -> (0 < nm)%nat ->
      lamda = dos nk nbnd e kT s * mode_average (fun x => / x) /\
      wlog = exp (mode_average (fun x => ln (sqrt x) / x) / mode_average (fun x => / x)) /\
      w2nd = sqrt (mode_average (fun _ => 1) / mode_average (fun x => / x)) /\
      (forall iq nu, (iq < nq)%nat -> (nu < nm)%nat -> wmin * Rabs wmin <= w2 iq nu) /\
      exists iq nu, (iq < nq)%nat /\ (nu < nm)%nat /\ wmin * Rabs wmin = w2 iq nu.
    Proof.
      intros Hq Hm. rewrite super_eq by assumption. cbn [fst snd].
      pose proof (B_average (fun x => / x)) as E1. pose proof (B_average (fun _ => 1)) as E2.
      split; [exact (f_equal (Rmult _) E1)|]. split; [|split; [exact (f_equal sqrt (f_equal2 Rdiv E2 E1))|]].
      - transitivity (exp (B nk nbnd e kT s M nq nm q eigh eps D d (fun x => ln (sqrt x) / x) / B nk nbnd e kT s M nq nm q eigh eps D d (fun x => / x))).
        2:{ exact (f_equal exp (f_equal2 Rdiv (B_average (fun x => ln (sqrt x) / x)) E1)). }
        do 2 f_equal. apply B_ext; try assumption. intros i j _ _ Hw. set (x := fst (eigh nm (mass_weighted M D i)) j) in *.
        assert (Hx : 0 < x) by lra. pose proof (sqrt_lt_R0 x Hx) as P.
        replace (ln x) with (ln (sqrt x * sqrt x)) by (rewrite sqrt_sqrt; [reflexivity|lra]). rewrite ln_mult by exact P. field. lra.
      - rewrite PhProofs.sgnsqrt_square.
        assert (E : amin nq nm (fun iq => fst (eigh nm (mass_weighted M D iq))) = amin nq nm w2).
        { apply amin_unique; [exact Hq|exact Hm| |]; intros iq j Hi Hj;
            pose proof (mw_hermitian M nq nm D HD iq Hi) as H1; pose proof (mw_eigen M nq nm eigh D Heigh HD iq Hi) as H2;
            assert (H3 : eigensystem nm (mass_weighted M D iq) (w2 iq) (U iq)) by
              (apply (MdProofs.eigensystem_ext nm (dynamical_matrix M (D iq))); [intros; symmetry; apply mw_dynamical|]; apply HU, Hi).
          - exact (eigenvalue_shared nm _ _ _ _ _ j H1 H2 H3 Hj).
          - exact (eigenvalue_shared nm _ _ _ _ _ j H1 H3 H2 Hj). }
        rewrite E. split; [intros; apply amin_le; assumption|]. destruct (amin_in nq nm w2 Hq Hm) as (i & j & Hi & Hj & Ea). exists i, j. auto.
    Qed.

    (** The averages lie in the range of frequencies of the modes that contribute,
        and the logarithmic average is not larger than the quadratic one. *)
    Theorem C95_averages lo hi : 0 < lamda -> 0 <= lo -> 0 <= hi ->
      (forall iq nu, (iq < nq)%nat -> (nu < nm)%nat -> eps <= w2 iq nu -> lo ^ 2 <= w2 iq nu <= hi ^ 2) ->
      sqrt eps <= wlog /\ lo <= wlog /\ wlog <= w2nd /\ w2nd <= hi.
    Proof.
      rewrite super_eq by assumption. cbn [fst snd]. intros Hl Hlo Hhi Hb.
      set (Bf := B nk nbnd e kT s M nq nm q eigh eps D d) in *.
      assert (Hd : 0 <= dos nk nbnd e kT s).
      { unfold dos. apply Rmult_le_pos.
        - apply mesh_sum_nonneg. intros k _. apply rsum_nonneg. intros n _. apply Rmult_le_pos; [apply Hs|left; apply Rinv_0_lt_compat, HkT].
        - destruct (Nat.eq_dec (prod nk) 0) as [Z|Z]; [|left; apply Rinv_0_lt_compat, lt_0_INR; lia].
          exfalso. assert (N : dos nk nbnd e kT s = 0).
          { unfold dos. replace (mesh_sum nk _) with 0; [unfold Rdiv; ring|]. symmetry. destruct nk as [[a b] c]. unfold prod in Z. unfold mesh_sum.
            destruct (Nat.eq_dec a 0) as [->|Ha]; [reflexivity|]. destruct (Nat.eq_dec b 0) as [->|Hb']; [cbn; apply rsum_zero|].
            assert (c = 0)%nat as -> by (destruct c; [reflexivity|exfalso; destruct a; [lia|]; destruct b; [lia|]; cbn in Z; lia]). cbn.
            rewrite rsum_zero. apply rsum_zero. }
          rewrite N in Hl. lra. }
      assert (Hb0 : 0 < Bf (fun x => / x)).
      { assert (P : 0 <= Bf (fun x => / x)).
        { apply B_nonneg; try assumption. intros x Hx. left. apply Rinv_0_lt_compat. lra. }
        destruct P as [P|P]; [exact P|]. rewrite <- P in Hl. lra. }
      assert (Hin : forall iq nu, (iq < nq)%nat -> (nu < nm)%nat -> eps <= fst (eigh nm (mass_weighted M D iq)) nu ->
        lo ^ 2 <= fst (eigh nm (mass_weighted M D iq)) nu <= hi ^ 2).
      { intros iq nu Hi Hn Hw. pose proof (mw_hermitian M nq nm D HD iq Hi) as H1. pose proof (mw_eigen M nq nm eigh D Heigh HD iq Hi) as H2.
        assert (H3 : eigensystem nm (mass_weighted M D iq) (w2 iq) (U iq)) by
          (apply (MdProofs.eigensystem_ext nm (dynamical_matrix M (D iq))); [intros; symmetry; apply mw_dynamical|]; apply HU, Hi).
        destruct (eigenvalue_shared nm _ _ _ _ _ nu H1 H2 H3 Hn) as (n' & Hn' & E). rewrite <- E in Hw |- *. apply Hb; assumption. }
      assert (J := mean_le nk nbnd e kT s M nq nm q eigh eps D d HkT Hs Heps Hdd Hb0). fold Bf in J.
      assert (A0 : eps * Bf (fun x => / x) <= Bf (fun _ => 1)).
      { unfold Bf. rewrite <- B_scal. apply B_le; try assumption. intros i j Hi Hj Hw. apply Rmult_le_reg_r with (fst (eigh nm (mass_weighted M D i)) j); [lra|].
        rewrite Rmult_assoc, Rinv_l by lra. lra. }
      assert (A1 : 0 < Bf (fun _ => 1) / Bf (fun x => / x)).
      { apply Rdiv_lt_0_compat; [|exact Hb0]. assert (0 < eps * Bf (fun x => / x)) by (apply Rmult_lt_0_compat; assumption). lra. }
      assert (Low : forall c, 0 < c -> (forall iq nu, (iq < nq)%nat -> (nu < nm)%nat -> eps <= fst (eigh nm (mass_weighted M D iq)) nu -> c <= fst (eigh nm (mass_weighted M D iq)) nu) ->
        sqrt c <= exp (Bf (fun x => / x * (ln x / 2)) / Bf (fun x => / x))).
      { intros c Hc Hall. rewrite <- (exp_ln (sqrt c)) by (apply sqrt_lt_R0, Hc).
        assert (Le : ln (sqrt c) <= Bf (fun x => / x * (ln x / 2)) / Bf (fun x => / x)).
        { apply Rmult_le_reg_r with (Bf (fun x => / x)); [exact Hb0|]. match goal with |- _ <= ?a / ?b * ?b => replace (a / b * b) with a by (field; lra) end.
          unfold Bf. rewrite <- B_scal. apply B_le; try assumption. intros i j Hi Hj Hw. specialize (Hall i j Hi Hj Hw). set (x := fst (eigh nm (mass_weighted M D i)) j) in *.
          rewrite Rmult_comm. apply Rmult_le_compat_l; [left; apply Rinv_0_lt_compat; lra|].
          assert (E : ln c = ln (sqrt c) + ln (sqrt c)) by (rewrite <- ln_mult by (apply sqrt_lt_R0, Hc); rewrite sqrt_sqrt by lra; reflexivity).
          assert (ln c <= ln x) by (destruct Hall as [Hall| <-]; [left; apply ln_increasing; lra|right; reflexivity]). lra. }
        destruct Le as [Le| ->]; [left; apply exp_increasing, Le|right; reflexivity]. }
      split; [apply Low; [exact Heps|intros; assumption]|]. split; [|split].
      - destruct (Req_dec lo 0) as [->|NZ]; [left; apply exp_pos|]. rewrite <- (sqrt_Rsqr lo Hlo). apply Low; [unfold Rsqr; assert (0 < lo) by lra; apply Rmult_lt_0_compat; lra|].
        intros i j Hi Hj Hw. destruct (Hin i j Hi Hj Hw). unfold Rsqr. cbn in *. lra.
      - set (A := Bf (fun _ => 1) / Bf (fun x => / x)) in *. rewrite <- (exp_ln (sqrt A)) by (apply sqrt_lt_R0, A1).
        assert (E : ln A = ln (sqrt A) + ln (sqrt A)) by (rewrite <- ln_mult by (apply sqrt_lt_R0, A1); rewrite sqrt_sqrt by lra; reflexivity).
        rewrite E in J. replace ((ln (sqrt A) + ln (sqrt A)) / 2) with (ln (sqrt A)) in J by field. destruct J as [J| ->]; [left; apply exp_increasing, J|right; reflexivity].
      - rewrite <- (sqrt_Rsqr hi Hhi). apply sqrt_le_1_alt. apply Rmult_le_reg_r with (Bf (fun x => / x)); [exact Hb0|]. unfold Rdiv. rewrite Rmult_assoc, Rinv_l, Rmult_1_r by lra.
        unfold Bf. rewrite <- B_scal. apply B_le; try assumption. intros i j Hi Hj Hw. destruct (Hin i j Hi Hj Hw) as [_ H]. unfold Rsqr. cbn in H.
        apply Rmult_le_reg_r with (fst (eigh nm (mass_weighted M D i)) j); [lra|]. rewrite Rmult_assoc, Rinv_l by lra. lra.
    Qed.
  End Modes.

  (** The coupling strength is never negative. *)
  Theorem C95_nonnegative : nonempty nk -> 0 <= lamda.
  Proof.
    intros Hnk. rewrite super_eq by assumption. cbn [fst]. apply Rmult_le_pos.
    - unfold dos. apply Rmult_le_pos.
      + apply mesh_sum_nonneg. intros k _. apply rsum_nonneg. intros n _. apply Rmult_le_pos; [apply Hs|left; apply Rinv_0_lt_compat, HkT].
      + left. apply Rinv_0_lt_compat, lt_0_INR. destruct nk as [[a b] c]. cbn in Hnk. unfold prod. destruct Hnk as (H1 & H2 & H3). apply Nat.mul_pos_pos; [apply Nat.mul_pos_pos|]; assumption.
    - apply B_nonneg; try assumption. intros x Hx. left. apply Rinv_0_lt_compat. lra.
  Qed.

  (** If no mode is below the threshold: *)
  Section Stable.
    Context (w2 : nat -> nat -> R) (U : nat -> nat -> nat -> C).
    Hypothesis HU : forall iq, (iq < nq)%nat -> eigensystem nm (dynamical_matrix M (D iq)) (w2 iq) (U iq).
    Hypothesis Hstable : forall iq nu, (iq < nq)%nat -> (nu < nm)%nat -> eps <= w2 iq nu.

    Lemma B_stable h : B nk nbnd e kT s M nq nm q eigh eps D d h =
      average (fun iq k m n => rsum nm (fun nu => h (w2 iq nu) * abs2 (ip nm (col (U iq) nu) (vec M d iq k m n)))).
    Proof.
      rewrite (B_average w2 U HU). unfold fermi_average. apply f_equal2; [|reflexivity]. unfold fermi_sum. apply rsum_ext. intros iq Hq. apply mesh_sum_ext. intros k _.
      apply rsum_ext. intros m _. apply rsum_ext. intros n _. apply f_equal2; [|reflexivity]. apply rsum_ext. intros nu Hn. rewrite coupling2_eq.
      destruct Rlt_dec as [L|_]; [specialize (Hstable iq nu Hq Hn); lra|reflexivity].
    Qed.

    (** ... the coupling strength follows from the inverse of the force constants,
        without the masses, ... *)
    Theorem C95_masses (X : nat -> nat -> nat -> C) : (forall iq, (iq < nq)%nat -> inverse nm (D iq) (X iq)) ->
      lamda = dos nk nbnd e kT s * average (fun iq k m n => energy nm (X iq) (fun x => conj (d iq x k m n))).
    Proof.
      intros HX. rewrite super_eq by assumption. cbn [fst]. apply f_equal2; [reflexivity|]. rewrite B_stable.
      unfold fermi_average. apply f_equal2; [|reflexivity]. unfold fermi_sum. apply rsum_ext. intros iq Hq. apply mesh_sum_ext. intros k _.
      apply rsum_ext. intros m _. apply rsum_ext. intros n _. apply f_equal2; [|reflexivity].
      assert (HUq := HU iq Hq). set (V := vec M d iq k m n).
      assert (P : forall x, mm12 M x <> 0) by (intros x; pose proof (mm12_pos M HM x); lra).
      (* inverse of the dynamical matrix *)
      set (Y := fun x y => (X iq x y * RtoC (/ mm12 M x) * RtoC (/ mm12 M y))%C).
      assert (EY : forall x nu, (x < nm)%nat -> (nu < nm)%nat -> csum nm (fun y => Y x y * U iq y nu)%C = (RtoC (/ w2 iq nu) * U iq x nu)%C).
      { intros x nu Hx Hn. assert (W0 : w2 iq nu <> 0) by (specialize (Hstable iq nu Hq Hn); lra).
        assert (E : (RtoC (w2 iq nu) * csum nm (fun y => Y x y * U iq y nu))%C = U iq x nu).
        { rewrite <- csum_scal.
          rewrite (csum_ext nm _ (fun y => csum nm (fun z => RtoC (/ mm12 M x) * (X iq x y * D iq y z) * (RtoC (mm12 M z) * U iq z nu)))%C).
          - rewrite csum_swap. rewrite (csum_ext nm _ (fun z => HermSpec.delta x z * (RtoC (/ mm12 M x) * (RtoC (mm12 M z) * U iq z nu)))%C).
            + rewrite csum_delta_l by exact Hx. rewrite Cmult_assoc, <- RtoC_mult', Rinv_l by apply P. ring.
            + intros z Hz. rewrite csum_scal_r, csum_scal, (proj2 (HX iq Hq x z Hx Hz)). ring.
          - intros y Hy. transitivity (Y x y * (RtoC (w2 iq nu) * U iq y nu))%C; [ring|]. rewrite <- (proj2 HUq y nu Hy Hn), <- csum_scal. apply csum_ext. intros z Hz.
            rewrite <- mw_dynamical. unfold Y, mass_weighted.
            transitivity (RtoC (/ mm12 M x) * (X iq x y * D iq y z) * (RtoC (mm12 M z) * U iq z nu) * (RtoC (/ mm12 M y) * RtoC (mm12 M y)))%C; [ring|].
            rewrite <- RtoC_mult', Rinv_l by apply P. ring. }
        rewrite <- E. rewrite Cmult_assoc, <- RtoC_mult', Rinv_l by exact W0. ring. }
      apply RtoC_inj'. rewrite RtoC_rsum.
      transitivity (csum nm (fun nu => ip nm V (mv nm Y (col (U iq) nu)) * ip nm (col (U iq) nu) V))%C.
      { apply csum_ext. intros nu Hn. rewrite RtoC_mult', abs2_conj, ip_conj.
        rewrite (ip_ext nm V V (mv nm Y (col (U iq) nu)) (fun x => RtoC (/ w2 iq nu) * col (U iq) nu x)%C); [|reflexivity|intros x Hx; apply EY; assumption].
        rewrite ip_scal_r. ring. }
      (* completeness *)
      assert (C1 : csum nm (fun nu => ip nm V (mv nm Y (col (U iq) nu)) * ip nm (col (U iq) nu) V)%C = ip nm V (mv nm Y V)).
      { rewrite (ip_adjoint nm Y V V), (ip_complete nm (U iq) _ V (proj1 HUq)). apply csum_ext. intros nu Hn. rewrite <- ip_adjoint. reflexivity. }
      rewrite C1.
      assert (C2 : ip nm V (mv nm Y V) = csum nm (fun i => csum nm (fun j => conj (conj (d iq i k m n)) * X iq i j * conj (d iq j k m n)))%C).
      { unfold ip, mv. apply csum_ext. intros i Hi. rewrite <- csum_scal. apply csum_ext. intros j Hj. unfold V, vec, Y. rewrite conj_mult, conj_conj, conj_R.
        transitivity (d iq i k m n * X iq i j * conj (d iq j k m n) * ((RtoC (/ mm12 M i) * RtoC (mm12 M i)) * (RtoC (/ mm12 M j) * RtoC (mm12 M j))))%C; [ring|].
        rewrite <- !RtoC_mult', !Rinv_l, Rmult_1_l by apply P. ring. }
      unfold energy. rewrite <- C2.
      assert (R1 : snd (ip nm V (mv nm Y V)) = 0).
      { rewrite <- C1. rewrite snd_csum. rewrite <- (rsum_zero nm). apply rsum_ext. intros nu Hn.
        rewrite (ip_ext nm V V (mv nm Y (col (U iq) nu)) (fun x => RtoC (/ w2 iq nu) * col (U iq) nu x)%C); [|reflexivity|intros x Hx; apply EY; assumption].
        rewrite ip_scal_r, <- (ip_conj nm (col (U iq) nu) V). unfold conj. cbn. ring. }
      apply c_ext; [reflexivity|]. exact R1.
    Qed.

    (** ... and its product with the square of the quadratic average of the
        frequency does not depend on the force constants. *)
    Theorem C95_hopfield : 0 < lamda ->
      lamda * w2nd ^ 2 = dos nk nbnd e kT s * average (fun iq k m n => rsum nm (fun x => abs2 (d iq x k m n) / M (x / 3)%nat)).
    Proof.
      rewrite super_eq by assumption. cbn [fst snd]. intros Hl.
      assert (Hb0 : 0 < B nk nbnd e kT s M nq nm q eigh eps D d (fun x => / x)).
      { assert (P : 0 <= B nk nbnd e kT s M nq nm q eigh eps D d (fun x => / x)).
        { apply B_nonneg; try assumption. intros x Hx. left. apply Rinv_0_lt_compat. lra. }
        destruct P as [P|P]; [exact P|]. rewrite <- P in Hl. lra. }
      cbn [pow]. rewrite Rmult_1_r, sqrt_sqrt.
      2:{ apply Rmult_le_pos; [|left; apply Rinv_0_lt_compat, Hb0]. apply B_nonneg; try assumption. intros; lra. }
      transitivity (dos nk nbnd e kT s * B nk nbnd e kT s M nq nm q eigh eps D d (fun _ => 1)); [field; lra|]. apply f_equal2; [reflexivity|].
      rewrite B_stable. unfold fermi_average. apply f_equal2; [|reflexivity]. unfold fermi_sum. apply rsum_ext. intros iq Hq. apply mesh_sum_ext. intros k _.
      apply rsum_ext. intros m _. apply rsum_ext. intros n _. apply f_equal2; [|reflexivity].
      rewrite (rsum_ext nm _ (fun nu => abs2 (ip nm (col (U iq) nu) (vec M d iq k m n)))) by (intros; ring).
      rewrite (parseval nm (U iq) _ (proj1 (HU iq Hq))). apply rsum_ext. intros x _. unfold vec, mm12. rewrite abs2_mult, abs2_of_conj, abs2_R.
      unfold Rdiv; apply f_equal2; [reflexivity|]. rewrite <- Rinv_mult_distr, sqrt_sqrt; [reflexivity|left; apply HM| |]; pose proof (sqrt_lt_R0 _ (HM (x / 3))); lra.
    Qed.
  End Stable.

  (** The minimum frequency is imaginary if and only if the structure is unstable. *)
  Theorem C95_unstable : (0 < nq)%nat -> (0 < nm)%nat ->
    wmin < 0 <-> exists iq v, (iq < nq)%nat /\ energy nm (D iq) v < 0.
  Proof.
    intros Hq Hm. rewrite super_eq by assumption. cbn [snd].
    assert (SG : forall x, PhModel.sgnsqrt x < 0 <-> x < 0).
    { intros x. pose proof (PhProofs.sgnsqrt_square x) as E. set (y := PhModel.sgnsqrt x) in *. clearbody y. split; intros H.
      - rewrite Rabs_left in E by exact H. nra.
      - destruct (Rlt_dec y 0) as [L|L]; [exact L|]. rewrite Rabs_pos_eq in E by lra. nra. }
    rewrite SG.
    (* energies in terms of the modes *)
    assert (EN : forall iq v, (iq < nq)%nat -> energy nm (D iq) (fun x => RtoC (mm12 M x) * v x)%C =
      rsum nm (fun nu => fst (eigh nm (mass_weighted M D iq)) nu * abs2 (ip nm (col (snd (eigh nm (mass_weighted M D iq))) nu) v))).
    { intros iq v Hi. pose proof (mw_hermitian M nq nm D HD iq Hi) as H1. pose proof (mw_eigen M nq nm eigh D Heigh HD iq Hi) as H2.
      set (w := fst (eigh nm (mass_weighted M D iq))) in *. set (V := snd (eigh nm (mass_weighted M D iq))) in *.
      assert (E1 : csum nm (fun i => csum nm (fun j => conj (RtoC (mm12 M i) * v i) * D iq i j * (RtoC (mm12 M j) * v j)))%C = ip nm v (mv nm (mass_weighted M D iq) v)).
      { unfold ip, mv. apply csum_ext. intros i _. rewrite <- csum_scal. apply csum_ext. intros j _. unfold mass_weighted. rewrite conj_mult, conj_R. ring. }
      unfold energy. rewrite E1, (ip_complete nm V v _ (proj1 H2)), fst_csum. apply rsum_ext. intros nu Hn.
      rewrite (ip_hermitian nm _ (col V nu) v H1). rewrite (ip_ext nm (mv nm (mass_weighted M D iq) (col V nu)) (fun i => RtoC (w nu) * col V nu i)%C v v); [|intros i Hii; apply (mv_eigen nm _ w V nu i H2 Hn Hii)|reflexivity].
      rewrite ip_scal_l, <- (ip_conj nm (col V nu) v).
      rewrite Cmult_assoc, (Cmult_comm (conj _)), <- Cmult_assoc, <- abs2_conj, <- RtoC_mult'. reflexivity. }
    split.
    - intros H. destruct (amin_in nq nm (fun iq => fst (eigh nm (mass_weighted M D iq))) Hq Hm) as (i & j & Hi & Hj & E). rewrite E in H.
      exists i, (fun x => RtoC (mm12 M x) * col (snd (eigh nm (mass_weighted M D i))) j x)%C. split; [exact Hi|]. rewrite EN by exact Hi.
      pose proof (mw_eigen M nq nm eigh D Heigh HD i Hi) as H2.
      rewrite (rsum_ext nm _ (fun nu => if Nat.eqb nu j then fst (eigh nm (mass_weighted M D i)) nu else 0)).
      + rewrite rsum_delta by exact Hj. exact H.
      + intros nu Hn. rewrite (ip_ortho nm _ nu j (proj1 H2) Hn Hj). unfold HermSpec.delta. destruct (Nat.eqb nu j); rewrite abs2_R; ring.
    - intros (iq & v & Hi & H). 
      assert (E : energy nm (D iq) v = energy nm (D iq) (fun x => RtoC (mm12 M x) * (RtoC (/ mm12 M x) * v x))%C).
      { unfold energy. f_equal. assert (V : forall x, (RtoC (mm12 M x) * (RtoC (/ mm12 M x) * v x))%C = v x).
        { intros x. rewrite Cmult_assoc, <- RtoC_mult', Rinv_r by (pose proof (mm12_pos M HM x); lra). ring. }
        apply csum_ext. intros i _. apply csum_ext. intros j _. rewrite !V. reflexivity. }
      rewrite E, EN in H by exact Hi.
      destruct (Rlt_dec (amin nq nm (fun iq => fst (eigh nm (mass_weighted M D iq)))) 0) as [L|L]; [exact L|exfalso].
      match type of H with ?r < 0 => assert (0 <= r); [|lra] end. apply rsum_nonneg. intros nu Hn. apply Rmult_le_pos; [|apply abs2_nonneg].
      pose proof (amin_le nq nm (fun iq => fst (eigh nm (mass_weighted M D iq))) iq nu Hi Hn) as A. cbv beta in A. lra.
  Qed.
End Super.
Print Assumptions C95_formula.
Print Assumptions C95_averages.
Print Assumptions C95_nonnegative.
Print Assumptions C95_masses.
Print Assumptions C95_hopfield.
Print Assumptions C95_unstable.

(** One state at the Fermi level, one atom of mass four that moves in two directions,
    oscillators with squared frequencies 1/4 and 9/4; coupling to the first direction *)
Definition d2 (iq x : nat) (k : pt) (m n : nat) : C := if Nat.eqb x 0 then RtoC 2 else RtoC 0.
Notation result2 := (superconductivity (1, 1, 1)%nat 1 (fun _ _ => 0) 1 fd_smearing (fun _ => 4) 1 2 (fun _ => (0, 0, 0)) eigh2 (1 / 100) (fun _ => D2) d2).

Lemma D2_hermitian : hermitian 2 D2.
Proof. intros i j _ _. unfold D2. rewrite (Nat.eqb_sym j i). destruct Nat.eqb; rewrite conj_R; reflexivity. Qed.

Lemma sqrt4 : sqrt 4 = 2.
Proof. replace 4 with (2 * 2) by ring. apply sqrt_square. lra. Qed.

Lemma D2_massive : eigensystem 2 (dynamical_matrix (fun _ => 4) D2) (fun n => match n with O => 1 / 4 | _ => 9 / 4 end) U2.
Proof.
  destruct D2_modes as [HU HE]. split; [exact HU|]. intros i n Hi Hn. unfold dynamical_matrix. rewrite sqrt4.
  rewrite (csum_ext 2 _ (fun j => RtoC (/ 4) * (D2 i j * U2 j n))%C).
  - rewrite csum_scal, (HE i n Hi Hn), Cmult_assoc, <- RtoC_mult'. f_equal. f_equal. destruct n as [|[|n]]; try lia; cbn; field.
  - intros j _. unfold Cdiv. rewrite <- RtoC_inv by lra. replace (/ (2 * 2)) with (/ 4) by field. ring.
Qed.

Lemma delta0 : MdModel.delta fd_smearing 0 = 1 / 4.
Proof.
  cbn [MdModel.delta fd_smearing]. unfold OccModel.fermi_dirac_delta. rewrite Rabs_R0, Rmin_left by (unfold OccModel.xmax; lra). unfold cosh. rewrite Ropp_0, exp_0. field.
Qed.

Lemma average2 X : fermi_average (1, 1, 1)%nat 1 (fun _ _ => 0) 1 fd_smearing 1 (fun _ => (0, 0, 0)) X = X 0%nat (0, 0, 0)%nat 0%nat 0%nat.
Proof.
  unfold fermi_average, fermi_sum, mesh_sum. cbn [rsum]. replace (0 / 1) with 0 by field. rewrite delta0. field.
Qed.

Lemma result2_stable iq nu : (iq < 1)%nat -> (nu < 2)%nat -> 1 / 100 <= (fun (_ n : nat) => match n with O => 1 / 4 | _ => 9 / 4 end) iq nu.
Proof. intros _ H. destruct nu; lra. Qed.

Lemma coupling2_value nu : (nu < 2)%nat -> coupling2 (fun _ => 4) 2 U2 (fun x => d2 0 x (0, 0, 0)%nat 0 0) nu = 1 / 2.
Proof.
  intros H. unfold coupling2. rewrite sqrt4. assert (Q : sqrt (1 / 2) * sqrt (1 / 2) = 1 / 2) by (apply sqrt_sqrt; lra).
  assert (E : csum 2 (fun x => d2 0 x (0, 0, 0)%nat 0 0 * U2 x nu / RtoC 2)%C = RtoC (sqrt (1 / 2))).
  { cbn [csum]. unfold d2, U2. cbn [Nat.eqb Nat.mul]. unfold Cdiv. rewrite <- RtoC_inv by lra. apply c_ext; cbn; field. }
  rewrite E, abs2_R. exact Q.
Qed.

Lemma result2_premises : 0 < fermi_sum (1, 1, 1)%nat 1 (fun _ _ => 0) 1 fd_smearing 1 (fun _ => (0, 0, 0)) (fun _ _ _ _ => 1) /\ nonneg (MdModel.delta fd_smearing).
Proof.
  split; [|exact (proj2 (proj2 DiagProps.fd_ok))]. unfold fermi_sum, mesh_sum. cbn [rsum]. replace (0 / 1) with 0 by field. rewrite delta0. lra.
Qed.

Lemma dos2 : dos (1, 1, 1)%nat 1 (fun _ _ => 0) 1 fd_smearing = 1 / 4.
Proof. unfold dos, mesh_sum. cbn [rsum]. replace (0 / 1) with 0 by field. rewrite delta0. cbn. field. Qed.

Example C95_example : fst (fst (fst result2)) = 5 / 9 /\ snd (fst result2) = sqrt (9 / 20) /\ snd result2 = 1 / 2 /\
  1 / 2 <= snd (fst (fst result2)) <= snd (fst result2).
Proof.
  destruct result2_premises as [Pd Nn].
  assert (F := C95_formula (1, 1, 1)%nat 1 (fun _ _ => 0) 1 fd_smearing (fun _ => 4) 1 2 (fun _ => (0, 0, 0)) eigh2 (1 / 100) (fun _ => D2) d2
    ltac:(lra) Nn ltac:(lra) ltac:(intros; lra) eigh2_ok ltac:(intros; exact D2_hermitian) Pd
    (fun _ n => match n with O => 1 / 4 | _ => 9 / 4 end) (fun _ => U2) ltac:(intros; exact D2_massive) ltac:(lia) ltac:(lia)).
  assert (G := C95_averages (1, 1, 1)%nat 1 (fun _ _ => 0) 1 fd_smearing (fun _ => 4) 1 2 (fun _ => (0, 0, 0)) eigh2 (1 / 100) (fun _ => D2) d2
    ltac:(lra) Nn ltac:(lra) ltac:(intros; lra) eigh2_ok ltac:(intros; exact D2_hermitian) Pd
    (fun _ n => match n with O => 1 / 4 | _ => 9 / 4 end) (fun _ => U2) ltac:(intros; exact D2_massive) (1 / 2) (3 / 2)).
  rewrite !average2, dos2 in F. destruct F as (F1 & _ & F3 & F4 & F5). cbn [rsum] in F1, F3. rewrite !coupling2_value in F1, F3 by lia.
  destruct (Rlt_dec (1 / 4) (1 / 100)) as [L|_] in F1, F3; [lra|]. destruct (Rlt_dec (9 / 4) (1 / 100)) as [L|_] in F1, F3; [lra|].
  assert (E1 : fst (fst (fst result2)) = 5 / 9) by (rewrite F1; field). split; [exact E1|].
  split; [rewrite F3; f_equal; field|]. split.
  - set (w := snd result2) in *. clearbody w. assert (E : w * Rabs w = 1 / 4).
    { pose proof (F4 0%nat 0%nat ltac:(lia) ltac:(lia)) as A. cbn in A. destruct F5 as (iq & [|nu] & _ & _ & E); cbn in E; lra. }
    destruct (Rle_dec 0 w) as [P|P]; [rewrite Rabs_pos_eq in E by exact P; nra|rewrite Rabs_left in E by lra; nra].
  - destruct G as (_ & G1 & G2 & _); [rewrite E1; lra|lra|lra| |split; assumption]. intros iq [|nu] _ _ _; cbn; lra.
Qed.

(** The same coupling strength from the inverse force constants *)
Definition X2 (i j : nat) : C := if Nat.eqb i j then RtoC (5 / 9) else RtoC (4 / 9).
Example C95_masses_example : inverse 2 D2 X2 /\ fst (fst (fst result2)) = 1 / 4 * energy 2 X2 (fun x => conj (d2 0 x (0, 0, 0)%nat 0 0)).
Proof.
  assert (HX : inverse 2 D2 X2).
  { intros i j Hi Hj. destruct i as [|[|i]]; try lia; destruct j as [|[|j]]; try lia; unfold D2, X2, HermSpec.delta; cbn; split; apply c_ext; cbn; field. }
  split; [exact HX|].
  rewrite (C95_masses (1, 1, 1)%nat 1 (fun _ _ => 0) 1 fd_smearing (fun _ => 4) 1 2 (fun _ => (0, 0, 0)) eigh2 (1 / 100) (fun _ => D2) d2
    ltac:(lra) ltac:(intros; lra) eigh2_ok ltac:(intros; exact D2_hermitian)
    (fun _ n => match n with O => 1 / 4 | _ => 9 / 4 end) (fun _ => U2) ltac:(intros; exact D2_massive) result2_stable (fun _ => X2) ltac:(intros; exact HX)).
  rewrite average2, dos2. reflexivity.
Qed.
