(** Proofs about FourModel.v. *)
From Coq Require Import Reals Lra Lia Permutation.
From Verif Require Import Common CommonProofs LatModel LatProofs SymModel SymSpec SymProofs VorModel VorSpec VorProofs Num NumProofs NumC RootsProofs FourModel.
Local Open Scope R_scope.

Add Ring Cring2 : (@n_ring C).

Lemma zero_small angle nk : (0 < nk)%Z -> small_shift angle nk 0.
Proof. intros H. unfold small_shift. destruct (angle =? 90)%Z; unfold Qlt; cbn; lia. Qed.

Section Four.
  Context (sign angle N : Z) (data : Z -> Z -> C).
  Hypothesis HN : (0 < N)%Z.
  Hypothesis Hs : (sign = 1 \/ sign = -1)%Z.
  Hypothesis Ha : (angle = 60 \/ angle = 90 \/ angle = 120)%Z.

  Let w := 2 * PI / IZR N.

  (** The phase of a point at integer arguments depends on its class only. *)
  Lemma phase_class p k x y : same_class N p k ->
    expi (- IZR sign * w * (IZR (fst p) * IZR x + IZR (snd p) * IZR y)) =
    expi (- IZR sign * w * (IZR (fst k) * IZR x + IZR (snd k) * IZR y)).
  Proof.
    intros [H1 H2]. apply Z.mod_divide in H1, H2; try lia. destruct H1 as [a H1], H2 as [b H2].
    replace (fst p) with (fst k + a * N)%Z by lia. replace (snd p) with (snd k + b * N)%Z by lia.
    assert (HR : IZR N <> 0) by (apply not_0_IZR; lia).
    replace (- IZR sign * w * (IZR (fst k + a * N) * IZR x + IZR (snd k + b * N) * IZR y)) with
      (- IZR sign * w * (IZR (fst k) * IZR x + IZR (snd k) * IZR y) + 2 * PI * IZR (- sign * (a * x + b * y))).
    - rewrite expi_add, expi_2PI. destruct (expi _). cbn. apply f_equal2; ring.
    - unfold w. rewrite !plus_IZR, !mult_IZR, opp_IZR, plus_IZR, !mult_IZR. field. exact HR.
  Qed.

  Definition term (x y : Z) (k : pt) : C :=
    nmul (expi (- IZR sign * w * (IZR (fst k) * IZR x + IZR (snd k) * IZR y))) (coefficient sign N data (fst k) (snd k)).

  Lemma fourier_points_sum ks : forall acc, exists pts,
    fold_left (fun points k =>
      do points <- points ;;
      let c := coefficient sign N data (fst k) (snd k) in
      if tiny c then Ok points
      else
        do images <- to_Voronoi k N (180 - angle) 0 0 0 ;;
        Ok (points ++ map (fun p => (p, nmul c (RtoC (/ INR (length images))))) images)) ks (Ok acc) = Ok (acc ++ pts) /\
    forall x y, nsum (fun p => nmul (expi (- IZR sign * w * (IZR (fst (fst p)) * IZR x + IZR (snd (fst p)) * IZR y))) (snd p)) pts =
      nsum (term x y) (filter (fun k => negb (tiny (coefficient sign N data (fst k) (snd k)))) ks).
  Proof.
    induction ks as [|k ks IH]; intros acc; cbn [fold_left filter].
    - exists []. rewrite app_nil_r. split; [reflexivity|]. intros. reflexivity.
    - cbn [bind]. cbv zeta. destruct (tiny (coefficient sign N data (fst k) (snd k))) eqn:E; cbn [negb].
      + apply IH.
      + assert (Ha' : allowed_angle (180 - angle)) by (unfold allowed_angle; lia).
        destruct (to_Voronoi_nearest k N (180 - angle) 0 0 Ha' HN (zero_small _ _ HN) (zero_small _ _ HN)) as (l & El & Hnd & Hne & Hl).
        rewrite El. cbn [bind]. set (c := coefficient sign N data (fst k) (snd k)).
        destruct (IH (acc ++ map (fun p => (p, nmul c (RtoC (/ INR (length l))))) l)) as (pts & Ep & Hp).
        exists (map (fun p => (p, nmul c (RtoC (/ INR (length l))))) l ++ pts). split; [rewrite app_assoc; exact Ep|].
        intros x y. rewrite nsum_app, nsum_map, Hp. cbn [nsum fst snd]. f_equal. unfold term. fold c.
        rewrite (nsum_ext _ (fun _ => nmul (nmul (expi (- IZR sign * w * (IZR (fst k) * IZR x + IZR (snd k) * IZR y))) c) (RtoC (/ INR (length l))))).
        2: { intros p Hin. apply Hl in Hin. rewrite (phase_class p k x y (proj1 Hin)). ring. }
        rewrite nsum_mul_l. replace (nsum (fun _ : pt => RtoC (/ INR (length l))) l) with (@n1 C); [ring|].
        assert (Hc : forall l' : list pt, nsum (fun _ => RtoC (/ INR (length l))) l' = RtoC (INR (length l') * / INR (length l))).
        { induction l' as [|q l' IHl]; [cbn; apply f_equal2; ring|]. cbn [nsum length]. rewrite IHl, S_INR. cbn. apply f_equal2; ring. }
        rewrite Hc, Rinv_r; [reflexivity|]. apply not_0_INR. destruct l; [congruence|cbn; lia].
  Qed.

  (** Fourier inversion on the mesh. *)
  Lemma nsum_prod {A B} (f : A * B -> C) l l' : nsum f (list_prod l l') = nsum (fun a => nsum (fun b => f (a, b)) l') l.
  Proof.
    induction l as [|a l IH]; cbn [list_prod nsum]; [reflexivity|]. rewrite nsum_app, nsum_map, IH. reflexivity.
  Qed.

  Lemma inversion x y : (0 <= x < N)%Z -> (0 <= y < N)%Z -> nsum (term x y) (mesh2 N) = data x y.
  Proof.
    intros Hx Hy. unfold mesh2. etransitivity; [exact (nsum_prod (term x y) (zrange 0 N) (zrange 0 N))|]. unfold term, coefficient. cbn [fst snd].
    assert (HR : IZR N <> 0) by (apply not_0_IZR; lia).
    (* collect the phases *)
    rewrite (nsum_ext _ (fun n => nsum (fun i => nsum (fun j => 
       nmul (nmul (expi (IZR sign * w * IZR (n * (i - x)))) (RtoC (/ IZR N))) 
         (nmul (data i j) (nsum (fun m => nmul (expi (IZR sign * w * IZR (m * (j - y)))) (RtoC (/ IZR N))) (zrange 0 N)))) (zrange 0 N)) (zrange 0 N))).
    2: { intros n _. rewrite (nsum_ext _ (fun m => nsum (fun i => nsum (fun j => 
           nmul (nmul (nmul (expi (IZR sign * w * IZR (n * (i - x)))) (RtoC (/ IZR N))) (data i j))
             (nmul (expi (IZR sign * w * IZR (m * (j - y)))) (RtoC (/ IZR N)))) (zrange 0 N)) (zrange 0 N))).
         2: { intros m _. rewrite <- nsum_mul_l. apply nsum_ext. intros i _. rewrite <- nsum_mul_l. apply nsum_ext. intros j _.
              unfold transform. fold w.
              replace (- IZR sign * w * (IZR n * IZR x + IZR m * IZR y)) with (IZR sign * w * IZR (n * (- x)) + IZR sign * w * IZR (m * (- y)))
                by (rewrite !mult_IZR, !opp_IZR; ring).
              replace (IZR sign * w * IZR (n * (i - x))) with (IZR sign * w * IZR (n * i) + IZR sign * w * IZR (n * (- x)))
                by (rewrite !mult_IZR, minus_IZR, opp_IZR; ring).
              replace (IZR sign * w * IZR (m * (j - y))) with (IZR sign * w * IZR (j * m) + IZR sign * w * IZR (m * (- y)))
                by (rewrite !mult_IZR, minus_IZR, opp_IZR; ring).
              rewrite !expi_add. ring. }
         rewrite nsum_swap. apply nsum_ext. intros i _. rewrite nsum_swap. apply nsum_ext. intros j _.
         rewrite nsum_mul_l. ring. }
    rewrite nsum_swap.
    assert (Hdelta : forall u t, (0 <= u < N)%Z -> (0 <= t < N)%Z ->
      nsum (fun m => nmul (expi (IZR sign * w * IZR (m * (u - t)))) (RtoC (/ IZR N))) (zrange 0 N) = if (u =? t)%Z then n1 else n0).
    { intros u t Hu Ht. rewrite nsum_mul_r. unfold w. rewrite roots_sum_sign by assumption.
      destruct (Z.eqb_spec u t) as [-> |Hne].
      - rewrite Z.sub_diag, Z.mod_0_l by lia. cbn. apply f_equal2; [field; exact HR|ring].
      - destruct (Z.eqb_spec ((u - t) mod N) 0) as [E|E]; [|ring]. exfalso. apply Z.mod_divide in E; [|lia]. destruct E as [c Hc]. assert (c = 0)%Z by nia. nia. }
    rewrite (nsum_single _ (zrange 0 N) x).
    - rewrite nsum_swap. rewrite (nsum_single _ (zrange 0 N) y).
      + rewrite nsum_mul_r. rewrite (Hdelta x x Hx Hx), (Hdelta y y Hy Hy), !Z.eqb_refl. ring.
      + apply NoDup_zrange.
      + apply in_zrange. lia.
      + intros j Hj Hne. apply in_zrange in Hj. rewrite nsum_mul_r, (Hdelta j y) by lia. rewrite (proj2 (Z.eqb_neq j y) Hne). ring.
    - apply NoDup_zrange.
    - apply in_zrange. lia.
    - intros i Hi Hne. apply in_zrange in Hi. rewrite nsum_swap. apply nsum_zero. intros j _. rewrite nsum_mul_r, (Hdelta i x) by lia.
      rewrite (proj2 (Z.eqb_neq i x) Hne). ring.
  Qed.

  Lemma nsum_filter_neg {A} (f : A -> C) g l : nsum f (filter (fun x => negb (g x)) l) = nsub (nsum f l) (nsum f (filter g l)).
  Proof. induction l as [|x l IH]; cbn [filter nsum]; [ring|]. destruct (g x); cbn [negb nsum]; rewrite IH; ring. Qed.

  Lemma Re_bound t (z : C) : Rabs (Re (nmul (expi t) z)) <= sqrt (Re z * Re z + Im z * Im z).
  Proof.
    destruct z as [a b]. unfold expi. cbn. rewrite <- sqrt_Rsqr_abs. apply sqrt_le_1_alt. unfold Rsqr.
    pose proof (sin2_cos2 t) as E. unfold Rsqr in E. assert (E' : sin t * sin t = 1 - cos t * cos t) by lra.
    replace ((cos t * a - sin t * b) * (cos t * a - sin t * b)) with
      ((a * a + b * b) * (cos t * cos t + sin t * sin t) - (cos t * b + sin t * a) * (cos t * b + sin t * a)) by ring.
    replace (cos t * cos t + sin t * sin t) with 1 by lra. pose proof (Rle_0_sqr (cos t * b + sin t * a)) as Hq. unfold Rsqr in Hq. lra.
  Qed.

  Lemma Re_sum_bound {A} (f : A -> C) d l : (forall x, In x l -> Rabs (Re (f x)) <= d) -> Rabs (Re (nsum f l)) <= INR (length l) * d.
  Proof.
    induction l as [|x l IH]; intros H.
    - cbn. rewrite Rabs_R0. lra.
    - cbn [nsum length]. rewrite S_INR. specialize (IH (fun y h => H y (or_intror h))). pose proof (H x (or_introl eq_refl)) as Hx.
      replace (Re (nadd (f x) (nsum f l))) with (Re (f x) + Re (nsum f l)) by reflexivity.
      pose proof (Rabs_triang (Re (f x)) (Re (nsum f l))). lra.
  Qed.

  Lemma filter_len {A} (g : A -> bool) l : (length (filter g l) <= length l)%nat.
  Proof. induction l as [|x l IH]; cbn; [lia|]. destruct (g x); cbn; lia. Qed.

  Lemma mesh2_length : INR (length (mesh2 N)) = IZR N * IZR N.
  Proof.
    assert (E : length (mesh2 N) = (length (zrange 0 N) * length (zrange 0 N))%nat) by apply prod_length.
    rewrite E, mult_INR. unfold zrange. rewrite map_length, seq_length, !INR_IZR_INZ, Z2Nat.id by lia. rewrite Z.sub_0_r. reflexivity.
  Qed.

  (** Main result: up to the dropped coefficients, mesh data are reproduced. *)
  Lemma fourier_interpolation_mesh : exists f, Fourier_interpolation data N angle sign = Ok f /\
    (forall x y, (0 <= x < N)%Z -> (0 <= y < N)%Z -> Rabs (f (IZR x) (IZR y) - Re (data x y)) <= IZR N * IZR N * (1 / 1000000)) /\
    ((forall n m, (0 <= n < N)%Z -> (0 <= m < N)%Z -> tiny (coefficient sign N data n m) = true -> coefficient sign N data n m = n0) ->
      forall x y, (0 <= x < N)%Z -> (0 <= y < N)%Z -> f (IZR x) (IZR y) = Re (data x y)).
  Proof.
    unfold Fourier_interpolation. rewrite (proj2 (Z.eqb_neq N 0)) by lia. unfold fourier_points.
    destruct (fourier_points_sum (mesh2 N) []) as (pts & Ep & Hp). cbn [app] in Ep. setoid_rewrite Ep. cbn [bind]. eexists. split; [reflexivity|].
    assert (E : forall x y, (0 <= x < N)%Z -> (0 <= y < N)%Z -> interpolant sign N pts (IZR x) (IZR y) - Re (data x y) =
      - Re (nsum (term x y) (filter (fun k => tiny (coefficient sign N data (fst k) (snd k))) (mesh2 N)))).
    { intros x y Hx Hy. unfold interpolant. fold w. rewrite Hp, (nsum_filter_neg _ (fun k => tiny (coefficient sign N data (fst k) (snd k)))), inversion by assumption.
      destruct (data x y) as [a b], (nsum _ _) as [c d]. cbn. ring. }
    split.
    - intros x y Hx Hy. rewrite E, Rabs_Ropp by assumption. eapply Rle_trans; [apply (Re_sum_bound _ (1 / 1000000))|].
      + intros k Hk. apply filter_In in Hk. destruct Hk as [_ Hk]. unfold term. eapply Rle_trans; [apply Re_bound|].
        unfold tiny in Hk. destruct (Rlt_dec _ _) in Hk; [lra|discriminate].
      + rewrite <- mesh2_length. apply Rmult_le_compat_r; [lra|]. apply le_INR. apply filter_len.
    - intros Hz x y Hx Hy. specialize (E x y Hx Hy). rewrite nsum_zero in E; [cbn in E; lra|].
      intros [n m] Hk. apply filter_In in Hk. destruct Hk as [Hk Ht]. unfold mesh2 in Hk. apply in_prod_iff in Hk.
      destruct Hk as [H1 H2]. apply in_zrange in H1, H2. cbn [fst snd] in Ht. unfold term. cbn [fst snd]. rewrite (Hz n m H1 H2 Ht). ring.
  Qed.

  (** The interpolant is periodic in both (real) arguments. *)
  Lemma fourier_periodic f : Fourier_interpolation data N angle sign = Ok f ->
    forall x y a b, f (x + IZR (a * N)) (y + IZR (b * N)) = f x y.
  Proof.
    unfold Fourier_interpolation. rewrite (proj2 (Z.eqb_neq N 0)) by lia. destruct (fourier_points _ _ _ _) as [pts|]; cbn [bind]; [|discriminate].
    intros H. injection H as <-. intros x y a b. unfold interpolant. f_equal. apply nsum_ext. intros p _. f_equal.
    assert (HR : IZR N <> 0) by (apply not_0_IZR; lia).
    replace (- IZR sign * (2 * PI / IZR N) * (IZR (fst (fst p)) * (x + IZR (a * N)) + IZR (snd (fst p)) * (y + IZR (b * N)))) with
      (- IZR sign * (2 * PI / IZR N) * (IZR (fst (fst p)) * x + IZR (snd (fst p)) * y) + 2 * PI * IZR (- sign * (fst (fst p) * a + snd (fst p) * b))).
    - rewrite expi_add, expi_2PI. destruct (expi _). cbn. apply f_equal2; ring.
    - rewrite !mult_IZR, opp_IZR, plus_IZR, !mult_IZR. field. exact HR.
  Qed.
End Four.

(** Small data vanish altogether. *)
Lemma fourier_small : exists f, Fourier_interpolation (fun _ _ => RtoC (1 / 10000000)) 1 60 (-1) = Ok f /\ f 0 0 = 0.
Proof.
  unfold Fourier_interpolation, fourier_points. cbn [mesh2 zrange].
  assert (E0 : coefficient (-1) 1 (fun _ _ => RtoC (1 / 10000000)) 0 0 = RtoC (1 / 10000000)).
  { unfold coefficient. change (zrange 0 1) with [0%Z]. cbn [nsum]. unfold transform. change (0 * 0)%Z with 0%Z.
    rewrite Rmult_0_r, expi_0. cbn. apply f_equal2; field. }
  assert (E : tiny (coefficient (-1) 1 (fun _ _ => RtoC (1 / 10000000)) 0 0) = true).
  { rewrite E0. unfold tiny, Re, Im, RtoC. cbn [fst snd]. rewrite Rmult_0_r, Rplus_0_r, sqrt_square by lra.
    destruct (Rlt_dec _ _) as [H|H]; [reflexivity|]. exfalso. apply H. lra. }
  change (mesh2 1) with [(0, 0)%Z]. cbn [fold_left bind fst snd]. cbv zeta. rewrite E. change (1 =? 0)%Z with false. cbn iota. cbn [bind].
  eexists. split; [reflexivity|]. reflexivity.
Qed.
