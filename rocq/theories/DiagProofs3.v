(** Proofs about diagrams: phonon self-energy and susceptibility. *)
From Coq Require Import Reals Lra Lia List ZArith Arith.
From Coquelicot Require Import Complex.
From Verif Require Import Common Cx CxProofs MPIModel MdModel DiagModel DiagSpec DiagProofs DiagProofs2.
Local Open Scope R_scope.

(** ** Cauchy-Schwarz inequality for sums *)
Lemma cs_step (Y y : C) A a B b : 0 <= A -> 0 <= a -> 0 <= B -> 0 <= b -> abs2 Y <= A * B -> abs2 y <= a * b -> abs2 (Y + y)%C <= (A + a) * (B + b).
Proof.
  destruct Y as [Y1 Y2], y as [y1 y2]. unfold abs2. cbn [fst snd Cplus]. intros HA Ha HB Hb H1 H2.
  assert (P : (Y1 * y1 + Y2 * y2) * (Y1 * y1 + Y2 * y2) <= (A * b) * (a * B)).
  { assert ((Y1 * y1 + Y2 * y2) * (Y1 * y1 + Y2 * y2) <= (Y1 * Y1 + Y2 * Y2) * (y1 * y1 + y2 * y2)) by (pose proof (Rle_0_sqr (Y1 * y2 - Y2 * y1)) as S; unfold Rsqr in S; lra).
    assert ((Y1 * Y1 + Y2 * Y2) * (y1 * y1 + y2 * y2) <= (A * B) * (a * b)) by (apply Rmult_le_compat; nra). lra. }
  assert (Q : 2 * (Y1 * y1 + Y2 * y2) <= A * b + a * B).
  { assert (N1 : 0 <= A * b) by nra. assert (N2 : 0 <= a * B) by nra. revert P N1 N2. generalize (A * b) (a * B) (Y1 * y1 + Y2 * y2). intros p q r P N1 N2.
    apply Rnot_lt_le. intros L. assert ((p + q) * (p + q) < (2 * r) * (2 * r)) by nra. pose proof (Rle_0_sqr (p - q)) as S. unfold Rsqr in S. lra. }
  lra.
Qed.

Lemma cs_csum n (Y : nat -> C) (A B : nat -> C) : (forall i, (i < n)%nat -> 0 <= fst (A i)) -> (forall i, (i < n)%nat -> 0 <= fst (B i)) ->
  (forall i, (i < n)%nat -> abs2 (Y i) <= fst (A i) * fst (B i)) ->
  0 <= fst (csum n A) /\ 0 <= fst (csum n B) /\ abs2 (csum n Y) <= fst (csum n A) * fst (csum n B).
Proof.
  induction n as [|n IH]; intros HA HB H.
  - unfold abs2. cbn. repeat split; lra.
  - destruct IH as (I1 & I2 & I3); [intros; apply HA; lia|intros; apply HB; lia|intros; apply H; lia|].
    assert (E : forall f, csum (S n) f = (csum n f + f n)%C) by reflexivity. rewrite !E.
    pose proof (HA n ltac:(lia)). pose proof (HB n ltac:(lia)). split; [|split]; [cbn; lra|cbn; lra|].
    apply cs_step; try assumption. apply H. lia.
Qed.

Lemma cs_ksum nk (Y A B : pt -> C) : (forall k, on_mesh nk k -> 0 <= fst (A k)) -> (forall k, on_mesh nk k -> 0 <= fst (B k)) ->
  (forall k, on_mesh nk k -> abs2 (Y k) <= fst (A k) * fst (B k)) -> abs2 (ksum nk Y) <= fst (ksum nk A) * fst (ksum nk B).
Proof.
  destruct nk as [[n1 n2] n3]. cbn [ksum on_mesh]. intros HA HB H.
  assert (H3 : forall i j, (i < n1)%nat -> (j < n2)%nat ->
    0 <= fst (csum n3 (fun l => A (i, j, l))) /\ 0 <= fst (csum n3 (fun l => B (i, j, l))) /\
    abs2 (csum n3 (fun l => Y (i, j, l))) <= fst (csum n3 (fun l => A (i, j, l))) * fst (csum n3 (fun l => B (i, j, l)))).
  { intros i j Hi Hj. apply cs_csum; intros l Hl; [apply (HA (i, j, l))|apply (HB (i, j, l))|apply (H (i, j, l))]; auto. }
  assert (H2 : forall i, (i < n1)%nat ->
    0 <= fst (csum n2 (fun j => csum n3 (fun l => A (i, j, l)))) /\ 0 <= fst (csum n2 (fun j => csum n3 (fun l => B (i, j, l)))) /\
    abs2 (csum n2 (fun j => csum n3 (fun l => Y (i, j, l)))) <= fst (csum n2 (fun j => csum n3 (fun l => A (i, j, l)))) * fst (csum n2 (fun j => csum n3 (fun l => B (i, j, l))))).
  { intros i Hi. apply cs_csum; intros j Hj; apply H3; auto. }
  apply cs_csum; intros i Hi; apply H2; auto.
Qed.

Lemma Cdiv_conj (z w : C) : w <> RtoC 0 -> conj (z / w)%C = (conj z / conj w)%C.
Proof.
  destruct w as [a b]. intros H. assert (N : a * a + b * b <> 0).
  { intros E. apply H. apply c_ext; cbn; nra. }
  apply c_ext; cbn; field; (intros E; apply N; nra).
Qed.

Section SelfEnergy.
  Variables (nk : pt) (nbnd : nat) (e : pt -> nat -> R) (kT eps : R) (s : smearing).
  Hypotheses (Hnk : nonempty nk) (HkT : 0 < kT) (Heps : 0 <= eps).
  Notation win := (option (R * bool * smearing * R)).

  Lemma dfde_static (w : win) q k m n : dfde_ nk e kT eps s (RtoC 0) w q k m n = RtoC (weight kT eps s (e (kadd nk q k) m) (e k n) * envelope nk e w q k m n).
  Proof.
    unfold dfde_. destruct Ceq_dec as [_|N]; [|congruence]. unfold f_, d_. rewrite !at_kq_eq, weight_opp by exact Heps. symmetry. apply RtoC_mult'.
  Qed.

  (** A window function that does not become negative *)
  Definition envelope_ok (w : win) : Prop :=
    match w with Some (_, diff, sD, kTD) => diff = false /\ fraction sD | None => True end.

  Lemma envelope_nonneg w q k m n : envelope_ok w -> 0 <= envelope nk e w q k m n.
  Proof.
    destruct w as [[[[D diff] sD] kTD]|]; cbn; [|lra]. intros (-> & F). rewrite !at_kq_eq. unfold Theta.
    pose proof (F ((e (kadd nk q k) m - D) / kTD)). pose proof (F ((- e (kadd nk q k) m - D) / kTD)). pose proof (F ((e k n - D) / kTD)). pose proof (F ((- e k n - D) / kTD)).
    apply Rmult_le_pos; lra.
  Qed.

  Lemma envelope_swap w q k m n : on_mesh nk k ->
    envelope nk e w (q_indices nk (qneg q)) (kadd nk (q_indices nk q) k) n m = envelope nk e w (q_indices nk q) k m n.
  Proof.
    intros Hk. destruct w as [[[[D diff] sD] kTD]|]; cbn; [|reflexivity]. rewrite !at_kq_eq, kadd_neg by exact Hk. destruct diff; ring.
  Qed.

  Definition W0 (w : win) q k m n : R := weight kT eps s (e (kadd nk q k) m) (e k n) * envelope nk e w q k m n.

  Lemma W0_nonpos w q k m n : decreasing s -> nonneg (delta s) -> envelope_ok w -> W0 w q k m n <= 0.
  Proof.
    intros D N O. unfold W0. pose proof (weight_nonpos kT eps s HkT Heps (e (kadd nk q k) m) (e k n) D N). pose proof (envelope_nonneg w q k m n O). nra.
  Qed.

  Lemma bubble_total w q c : bubble nk nbnd e kT eps s (RtoC 0) w q c = (RtoC (pref nk) * total nk nbnd (fun k m n => c k m n * RtoC (W0 w q k m n)))%C.
  Proof. unfold bubble. f_equal. apply total_ext. intros. rewrite dfde_static. reflexivity. Qed.

  Lemma bubble_vertices w q g sym mu nu : bubble nk nbnd e kT eps s (RtoC 0) w q (vertices g None sym mu nu) =
    (RtoC (pref nk) * total nk nbnd (fun k m n => conj (g mu k m n) * RtoC (W0 w q k m n) * g nu k m n))%C.
  Proof. rewrite bubble_total. f_equal. apply total_ext. intros. cbn [vertices]. ring. Qed.

  Notation Pi w q g G sym diag U := (self_energy_g nk nbnd e kT eps s (RtoC 0) w q g G sym diag U).

  Lemma self_energy_nonpositive nm w q g sym : decreasing s -> nonneg (delta s) -> envelope_ok w -> nonpositive nm (Pi w q g None sym false None).
  Proof.
    intros D N O. eapply nonpositive_ext; [intros a b; unfold self_energy_g; cbn [andb]; symmetry; apply bubble_vertices|].
    apply (form_nonpositive nk nbnd nm (pref nk) (W0 w (q_indices nk q)) g); [apply pref_nonneg; exact Hnk|]. intros. apply W0_nonpos; assumption.
  Qed.

  Lemma self_energy_conj w q (g g' : nat -> pt -> nat -> nat -> C) sym mu nu : separated nk nbnd e eps ->
    (forall x k m n, on_mesh nk k -> (m < nbnd)%nat -> (n < nbnd)%nat -> g' x (kadd nk (q_indices nk q) k) n m = conj (g x k m n)) ->
    Pi w (qneg q) g' None sym false None mu nu = conj (Pi w q g None sym false None mu nu).
  Proof.
    intros Sep Hg. unfold self_energy_g. cbn [andb]. rewrite !bubble_vertices, conj_mult, conj_R, total_conj. f_equal. rewrite (total_swap nk nbnd _ (q_indices nk q)).
    apply total_ext. intros k m n Hk Hm Hn. rewrite !Hg, !conj_mult, !conj_conj, conj_R by assumption. unfold W0. rewrite kadd_neg, envelope_swap by exact Hk.
    rewrite (weight_sym kT eps s Heps (e k n)) by (intros; apply Sep; auto using kadd_on). ring.
  Qed.

  (** Two different sets of couplings *)
  Lemma vertices_sym g G mu nu k m n : vertices g (Some G) true nu mu k m n = conj (vertices g (Some G) true mu nu k m n).
  Proof.
    cbn [vertices]. rewrite Cdiv_conj by (intros E; apply (f_equal fst) in E; cbn in E; lra). rewrite conj_plus, !conj_mult, !conj_conj, conj_R. f_equal. ring.
  Qed.

  Lemma self_energy_symmetrized w q g G mu nu :
    Pi w q g (Some G) true false None nu mu = conj (Pi w q g (Some G) true false None mu nu).
  Proof.
    unfold self_energy_g. cbn [andb]. rewrite !bubble_total, conj_mult, conj_R, total_conj. f_equal. apply total_ext. intros. rewrite vertices_sym, conj_mult, conj_R. reflexivity.
  Qed.

  Lemma self_energy_symmetrized_same w q g mu nu : Pi w q g (Some g) true false None mu nu = Pi w q g None true false None mu nu.
  Proof.
    unfold self_energy_g. cbn [andb]. rewrite !bubble_total. f_equal. apply total_ext. intros. f_equal. cbn [vertices]. apply c_ext; cbn; field.
  Qed.

  (** Contact term *)
  Section Contact.
    Variables (w : win) (nm : nat) (q : pt) (g : nat -> pt -> nat -> nat -> C) (u : nat -> nat -> R).
    Hypotheses (D : decreasing s) (N : nonneg (delta s)) (O : envelope_ok w) (Hu : forall m n, 0 <= u m n).

    Definition A_ m n : R := - fst (RtoC (pref nk) * ksum nk (fun k => dfde_ nk e kT eps s (RtoC 0) w q k m n))%C.

    Lemma ksum_R (F : pt -> R) : ksum nk (fun k => RtoC (F k)) = RtoC (fst (ksum nk (fun k => RtoC (F k)))).
    Proof.
      apply c_ext; [reflexivity|]. pose proof (ksum_conj nk (fun k => RtoC (F k))) as E.
      rewrite (ksum_ext nk (fun k => conj _) (fun k => RtoC (F k))) in E by (intros; apply conj_R). apply (f_equal snd) in E. unfold conj in E. cbn [snd] in *. cbn [RtoC snd]. lra.
    Qed.

    Lemma chi0_A m n : (RtoC (pref nk) * ksum nk (fun k => dfde_ nk e kT eps s (RtoC 0) w q k m n) = RtoC (- A_ m n))%C.
    Proof.
      unfold A_. rewrite (ksum_ext nk _ (fun k => RtoC (W0 w q k m n))) by (intros; apply dfde_static). rewrite ksum_R. cring.
    Qed.

    Lemma A_nonneg m n : 0 <= A_ m n.
    Proof.
      unfold A_. rewrite fst_RtoC_mult. pose proof (pref_nonneg nk Hnk).
      assert (fst (ksum nk (fun k => dfde_ nk e kT eps s (RtoC 0) w q k m n)) <= 0); [|nra]. apply ksum_nonpos. intros k Hk. rewrite dfde_static. apply W0_nonpos; assumption.
    Qed.

    Definition V m n : R := u m n / (1 + A_ m n * u m n).

    Lemma den_pos m n : 0 < 1 + A_ m n * u m n.
    Proof. pose proof (A_nonneg m n). pose proof (Hu m n). nra. Qed.

    Lemma contact_eq mu nu : contact_term nk nbnd e kT eps s (RtoC 0) w q g g (fun m n => RtoC (u m n)) mu nu =
      csum nbnd (fun m => csum nbnd (fun n => conj (RtoC (pref nk) * ksum nk (fun k => RtoC (W0 w q k m n) * g mu k m n)) * RtoC (V m n) * (RtoC (pref nk) * ksum nk (fun k => RtoC (W0 w q k m n) * g nu k m n))))%C.
    Proof.
      unfold contact_term. apply csum_ext. intros m _. apply csum_ext. intros n _. rewrite chi0_A. f_equal; [f_equal|].
      - rewrite conj_mult, conj_R, ksum_conj. f_equal. apply ksum_ext. intros k _. rewrite dfde_static, conj_mult, conj_R. unfold W0. ring.
      - unfold V. pose proof (den_pos m n). apply c_ext; cbn; field; lra.
      - f_equal. apply ksum_ext. intros k _. rewrite dfde_static. reflexivity.
    Qed.

    Definition y_ (v : nat -> C) k m n : C := csum nm (fun a => g a k m n * v a)%C.
    Definition B_ v m n : R := - (pref nk * fst (ksum nk (fun k => RtoC (W0 w q k m n * abs2 (y_ v k m n))))).
    Definition Y_ v m n : C := (RtoC (pref nk) * ksum nk (fun k => RtoC (W0 w q k m n) * y_ v k m n))%C.

    Lemma cs_Y v m n : abs2 (Y_ v m n) <= A_ m n * B_ v m n.
    Proof.
      pose proof (pref_nonneg nk Hnk) as Hp. unfold Y_, A_, B_. rewrite abs2_mult, abs2_R, fst_RtoC_mult.
      rewrite (ksum_ext nk (fun k => dfde_ _ _ _ _ _ _ _ _ _ _ _) (fun k => RtoC (W0 w q k m n))) by (intros; apply dfde_static).
      assert (CS : abs2 (ksum nk (fun k => RtoC (W0 w q k m n) * y_ v k m n))%C <= fst (ksum nk (fun k => - RtoC (W0 w q k m n)))%C * fst (ksum nk (fun k => - RtoC (W0 w q k m n * abs2 (y_ v k m n))))%C).
      { apply cs_ksum; intros k Hk; pose proof (W0_nonpos w q k m n D N O) as L.
        - cbn. lra.
        - pose proof (abs2_nonneg (y_ v k m n)). cbn. nra.
        - rewrite abs2_mult, abs2_R. cbn. apply Req_le. ring. }
      rewrite !ksum_opp in CS.
      assert (F : forall z : C, fst (- z)%C = - fst z) by reflexivity. rewrite !F in CS.
      assert (0 <= pref nk * pref nk) by nra. nra.
    Qed.

    Lemma B_nonneg v m n : 0 <= B_ v m n.
    Proof.
      pose proof (pref_nonneg nk Hnk) as Hp. unfold B_. assert (fst (ksum nk (fun k => RtoC (W0 w q k m n * abs2 (y_ v k m n)))) <= 0); [|nra].
      apply ksum_nonpos. intros k Hk. pose proof (W0_nonpos w q k m n D N O). pose proof (abs2_nonneg (y_ v k m n)). cbn. nra.
    Qed.

    Lemma form_plus n M M' v : form n (fun a b => M a b + M' a b)%C v = (form n M v + form n M' v)%C.
    Proof.
      unfold form. rewrite <- csum_plus. apply csum_ext. intros a _. rewrite <- csum_plus. apply csum_ext. intros b _. ring.
    Qed.

    Lemma form_contact v : form nm (contact_term nk nbnd e kT eps s (RtoC 0) w q g g (fun m n => RtoC (u m n))) v =
      csum nbnd (fun m => csum nbnd (fun n => RtoC (V m n * abs2 (Y_ v m n)))).
    Proof.
      unfold form.
      rewrite (csum_ext nm _ (fun a => csum nbnd (fun m => csum nbnd (fun n => csum nm (fun b => conj (v a) * (conj (RtoC (pref nk) * ksum nk (fun k => RtoC (W0 w q k m n) * g a k m n)) * RtoC (V m n) * (RtoC (pref nk) * ksum nk (fun k => RtoC (W0 w q k m n) * g b k m n))) * v b)))))%C.
      2: { intros a _. rewrite (csum_ext nm _ (fun b => csum nbnd (fun m => csum nbnd (fun n => conj (v a) * (conj (RtoC (pref nk) * ksum nk (fun k => RtoC (W0 w q k m n) * g a k m n)) * RtoC (V m n) * (RtoC (pref nk) * ksum nk (fun k => RtoC (W0 w q k m n) * g b k m n))) * v b))))%C.
        2: { intros b _. rewrite contact_eq, <- csum_scal, <- csum_scal_r. apply csum_ext. intros m _. rewrite <- csum_scal, <- csum_scal_r. reflexivity. }
        rewrite csum_swap. apply csum_ext. intros m _. apply csum_swap. }
      rewrite csum_swap. apply csum_ext. intros m _. rewrite csum_swap. apply csum_ext. intros n _.
      assert (EY : Y_ v m n = csum nm (fun b => (RtoC (pref nk) * ksum nk (fun k => RtoC (W0 w q k m n) * g b k m n)) * v b)%C).
      { unfold Y_, y_. rewrite (csum_ext nm _ (fun b => RtoC (pref nk) * ksum nk (fun k => RtoC (W0 w q k m n) * (g b k m n * v b))))%C.
        - rewrite csum_scal, <- ksum_csum. f_equal. apply ksum_ext. intros k _. rewrite csum_scal. reflexivity.
        - intros b _. rewrite <- Cmult_assoc, <- ksum_scal_r. f_equal. apply ksum_ext. intros. ring. }
      rewrite RtoC_mult', abs2_conj, EY, csum_conj.
      transitivity (csum nm (fun a => conj (RtoC (pref nk) * ksum nk (fun k => RtoC (W0 w q k m n) * g a k m n) * v a) * (RtoC (V m n) * csum nm (fun b => RtoC (pref nk) * ksum nk (fun k => RtoC (W0 w q k m n) * g b k m n) * v b))))%C.
      - apply csum_ext. intros a _. rewrite <- !csum_scal. apply csum_ext. intros b _. rewrite !conj_mult. ring.
      - rewrite csum_scal_r. ring.
    Qed.

    Lemma form_bubble v : fst (form nm (fun mu nu => bubble nk nbnd e kT eps s (RtoC 0) w q (vertices g None true mu nu)) v) =
      - rsum nbnd (fun m => rsum nbnd (fun n => B_ v m n)).
    Proof.
      transitivity (fst (RtoC (pref nk) * total nk nbnd (fun k m n => RtoC (W0 w q k m n * abs2 (y_ v k m n))))%C).
      - f_equal. etransitivity; [|apply (form_total nk nbnd nm (pref nk) (W0 w q) g v)]. unfold form. apply csum_ext. intros a _. apply csum_ext. intros b _. rewrite bubble_vertices. reflexivity.
      - rewrite fst_RtoC_mult, <- total_bands, fst_csum. unfold B_. rewrite <- rsum_scal.
        transitivity (rsum nbnd (fun m => (-1) * rsum nbnd (fun n => - (pref nk * fst (ksum nk (fun k => RtoC (W0 w q k m n * abs2 (y_ v k m n)))))))).
        + apply rsum_ext. intros m _. rewrite fst_csum, <- !rsum_scal. apply rsum_ext. intros n _. ring.
        + rewrite rsum_scal. ring.
    Qed.

    Lemma contact_bounds v :
      fst (form nm (fun mu nu => bubble nk nbnd e kT eps s (RtoC 0) w q (vertices g None true mu nu)) v) <=
      fst (form nm (fun mu nu => bubble nk nbnd e kT eps s (RtoC 0) w q (vertices g None true mu nu) + contact_term nk nbnd e kT eps s (RtoC 0) w q g g (fun m n => RtoC (u m n)) mu nu)%C v) <= 0.
    Proof.
      rewrite form_plus. assert (F : forall a b : C, fst (a + b)%C = fst a + fst b) by reflexivity. rewrite F, form_bubble, form_contact.
      assert (E : fst (csum nbnd (fun m => csum nbnd (fun n => RtoC (V m n * abs2 (Y_ v m n))))) = rsum nbnd (fun m => rsum nbnd (fun n => V m n * abs2 (Y_ v m n)))).
      { rewrite fst_csum. apply rsum_ext. intros m _. rewrite fst_csum. reflexivity. }
      rewrite E.
      assert (B : forall m n, 0 <= V m n * abs2 (Y_ v m n) <= B_ v m n).
      { intros m n. pose proof (A_nonneg m n) as HA. pose proof (B_nonneg v m n) as HB. pose proof (cs_Y v m n) as CS. pose proof (Hu m n) as Hu'. pose proof (den_pos m n) as Dn. pose proof (abs2_nonneg (Y_ v m n)) as P.
        unfold V. assert (I : 0 < / (1 + A_ m n * u m n)) by (apply Rinv_0_lt_compat, Dn). split.
        - apply Rmult_le_pos; [apply Rmult_le_pos; lra|exact P].
        - apply Rmult_le_reg_r with (1 + A_ m n * u m n); [exact Dn|]. replace (u m n / (1 + A_ m n * u m n) * abs2 (Y_ v m n) * (1 + A_ m n * u m n)) with (u m n * abs2 (Y_ v m n)) by (field; lra).
          nra. }
      assert (0 <= rsum nbnd (fun m => rsum nbnd (fun n => V m n * abs2 (Y_ v m n)))) by (apply rsum_nonneg; intros m _; apply rsum_nonneg; intros n _; apply B).
      assert (rsum nbnd (fun m => rsum nbnd (fun n => V m n * abs2 (Y_ v m n))) <= rsum nbnd (fun m => rsum nbnd (fun n => B_ v m n))) by (apply rsum_le; intros m _; apply rsum_le; intros n _; apply B).
      lra.
    Qed.

    Lemma contact_hermitian mu nu : contact_term nk nbnd e kT eps s (RtoC 0) w q g g (fun m n => RtoC (u m n)) nu mu =
      conj (contact_term nk nbnd e kT eps s (RtoC 0) w q g g (fun m n => RtoC (u m n)) mu nu).
    Proof.
      rewrite !contact_eq, csum_conj. apply csum_ext. intros m _. rewrite csum_conj. apply csum_ext. intros n _. rewrite !conj_mult, !conj_conj, !conj_R, !ksum_conj. ring.
    Qed.
  End Contact.
End SelfEnergy.

(** ** Difference quotient near degeneracies *)
Section Limit.
  Variables (kT eps : R) (s : smearing) (K : R).
  Hypotheses (HkT : 0 < kT) (Heps : 0 <= eps) (HK : 0 <= K).
  Hypothesis der : forall x, derivable_pt_lim (occ s) x (- delta s x).
  Hypothesis lip : forall x y, Rabs (delta s x - delta s y) <= K * Rabs (x - y).

  Lemma weight_limit e1 e2 : Rabs (weight kT eps s e1 e2 - - (delta s (e2 / kT) / kT)) <= K * Rabs (e1 - e2) / (kT * kT).
  Proof.
    assert (P : 0 <= K * Rabs (e1 - e2) / (kT * kT)).
    { apply Rmult_le_pos; [apply Rmult_le_pos; [exact HK|apply Rabs_pos]|]. left. apply Rinv_0_lt_compat. nra. }
    unfold weight. destruct Rlt_dec as [L|L]; [|rewrite neg_div by exact HkT; rewrite Rminus_diag_eq, Rabs_R0 by reflexivity; exact P].
    assert (NE : e1 <> e2) by (intros ->; rewrite Rminus_diag_eq, Rabs_R0 in L by reflexivity; lra).
    assert (exists z, occ s (e1 / kT) - occ s (e2 / kT) = - delta s z * (e1 / kT - e2 / kT) /\ Rabs (z - e2 / kT) <= Rabs (e1 / kT - e2 / kT)) as (z & Ez & Hz).
    { destruct (Rtotal_order (e1 / kT) (e2 / kT)) as [Lt|[Eq|Gt]].
      - destruct (MVT_cor2 (occ s) (fun x => - delta s x) _ _ Lt (fun c _ => der c)) as (z & Ez & Hz). exists z. split; [lra|]. rewrite !Rabs_left1 by lra. lra.
      - exfalso. apply NE. apply (f_equal (fun x => x * kT)) in Eq. unfold Rdiv in Eq. rewrite !Rmult_assoc, Rinv_l, !Rmult_1_r in Eq by lra. exact Eq.
      - destruct (MVT_cor2 (occ s) (fun x => - delta s x) _ _ Gt (fun c _ => der c)) as (z & Ez & Hz). exists z. split; [lra|]. rewrite !Rabs_right by lra. lra. }
    rewrite Ez. replace (- delta s z * (e1 / kT - e2 / kT) / (e1 - e2) - - (delta s (e2 / kT) / kT)) with (- (delta s z - delta s (e2 / kT)) * / kT) by (field; lra).
    rewrite Rabs_mult, Rabs_Ropp, (Rabs_right (/ kT)) by (left; apply Rinv_0_lt_compat, HkT).
    replace (K * Rabs (e1 - e2) / (kT * kT)) with (K * Rabs (e1 / kT - e2 / kT) * / kT).
    - apply Rmult_le_compat_r; [left; apply Rinv_0_lt_compat, HkT|]. eapply Rle_trans; [apply lip|]. apply Rmult_le_compat_l; assumption.
    - replace (e1 / kT - e2 / kT) with ((e1 - e2) * / kT) by (field; lra). rewrite Rabs_mult, (Rabs_right (/ kT)) by (left; apply Rinv_0_lt_compat, HkT). field. lra.
  Qed.
End Limit.

(** ** Susceptibility *)
Section Susceptibility.
  Variables (nk : nat) (e : nat -> nat -> R) (kT eta : R) (s : smearing).
  Hypotheses (Hnk : (0 < nk)%nat) (HkT : 0 < kT) (Heta : eta <> 0).

  Definition lorentzian (df de : R) : R := df * de / (de * de + eta ^ 2).

  Lemma eta_pos : 0 < eta ^ 2.
  Proof. pose proof (Rsqr_pos_lt eta Heta) as P. unfold Rsqr in P. nra. Qed.

  Lemma pref2 : 0 < 2 / INR nk ^ 2.
  Proof. apply Rmult_lt_0_compat; [lra|]. apply Rinv_0_lt_compat, pow_lt. apply (lt_INR 0). exact Hnk. Qed.

  Lemma term_nonpos e1 e2 : decreasing s -> lorentzian (occ s (e1 / kT) - occ s (e2 / kT)) (e1 - e2) <= 0.
  Proof.
    intros D. unfold lorentzian. pose proof eta_pos. assert (P : 0 < (e1 - e2) * (e1 - e2) + eta ^ 2) by (pose proof (Rle_0_sqr (e1 - e2)) as Q; unfold Rsqr in Q; lra).
    assert (N : (occ s (e1 / kT) - occ s (e2 / kT)) * (e1 - e2) <= 0).
    { destruct (Rle_dec e1 e2) as [L|L].
      - pose proof (D _ _ (div_le kT HkT e1 e2 L)). nra.
      - pose proof (D _ _ (div_le kT HkT e2 e1 ltac:(lra))). nra. }
    pose proof (Rinv_0_lt_compat _ P) as I. unfold Rdiv. rewrite <- (Rmult_0_l (/ ((e1 - e2) * (e1 - e2) + eta ^ 2))). apply Rmult_le_compat_r; lra.
  Qed.

  Lemma susceptibility_nonpos q1 q2 : decreasing s -> nonneg (delta s) -> susceptibility nk e kT eta s q1 q2 <= 0.
  Proof.
    intros D N. unfold susceptibility. pose proof pref2. destruct (_ && _)%bool.
    - assert (0 <= rsum nk (fun i => rsum nk (fun j => delta s (e i j / kT))) / kT); [|rewrite <- Ropp_mult_distr_r; assert (0 <= 2 / INR nk ^ 2 * (rsum nk (fun i => rsum nk (fun j => delta s (e i j / kT))) / kT)) by (apply Rmult_le_pos; lra); lra]. apply Rmult_le_pos; [|left; apply Rinv_0_lt_compat, HkT].
      apply rsum_nonneg. intros i _. apply rsum_nonneg. intros j _. apply N.
    - cbv beta zeta. match goal with |- 2 / INR nk ^ 2 * ?x <= 0 => assert (0 <= - x); [|assert (0 <= 2 / INR nk ^ 2 * - x) by (apply Rmult_le_pos; lra); lra] end. rewrite <- (Rmult_1_l (rsum _ _)), Ropp_mult_distr_l, <- rsum_scal.
      apply rsum_nonneg. intros i _. cbv beta. rewrite <- rsum_scal. apply rsum_nonneg. intros j _. 
      match goal with |- 0 <= - (1) * ?x => assert (x <= 0); [|lra] end. apply term_nonpos, D.
  Qed.

  Lemma q_index_opp0 x : q_index nk x = 0%nat -> q_index nk (- x) = 0%nat.
  Proof. intros E. pose proof (q_index_opp nk x Hnk) as O. rewrite E in O. pose proof (q_index_lt nk (- x) Hnk). rewrite Nat.mod_small in O by lia. exact O. Qed.

  Lemma mod_shift x i : (i < nk)%nat -> ((q_index nk (- x) + (q_index nk x + i) mod nk) mod nk)%nat = i.
  Proof.
    intros Hi. rewrite Nat.add_mod_idemp_r by lia. replace (q_index nk (- x) + (q_index nk x + i))%nat with ((q_index nk x + q_index nk (- x)) + i)%nat by lia.
    rewrite <- Nat.add_mod_idemp_l, q_index_opp by lia. apply Nat.mod_small. lia.
  Qed.

  Lemma susceptibility_neg q1 q2 : susceptibility nk e kT eta s (- q1) (- q2) = susceptibility nk e kT eta s q1 q2.
  Proof.
    unfold susceptibility. cbv beta zeta.
    assert (Z : (Nat.eqb (q_index nk (- q1)) (q_index nk (- q2)) && Nat.eqb (q_index nk (- q2)) 0)%bool = (Nat.eqb (q_index nk q1) (q_index nk q2) && Nat.eqb (q_index nk q2) 0)%bool).
    { assert (W : forall x, Nat.eqb (q_index nk (- x)) 0 = Nat.eqb (q_index nk x) 0).
      { intros x. destruct (Nat.eqb_spec (q_index nk x) 0) as [E|E]; [rewrite q_index_opp0 by exact E; reflexivity|].
        destruct (Nat.eqb_spec (q_index nk (- x)) 0) as [E'|E']; [|reflexivity]. exfalso. apply E. rewrite <- (Ropp_involutive x). apply q_index_opp0, E'. }
      pose proof (W q1) as W1. pose proof (W q2) as W2.
      destruct (Nat.eqb_spec (q_index nk (- q1)) 0), (Nat.eqb_spec (q_index nk q1) 0), (Nat.eqb_spec (q_index nk (- q2)) 0), (Nat.eqb_spec (q_index nk q2) 0); try discriminate;
        destruct (Nat.eqb_spec (q_index nk (- q1)) (q_index nk (- q2))), (Nat.eqb_spec (q_index nk q1) (q_index nk q2)); try reflexivity; try lia. }
    rewrite Z. clear Z. destruct (Nat.eqb (q_index nk q1) (q_index nk q2) && Nat.eqb (q_index nk q2) 0)%bool; [reflexivity|]. f_equal.
    etransitivity; [symmetry; apply (rsum_shift nk (q_index nk q1) (fun i => rsum nk (fun j => _)))|].
    apply rsum_ext. intros i Hi. cbv beta.
    etransitivity; [symmetry; apply (rsum_shift nk (q_index nk q2) (fun j => _))|].
    apply rsum_ext. intros j Hj. cbv beta. rewrite !mod_shift by assumption. rewrite !Nat.mod_mod by lia. rewrite (Nat.mod_small i), (Nat.mod_small j) by assumption.
    f_equal; ring.
  Qed.

  (** At zero momentum transfer, and for constant energies *)
  Lemma susceptibility_zero : susceptibility nk e kT eta s 0 0 = - (2 / INR nk ^ 2 * (rsum nk (fun i => rsum nk (fun j => delta s (e i j / kT))) / kT)).
  Proof.
    unfold susceptibility. cbv beta zeta. assert (Z : q_index nk 0 = 0%nat).
    { pose proof (q_index_mesh nk 0 Hnk) as E. rewrite Nat.mod_0_l in E by lia. etransitivity; [|exact E]. f_equal. cbn. unfold Rdiv. rewrite Rmult_0_r, Rmult_0_l. reflexivity. }
    rewrite Z. cbn [Nat.eqb andb]. ring.
  Qed.
End Susceptibility.

Lemma susceptibility_flat nk E kT eta s m : (0 < m < nk)%nat -> susceptibility nk (fun _ _ => E) kT eta s (2 * PI * INR m / INR nk) 0 = 0.
Proof.
  intros Hm. unfold susceptibility. cbv beta zeta.
  assert (Z : q_index nk 0 = 0%nat).
  { pose proof (q_index_mesh nk 0 ltac:(lia)) as E'. rewrite Nat.mod_0_l in E' by lia. etransitivity; [|exact E']. f_equal. cbn. unfold Rdiv. rewrite Rmult_0_r, Rmult_0_l. reflexivity. }
  rewrite Z, q_index_mesh, Nat.mod_small by lia. destruct (Nat.eqb_spec m 0); [lia|]. cbn [andb].
  rewrite (rsum_ext nk _ (fun _ => 0)); [rewrite rsum_zero; ring|]. intros i _. rewrite (rsum_ext nk _ (fun _ => 0)); [apply rsum_zero|]. intros j _.
  rewrite (Rminus_diag_eq E E), Rmult_0_r by reflexivity. unfold Rdiv. apply Rmult_0_l.
Qed.
