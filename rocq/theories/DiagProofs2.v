(** Proofs about diagrams: polarization and phonon self-energy. *)
From Coq Require Import Reals Lra Lia List ZArith Arith.
From Coquelicot Require Import Complex.
From Verif Require Import Common Cx CxProofs MPIModel MdModel DiagModel DiagSpec DiagProofs.
Local Open Scope R_scope.

(** Sums over k points and pairs of bands *)
Section Total.
  Variables (nk : pt) (nb : nat).
  Definition total (F : pt -> nat -> nat -> C) : C := ksum nk (fun k => csum nb (fun m => csum nb (fun n => F k m n))).

  Lemma total_ext F G : (forall k m n, on_mesh nk k -> (m < nb)%nat -> (n < nb)%nat -> F k m n = G k m n) -> total F = total G.
  Proof. intros H. apply ksum_ext. intros k Hk. apply csum_ext. intros m Hm. apply csum_ext. intros n Hn. apply H; assumption. Qed.

  Lemma total_scal c F : (total (fun k m n => c * F k m n) = c * total F)%C.
  Proof. unfold total. rewrite <- ksum_scal. apply ksum_ext. intros k _. rewrite <- csum_scal. apply csum_ext. intros m _. apply csum_scal. Qed.

  Lemma total_plus F G : (total (fun k m n => F k m n + G k m n) = total F + total G)%C.
  Proof. unfold total. rewrite <- ksum_plus. apply ksum_ext. intros k _. rewrite <- csum_plus. apply csum_ext. intros m _. apply csum_plus. Qed.

  Lemma total_csum N F : total (fun k m n => csum N (fun a => F a k m n)) = csum N (fun a => total (F a)).
  Proof.
    unfold total. rewrite <- ksum_csum. apply ksum_ext. intros k _. rewrite (csum_swap N nb (fun a m => csum nb (fun n => F a k m n))). apply csum_ext. intros m _. apply csum_swap.
  Qed.

  Lemma total_conj F : conj (total F) = total (fun k m n => conj (F k m n)).
  Proof. unfold total. rewrite ksum_conj. apply ksum_ext. intros k _. rewrite csum_conj. apply csum_ext. intros m _. apply csum_conj. Qed.

  Lemma total_le F G : (forall k m n, on_mesh nk k -> (m < nb)%nat -> (n < nb)%nat -> fst (F k m n) <= fst (G k m n)) -> fst (total F) <= fst (total G).
  Proof. intros H. apply ksum_le. intros k Hk. apply csum_le. intros m Hm. apply csum_le. intros n Hn. apply H; assumption. Qed.

  Lemma total_zero : total (fun _ _ _ => RtoC 0) = RtoC 0.
  Proof. unfold total. rewrite (ksum_ext nk _ (fun _ => RtoC 0)); [apply ksum_zero|]. intros k _. rewrite (csum_ext nb _ (fun _ => RtoC 0)); [apply csum_zero|]. intros m _. apply csum_zero. Qed.

  Lemma total_nonpos F : (forall k m n, on_mesh nk k -> (m < nb)%nat -> (n < nb)%nat -> fst (F k m n) <= 0) -> fst (total F) <= 0.
  Proof. intros H. replace 0 with (fst (total (fun _ _ _ => RtoC 0))) by (rewrite total_zero; reflexivity). apply total_le. exact H. Qed.

  (** Relabelling k -> k + q and exchange of bands *)
  Lemma total_swap F q : total F = total (fun k m n => F (kadd nk q k) n m).
  Proof. unfold total. rewrite <- (ksum_shift nk q). apply ksum_ext. intros k _. apply csum_swap. Qed.

  Lemma total_bands F : csum nb (fun m => csum nb (fun n => ksum nk (fun k => F k m n))) = total F.
  Proof. unfold total. rewrite ksum_csum. apply csum_ext. intros m _. rewrite ksum_csum. reflexivity. Qed.

  (** Quadratic forms *)
  Lemma form_total N (c : R) (W : pt -> nat -> nat -> R) (x : nat -> pt -> nat -> nat -> C) v :
    form N (fun a b => RtoC c * total (fun k m n => conj (x a k m n) * RtoC (W k m n) * x b k m n))%C v =
    (RtoC c * total (fun k m n => RtoC (W k m n * abs2 (csum N (fun a => x a k m n * v a)))))%C.
  Proof.
    unfold form.
    transitivity (csum N (fun a => csum N (fun b => RtoC c * total (fun k m n => conj (v a) * (conj (x a k m n) * RtoC (W k m n) * x b k m n) * v b))))%C.
    { apply csum_ext. intros a _. apply csum_ext. intros b _.
      transitivity (RtoC c * (conj (v a) * v b * total (fun k m n => conj (x a k m n) * RtoC (W k m n) * x b k m n)))%C; [ring|].
      rewrite <- total_scal. f_equal. apply total_ext. intros. ring. }
    rewrite (csum_ext N _ (fun a => RtoC c * csum N (fun b => total (fun k m n => conj (v a) * (conj (x a k m n) * RtoC (W k m n) * x b k m n) * v b))))%C by (intros; apply csum_scal).
    rewrite csum_scal. f_equal.
    rewrite (csum_ext N _ (fun a => total (fun k m n => csum N (fun b => conj (v a) * (conj (x a k m n) * RtoC (W k m n) * x b k m n) * v b))))%C by (intros; symmetry; apply total_csum).
    rewrite <- total_csum. apply total_ext. intros k m n _ _ _.
    rewrite RtoC_mult', abs2_conj, csum_conj.
    rewrite (csum_ext N _ (fun a => conj (x a k m n * v a) * (RtoC (W k m n) * csum N (fun b => x b k m n * v b))))%C.
    - rewrite csum_scal_r. ring.
    - intros a _. rewrite <- csum_scal, <- csum_scal. apply csum_ext. intros b _. rewrite conj_mult. ring.
  Qed.

  Lemma form_nonpositive N (c : R) (W : pt -> nat -> nat -> R) (x : nat -> pt -> nat -> nat -> C) : 0 <= c ->
    (forall k m n, on_mesh nk k -> (m < nb)%nat -> (n < nb)%nat -> W k m n <= 0) ->
    nonpositive N (fun a b => RtoC c * total (fun k m n => conj (x a k m n) * RtoC (W k m n) * x b k m n))%C.
  Proof.
    intros Hc HW. split.
    - intros a b _ _. rewrite conj_mult, conj_R, total_conj. f_equal. apply total_ext. intros. rewrite !conj_mult, conj_conj, conj_R. ring.
    - intros v. rewrite form_total, fst_RtoC_mult. enough (fst (total (fun k m n => RtoC (W k m n * abs2 (csum N (fun a => x a k m n * v a)))))%C <= 0) by nra.
      apply total_nonpos. intros k m n Hk Hm Hn. specialize (HW k m n Hk Hm Hn). pose proof (abs2_nonneg (csum N (fun a => x a k m n * v a)%C)). cbn [fst RtoC]. nra.
  Qed.
End Total.

Section Quotient.
  Variables (kT eps : R) (s : smearing).
  Hypotheses (HkT : 0 < kT) (Heps : 0 <= eps).

  (** The weight for two energies *)
  Definition weight (e1 e2 : R) : R :=
    if Rlt_dec eps (Rabs (e1 - e2)) then (occ s (e1 / kT) - occ s (e2 / kT)) / (e1 - e2) else delta s (e2 / kT) / - kT.

  Lemma div_le x y : x <= y -> x / kT <= y / kT.
  Proof. intros H. apply Rmult_le_compat_r; [left; apply Rinv_0_lt_compat, HkT|exact H]. Qed.

  Lemma neg_div x : x / - kT = - (x / kT).
  Proof. field. lra. Qed.

  Lemma weight_nonpos e1 e2 : decreasing s -> nonneg (delta s) -> weight e1 e2 <= 0.
  Proof.
    intros D N. unfold weight. destruct Rlt_dec as [L|L].
    - assert (NE : e1 - e2 <> 0) by (intros E; rewrite E, Rabs_R0 in L; lra).
      destruct (Rlt_dec e1 e2) as [A|A].
      + pose proof (D _ _ (div_le e1 e2 ltac:(lra))). apply Rmult_le_0_l || (replace ((occ s (e1 / kT) - occ s (e2 / kT)) / (e1 - e2)) with (- ((occ s (e1 / kT) - occ s (e2 / kT)) / (e2 - e1))) by (field; lra)).
        assert (0 <= (occ s (e1 / kT) - occ s (e2 / kT)) / (e2 - e1)); [|lra]. apply Rmult_le_pos; [lra|]. left. apply Rinv_0_lt_compat. lra.
      + pose proof (D _ _ (div_le e2 e1 ltac:(lra))). 
        assert (0 <= (occ s (e2 / kT) - occ s (e1 / kT)) / (e1 - e2)); [apply Rmult_le_pos; [lra|]; left; apply Rinv_0_lt_compat; lra|].
        replace ((occ s (e1 / kT) - occ s (e2 / kT)) / (e1 - e2)) with (- ((occ s (e2 / kT) - occ s (e1 / kT)) / (e1 - e2))) by (field; lra). lra.
    - rewrite neg_div. assert (0 <= delta s (e2 / kT) / kT); [|lra]. apply Rmult_le_pos; [apply N|left; apply Rinv_0_lt_compat, HkT].
  Qed.

  Lemma weight_sym e1 e2 : (Rabs (e1 - e2) <= eps -> e1 = e2) -> weight e1 e2 = weight e2 e1.
  Proof.
    intros H. unfold weight. rewrite (Rabs_minus_sym e2 e1). destruct Rlt_dec as [L|L].
    - field. split; intros E; [assert (E' : e1 - e2 = 0) by lra|assert (E' : e1 - e2 = 0) by lra]; rewrite E', Rabs_R0 in L; lra.
    - rewrite H by lra. reflexivity.
  Qed.

  (** Swapping numerator and denominator at once *)
  Lemma weight_opp e1 e2 : (if Rlt_dec eps (Rabs (e2 - e1)) then (occ s (e2 / kT) - occ s (e1 / kT)) / (e2 - e1) else delta s (e2 / kT) / - kT) = weight e1 e2.
  Proof.
    unfold weight. rewrite (Rabs_minus_sym e1 e2). destruct Rlt_dec as [L|L]; [|reflexivity]. field.
    split; intros E; assert (E' : e2 - e1 = 0) by lra; rewrite E', Rabs_R0 in L; lra.
  Qed.
End Quotient.

Section Bubble.
  Variables (nk : pt) (nbnd : nat) (e : pt -> nat -> R) (kT eps : R) (s : smearing).
  Hypotheses (Hnk : nonempty nk) (HkT : 0 < kT) (Heps : 0 <= eps).

  Lemma quotient_weight q k m n : quotient_kq nk e kT eps s q k m n = weight kT eps s (e (kadd nk q k) m) (e k n).
  Proof. unfold quotient_kq, f_, d_. rewrite !at_kq_eq. reflexivity. Qed.

  Lemma pref_nonneg : 0 <= pref nk.
  Proof. unfold pref. pose proof (nonempty_prod nk Hnk). apply Rmult_le_pos; [lra|left; apply Rinv_0_lt_compat; lra]. Qed.

  (** ** Polarization *)
  Section Pol.
    Variables (norb : nat) (U : pt -> nat -> nat -> C).
    Definition wpol sub q k m n : R := if excluded nk sub q k m n then 0 else weight kT eps s (e (kadd nk q k) m) (e k n).

    Lemma polarization_total sub q a b : polarization_at nk nbnd e kT eps s U sub q a b =
      (RtoC (pref nk) * total nk nbnd (fun k m n => conj (UU nk U q k m n a) * RtoC (wpol sub q k m n) * UU nk U q k m n b))%C.
    Proof.
      unfold polarization_at. f_equal. rewrite total_bands. apply total_ext. intros k m n _ _ _. unfold wpol. rewrite quotient_weight. reflexivity.
    Qed.

    Lemma nonpositive_ext N M M' : (forall a b, M a b = M' a b) -> nonpositive N M -> nonpositive N M'.
    Proof.
      intros E [H1 H2]. split.
      - intros a b Ha Hb. rewrite <- !E. apply H1; assumption.
      - intros v. replace (form N M' v) with (form N M v); [apply H2|]. unfold form. apply csum_ext. intros a _. apply csum_ext. intros b _. rewrite E. reflexivity.
    Qed.

    Lemma wpol_nonpos sub q k m n : decreasing s -> nonneg (delta s) -> wpol sub q k m n <= 0.
    Proof. intros D N. unfold wpol. destruct excluded; [lra|]. apply weight_nonpos; assumption. Qed.

    Lemma polarization_nonpositive sub q : decreasing s -> nonneg (delta s) -> nonpositive norb (polarization_at nk nbnd e kT eps s U sub q).
    Proof.
      intros D N. eapply nonpositive_ext; [intros a b; symmetry; apply polarization_total|].
      apply (form_nonpositive nk nbnd norb (pref nk) (wpol sub q) (fun a k m n => UU nk U q k m n a)); [apply pref_nonneg|]. intros. apply wpol_nonpos; assumption.
    Qed.

    (** Excluding a subspace makes it less negative. *)
    Lemma polarization_crpa sub q v : decreasing s -> nonneg (delta s) ->
      fst (form norb (polarization_at nk nbnd e kT eps s U None q) v) <= fst (form norb (polarization_at nk nbnd e kT eps s U sub q) v).
    Proof.
      intros D N. assert (E : forall sub, form norb (polarization_at nk nbnd e kT eps s U sub q) v =
        (RtoC (pref nk) * total nk nbnd (fun k m n => RtoC (wpol sub q k m n * abs2 (csum norb (fun a => UU nk U q k m n a * v a)))))%C).
      { intros su. rewrite <- (form_total nk nbnd norb (pref nk) (wpol su q) (fun a k m n => UU nk U q k m n a) v). unfold form. apply csum_ext. intros a _. apply csum_ext. intros b _. rewrite polarization_total. reflexivity. }
      rewrite !E, !fst_RtoC_mult. apply Rmult_le_compat_l; [apply pref_nonneg|]. apply total_le. intros k m n _ _ _. cbn [fst RtoC].
      apply Rmult_le_compat_r; [apply abs2_nonneg|]. unfold wpol. cbn [excluded]. destruct excluded; [apply weight_nonpos; assumption|lra].
    Qed.

    Lemma polarization_neg q a b : separated nk nbnd e eps ->
      polarization nk nbnd e kT eps s U None (qneg q) a b = conj (polarization nk nbnd e kT eps s U None q a b).
    Proof.
      intros Sep. unfold polarization. rewrite !polarization_total, conj_mult, conj_R, total_conj. f_equal. rewrite (total_swap nk nbnd _ (q_indices nk q)).
      apply total_ext. intros k m n Hk Hm Hn. unfold wpol, UU. cbn [excluded]. rewrite !at_kq_eq, kadd_neg by exact Hk. rewrite !conj_mult, !conj_conj, conj_R.
      rewrite (weight_sym kT eps s Heps (e k n)) by (intros; apply Sep; auto using kadd_on). ring.
    Qed.

    (** Rigid shift of the potential: compressibility *)
    Lemma kadd_zero k : on_mesh nk k -> kadd nk (0, 0, 0)%nat k = k.
    Proof. destruct nk as [[n1 n2] n3], k as [[i j] l]. cbn. intros (H1 & H2 & H3). rewrite !Nat.mod_small by lia. reflexivity. Qed.

    Lemma q_indices_zero : q_indices nk (0, 0, 0) = (0, 0, 0)%nat.
    Proof.
      etransitivity; [|exact (q_indices_point nk (0, 0, 0)%nat Hnk Hnk)]. f_equal. destruct nk as [[n1 n2] n3]. cbn. unfold Rdiv. rewrite !Rmult_0_r, !Rmult_0_l. reflexivity.
    Qed.

    Lemma polarization_sum : (forall k, on_mesh nk k -> orthonormal norb nbnd (U k)) ->
      csum norb (fun a => csum norb (fun b => polarization nk nbnd e kT eps s U None (0, 0, 0) a b)) = RtoC (- fermi_dos nk nbnd e kT s).
    Proof.
      intros Orth.
      assert (E : csum norb (fun a => csum norb (fun b => polarization nk nbnd e kT eps s U None (0, 0, 0) a b)) = form norb (polarization nk nbnd e kT eps s U None (0, 0, 0)) (fun _ => RtoC 1)).
      { unfold form. apply csum_ext. intros a _. apply csum_ext. intros b _. rewrite conj_R. ring. }
      rewrite E. unfold polarization. rewrite q_indices_zero.
      transitivity (RtoC (pref nk) * total nk nbnd (fun k m n => RtoC (wpol None (0, 0, 0)%nat k m n * abs2 (csum norb (fun a => UU nk U (0, 0, 0)%nat k m n a * RtoC 1)))))%C.
      { rewrite <- (form_total nk nbnd norb (pref nk) (wpol None (0, 0, 0)%nat) (fun a k m n => UU nk U (0, 0, 0)%nat k m n a) (fun _ => RtoC 1)). unfold form. apply csum_ext. intros a _. apply csum_ext. intros b _. rewrite polarization_total. reflexivity. }
      unfold fermi_dos. fold (pref nk). unfold total.
      rewrite (ksum_ext nk _ (fun k => (- csum nbnd (fun n => RtoC (delta s (e k n / kT) / kT)))%C)).
      - rewrite ksum_opp. assert (R : forall F : pt -> nat -> R, ksum nk (fun k => csum nbnd (fun n => RtoC (F k n))) = RtoC (fst (ksum nk (fun k => csum nbnd (fun n => RtoC (F k n)))))).
        { intros F. apply c_ext; [reflexivity|]. pose proof (ksum_conj nk (fun k => csum nbnd (fun n => RtoC (F k n)))) as Cj.
          rewrite (ksum_ext nk (fun k => conj _) (fun k => csum nbnd (fun n => RtoC (F k n)))) in Cj by (intros; rewrite csum_conj; apply csum_ext; intros; apply conj_R).
          apply (f_equal snd) in Cj. unfold conj in Cj. cbn [snd] in *. cbn [RtoC snd]. lra. }
        rewrite R. cring.
      - intros k Hk. transitivity (csum nbnd (fun m => - RtoC (delta s (e k m / kT) / kT)))%C; [|].
        + apply csum_ext. intros m Hm. 
          rewrite (csum_ext nbnd _ (fun n => if Nat.eqb n m then RtoC (- (delta s (e k n / kT) / kT)) else RtoC 0)); [rewrite csum_delta by exact Hm; cring|].
          intros n Hn. unfold wpol, UU. cbn [excluded]. rewrite at_kq_eq, kadd_zero by exact Hk.
          rewrite (csum_ext norb _ (fun a => conj (U k a m) * U k a n)%C) by (intros; ring). rewrite (Orth k Hk m n Hm Hn), (Nat.eqb_sym n m).
          destruct (Nat.eqb_spec m n) as [->|NE]; rewrite abs2_R; [|cring].
          unfold weight. rewrite Rminus_diag_eq, Rabs_R0 by reflexivity. destruct Rlt_dec; [lra|]. rewrite neg_div by exact HkT. rewrite Rmult_1_r, Rmult_1_r. reflexivity.
        + rewrite <- csum_ext with (f := fun m => (RtoC (-1) * RtoC (delta s (e k m / kT) / kT))%C) by (intros; cring). rewrite csum_scal. cring.
    Qed.
  End Pol.
End Bubble.
