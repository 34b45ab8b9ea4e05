(** Proofs about PhLRModel.v *)
From Coq Require Import Permutation Reals Lra Lia FunctionalExtensionality.
From Verif Require Import Common CommonProofs LatModel LatProofs Num NumProofs NumC VorProofs PhLRModel.
Local Open Scope R_scope.
Add Ring CringLR : (@n_ring C).

Lemma RtoC_mul' x y : nmul (RtoC x) (RtoC y) = RtoC (x * y).
Proof. unfold RtoC. cbn. apply f_equal2; ring. Qed.
Lemma RtoC_opp x : nopp (RtoC x) = RtoC (- x).
Proof. unfold RtoC. cbn. apply f_equal2; ring. Qed.
Lemma RtoC_conj x : nconj (RtoC x) = RtoC x.
Proof. unfold RtoC. cbn. apply f_equal2; ring. Qed.
Lemma RtoC_1 : RtoC 1 = @n1 C.
Proof. reflexivity. Qed.
Lemma conj_opp (z : C) : nconj (nopp z) = nopp (nconj z).
Proof. destruct z as [a b]. cbn. apply f_equal2; ring. Qed.

Lemma nsum_filter {F : num} {A} (c : A -> bool) (f : A -> F) l : nsum f (filter c l) = nsum (fun x => if c x then f x else n0) l.
Proof.
  induction l as [|x l IH]; [reflexivity|]. cbn [filter nsum]. destruct (c x); cbn [nsum]; rewrite IH; [reflexivity|].
  destruct F as [? ? ? ? ? ? ? ? ? HF]. cbn. rewrite (Ring_theory.Radd_0_l HF). reflexivity.
Qed.

(** ** Mass scaling *)
Section Mass.
  Variable p : polar.
  Hypothesis HM : forall na, 0 < M_ p na.

  Definition mass (na : nat) : R := if divide_mass p then sqrt (M_ p na) else 1.

  Lemma sqrtM na : sqrt (M_ p na) <> 0.
  Proof. apply Rgt_not_eq, sqrt_lt_R0, HM. Qed.
  Lemma mass_nz na : mass na <> 0.
  Proof. unfold mass. destruct (divide_mass p); [apply sqrtM|lra]. Qed.

  Lemma z_mass na e u : z_ p na e u = Z_ p na e u * / mass na.
  Proof. unfold z_, mass. destruct (divide_mass p); [reflexivity|field]. Qed.

  Lemma vector_mass K na u : vector p (z_ p) (q_ p) K na u = nmul (vector p (Z_ p) (quad p) K na u) (RtoC (/ mass na)).
  Proof.
    unfold vector, q_. assert (Hq : forall q : R, (if divide_mass p then q / sqrt (M_ p na) else q) = q * / mass na).
    { intros q. unfold mass. destruct (divide_mass p); [reflexivity|field]. }
    assert (Hd : nmul Ci (RtoC (sum3 (fun e => K e * z_ p na e u))) = nmul (nmul Ci (RtoC (sum3 (fun e => K e * Z_ p na e u)))) (RtoC (/ mass na))).
    { replace (sum3 (fun e => K e * z_ p na e u)) with (sum3 (fun e => K e * Z_ p na e u) * / mass na) by (unfold sum3; rewrite !z_mass; ring).
      rewrite <- RtoC_mul'. ring. }
    rewrite Hd. destruct (quad p) as [qd|]; [|ring].
    set (A := nmul Ci (RtoC (sum3 (fun e => K e * Z_ p na e u)))).
    replace (sum3 (fun x => sum3 (fun y => K x * (if divide_mass p then qd na u x y / sqrt (M_ p na) else qd na u x y) * K y)))
      with (sum3 (fun x => sum3 (fun y => K x * qd na u x y * K y)) * / mass na) by (unfold sum3; rewrite !Hq; ring).
    rewrite Hq. rewrite <- !Rmult_assoc, <- !RtoC_mul'. destruct (lr2d p); [|ring]. destruct (len_L p); ring.
  Qed.

  Lemma vector_perp_mass K na u : vector_perp p (z_ p) (q_ p) K na u = nmul (vector_perp p (Z_ p) (quad p) K na u) (RtoC (/ mass na)).
  Proof.
    unfold vector_perp, q_. assert (Hq : forall q : R, (if divide_mass p then q / sqrt (M_ p na) else q) = q * / mass na).
    { intros q. unfold mass. destruct (divide_mass p); [reflexivity|field]. }
    rewrite z_mass. rewrite <- (Rmult_assoc (K_norm p K)), <- (RtoC_mul' (_ * _)). destruct (quad p) as [qd|]; [|ring].
    replace (sum2 (fun y => K_norm p K * (if divide_mass p then qd na u 2%nat y / sqrt (M_ p na) else qd na u 2%nat y) * K y))
      with (sum2 (fun y => K_norm p K * qd na u 2%nat y * K y) * / mass na) by (unfold sum2; rewrite !Hq; ring).
    rewrite <- (RtoC_mul' (sum2 _)). ring.
  Qed.

  Lemma conj_mass (z : C) (r : R) : nconj (nmul z (RtoC r)) = nmul (nconj z) (RtoC r).
  Proof. rewrite n_conj_mul, RtoC_conj. reflexivity. Qed.

  Lemma einsum_mass q eps na x nb y :
    einsum_lr (generate_long_range p (z_ p) (q_ p) q eps) na x nb y =
    nmul (einsum_lr (generate_long_range p (Z_ p) (quad p) q eps) na x nb y) (RtoC (/ mass na * / mass nb)).
  Proof.
    unfold einsum_lr, generate_long_range. rewrite !nsum_app, !nsum_map. rewrite <- RtoC_mul'.
    match goal with |- nadd ?a ?b = nmul (nadd ?c ?d) ?e => assert (H1 : a = nmul c e) end.
    { rewrite <- nsum_mul_r. apply nsum_ext. intros K _. cbn [fst snd]. rewrite !vector_mass, conj_mass. ring. }
    rewrite H1. clear H1.
    match goal with |- nadd ?a ?b = nmul (nadd ?c ?d) ?e => assert (H1 : b = nmul d e) end.
    { destruct (lr2d p); [|cbn [nsum]; ring]. destruct (len_L p) as [L|]; [|cbn [nsum]; ring]. destruct (perp_ p); [|cbn [nsum]; ring].
      rewrite !nsum_map, <- nsum_mul_r. apply nsum_ext. intros K _. cbn [fst snd]. rewrite !vector_perp_mass, conj_mass. ring. }
    rewrite H1. ring.
  Qed.

  Lemma D_lr_acoustic na x y : (na < nat_ p)%nat ->
    nsum (fun nb => nmul (D_lr p (K3 0 0 0) na x nb y) (RtoC (mass nb))) (seq 0 (nat_ p)) = n0.
  Proof.
    intros Hna. unfold D_lr.
    set (S := fun n => einsum_lr (generate_long_range p (Z_ p) (quad p) (K3 0 0 0) tol) na x n y).
    rewrite (nsum_ext _ (fun nb => nadd (nmul (D0_lr p na x nb y) (RtoC (mass nb))) (nmul (S nb) (RtoC (/ mass na))))).
    2: { intros nb _. rewrite einsum_mass. fold (S nb). rewrite <- RtoC_mul'.
         transitivity (nadd (nmul (D0_lr p na x nb y) (RtoC (mass nb))) (nmul (nmul (S nb) (RtoC (/ mass na))) (nmul (RtoC (/ mass nb)) (RtoC (mass nb))))); [ring|].
         rewrite RtoC_mul', Rinv_l, RtoC_1 by apply mass_nz. ring. }
    rewrite nsum_add, nsum_mul_r.
    rewrite (nsum_single _ _ na); [|apply seq_NoDup|apply in_seq; lia|].
    2: { intros j _ Hj. unfold D0_lr. destruct (Nat.eqb_spec na j); [congruence|ring]. }
    unfold D0_lr. rewrite Nat.eqb_refl. fold S.
    assert (H : forall z : C, nmul (if divide_mass p then nmul z (RtoC (/ M_ p na)) else z) (RtoC (mass na)) = nmul z (RtoC (/ mass na))).
    { intros z. unfold mass. destruct (divide_mass p).
      - rewrite <- (sqrt_sqrt (M_ p na)) at 1 by (apply Rlt_le, HM).
        transitivity (nmul z (nmul (RtoC (/ (sqrt (M_ p na) * sqrt (M_ p na)))) (RtoC (sqrt (M_ p na))))); [ring|]. rewrite RtoC_mul'. do 2 f_equal. field. apply sqrtM.
      - replace (/ 1) with 1 by field. reflexivity. }
    rewrite H. ring.
  Qed.
End Mass.

(** ** Time reversal *)
Definition neg (K : nat -> R) : nat -> R := fun x => - K x.

Section Reversal.
  Variable p : polar.

  Lemma in_zrange n z : In z (zrange n) <-> (- n <= z <= n)%Z.
  Proof.
    unfold zrange. rewrite in_map_iff. split.
    - intros (i & <- & Hi). apply in_seq in Hi. lia.
    - intros H. exists (Z.to_nat (z + n)). split; [lia|]. apply in_seq. lia.
  Qed.
  Lemma nodup_zrange n : NoDup (zrange n).
  Proof.
    unfold zrange. apply FinFun.Injective_map_NoDup; [|apply seq_NoDup]. intros i j. lia.
  Qed.

  Lemma in_box v : In v (box p) <-> ((- vx (nr_ p) <= vx v <= vx (nr_ p)) /\ (- vy (nr_ p) <= vy v <= vy (nr_ p)) /\ (- vz (nr_ p) <= vz v <= vz (nr_ p)))%Z.
  Proof.
    unfold box. rewrite in_flat_map. split.
    - intros (m1 & H1 & H). apply in_flat_map in H. destruct H as (m2 & H2 & H). apply in_map_iff in H. destruct H as (m3 & <- & H3).
      apply in_zrange in H1, H2, H3. cbn [vx vy vz]. auto.
    - intros (H1 & H2 & H3). exists (vx v). split; [apply in_zrange, H1|]. apply in_flat_map. exists (vy v). split; [apply in_zrange, H2|].
      apply in_map_iff. exists (vz v). split; [destruct v; reflexivity|apply in_zrange, H3].
  Qed.

  Lemma box_prod : box p = map (fun m => V3 (fst (fst m)) (snd (fst m)) (snd m)) (list_prod (list_prod (zrange (vx (nr_ p))) (zrange (vy (nr_ p)))) (zrange (vz (nr_ p)))).
  Proof.
    unfold box. generalize (zrange (vx (nr_ p))) (zrange (vy (nr_ p))) (zrange (vz (nr_ p))). intros l1 l2 l3.
    induction l1 as [|a l1 IH]; [reflexivity|]. cbn [flat_map list_prod]. rewrite IH. clear IH.
    assert (Ha : forall (l l' : list (Z * Z)), list_prod (l ++ l') l3 = list_prod l l3 ++ list_prod l' l3).
    { induction l as [|c l IH]; intros l'; [reflexivity|]. cbn [app list_prod]. rewrite IH, app_assoc. reflexivity. }
    rewrite Ha, map_app. f_equal. clear Ha.
    induction l2 as [|b l2 IH]; [reflexivity|]. cbn [flat_map map list_prod]. rewrite map_app, IH. f_equal. rewrite map_map. reflexivity.
  Qed.

  Lemma nodup_box : NoDup (box p).
  Proof.
    rewrite box_prod. apply FinFun.Injective_map_NoDup.
    - intros [[a b] c] [[a' b'] c']. cbn [fst snd]. intros H. injection H as -> -> ->. reflexivity.
    - repeat apply NoDup_prod; apply nodup_zrange.
  Qed.

  Lemma box_neg : Permutation (map vopp (box p)) (box p).
  Proof.
    assert (Hoo : forall v, vopp (vopp v) = v) by (intros v; apply vec_ext; unfold vopp; cbn [vx vy vz]; lia).
    apply NoDup_Permutation; [|apply nodup_box|].
    - apply FinFun.Injective_map_NoDup; [|apply nodup_box]. intros u v E. rewrite <- (Hoo u), <- (Hoo v), E. reflexivity.
    - intros v. rewrite in_map_iff, in_box. split.
      + intros (u & <- & Hu). apply in_box in Hu. unfold vopp. cbn [vx vy vz]. lia.
      + intros H. exists (vopp v). split; [apply Hoo|]. apply in_box. unfold vopp. cbn [vx vy vz]. lia.
  Qed.

  Lemma quadratic_neg K : quadratic p (neg K) = quadratic p K.
  Proof. unfold quadratic, neg, sum3. destruct (lr2d p); ring. Qed.

  Lemma shift_neg q m : shift p (NumC.kopp q) (Gvec p (vopp m)) = neg (shift p q (Gvec p m)).
  Proof.
    apply functional_extensionality. intros x. unfold shift, Gvec, neg, NumC.kopp, vopp. cbn [kx ky kz vx vy vz]. rewrite !opp_IZR. ring.
  Qed.
  Lemma Gvec_neg m : Gvec p (vopp m) = neg (Gvec p m).
  Proof. apply functional_extensionality. intros x. unfold Gvec, neg, vopp. cbn [vx vy vz]. rewrite !opp_IZR. ring. Qed.

  Lemma nsum_Ks q eps (f : (nat -> R) -> C) : nsum f (Ks p q eps) =
    nsum (fun m => if (if Rlt_dec (quadratic p (Gvec p m)) (scale p * G_max p) then true else false) then
      (if (if Rlt_dec eps (quadratic p (shift p q (Gvec p m))) then true else false) then f (shift p q (Gvec p m)) else n0) else n0) (box p).
  Proof. unfold Ks, Gs. rewrite nsum_filter, nsum_map, nsum_filter, nsum_map. reflexivity. Qed.

  Lemma nsum_Ks_neg q eps (f : (nat -> R) -> C) : nsum f (Ks p (NumC.kopp q) eps) = nsum (fun K => f (neg K)) (Ks p q eps).
  Proof.
    rewrite !nsum_Ks. rewrite <- (nsum_perm _ _ _ box_neg), nsum_map. apply nsum_ext. intros m _.
    rewrite shift_neg, Gvec_neg, !quadratic_neg. reflexivity.
  Qed.

  Lemma K_norm_neg K : K_norm p (neg K) = K_norm p K.
  Proof. unfold K_norm. rewrite quadratic_neg. reflexivity. Qed.
  Lemma KrK_neg K : KrK p (neg K) = KrK p K.
  Proof. unfold KrK, neg, sum2. ring. Qed.
  Lemma factor_neg K : factor p (neg K) = factor p K.
  Proof. unfold factor. rewrite K_norm_neg, KrK_neg, quadratic_neg. reflexivity. Qed.
  Lemma factor_perp_neg L K : factor_perp p L (neg K) = factor_perp p L K.
  Proof. unfold factor_perp. rewrite K_norm_neg. reflexivity. Qed.
  Lemma expKr_neg K na : expKr p (neg K) na = nconj (expKr p K na).
  Proof. unfold expKr. rewrite expi_conj. f_equal. unfold sum3, neg. ring. Qed.
  Lemma Ci_conj : nconj Ci = nopp Ci.
  Proof. cbn. apply f_equal2; ring. Qed.
  Lemma n_conj_sub (x y : C) : nconj (nsub x y) = nsub (nconj x) (nconj y).
  Proof. destruct x, y. cbn. apply f_equal2; ring. Qed.

  Lemma vector_neg z qd K na u : vector p z qd (neg K) na u = nconj (vector p z qd K na u).
  Proof.
    unfold vector. rewrite expKr_neg, n_conj_mul. apply (f_equal (fun a => nmul a (nconj (expKr p K na)))). rewrite K_norm_neg.
    assert (H1 : nmul Ci (RtoC (sum3 (fun e => neg K e * z na e u))) = nconj (nmul Ci (RtoC (sum3 (fun e => K e * z na e u))))).
    { replace (sum3 (fun e => neg K e * z na e u)) with (- sum3 (fun e => K e * z na e u)) by (unfold sum3, neg; ring).
      rewrite <- RtoC_opp, n_conj_mul, Ci_conj, RtoC_conj. ring. }
    rewrite H1. destruct qd as [qd|]; [|reflexivity].
    replace (sum3 (fun x => sum3 (fun y => neg K x * qd na u x y * neg K y))) with (sum3 (fun x => sum3 (fun y => K x * qd na u x y * K y))) by (unfold sum3, neg; ring).
    destruct (lr2d p); [destruct (len_L p)|]; rewrite ?n_conj_sub, n_conj_add, !RtoC_conj; reflexivity.
  Qed.

  Lemma vector_perp_neg z qd K na u : vector_perp p z qd (neg K) na u = nopp (nconj (vector_perp p z qd K na u)).
  Proof.
    unfold vector_perp. rewrite expKr_neg, n_conj_mul. rewrite K_norm_neg.
    destruct qd as [qd|].
    - replace (sum2 (fun y => K_norm p K * qd na u 2%nat y * neg K y)) with (- sum2 (fun y => K_norm p K * qd na u 2%nat y * K y)) by (unfold sum2, neg; ring).
      rewrite n_conj_add, n_conj_mul, Ci_conj, !RtoC_conj, <- RtoC_opp. ring.
    - rewrite n_conj_mul, Ci_conj, RtoC_conj. ring.
  Qed.

  Lemma einsum_reversal z qd q eps na x nb y :
    einsum_lr (generate_long_range p z qd (NumC.kopp q) eps) na x nb y = nconj (einsum_lr (generate_long_range p z qd q eps) na x nb y).
  Proof.
    unfold einsum_lr, generate_long_range. rewrite !nsum_app, n_conj_add. apply (f_equal2 nadd).
    - rewrite !nsum_map, nsum_Ks_neg, n_conj_sum. apply nsum_ext. intros K _. cbn [fst snd]. rewrite factor_neg, !vector_neg, !n_conj_mul, RtoC_conj. reflexivity.
    - destruct (lr2d p); [|symmetry; apply n_conj_0]. destruct (len_L p) as [L|]; [|symmetry; apply n_conj_0]. destruct (perp_ p); [|symmetry; apply n_conj_0].
      rewrite !nsum_map, nsum_Ks_neg, n_conj_sum. apply nsum_ext. intros K _. cbn [fst snd]. rewrite factor_perp_neg, !vector_perp_neg, !n_conj_mul, conj_opp, RtoC_conj. ring.
  Qed.

  Lemma kopp_0 : NumC.kopp (K3 0 0 0) = K3 0 0 0.
  Proof. unfold NumC.kopp. cbn. f_equal; ring. Qed.

  Lemma D0_real na x nb y : nconj (D0_lr p na x nb y) = D0_lr p na x nb y.
  Proof.
    unfold D0_lr. destruct (na =? nb)%nat; [|apply n_conj_0].
    assert (H : nconj (nopp (nsum (fun n => einsum_lr (generate_long_range p (Z_ p) (quad p) (K3 0 0 0) tol) na x n y) (seq 0 (nat_ p)))) =
      nopp (nsum (fun n => einsum_lr (generate_long_range p (Z_ p) (quad p) (K3 0 0 0) tol) na x n y) (seq 0 (nat_ p)))).
    { rewrite conj_opp, n_conj_sum. f_equal. apply nsum_ext. intros n _. rewrite <- einsum_reversal, kopp_0. reflexivity. }
    destruct (divide_mass p); [rewrite n_conj_mul, RtoC_conj|]; rewrite H; reflexivity.
  Qed.

  Lemma D_lr_reversal q na x nb y : D_lr p (NumC.kopp q) na x nb y = nconj (D_lr p q na x nb y).
  Proof. unfold D_lr. rewrite n_conj_add, D0_real, einsum_reversal. reflexivity. Qed.

  Lemma einsum_hermitian t na x nb y : nconj (einsum_lr t nb y na x) = einsum_lr t na x nb y.
  Proof.
    unfold einsum_lr. rewrite n_conj_sum. apply nsum_ext. intros fv _. rewrite !n_conj_mul, RtoC_conj, n_conj_conj. ring.
  Qed.

  (** Between different atoms. *)
  Lemma D_lr_hermitian q na x nb y : na <> nb -> D_lr p q na x nb y = nconj (D_lr p q nb y na x).
  Proof.
    intros H. unfold D_lr. rewrite n_conj_add, einsum_hermitian. unfold D0_lr.
    destruct (Nat.eqb_spec na nb); [contradiction|]. destruct (Nat.eqb_spec nb na); [congruence|]. rewrite n_conj_0. reflexivity.
  Qed.
  (** Same atom: up to a term that does not depend on q. *)
  Lemma D_lr_hermitian_diag q q' na x y :
    nsub (D_lr p q na x na y) (D_lr p q' na x na y) = nconj (nsub (D_lr p q na y na x) (D_lr p q' na y na x)).
  Proof. unfold D_lr. rewrite n_conj_sub, !n_conj_add, !einsum_hermitian. ring. Qed.
End Reversal.

(** ** polarization *)
Lemma Rsum_add f g n : Rsum f n + Rsum g n = Rsum (fun i => f i + g i) n.
Proof. unfold Rsum. induction (seq 0 n) as [|a l IH]; cbn; [ring|]. rewrite <- IH. ring. Qed.
Lemma Rsum_ext f g n : (forall i, (i < n)%nat -> f i = g i) -> Rsum f n = Rsum g n.
Proof.
  intros H. unfold Rsum. f_equal. apply map_ext_in. intros i Hi. apply in_seq in Hi. apply H. lia.
Qed.
Lemma Rsum_nn f n : (forall i, 0 <= f i) -> 0 <= Rsum f n.
Proof. intros H. unfold Rsum. induction (seq 0 n) as [|a l IH]; cbn; [lra|]. specialize (H a). lra. Qed.
Lemma norm2_nn z : 0 <= norm2 z.
Proof. unfold norm2. nra. Qed.
Lemma Rsum_0 n : Rsum (fun _ => 0) n = 0.
Proof. unfold Rsum. induction (seq 0 n) as [|a l IH]; cbn; lra. Qed.

(** The plane rotated by q. *)
Lemma norm2_rot (x y : C) a b : a * a + b * b = 1 ->
  norm2 (nadd (nmul x (RtoC a)) (nmul y (RtoC b))) + norm2 (nsub (nmul x (RtoC b)) (nmul y (RtoC a))) = norm2 x + norm2 y.
Proof.
  destruct x as [x1 x2], y as [y1 y2]. unfold norm2, Re, Im, RtoC. cbn. intros H.
  transitivity ((a * a + b * b) * (x1 * (x1 * 1) + x2 * (x2 * 1) + (y1 * (y1 * 1) + y2 * (y2 * 1)))); [ring|]. rewrite H. ring.
Qed.

Definition direction (b1 b2 q : R * R) : R * R :=
  (fst q * fst b1 + snd q * fst b2, fst q * snd b1 + snd q * snd b2).

Lemma direction_unit a b Q : Q = sqrt (a * a + b * b) -> ~ Q < / 10000000000 -> a / Q * (a / Q) + b / Q * (b / Q) = 1 /\ 0 < Q.
Proof.
  intros HQ H. assert (0 < Q) by lra. split; [|assumption]. assert (E : Q * Q = a * a + b * b) by (rewrite HQ; apply sqrt_sqrt; nra).
  field_simplify; [|lra]. replace (a ^ 2 + b ^ 2) with (Q * Q) by (rewrite E; ring). field. lra.
Qed.

Lemma polarization_sum nat_ b1 b2 q e :
  let '(L, T, Z) := polarization nat_ b1 b2 q e in
  0 <= L /\ 0 <= T /\ 0 <= Z /\ L + T + Z = Rsum (fun i => norm2 (e i)) (3 * nat_).
Proof.
  assert (Hs : Rsum (fun i => norm2 (e i)) (3 * nat_) = Rsum (fun na => norm2 (e (3 * na)%nat) + norm2 (e (3 * na + 1)%nat)) nat_ + Rsum (fun na => norm2 (e (3 * na + 2)%nat)) nat_).
  { rewrite Rsum_add. unfold Rsum. induction nat_ as [|n IH]; [reflexivity|]. replace (3 * S n)%nat with (S (S (S (3 * n)))) by lia.
    rewrite !seq_S, !map_app, !fold_right_app. cbn [map fold_right Nat.add].
    assert (Hf : forall l x, fold_right Rplus x l = fold_right Rplus 0 l + x) by (induction l as [|c l IHl]; intros x; cbn; [lra|rewrite IHl; lra]).
    rewrite (Hf _ (norm2 (e (3 * n)%nat) + _)), (Hf (map _ (seq 0 n))). rewrite IH.
    replace (3 * n + 1)%nat with (S (3 * n)) by lia. replace (3 * n + 2)%nat with (S (S (3 * n))) by lia. lra. }
  unfold polarization. fold (direction b1 b2 q). set (d := direction b1 b2 q). cbv zeta. set (Q := sqrt (fst d * fst d + snd d * snd d)).
  assert (HZ : 0 <= Rsum (fun na => norm2 (e (3 * na + 2)%nat)) nat_) by (apply Rsum_nn; intros; apply norm2_nn).
  destruct (Rlt_dec Q (/ 10000000000)) as [H|H]; cbn [fst snd].
  - match goal with |- context [(Rsum ?a ?b + Rsum ?c ?b) / 2] => assert (E : Rsum a b + Rsum c b = Rsum (fun na => norm2 (e (3 * na)%nat) + norm2 (e (3 * na + 1)%nat)) nat_);
      [|assert (0 <= Rsum a b) by (apply Rsum_nn; intros; apply norm2_nn); assert (0 <= Rsum c b) by (apply Rsum_nn; intros; apply norm2_nn)] end.
    { rewrite Rsum_add. apply Rsum_ext. intros i _. apply norm2_rot. ring. }
    rewrite Hs, <- E. repeat split; lra.
  - destruct (direction_unit (fst d) (snd d) Q eq_refl H) as [Hu _].
    split; [apply Rsum_nn; intros; apply norm2_nn|]. split; [apply Rsum_nn; intros; apply norm2_nn|]. split; [exact HZ|].
    rewrite Rsum_add, Hs. f_equal. apply Rsum_ext. intros i _. apply norm2_rot. exact Hu.
Qed.

(** Displacements along q are longitudinal, those perpendicular to it within
    the plane transverse. *)
Lemma polarization_longitudinal nat_ b1 b2 q e (c : nat -> C) :
  let d := direction b1 b2 q in
  / 10000000000 <= sqrt (fst d * fst d + snd d * snd d) ->
  (forall na, (na < nat_)%nat -> e (3 * na)%nat = nmul (c na) (RtoC (fst d)) /\ e (3 * na + 1)%nat = nmul (c na) (RtoC (snd d)) /\ e (3 * na + 2)%nat = n0) ->
  polarization nat_ b1 b2 q e = (Rsum (fun i => norm2 (e i)) (3 * nat_), 0, 0).
Proof.
  intros d Hd He. pose proof (polarization_sum nat_ b1 b2 q e) as H. destruct (polarization nat_ b1 b2 q e) as [[L T] Z] eqn:E.
  destruct H as (_ & _ & _ & H). unfold polarization in E. fold (direction b1 b2 q) in E. fold d in E. cbv zeta in E.
  destruct (Rlt_dec (sqrt (fst d * fst d + snd d * snd d)) (/ 10000000000)) as [H'|H']; [lra|]. cbn [fst snd] in E.
  set (Q := sqrt _) in *. pose proof (f_equal (fun t => snd (fst t)) E) as ET. pose proof (f_equal snd E) as EZ. cbn [fst snd] in ET, EZ.
  assert (T = 0).
  { rewrite <- ET. transitivity (Rsum (fun _ => 0) nat_); [|apply Rsum_0]. apply Rsum_ext. intros na Hna. cbn beta. destruct (He na Hna) as (-> & -> & _).
    destruct (c na) as [c1 c2]. unfold norm2, Re, Im, RtoC. cbn. unfold Rdiv. ring. }
  assert (Z = 0).
  { rewrite <- EZ. transitivity (Rsum (fun _ => 0) nat_); [|apply Rsum_0]. apply Rsum_ext. intros na Hna. cbn beta. destruct (He na Hna) as (_ & _ & ->). unfold norm2, Re, Im. cbn. ring. }
  rewrite <- H, H0, H1. f_equal. f_equal. ring.
Qed.

Lemma polarization_transverse nat_ b1 b2 q e (c : nat -> C) :
  let d := direction b1 b2 q in
  / 10000000000 <= sqrt (fst d * fst d + snd d * snd d) ->
  (forall na, (na < nat_)%nat -> e (3 * na)%nat = nmul (c na) (RtoC (- snd d)) /\ e (3 * na + 1)%nat = nmul (c na) (RtoC (fst d)) /\ e (3 * na + 2)%nat = n0) ->
  polarization nat_ b1 b2 q e = (0, Rsum (fun i => norm2 (e i)) (3 * nat_), 0).
Proof.
  intros d Hd He. pose proof (polarization_sum nat_ b1 b2 q e) as H. destruct (polarization nat_ b1 b2 q e) as [[L T] Z] eqn:E.
  destruct H as (_ & _ & _ & H). unfold polarization in E. fold (direction b1 b2 q) in E. fold d in E. cbv zeta in E.
  destruct (Rlt_dec (sqrt (fst d * fst d + snd d * snd d)) (/ 10000000000)) as [H'|H']; [lra|]. cbn [fst snd] in E.
  set (Q := sqrt _) in *. pose proof (f_equal (fun t => fst (fst t)) E) as EL. pose proof (f_equal snd E) as EZ. cbn [fst snd] in EL, EZ.
  assert (L = 0).
  { rewrite <- EL. transitivity (Rsum (fun _ => 0) nat_); [|apply Rsum_0]. apply Rsum_ext. intros na Hna. cbn beta. destruct (He na Hna) as (-> & -> & _).
    destruct (c na) as [c1 c2]. unfold norm2, Re, Im, RtoC. cbn. unfold Rdiv. ring. }
  assert (Z = 0).
  { rewrite <- EZ. transitivity (Rsum (fun _ => 0) nat_); [|apply Rsum_0]. apply Rsum_ext. intros na Hna. cbn beta. destruct (He na Hna) as (_ & _ & ->). unfold norm2, Re, Im. cbn. ring. }
  rewrite <- H, H0, H1. f_equal. f_equal. ring.
Qed.
