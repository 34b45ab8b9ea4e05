(** Proofs about EliashModel.v. *)
From Coq Require Import Permutation Lra.
From Verif Require Import Common LatModel SymModel SymSpec SymProofs SymProofs3 EliashModel EliashSpec.
Local Open Scope R_scope.

Lemma rsum_app {A} (f : A -> R) l l' : rsum f (l ++ l') = rsum f l + rsum f l'.
Proof. induction l as [|x l IH]; cbn; [ring|]. rewrite IH. ring. Qed.

Lemma rsum_ext {A} (f g : A -> R) l : (forall x, In x l -> f x = g x) -> rsum f l = rsum g l.
Proof.
  induction l as [|x l IH]; cbn; intros H; [reflexivity|].
  rewrite (H x (or_introl eq_refl)), IH; [reflexivity|]. intros y Hy. apply H. right; exact Hy.
Qed.

Lemma rsum_perm {A} (f : A -> R) l l' : Permutation l l' -> rsum f l = rsum f l'.
Proof. induction 1; cbn; [reflexivity|congruence|ring|congruence]. Qed.

Lemma rsum_flat_map {A B} (f : B -> R) (g : A -> list B) l :
  rsum f (flat_map g l) = rsum (fun x => rsum f (g x)) l.
Proof. induction l as [|x l IH]; cbn; [reflexivity|]. rewrite rsum_app, IH. reflexivity. Qed.

Lemma rsum_const {A} (f : A -> R) c l : (forall x, In x l -> f x = c) -> rsum f l = c * INR (length l).
Proof.
  induction l as [|x l IH]; intros H; [cbn; ring|]. change (length (x :: l)) with (S (length l)). rewrite S_INR.
  cbn [rsum]. rewrite (H x (or_introl eq_refl)), IH; [ring|]. intros y Hy. apply H. right; exact Hy.
Qed.

Lemma rsum_map {A B} (f : B -> R) (g : A -> B) l : rsum f (map g l) = rsum (fun x => f (g x)) l.
Proof. induction l as [|x l IH]; cbn; [reflexivity|]. rewrite IH. reflexivity. Qed.

Lemma rsum_mul_r {A} (f : A -> R) c l : rsum (fun x => f x * c) l = rsum f l * c.
Proof. induction l as [|x l IH]; cbn; [ring|]. rewrite IH. ring. Qed.

Section Orbit.
  Context (nq : Z) (irr : list pt).
  Hypothesis Hq : (0 < nq)%Z.
  Hypothesis Hirr : irreducibles nq 60 = Ok irr.

  Let qs := sorted_points nq irr.

  Lemma qs_perm : Permutation qs irr.
  Proof.
    destruct (irreducibles_spec 60 nq a60 Hq) as (irr' & E & Hnd & H). rewrite Hirr in E. injection E as <-.
    apply NoDup_Permutation; [apply NoDup_filter, mesh2_NoDup|exact Hnd|].
    intros q. unfold qs. rewrite sorted_points_in. split; [tauto|]. intros Hi. split; [apply H; exact Hi|exact Hi].
  Qed.

  (** Orbit-weighted sums are sums over the mesh. *)
  Lemma orbit_sum f : symmetric nq f ->
    rsum (fun q => f q * INR (length (images_list 60 nq q))) qs = rsum f (mesh2 nq).
  Proof.
    intros Hf. rewrite <- (rsum_perm f _ _ (orbits_partition 60 nq a60 Hq irr Hirr)), rsum_flat_map.
    rewrite (rsum_perm _ _ _ qs_perm). apply rsum_ext. intros q Hin.
    symmetry. apply rsum_const. intros x Hx. apply (images_list_spec 60 nq a60 Hq) in Hx. symmetry.
    destruct (irreducibles_spec 60 nq a60 Hq) as (irr' & E & _ & H). rewrite Hirr in E. injection E as <-.
    apply Hf; [apply H; exact Hin|tauto|tauto].
  Qed.

  Lemma weights_eq : mcmillan_weights nq = Ok (map (fun q => length (images_list 60 nq q)) qs).
  Proof. unfold mcmillan_weights. rewrite Hirr. cbn [bind]. f_equal. apply map_ext. intros q.
    unfold images_list. destruct (images q nq 60); reflexivity. Qed.
End Orbit.

Lemma rsum_enum {A} (w : A -> nat) (f : nat -> nat -> R) (g : A -> R) l : forall s,
  (forall i q, nth_error l i = Some q -> f (s + i)%nat (w q) = g q) ->
  rsum (fun x => f (fst x) (snd x)) (combine (seq s (length (map w l))) (map w l)) = rsum g l.
Proof.
  induction l as [|q l IH]; intros s H; cbn; [reflexivity|]. f_equal.
  - rewrite <- (H 0%nat q eq_refl), Nat.add_0_r. reflexivity.
  - apply IH. intros i q' E. replace (S s + i)%nat with (s + S i)%nat by lia. apply H. exact E.
Qed.

Lemma symmetric_rsum nq (f : pt -> nat -> R) l : (forall nu, symmetric nq (fun q => f q nu)) ->
  symmetric nq (fun q => rsum (f q) l).
Proof. intros H k k' Hk Hk' He. apply rsum_ext. intros nu _. exact (H nu k k' Hk Hk' He). Qed.

Lemma mcmillan_average_eq nq nph N0 eps irr weights W2 G2 DD w2 g2dd dd :
  (0 < nq)%Z -> irreducibles nq 60 = Ok irr -> mcmillan_weights nq = Ok weights ->
  (forall nu, symmetric nq (fun q => W2 q nu)) -> (forall nu, symmetric nq (fun q => G2 q nu)) -> symmetric nq DD ->
  (forall i q, nth_error (sorted_points nq irr) i = Some q ->
     dd i = DD q /\ forall nu, w2 i nu = W2 q nu /\ g2dd i nu = G2 q nu) ->
  mcmillan_average weights nph N0 eps w2 g2dd dd =
  (full_lambda nq nph N0 eps W2 G2 DD, full_wlog nq nph eps W2 G2, full_w2nd nq nph eps W2 G2).
Proof.
  intros Hq Hirr Hw HW HG HD Hin. rewrite (weights_eq nq irr Hirr) in Hw. injection Hw as <-.
  set (qs := sorted_points nq irr) in *. set (w := fun q => length (images_list 60 nq q)).
  unfold mcmillan_average. set (iqs := combine _ _).
  set (Wc := fun iq nu => if Rlt_dec (w2 iq nu) eps then eps else w2 iq nu).
  set (Vc := fun (x : nat * nat) nu => (if Rlt_dec (w2 (fst x) nu) eps then 0 else g2dd (fst x) nu * INR (snd x)) / Wc (fst x) nu).
  assert (Hc : forall nu, symmetric nq (fun q => coupling eps W2 G2 q nu)).
  { intros nu k k' Hk Hk' He. unfold coupling. rewrite (HW nu k k' Hk Hk' He), (HG nu k k' Hk Hk' He). reflexivity. }
  assert (T : forall (h : R -> R) , rsum (fun x => rsum (fun nu => Vc x nu * h (Wc (fst x) nu)) (seq 0 nph)) iqs
     = full_sum nq nph (fun q nu => coupling eps W2 G2 q nu * h (W2 q nu))).
  { intros h. unfold full_sum. fold (mesh2 nq).
    rewrite <- (orbit_sum nq irr Hq Hirr (fun q => rsum (fun nu => coupling eps W2 G2 q nu * h (W2 q nu)) (seq 0 nph))).
    - fold qs. fold w. unfold iqs.
      apply (rsum_enum w (fun i wt => rsum (fun nu => Vc (i, wt) nu * h (Wc i nu)) (seq 0 nph))
               (fun q => rsum (fun nu => coupling eps W2 G2 q nu * h (W2 q nu)) (seq 0 nph) * INR (w q)) qs).
      intros i q Eq. destruct (Hin i q Eq) as [_ Hx]. rewrite <- rsum_mul_r. apply rsum_ext. intros nu _.
      destruct (Hx nu) as [E1 E2]. unfold Vc, Wc, coupling. cbn [fst snd]. rewrite Nat.add_0_l, E1, E2.
      destruct (Rlt_dec (W2 q nu) eps); unfold Rdiv; ring.
    - apply symmetric_rsum. intros nu k k' Hk Hk' He. cbn. rewrite (Hc nu k k' Hk Hk' He), (HW nu k k' Hk Hk' He). reflexivity. }
  assert (T1 : rsum (fun x => rsum (Vc x) (seq 0 nph)) iqs = full_sum nq nph (coupling eps W2 G2)).
  { transitivity (rsum (fun x => rsum (fun nu => Vc x nu * 1) (seq 0 nph)) iqs).
    - apply rsum_ext; intros x _; apply rsum_ext; intros nu _; ring.
    - rewrite (T (fun _ => 1)). apply rsum_ext; intros x _; apply rsum_ext; intros nu _; ring. }
  assert (T2 : rsum (fun x => dd (fst x) * INR (snd x)) iqs = rsum DD (list_prod (zrange 0 nq) (zrange 0 nq))).
  { fold (mesh2 nq). rewrite <- (orbit_sum nq irr Hq Hirr DD HD). fold qs. fold w. unfold iqs.
    apply (rsum_enum w (fun i wt => dd i * INR wt) (fun q => DD q * INR (w q)) qs).
    intros i q Eq. destruct (Hin i q Eq) as [Ed _]. cbn [plus]. rewrite Ed. reflexivity. }
  unfold full_lambda, full_wlog, full_w2nd. cbn zeta.
  apply (f_equal2 pair); [apply (f_equal2 pair)|].
  - rewrite <- T1, <- T2. reflexivity.
  - apply f_equal. rewrite <- T1. apply (f_equal2 Rdiv); [|reflexivity].
    transitivity (rsum (fun x => rsum (fun nu => Vc x nu * (ln (Wc (fst x) nu) / 2)) (seq 0 nph)) iqs).
    + apply rsum_ext; intros x _; apply rsum_ext; intros nu _. unfold Vc, Wc, Rdiv. ring.
    + rewrite (T (fun x => ln x / 2)). apply rsum_ext; intros x _; apply rsum_ext; intros nu _. unfold Rdiv; ring.
  - apply f_equal. rewrite <- T1. apply (f_equal2 Rdiv); [|reflexivity]. apply (T (fun x => x)).
Qed.

(** ** McMillan's formula *)

Lemma Tc_scale kB lamda wlog mustar c correct : kB <> 0 ->
  Tc kB lamda (c * wlog) mustar None correct = c * Tc kB lamda wlog mustar None correct.
Proof. intros H. unfold Tc. destruct correct; unfold Rdiv; ring. Qed.

Lemma Tc_pos kB lamda wlog mustar : 0 < kB -> 0 < wlog -> 0 < Tc kB lamda wlog mustar None false.
Proof.
  intros HB Hw. unfold Tc. apply Rmult_lt_0_compat; [|apply exp_pos].
  apply Rdiv_lt_0_compat; lra.
Qed.

(** The exponent. *)
Definition den (lamda mustar : R) := Rmax (1/1000) (lamda - mustar * (1 + 62/100 * lamda)).

Lemma den_pos l m : 0 < den l m.
Proof. unfold den. pose proof (Rmax_l (1/1000) (l - m * (1 + 62/100 * l))). lra. Qed.

Lemma Tc_le_iff kB l l' w m m' : 0 < kB -> 0 < w ->
  (1 + l) * den l' m' >= (1 + l') * den l m -> Tc kB l w m None false <= Tc kB l' w m' None false.
Proof.
  intros HB Hw H. unfold Tc. fold (den l m) (den l' m'). apply Rmult_le_compat_l.
  - apply Rlt_le, Rdiv_lt_0_compat; lra.
  - pose proof (den_pos l m). pose proof (den_pos l' m').
    assert (E : - (104/100) * (1 + l) / den l m <= - (104/100) * (1 + l') / den l' m').
    { apply (Rmult_le_reg_r (den l m * den l' m')); [apply Rmult_lt_0_compat; assumption|].
      replace (- (104/100) * (1 + l) / den l m * (den l m * den l' m')) with (- (104/100) * ((1 + l) * den l' m')) by (field; lra).
      replace (- (104/100) * (1 + l') / den l' m' * (den l m * den l' m')) with (- (104/100) * ((1 + l') * den l m)) by (field; lra).
      lra. }
    destruct E as [E|E]; [left; apply exp_increasing; exact E|right; rewrite E; reflexivity].
Qed.

(** A stronger Coulomb repulsion never increases Tc. *)
Lemma Tc_mustar kB l w m m' : 0 < kB -> 0 < w -> 0 <= l -> m <= m' ->
  Tc kB l w m' None false <= Tc kB l w m None false.
Proof.
  intros HB Hw Hl Hm. apply Tc_le_iff; [assumption..|]. apply Rle_ge, Rmult_le_compat_l; [lra|].
  unfold den. apply Rle_max_compat_l. assert (m * (1 + 62/100 * l) <= m' * (1 + 62/100 * l)) by (apply Rmult_le_compat_r; lra). lra.
Qed.

(** For repulsion of usual size, a stronger coupling never decreases Tc once
    the attraction prevails. *)
Lemma Tc_lamda kB l l' w m : 0 < kB -> 0 < w -> 0 <= m -> m < 1 ->
  l <= l' -> 1/1000 <= l - m * (1 + 62/100 * l) -> Tc kB l w m None false <= Tc kB l' w m None false.
Proof.
  intros HB Hw Hm Hm1 Hl Hd. apply Tc_le_iff; [assumption..|].
  assert (Hd' : 1/1000 <= l' - m * (1 + 62/100 * l')).
  { assert (0 <= (l' - l) * (1 - m * (62/100))) by (apply Rmult_le_pos; lra). lra. }
  unfold den. rewrite !Rmax_right by lra.
  assert (E : (1 + l) * (l' - m * (1 + 62/100 * l')) - (1 + l') * (l - m * (1 + 62/100 * l)) = (l' - l) * (1 + m * (38/100))) by field.
  assert (0 <= (l' - l) * (1 + m * (38/100))) by (apply Rmult_le_pos; lra). lra.
Qed.
