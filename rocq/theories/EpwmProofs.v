From Coq Require Import Lia Lqa Qabs.
From Verif Require Import Text TextProofs EpwoModel EpwoSpec EpwoProofs EpwmModel EpwmSpec TabProofs TabProofs2 GridProofs.
From Verif Require CoulModel CoulProofs.
From Coq Require Import List.
Import ListNotations.
Local Open Scope nat_scope.

Lemma same_eq p r : same p r = true <-> p = r.
Proof. unfold same. rewrite Bool.andb_true_iff, !Z.eqb_eq. destruct p, r; cbn. split; [intros [-> ->]; reflexivity|intros [= -> ->]; auto]. Qed.
Lemma position_in p q : In p q -> nth (position p q) q (0, 0)%Z = p /\ position p q < length q.
Proof.
  induction q as [|r q IH]; intros H; [destruct H|]. cbn [position]. destruct (same r p) eqn:E.
  - apply same_eq in E. subst. cbn. split; [reflexivity|lia].
  - destruct H as [->|H]; [assert (same p p = true) by (apply same_eq; reflexivity); congruence|]. cbn [nth length]. destruct (IH H). split; [assumption|lia].
Qed.
Lemma in_discard p r q : In r (discard p q) <-> In r q /\ r <> p.
Proof.
  unfold discard. rewrite filter_In, Bool.negb_true_iff. split; intros [H D]; (split; [exact H|]).
  - intros ->. assert (same p p = true) by (apply same_eq; reflexivity). congruence.
  - apply Bool.not_true_iff_false. rewrite same_eq. exact D.
Qed.
Lemma existsb_same p q : existsb (same p) q = true <-> In p q.
Proof. rewrite existsb_exists. split; [intros (r & H & E); apply same_eq in E; subst; exact H|intros H; exists p; split; [exact H|apply same_eq; reflexivity]]. Qed.

Section Mesh.
Variables (n : nat) (eps : Q).
Hypothesis He : (0 <= eps < 1 # 2)%Q.
Lemma near_round x m : near n eps x m ->
  (Qle_bool (Qabs (x * inject_Z (Z.of_nat n) - inject_Z (CoulModel.round_half_even (x * inject_Z (Z.of_nat n))))) eps = true /\ CoulModel.round_half_even (x * inject_Z (Z.of_nat n)) mod Z.of_nat n = m)%Z.
Proof.
  intros [B (z & H)]. rewrite (CoulProofs.round_unique _ (m + z * Z.of_nat n)) by lra. split; [apply Qle_bool_iff, H|]. rewrite Z.mod_add by lia. apply Z.mod_small, B.
Qed.
Lemma near_unique x m m' : near n eps x m -> near n eps x m' -> m = m'.
Proof. intros A B. destruct (near_round _ _ A), (near_round _ _ B). congruence. Qed.
Lemma off_near x m : off n eps x -> ~ near n eps x m.
Proof. intros O [_ (z & H)]. specialize (O (m + z * Z.of_nat n)%Z). lra. Qed.
Lemma at_unique a b p r : at_point n eps a b p -> at_point n eps a b r -> p = r.
Proof. destruct p, r. intros [A B] [A' B']. cbn in *. f_equal; eapply near_unique; eassumption. Qed.
Lemma off_at a b p : off_mesh n eps a b -> ~ at_point n eps a b p.
Proof. intros [O|O] [A B]; eapply off_near; eassumption. Qed.

Lemma end3 {A} (ws : list A) a b c : from_end 3 (ws ++ [a; b; c]) = Ok a.
Proof. unfold from_end. rewrite rev_app_distr. reflexivity. Qed.
Lemma end2' {A} (ws : list A) a b c : from_end 2 (ws ++ [a; b; c]) = Ok b.
Proof. unfold from_end. rewrite rev_app_distr. reflexivity. Qed.
Lemma point_at s a b t p : point_line s a b t -> at_point n eps a b p -> mesh_point n eps (str_split (nl t)) = Ok (Some p).
Proof.
  intros (_ & _ & ws & u & v & c & Sp & Ru & Rv) [A B]. rewrite (spaced_nl _ _ Sp). unfold mesh_point. rewrite end3. cbn [bind]. unfold real in Ru, Rv. rewrite Ru. cbn [bind]. rewrite end2'. cbn [bind]. rewrite Rv. cbn [bind].
  cbv zeta. destruct (near_round _ _ A) as [-> ->]. destruct (near_round _ _ B) as [-> ->]. cbn [negb orb]. destruct A as [A _]. destruct (Nat.eqb_spec n 0); [lia|]. destruct p. reflexivity.
Qed.
Lemma off_false x : off n eps x -> Qle_bool (Qabs (x * inject_Z (Z.of_nat n) - inject_Z (CoulModel.round_half_even (x * inject_Z (Z.of_nat n))))) eps = false.
Proof. intros O. apply Bool.not_true_iff_false. rewrite Qle_bool_iff. specialize (O (CoulModel.round_half_even (x * inject_Z (Z.of_nat n)))). lra. Qed.
Lemma point_off s a b t : point_line s a b t -> off_mesh n eps a b -> mesh_point n eps (str_split (nl t)) = Ok None.
Proof.
  intros (_ & _ & ws & u & v & c & Sp & Ru & Rv) O. rewrite (spaced_nl _ _ Sp). unfold mesh_point. rewrite end3. cbn [bind]. unfold real in Ru, Rv. rewrite Ru. cbn [bind]. rewrite end2'. cbn [bind]. rewrite Rv. cbn [bind].
  cbv zeta. destruct O as [O|O]; rewrite (off_false _ O); cbn [negb orb]; [reflexivity|]. rewrite Bool.orb_true_r. reflexivity.
Qed.
End Mesh.

Section Scan.
Context {V : Type}.
Variables (decode : list text -> res V) (row : V -> text -> Prop).
Hypothesis row_ok : forall v l, row v l -> decode (str_split (nl l)) = Ok v.
Variables (q : list (Z * Z)) (nq nk nmodes bands : nat) (eps : Q) (G : Z * Z -> nat -> Z * Z -> nat -> nat -> V).
Hypothesis He : (0 <= eps < 1 # 2)%Q.
Notation SC := (scan decode nq nk nmodes bands q eps).

Lemma scan_rows i0 k q_set F : forall idx rows rest e,
  Forall2 (fun '(j, i, nu) l => row (F j i nu) l) idx rows ->
  exists e', SC e q_set (Some i0) k (map (fun '(j, i, nu) => ToRead j i nu) idx) (map nl rows ++ rest) = SC e' q_set (Some i0) k [] rest /\
    (forall iq nu k1 k2 i j, e' iq nu k1 k2 i j = e iq nu k1 k2 i j \/ (iq = i0 /\ k = (k1, k2) /\ e' iq nu k1 k2 i j = Some (F j i nu))) /\
    (forall j i nu, In (j, i, nu) idx -> e' i0 nu (fst k) (snd k) i j = Some (F j i nu)).
Proof.
  induction idx as [|[[j i] nu] idx IH]; intros rows rest e H; inversion H as [|? l ? rows' R Fl]; clear H; subst.
  - exists e. split; [reflexivity|]. split; [left; reflexivity|]. intros ? ? ? [].
  - cbn [map app scan]. rewrite (row_ok _ _ R). cbn [bind]. destruct (IH rows' rest (set_e e i0 nu (fst k) (snd k) i j (F j i nu)) Fl) as (e' & E & A & B).
    exists e'. split; [exact E|]. split.
    + intros iq nu' k1 k2 i' j'. destruct (A iq nu' k1 k2 i' j') as [A'|A']; [|right; exact A']. rewrite A'. unfold set_e.
      destruct (Nat.eqb_spec iq i0) as [->|]; cbn [andb]; [|left; reflexivity]. destruct (Nat.eqb_spec nu' nu) as [->|]; cbn [andb]; [|left; reflexivity].
      destruct (Nat.eqb_spec k1 (fst k)) as [->|]; cbn [andb]; [|left; reflexivity]. destruct (Nat.eqb_spec k2 (snd k)) as [->|]; cbn [andb]; [|left; reflexivity].
      destruct (Nat.eqb_spec i' i) as [->|]; cbn [andb]; [|left; reflexivity]. destruct (Nat.eqb_spec j' j) as [->|]; [|left; reflexivity].
      right. split; [reflexivity|]. split; [destruct k; reflexivity|reflexivity].
    + intros j' i' nu' [Eq|J]; [|apply B, J]. injection Eq as <- <- <-. destruct (A i0 nu (fst k) (snd k) i j) as [A'|A']; [|exact (proj2 (proj2 A'))]. rewrite A'. unfold set_e. rewrite !Nat.eqb_refl. reflexivity.
Qed.

(** Lines that are passed over *)
Lemma scan_quiet t ls e q_set iqo k : quiet t -> SC e q_set iqo k [] (nl t :: ls) = SC e q_set iqo k [] ls.
Proof. intros (S0 & N1 & N2). cbn [scan]. rewrite (begins_no _ t iq_nl S0 N1), (begins_no _ t ik_nl S0 N2). destruct iqo; reflexivity. Qed.
Lemma scan_quiets ts ls e q_set iqo k : Forall quiet ts -> SC e q_set iqo k [] (map nl ts ++ ls) = SC e q_set iqo k [] ls.
Proof. induction 1 as [|t ts Q _ IH]; [reflexivity|]. cbn [map app]. rewrite scan_quiet by exact Q. exact IH. Qed.
Lemma scan_none t ls e q_set k : single t -> begins "     ik = " t -> SC e q_set None k [] (nl t :: ls) = SC e q_set None k [] ls.
Proof. intros S0 B. cbn [scan]. assert (N : ~ begins "     iq = " t) by (intros B'; exact (iq_not_ik _ B' B)). rewrite (begins_no _ t iq_nl S0 N). reflexivity. Qed.

Definition cond (q_set : list (Z * Z)) (iqo : option nat) (l : list item) (iq : nat) (k : Z * Z) : Prop :=
  (iqo = Some iq /\ in_section nk eps k l) \/
  (In (nth iq q (0, 0)%Z) q_set /\ position (nth iq q (0, 0)%Z) q = iq /\ given nq nk eps (nth iq q (0, 0)%Z) k l).
Definition zz (k1 k2 : nat) : Z * Z := (Z.of_nat k1, Z.of_nat k2).

Lemma table_loops F table : values_of row nmodes bands F table -> Forall2 (fun '(j, i, nu) l => row (F j i nu) l) (loops bands nmodes) table.
Proof.
  intros [L T]. assert (K : forall n (idx : list (nat * nat * nat)) tb, n = length idx -> length tb = n -> (forall m d, m < n -> let '(j, i, nu) := nth m idx d in row (F j i nu) (nth m tb [])) -> Forall2 (fun '(j, i, nu) l => row (F j i nu) l) idx tb).
  { clear. intros n idx. revert n. induction idx as [|x idx IH]; intros n tb E1 E2 H; destruct tb as [|t tb]; cbn in *; try lia; constructor.
    - specialize (H 0 x ltac:(lia)). destruct x as [[j i] nu]. exact H.
    - apply (IH (length idx)); [reflexivity|lia|]. intros m d Hm. exact (H (S m) d ltac:(lia)). }
  apply (K (bands * bands * nmodes)); [symmetry; apply (loops_length nmodes bands (fun _ _ => 0%Q) (fun _ _ _ _ _ => 0%Q))|exact L|]. intros m d Hm.
  assert (Hb : 0 < bands) by nia. assert (Hn : 0 < nmodes) by nia.
  pose (nu := m mod nmodes). pose (ji := m / nmodes). pose (i := ji mod bands). pose (j := ji / bands).
  assert (Hnu : nu < nmodes) by (apply Nat.mod_upper_bound; lia). assert (Hi : i < bands) by (apply Nat.mod_upper_bound; lia).
  assert (Em : m = ji * nmodes + nu) by (unfold ji, nu; rewrite Nat.mul_comm; apply Nat.div_mod; lia).
  assert (Ej : ji = j * bands + i) by (unfold j, i; rewrite Nat.mul_comm; apply Nat.div_mod; lia).
  assert (Hj : j < bands) by (apply Nat.div_lt_upper_bound; [lia|]; unfold ji; apply Nat.div_lt_upper_bound; lia).
  assert (E : nth m (loops bands nmodes) d = (j, i, nu)).
  { rewrite Em, Ej. unfold loops. replace ((j * bands + i) * nmodes + nu) with (j * (bands * nmodes) + (i * nmodes + nu)) by lia.
    rewrite (nth_flat_seq _ (bands * nmodes)); [|intros x; rewrite (length_flat_const _ nmodes); [rewrite seq_length; reflexivity|]; intros y; rewrite map_length, seq_length; reflexivity|exact Hj|nia].
    rewrite (nth_flat_seq _ nmodes); [|intros x; rewrite map_length, seq_length; reflexivity|exact Hi|exact Hnu]. cbn [Nat.add].
    rewrite (nth_indep _ d (j, i, 0)) by (rewrite map_length, seq_length; exact Hnu). rewrite (map_nth (fun nu => (j, i, nu))). rewrite seq_nth by exact Hnu. reflexivity. }
  rewrite E. rewrite Em, Ej. apply T; assumption.
Qed.

Lemma scan_output cur l : output row nq nk nmodes bands eps G cur l -> forall e q_set iqo k,
  (forall i, iqo = Some i -> cur = Some (nth i q (0, 0)%Z) /\ i < length q) -> incl q_set q ->
  exists e', SC e q_set iqo k [] (map nl (flat_map item_lines l)) = Ok e' /\
    forall iq nu k1 k2 i j, iq < length q -> nu < nmodes -> i < bands -> j < bands ->
      (e' iq nu k1 k2 i j = e iq nu k1 k2 i j \/ (cond q_set iqo l iq (zz k1 k2) /\ e' iq nu k1 k2 i j = Some (G (nth iq q (0, 0)%Z) nu (zz k1 k2) i j))) /\
      (cond q_set iqo l iq (zz k1 k2) -> e' iq nu k1 k2 i j = Some (G (nth iq q (0, 0)%Z) nu (zz k1 k2) i j)).
Proof.
  induction 1 as [cur|cur t l Qt _ IH|cur t a b p l Pt At O IH|cur t a b l Pt Off O IH|p t a b kk h1 h2 table l Pt At Q1 Q2 Qt T O IH|cur t a b h1 h2 table l Pt Off Q1 Q2 Qt O IH]; intros e q_set iqo k Hi Hs.
  - exists e. split; [reflexivity|]. unfold cond. cbn. intuition.
  - cbn [flat_map item_lines app map]. rewrite scan_quiet by exact Qt. exact (IH e q_set iqo k Hi Hs).
  - cbn [flat_map item_lines app map scan]. rewrite (begins_yes _ t iq_nl (proj1 Pt) (proj1 (proj2 Pt))). destruct q_set as [|r0 q_set0] eqn:EQ.
    { exists e. split; [reflexivity|]. intros iq nu k1 k2 i j _ _ _ _. split; [left; reflexivity|]. unfold cond. cbn. intuition. }
    rewrite <- EQ in *. clear EQ r0 q_set0. rewrite (point_at nq eps He _ _ _ _ _ Pt At). cbn [bind].
    assert (U : forall r, at_point nq eps a b r <-> r = p) by (intros r; split; [intros A; exact (at_unique nq eps He _ _ _ _ A At)|intros ->; exact At]).
    destruct (existsb (same p) q_set) eqn:X.
    + apply existsb_same in X. destruct (position_in p q (Hs _ X)) as [N1 N2].
      destruct (IH e (discard p q_set) (Some (position p q)) k) as (e' & E & A).
      { intros i [= <-]. rewrite N1. split; [reflexivity|exact N2]. }
      { intros r J. apply in_discard in J. apply Hs, J. }
      exists e'. split; [exact E|]. intros iq nu k1 k2 i j B1 B2 B3 B4. specialize (A iq nu k1 k2 i j B1 B2 B3 B4).
      assert (C : cond q_set iqo (Qpoint t a b :: l) iq (zz k1 k2) <-> cond (discard p q_set) (Some (position p q)) l iq (zz k1 k2)).
      { unfold cond. cbn [in_section given]. rewrite U, in_discard. split.
        - intros [[_ []]|(J1 & J2 & [[J3 J4]|[J3 J4]])]; [left|right].
          + rewrite <- J3, J2. split; [reflexivity|exact J4].
          + repeat split; assumption.
        - intros [[[= J1] J2]|((J1 & J2) & J3 & J4)]; right; [subst iq; rewrite N1|].
          + split; [exact X|]. split; [reflexivity|]. left. split; [reflexivity|exact J2].
          + split; [exact J1|]. split; [exact J3|]. right. split; assumption. }
      rewrite C. exact A.
    + assert (NX : ~ In p q_set) by (intros J; apply existsb_same in J; congruence).
      destruct (IH e q_set None k) as (e' & E & A); [discriminate|exact Hs|].
      exists e'. split; [exact E|]. intros iq nu k1 k2 i j B1 B2 B3 B4. specialize (A iq nu k1 k2 i j B1 B2 B3 B4).
      assert (C : cond q_set iqo (Qpoint t a b :: l) iq (zz k1 k2) <-> cond q_set None l iq (zz k1 k2)).
      { unfold cond. cbn [in_section given]. rewrite U. split.
        - intros [[_ []]|(J1 & J2 & [[J3 J4]|[J3 J4]])]; [exfalso; apply NX; rewrite <- J3; exact J1|]. right. repeat split; assumption.
        - intros [[J _]|(J1 & J2 & J3)]; [discriminate|]. right. split; [exact J1|]. split; [exact J2|]. right. split; [|exact J3]. intros J. apply NX. rewrite <- J. exact J1. }
      rewrite C. exact A.
  - cbn [flat_map item_lines app map scan]. rewrite (begins_yes _ t iq_nl (proj1 Pt) (proj1 (proj2 Pt))). destruct q_set as [|r0 q_set0] eqn:EQ.
    { exists e. split; [reflexivity|]. intros iq nu k1 k2 i j _ _ _ _. split; [left; reflexivity|]. unfold cond. cbn. intuition. }
    rewrite <- EQ in *. clear EQ r0 q_set0. rewrite (point_off nq eps _ _ _ _ Pt Off). cbn [bind].
    destruct (IH e q_set None k) as (e' & E & A); [discriminate|exact Hs|].
    exists e'. split; [exact E|]. intros iq nu k1 k2 i j B1 B2 B3 B4. specialize (A iq nu k1 k2 i j B1 B2 B3 B4).
    assert (C : cond q_set iqo (Qpoint t a b :: l) iq (zz k1 k2) <-> cond q_set None l iq (zz k1 k2)).
    { unfold cond. cbn [in_section given]. pose proof (off_at nq eps a b (nth iq q (0, 0)%Z) Off) as N. split.
      - intros [[_ []]|(J1 & J2 & [[J3 J4]|[J3 J4]])]; [exfalso; exact (N J3)|]. right. repeat split; assumption.
      - intros [[J _]|(J1 & J2 & J3)]; [discriminate|]. right. repeat split; try assumption. right. split; assumption. }
    rewrite C. exact A.
  - cbn [flat_map item_lines]. rewrite map_app. cbn [map app]. destruct iqo as [i0|].
    + destruct (Hi i0 eq_refl) as [[= Ep] Li]. cbn [scan].
      assert (N : ~ begins "     iq = " t) by (intros B'; exact (iq_not_ik _ B' (proj1 (proj2 Pt)))).
      rewrite (begins_no _ t iq_nl (proj1 Pt) N), (begins_yes _ t ik_nl (proj1 Pt) (proj1 (proj2 Pt))), (point_at nk eps He _ _ _ _ _ Pt At). cbn [bind].
      destruct kk as [z1 z2]. cbn [requests scan]. destruct At as [[K1 K1'] [K2 K2']]. cbn [fst snd] in *.
      destruct (scan_rows i0 (Z.to_nat z1, Z.to_nat z2) q_set (fun j i nu => G p nu (z1, z2) i j) (loops bands nmodes) table (map nl (flat_map item_lines l)) e (table_loops _ _ T)) as (e1 & E1 & A1 & B1).
      rewrite E1. destruct (IH e1 q_set (Some i0) (Z.to_nat z1, Z.to_nat z2) Hi Hs) as (e' & E & A). exists e'. split; [exact E|].
      intros iq nu k1 k2 i j C1 C2 C3 C4. specialize (A iq nu k1 k2 i j C1 C2 C3 C4). destruct A as [A A']. cbn [fst snd] in B1.
      assert (At : at_point nk eps a b (z1, z2)) by (split; split; assumption).
      assert (C : cond q_set (Some i0) (Kpoint t a b h1 h2 table :: l) iq (zz k1 k2) <-> (i0 = iq /\ zz k1 k2 = (z1, z2)) \/ cond q_set (Some i0) l iq (zz k1 k2)).
      { unfold cond. cbn [in_section given]. split.
        - intros [[[= J1] [J2|J2]]|J]; [left; split; [exact J1|exact (at_unique nk eps He _ _ _ _ J2 At)]|right; left; split; [congruence|exact J2]|right; right; exact J].
        - intros [[J1 J2]|[[J1 J2]|J]]; [left; split; [congruence|left; rewrite J2; exact At]|left; split; [exact J1|right; exact J2]|right; exact J]. }
      assert (D : i0 = iq -> zz k1 k2 = (z1, z2) -> e1 iq nu k1 k2 i j = Some (G (nth iq q (0, 0)%Z) nu (zz k1 k2) i j)).
      { intros <- Ez. rewrite Ez. unfold zz in Ez. injection Ez as <- <-. rewrite <- Ep. specialize (B1 j i nu (loops_in nmodes bands (fun _ _ => 0%Q) (fun _ _ _ _ _ => 0%Q) j i nu C4 C3 C2)). rewrite !Nat2Z.id in B1. exact B1. }
      rewrite C. split.
      * destruct A as [A|[A2 A3]]; [|right; split; [right; exact A2|exact A3]]. destruct (A1 iq nu k1 k2 i j) as [F|(F1 & F2 & F3)]; [left; congruence|].
        injection F2 as F2 F2'. assert (Ez : zz k1 k2 = (z1, z2)) by (unfold zz; f_equal; lia). right. split; [left; split; [congruence|exact Ez]|]. rewrite A. apply D; [congruence|exact Ez].
      * intros [[J1 J2]|J]; [|exact (A' J)]. destruct A as [A|[_ A]]; [|exact A]. rewrite A. exact (D J1 J2).
    + rewrite scan_none by (apply Pt). rewrite (scan_quiet h1), (scan_quiet h2), (scan_quiets table) by assumption.
      destruct (IH e q_set None k Hi Hs) as (e' & E & A). exists e'. split; [exact E|]. intros iq nu k1 k2 i j C1 C2 C3 C4. specialize (A iq nu k1 k2 i j C1 C2 C3 C4).
      assert (C : cond q_set None (Kpoint t a b h1 h2 table :: l) iq (zz k1 k2) <-> cond q_set None l iq (zz k1 k2)).
      { unfold cond. cbn [in_section given]. intuition discriminate. }
      rewrite C. exact A.
  - cbn [flat_map item_lines]. rewrite map_app. cbn [map app].
    assert (ES : SC e q_set iqo k [] (nl t :: nl h1 :: nl h2 :: map nl table ++ map nl (flat_map item_lines l)) = SC e q_set iqo k [] (map nl (flat_map item_lines l))).
    { destruct iqo as [i0|].
      - destruct (Hi i0 eq_refl) as [-> _]. destruct Off as [Off|Off]; [discriminate|].
        assert (N : ~ begins "     iq = " t) by (intros B'; exact (iq_not_ik _ B' (proj1 (proj2 Pt)))).
        etransitivity; [|rewrite <- (scan_quiets table) by exact Qt; rewrite <- (scan_quiet h2), <- (scan_quiet h1) by assumption; reflexivity].
        cbn [scan]. rewrite (begins_no _ t iq_nl (proj1 Pt) N), (begins_yes _ t ik_nl (proj1 Pt) (proj1 (proj2 Pt))), (point_off nk eps _ _ _ _ Pt Off). reflexivity.
      - rewrite scan_none by (apply Pt). rewrite (scan_quiet h1), (scan_quiet h2), (scan_quiets table) by assumption. reflexivity. }
    rewrite ES. destruct (IH e q_set iqo k Hi Hs) as (e' & E & A). exists e'. split; [exact E|]. intros iq nu k1 k2 i j C1 C2 C3 C4. specialize (A iq nu k1 k2 i j C1 C2 C3 C4).
    assert (C : cond q_set iqo (Kpoint t a b h1 h2 table :: l) iq (zz k1 k2) <-> cond q_set iqo l iq (zz k1 k2)).
    { unfold cond. cbn [in_section given]. destruct iqo as [i0|]; [|intuition discriminate]. destruct (Hi i0 eq_refl) as [-> _]. destruct Off as [Off|Off]; [discriminate|].
      pose proof (off_at nk eps a b (zz k1 k2) Off). intuition. }
    rewrite C. exact A.
Qed.
End Scan.

Lemma output_single {V} (row : V -> text -> Prop) nq nk nmodes bands eps G cur l : output row nq nk nmodes bands eps G cur l -> forall t, In t (flat_map item_lines l) -> single t.
Proof.
  assert (T : forall table, Forall quiet table -> forall u, In u table -> single u) by (intros table H u J; rewrite Forall_forall in H; exact (proj1 (H u J))).
  induction 1 as [cur|cur t l Qt _ IH|cur t a b p l Pt At O IH|cur t a b l Pt Off O IH|p t a b kk h1 h2 table l Pt At Q1 Q2 Qt Tb O IH|cur t a b h1 h2 table l Pt Off Q1 Q2 Qt O IH]; intros u J; cbn [flat_map item_lines app] in J.
  - destruct J.
  - destruct J as [<-|J]; [apply Qt|apply IH, J].
  - destruct J as [<-|J]; [apply Pt|apply IH, J].
  - destruct J as [<-|J]; [apply Pt|apply IH, J].
  - destruct J as [<-|[<-|[<-|J]]]; [apply Pt|apply Q1|apply Q2|]. apply in_app_or in J as [J|J]; [exact (T _ Qt _ J)|apply IH, J].
  - destruct J as [<-|[<-|[<-|J]]]; [apply Pt|apply Q1|apply Q2|]. apply in_app_or in J as [J|J]; [exact (T _ Qt _ J)|apply IH, J].
Qed.

Lemma existsb_seq n f : existsb f (seq 0 n) = true <-> exists i, i < n /\ f i = true.
Proof. rewrite existsb_exists. split; intros (i & H & E); exists i; (split; [|exact E]); rewrite in_seq in *; lia. Qed.
Lemma any_nan_iff {V} n nmodes nk bands (e : @array V) : any_nan n nmodes nk bands e = true <->
  exists iq nu k1 k2 i j, iq < n /\ nu < nmodes /\ k1 < nk /\ k2 < nk /\ i < bands /\ j < bands /\ e iq nu k1 k2 i j = None.
Proof.
  unfold any_nan. rewrite existsb_seq. split.
  - intros (iq & H1 & H). apply existsb_seq in H as (nu & H2 & H). apply existsb_seq in H as (k1 & H3 & H). apply existsb_seq in H as (k2 & H4 & H). apply existsb_seq in H as (i & H5 & H). apply existsb_seq in H as (j & H6 & H).
    exists iq, nu, k1, k2, i, j. destruct (e iq nu k1 k2 i j); [discriminate|]. repeat split; assumption.
  - intros (iq & nu & k1 & k2 & i & j & H1 & H2 & H3 & H4 & H5 & H6 & H). exists iq. split; [exact H1|]. apply existsb_seq. exists nu. split; [exact H2|]. apply existsb_seq. exists k1. split; [exact H3|]. apply existsb_seq. exists k2. split; [exact H4|].
    apply existsb_seq. exists i. split; [exact H5|]. apply existsb_seq. exists j. split; [exact H6|]. rewrite H. reflexivity.
Qed.
