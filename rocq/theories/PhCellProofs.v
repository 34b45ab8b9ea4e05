(** Proofs about PhCellModel.v *)
From Coq Require InitialRing.
From Coq Require Import Permutation Lia Field.
From Verif Require Import OField Common CommonProofs LatModel LatSpec LatProofs Num NumProofs ElModel ElSpec ElProofs ElProofs2 ElProofs3 ElProofs4
  PhCellModel PhCellSpec.
Local Open Scope nat_scope.

(** ** Integers as numbers *)
Section OfZ.
  Context {K : ofield}.
  Add Field K_fieldc : (k_field K).
  Local Open Scope k_scope.

  Lemma ofZ_morph : Ring_theory.ring_morph k0 k1 kadd kmul ksub kopp eq 0%Z 1%Z Z.add Z.mul Z.sub Z.opp Zeq_bool (@ofZ K).
  Proof.
    apply InitialRing.gen_phiZ_morph.
    - split; [intros x; reflexivity|intros x y; apply eq_sym|intros x y z; apply eq_trans].
    - split; congruence.
    - apply (F_R (k_field K)).
  Qed.
  Lemma ofZ_0 : @ofZ K 0 = k0.
  Proof. reflexivity. Qed.
  Lemma ofZ_1 : @ofZ K 1 = k1.
  Proof. reflexivity. Qed.
  Lemma ofZ_add x y : @ofZ K (x + y)%Z = ofZ x + ofZ y.
  Proof. apply (Ring_theory.morph_add ofZ_morph). Qed.
  Lemma ofZ_mul x y : @ofZ K (x * y)%Z = ofZ x * ofZ y.
  Proof. apply (Ring_theory.morph_mul ofZ_morph). Qed.
  Lemma ofZ_sub x y : @ofZ K (x - y)%Z = ofZ x - ofZ y.
  Proof. apply (Ring_theory.morph_sub ofZ_morph). Qed.
  Lemma ofZ_opp x : @ofZ K (- x)%Z = - ofZ x.
  Proof. apply (Ring_theory.morph_opp ofZ_morph). Qed.

  Lemma k1_pos : kltb k0 (k1 : K) = true.
  Proof.
    destruct (k_field K) as [_ H10 _ _]. pose proof (knn_sq (k1 : K)) as H. replace (k1 * k1 : K) with (k1 : K) in H by ring.
    destruct (kltb k0 (k1 : K)) eqn:E; [reflexivity|]. exfalso. apply H10. apply k_total; [exact H|exact E].
  Qed.
  Lemma ofZ_pos z : (0 < z)%Z -> kltb k0 (@ofZ K z) = true.
  Proof.
    intros Hz. rewrite <- (Z2Nat.id z) by lia. assert (Hn : (0 < Z.to_nat z)%nat) by lia. revert Hn. generalize (Z.to_nat z). clear Hz. intros n Hn.
    induction n as [|n IH]; [lia|]. rewrite Nat2Z.inj_succ, <- Z.add_1_r, ofZ_add, ofZ_1. destruct n as [|n].
    - change (Z.of_nat 0) with 0%Z. replace (ofZ 0 + k1) with (k1 : K) by (rewrite ofZ_0; ring). apply k1_pos.
    - assert (H1 : (0 < S n)%nat) by lia. specialize (IH H1). apply (k_trans K _ _ _ IH). pose proof (k_plus K _ _ (@ofZ K (Z.of_nat (S n))) k1_pos) as H2.
      replace (k0 + @ofZ K (Z.of_nat (S n))) with (@ofZ K (Z.of_nat (S n))) in H2 by ring.
      replace (k1 + @ofZ K (Z.of_nat (S n))) with (@ofZ K (Z.of_nat (S n)) + k1) in H2 by ring. exact H2.
  Qed.
  Lemma ofZ_nz z : z <> 0%Z -> @ofZ K z <> k0.
  Proof.
    intros Hz E. destruct (Z_lt_dec 0 z) as [H|H].
    - pose proof (ofZ_pos z H) as H'. rewrite E, k_irrefl in H'. discriminate.
    - assert (Hn : (0 < - z)%Z) by lia. pose proof (ofZ_pos _ Hn) as H'. rewrite ofZ_opp, E in H'. replace (- k0 : K) with (k0 : K) in H' by ring.
      rewrite k_irrefl in H'. discriminate.
  Qed.

  (** *** Cartesian vectors *)
  Ltac cart_eq := unfold lattice, cadd, cmul, czero; cbn [fst snd vx vy vz]; apply (f_equal2 pair); [apply (f_equal2 pair)|].

  Lemma lattice_add (a : @basis K) u v : lattice a (vadd u v) = cadd (lattice a u) (lattice a v).
  Proof. unfold vadd. cart_eq; rewrite !ofZ_add; ring. Qed.
  Lemma lattice_opp (a : @basis K) u : lattice a (vopp u) = cmul (- k1) (lattice a u).
  Proof. unfold vopp. cart_eq; rewrite !ofZ_opp; ring. Qed.
  Lemma vsub_add u v : vsub u v = vadd u (vopp v).
  Proof. apply vec_ext; unfold vsub, vadd, vopp; cbn [vx vy vz]; lia. Qed.
  Lemma lattice_sub (a : @basis K) u v : lattice a (vsub u v) = cadd (lattice a u) (cmul (- k1) (lattice a v)).
  Proof. rewrite vsub_add, lattice_add, lattice_opp. reflexivity. Qed.
  Lemma lattice_zero (a : @basis K) : lattice a vzero = czero.
  Proof. unfold vzero. cart_eq; rewrite !ofZ_0; ring. Qed.
  Lemma lattice_comb (a : @basis K) N1 N2 N3 Q : lattice a (comb N1 N2 N3 Q) = lattice (lattice a N1, lattice a N2, lattice a N3) Q.
  Proof. unfold comb, vadd, vscale. cart_eq; rewrite !ofZ_add, !ofZ_mul; ring. Qed.
  Lemma cadd_zero_l (u : @cart K) : cadd czero u = u.
  Proof. destruct u as [[x y] z]. cart_eq; ring. Qed.

  Definition cscale (s : K) (a : @basis K) : @basis K := (cmul s (fst (fst a)), cmul s (snd (fst a)), cmul s (snd a)).

  (** Cramer's rule. *)
  Lemma cramer (a : @basis K) (N1 N2 N3 : vec) (x : vec -> Z) (e : vec) : 
    (x = vx /\ e = V3 1 0 0 \/ x = vy /\ e = V3 0 1 0 \/ x = vz /\ e = V3 0 0 1) ->
    lattice (lattice a N1, lattice a N2, lattice a N3) (V3 (x (cross N2 N3)) (x (cross N3 N1)) (x (cross N1 N2))) =
    cmul (ofZ (det3 N1 N2 N3)) (lattice a e).
  Proof.
    intros Hx. rewrite <- lattice_comb.
    assert (E : comb N1 N2 N3 (V3 (x (cross N2 N3)) (x (cross N3 N1)) (x (cross N1 N2))) = vscale (det3 N1 N2 N3) e).
    { destruct Hx as [[-> ->]|[[-> ->]|[-> ->]]]; apply vec_ext; unfold comb, vadd, vscale, cross, det3; cbn [vx vy vz]; ring. }
    rewrite E. generalize (det3 N1 N2 N3). intros d. unfold vscale. cart_eq; rewrite !ofZ_mul; ring.
  Qed.
  Lemma cmul_cmul s t (u : @cart K) : cmul s (cmul t u) = cmul (s * t) u.
  Proof. cart_eq; ring. Qed.
  Lemma lattice_e1 (a : @basis K) : lattice a (V3 1 0 0) = fst (fst a).
  Proof. destruct a as [[[[? ?] ?] ?] ?]. cart_eq; rewrite ?ofZ_1, ?ofZ_0; ring. Qed.
  Lemma lattice_e2 (a : @basis K) : lattice a (V3 0 1 0) = snd (fst a).
  Proof. destruct a as [[? [[? ?] ?]] ?]. cart_eq; rewrite ?ofZ_1, ?ofZ_0; ring. Qed.
  Lemma lattice_e3 (a : @basis K) : lattice a (V3 0 0 1) = snd a.
  Proof. destruct a as [[? ?] [[? ?] ?]]. cart_eq; rewrite ?ofZ_1, ?ofZ_0; ring. Qed.
End OfZ.

(** ** Lists *)
Lemma length_tile {A} (l : list A) n : length (tile l n) = length l * n.
Proof. induction n as [|n IH]; cbn [tile]; [cbn; lia|]. rewrite app_length, IH. lia. Qed.
Lemma nth_error_tile {A} (l : list A) n i k : i < n -> k < length l -> nth_error (tile l n) (i * length l + k) = nth_error l k.
Proof.
  revert i. induction n as [|n IH]; intros i Hi Hk; [lia|]. cbn [tile]. destruct i as [|i].
  - rewrite nth_error_app1 by lia. reflexivity.
  - rewrite nth_error_app2 by lia. replace (S i * length l + k - length l) with (i * length l + k) by lia. apply IH; lia.
Qed.
Lemma nth_flat_map_const {A B} (f : A -> list B) (l : list A) n (d : B) i k a : (forall a, length (f a) = n) -> nth_error l i = Some a -> k < n ->
  nth (i * n + k) (flat_map f l) d = nth k (f a) d.
Proof.
  intros Hf. revert i. induction l as [|b l IH]; intros i Ha Hk; [destruct i; discriminate|]. cbn [flat_map]. destruct i as [|i].
  - injection Ha as ->. rewrite app_nth1 by (rewrite Hf; lia). reflexivity.
  - rewrite app_nth2 by (rewrite Hf; lia). rewrite Hf. replace (S i * n + k - n) with (i * n + k) by lia. apply IH; assumption.
Qed.
Lemma length_flat_map_const {A B} (f : A -> list B) (l : list A) n : (forall a, length (f a) = n) -> length (flat_map f l) = n * length l.
Proof. intros Hf. induction l as [|a l IH]; cbn [flat_map length]; [lia|]. rewrite app_length, Hf, IH. lia. Qed.
Lemma pick_all {A} (l : list A) order : Forall (fun k => k < length l) order -> length (pick l order) = length order /\
  forall i k, nth_error order i = Some k -> nth_error (pick l order) i = nth_error l k.
Proof.
  unfold pick. induction order as [|k order IH]; intros H; [split; [reflexivity|intros [|i] k; discriminate]|].
  inversion H; subst. destruct (IH H3) as [IH1 IH2]. cbn [flat_map]. destruct (nth_error l k) as [x|] eqn:E; [|apply nth_error_None in E; lia].
  cbn [app length]. split; [lia|]. intros [|i] k' Hk; cbn [nth_error] in *; [congruence|apply IH2, Hk].
Qed.
Lemma nth_blocks order i k x : nth_error order i = Some k -> x < 3 -> nth_error (blocks order) (3 * i + x) = Some (3 * k + x).
Proof.
  revert i. induction order as [|k' order IH]; intros i Hi Hx; [destruct i; discriminate|]. unfold blocks. cbn [flat_map]. fold (blocks order). destruct i as [|i].
  - injection Hi as ->. destruct x as [|[|[|x]]]; [| | |lia]; cbn; f_equal; lia.
  - replace (3 * S i + x) with (S (S (S (3 * i + x)))) by lia. cbn [app nth_error]. apply IH; assumption.
Qed.
Lemma blocks_bound order n : Forall (fun k => k < n) order -> Forall (fun a => a < 3 * n) (blocks order).
Proof.
  induction 1 as [|k order Hk H IH]; [constructor|]. unfold blocks. cbn [flat_map]. fold (blocks order). repeat constructor; try lia. exact IH.
Qed.
Lemma nth_update_same {A} n (f : A -> A) l d : n < length l -> nth n (update n f l) d = f (nth n l d).
Proof. revert n. induction l as [|x l IH]; intros n H; [cbn in H; lia|]. destruct n as [|n]; cbn [update nth]; [reflexivity|]. apply IH. cbn in H. lia. Qed.
Lemma nth_update_other {A} n m (f : A -> A) l d : m <> n -> nth m (update n f l) d = nth m l d.
Proof.
  revert n m. induction l as [|x l IH]; intros n m H; [destruct n; reflexivity|]. destruct n as [|n], m as [|m]; cbn [update nth]; [lia|reflexivity|reflexivity|]. apply IH. lia.
Qed.
Lemma length_update {A} n (f : A -> A) l : length (update n f l) = length l.
Proof. revert n. induction l as [|x l IH]; intros n; [destruct n; reflexivity|]. destruct n; cbn; [reflexivity|]. rewrite IH. reflexivity. Qed.

Section Ph.
  Context {F : num} {K : ofield} {L ZQ : Type}.
  Add Field K_fieldd : (k_field K).
  Notation model := (ph F K L ZQ).
  Implicit Types (p : model) (h : @heap K).

  Lemma positions_app h r p : r_at p < length h -> positions (h ++ [r]) p = positions h p.
  Proof. intros H. unfold positions. rewrite app_nth1 by exact H. reflexivity. Qed.
  Lemma wf_addr h p : well_formed h p -> 0 < natoms p -> r_at p < length h.
  Proof.
    intros (_ & H & _) H'. unfold positions in H. rewrite firstn_length in H. destruct (Nat.lt_ge_cases (r_at p) (length h)) as [|G]; [assumption|].
    rewrite nth_overflow in H by exact G. cbn in H. lia.
  Qed.

  (** *** Supercells *)
  Lemma ph_supercell_spec a1 a2 a3 p h : det3 (arg1 a1) (arg2 a2) (arg3 a3) <> 0%Z -> NoDup (map fst (hop (base p))) -> well_formed h p ->
    exists sc p' r, supercell a1 a2 a3 = Ok sc /\ ph_supercell a1 a2 a3 p h = Ok (p', h ++ [r]) /\
    well_formed (h ++ [r]) p' /\ natoms p' = natoms p * length (sc_cells sc) /\ r_at p' = length h /\
    a_ p' = (lattice (a_ p) (arg1 a1), lattice (a_ p) (arg2 a2), lattice (a_ p) (arg3 a3)) /\
    (forall i j c c' k l Q, nth_error (sc_cells sc) i = Some c -> nth_error (sc_cells sc) j = Some c' -> k < natoms p -> l < natoms p ->
      let R := vsub (vadd (comb (arg1 a1) (arg2 a2) (arg3 a3) Q) c') c in
      (forall x y, x < 3 -> y < 3 ->
        hopping (hop (base p')) Q (3 * (i * natoms p + k) + x) (3 * (j * natoms p + l) + y) = hopping (hop (base p)) R (3 * k + x) (3 * l + y)) /\
      bond (h ++ [r]) p' Q (i * natoms p + k) (j * natoms p + l) = bond h p R k l /\
      same_atom p' p (i * natoms p + k) k).
  Proof.
    intros Hd Hnd Hwf. destruct (el_supercell_spec a1 a2 a3 (base p) Hd Hnd) as (sc & m' & Esc & Em & Hcells & Hsize & HN & Hnd' & Hfl & Hhop).
    assert (HNs : sc_N1 sc = arg1 a1 /\ sc_N2 sc = arg2 a2 /\ sc_N3 sc = arg3 a3).
    { unfold supercell in Esc. cbv zeta in Esc. destruct (_ =? _)%Z in Esc; [|discriminate]. injection Esc as <-. auto. }
    destruct HNs as (HN1 & HN2 & HN3).
    set (r := flat_map (fun n => map (fun na => cadd (lattice (a_ p) n) (nth na (positions h p) czero)) (seq 0 (natoms p))) (sc_cells sc)).
    eexists sc, _, r. split; [exact Esc|]. unfold ph_supercell. rewrite Esc. cbn [bind]. rewrite Em. cbn [bind]. fold r. split; [reflexivity|].
    set (p' := {| base := m'; natoms := _; M := _; names := _; r_at := _; a_ := _; ZQ_ := _ |}).
    destruct Hwf as (Hs & Hr & HM & Hn & HZ).
    assert (Hlr : length r = natoms p * length (sc_cells sc)) by (apply length_flat_map_const; intros; rewrite map_length, seq_length; reflexivity).
    assert (Hpos : positions (h ++ [r]) p' = r).
    { unfold positions, p'. cbn [r_at natoms]. rewrite app_nth2, Nat.sub_diag by lia. cbn [nth]. apply firstn_all2. lia. }
    split; [|split; [reflexivity|split; [reflexivity|split; [unfold p'; cbn [a_]; rewrite HN1, HN2, HN3; reflexivity|]]]].
    - unfold well_formed. rewrite Hpos. unfold p'. cbn [base natoms M names ZQ_]. rewrite !length_tile, Hsize, Hs, Hlr, HM, Hn.
      split; [lia|]. split; [reflexivity|]. split; [reflexivity|]. split; [reflexivity|]. destruct (ZQ_ p); cbn [option_map]; [rewrite length_tile, HZ; reflexivity|exact I].
    - intros i j c c' k l Q Hi Hj Hk Hl. set (R := vsub _ c). split; [|split].
      + intros x y Hx Hy. unfold p', R. cbn [base]. rewrite <- (Hhop Q i j c c' (3 * k + x) (3 * l + y) Hi Hj) by (rewrite Hs; lia). rewrite Hs. f_equal; lia.
      + unfold bond, atom_at. rewrite Hpos. unfold r.
        rewrite (nth_flat_map_const _ _ (natoms p) czero j l c' (fun n => eq_trans (map_length _ _) (seq_length _ _)) Hj Hl).
        rewrite (nth_flat_map_const _ _ (natoms p) czero i k c (fun n => eq_trans (map_length _ _) (seq_length _ _)) Hi Hk).
        assert (Hmap : forall n q, q < natoms p -> nth q (map (fun na => cadd (lattice (a_ p) n) (nth na (positions h p) czero)) (seq 0 (natoms p))) czero = cadd (lattice (a_ p) n) (nth q (positions h p) czero)).
        { intros n q Hq. set (f := fun na => cadd (lattice (a_ p) n) (nth na (positions h p) czero)). change (nth q (map f (seq 0 (natoms p))) czero = f q).
          rewrite (nth_indep _ czero (f 0)) by (rewrite map_length, seq_length; exact Hq). rewrite map_nth, seq_nth by exact Hq. reflexivity. }
        rewrite !Hmap by assumption. unfold p'. cbn [a_]. unfold R. rewrite HN1, HN2, HN3, lattice_sub, lattice_add, lattice_comb.
        generalize (lattice (lattice (a_ p) (arg1 a1), lattice (a_ p) (arg2 a2), lattice (a_ p) (arg3 a3)) Q) (lattice (a_ p) c) (lattice (a_ p) c') (nth k (positions h p) czero) (nth l (positions h p) czero).
        intros [[q1 q2] q3] [[c1 c2] c3] [[d1 d2] d3] [[r1 r2] r3] [[s1 s2] s3]. unfold cadd, cmul. cbn [fst snd].
        apply (f_equal2 pair); [apply (f_equal2 pair)|]; ring.
      + assert (Hi' : i < length (sc_cells sc)) by (apply nth_error_Some; congruence).
        unfold same_atom, p'. cbn [M names ZQ_]. split; [rewrite <- HM; apply nth_error_tile; lia|]. split; [rewrite <- Hn; apply nth_error_tile; lia|].
        destruct (ZQ_ p); cbn [option_map]; [rewrite <- HZ; apply nth_error_tile; lia|exact I].
  Qed.

  (** *** Back to the unit cell *)
  Lemma firstn_tile {A} (l : list A) n : 0 < n -> firstn (length l) (tile l n) = l.
  Proof. destruct n as [|n]; [lia|]. intros _. cbn [tile]. rewrite firstn_app, Nat.sub_diag, firstn_all, firstn_O, app_nil_r. reflexivity. Qed.

  Lemma ph_unit_cell_spec a1 a2 a3 p h p' h' c0 : det3 (arg1 a1) (arg2 a2) (arg3 a3) <> 0%Z -> NoDup (map fst (hop (base p))) -> well_formed h p ->
    ph_supercell a1 a2 a3 p h = Ok (p', h') -> nth_error (cells (base p')) 0 = Some c0 ->
    exists p'', ph_unit_cell p' = Ok p'' /\ natoms p'' = natoms p /\ size (base p'') = size (base p) /\ M p'' = M p /\ names p'' = names p /\ ZQ_ p'' = ZQ_ p /\
    a_ p'' = cscale (ofZ (Z.sgn (det3 (arg1 a1) (arg2 a2) (arg3 a3)))) (a_ p) /\
    positions h' p'' = map (cadd (lattice (a_ p) c0)) (positions h p) /\
    forall R a b, a < size (base p) -> b < size (base p) -> hopping (hop (base p'')) R a b = hopping (hop (base p)) (vsub R c0) a b.
  Proof.
    intros Hd Hnd Hwf Hsc Hc0. destruct (ph_supercell_spec a1 a2 a3 p h Hd Hnd Hwf) as (sc & p1 & r & Esc & Ep & _ & _ & Hat & Ha & _).
    rewrite Hsc in Ep. injection Ep as <- ->.
    destruct (el_supercell_spec a1 a2 a3 (base p) Hd Hnd) as (sc' & m' & Esc' & Em & Hcells & Hsize & HN & Hnd' & Hfl & _).
    rewrite Esc in Esc'. injection Esc' as <-.
    pose proof Hsc as Hsc'. unfold ph_supercell in Hsc'. rewrite Esc in Hsc'. cbn [bind] in Hsc'. rewrite Em in Hsc'. cbn [bind] in Hsc'. injection Hsc' as Ep' Er.
    assert (Hb : base p' = m') by (rewrite <- Ep'; reflexivity).
    assert (Hlen : length (sc_cells sc) = Z.to_nat (Z.abs (det3 (arg1 a1) (arg2 a2) (arg3 a3)))).
    { unfold supercell in Esc. cbv zeta in Esc. destruct (_ =? _)%Z eqn:E in Esc; [|discriminate]. injection Esc as <-. cbn [sc_cells]. apply Z.eqb_eq in E.
      replace (det3 (arg1 a1) (arg2 a2) (arg3 a3)) with (dot (arg1 a1) (cross (arg2 a2) (arg3 a3))) by (unfold dot, cross, det3; cbn [vx vy vz]; ring). lia. }
    set (d := det3 (arg1 a1) (arg2 a2) (arg3 a3)) in *.
    assert (Hpos : 0 < length (sc_cells sc)) by lia.
    rewrite Hb in Hc0. destruct (el_unit_cell_spec a1 a2 a3 (base p) m' c0 Hd Hnd Em Hc0) as (m'' & Eu & Hs'' & Hc'' & Hhop).
    assert (Hnat : natoms p' = natoms p * length (sc_cells sc)) by (rewrite <- Ep'; reflexivity).
    assert (Hdiv : natoms p' / length (cells (base p')) = natoms p) by (rewrite Hnat, Hb, Hcells; apply Nat.div_mul; lia).
    destruct Hwf as (Hs & Hr & HM & Hn & HZ).
    eexists. split.
    { unfold ph_unit_cell. rewrite Hb, HN, Eu. cbn [bind]. rewrite <- Hb, Hdiv. reflexivity. }
    cbn [base natoms M names ZQ_ a_]. split; [reflexivity|]. split; [exact Hs''|].
    split; [rewrite <- Ep'; cbn [M]; rewrite <- HM at 1; apply firstn_tile, Hpos|].
    split; [rewrite <- Ep'; cbn [names]; rewrite <- Hn at 1; apply firstn_tile, Hpos|].
    split; [rewrite <- Ep'; cbn [ZQ_]; destruct (ZQ_ p); cbn [option_map]; [f_equal; rewrite <- HZ at 1; apply firstn_tile, Hpos|reflexivity]|].
    split; [|split].
    - rewrite Hb, Hcells, Ha.
      assert (Hrow : forall x e, (x = vx /\ e = V3 1 0 0 \/ x = vy /\ e = V3 0 1 0 \/ x = vz /\ e = V3 0 0 1) ->
        cmul (kinv (ofZ (Z.of_nat (length (sc_cells sc))))) (lattice (lattice (a_ p) (arg1 a1), lattice (a_ p) (arg2 a2), lattice (a_ p) (arg3 a3))
          (V3 (x (cross (arg2 a2) (arg3 a3))) (x (cross (arg3 a3) (arg1 a1))) (x (cross (arg1 a1) (arg2 a2))))) = cmul (ofZ (Z.sgn d)) (lattice (a_ p) e)).
      { intros x e He. rewrite (cramer (a_ p) _ _ _ x e He), cmul_cmul. fold d. f_equal. rewrite Hlen, Z2Nat.id by lia. 
        replace d with (Z.sgn d * Z.abs d)%Z at 2 by (rewrite Z.mul_comm; apply Z.abs_sgn). rewrite ofZ_mul. 
        assert (@ofZ K (Z.abs d) <> k0) by (apply ofZ_nz; lia). field. assumption. }
      unfold cscale. rewrite <- lattice_e1, <- lattice_e2, <- lattice_e3.
      rewrite (Hrow vx (V3 1 0 0)), (Hrow vy (V3 0 1 0)), (Hrow vz (V3 0 0 1)) by auto. reflexivity.
    - unfold positions at 1. cbn [natoms r_at]. rewrite Hat. rewrite app_nth2, Nat.sub_diag by lia. cbn [nth]. rewrite <- Er in *.
      apply app_inj_tail in Er. destruct Er as [_ <-].
      rewrite <- Hcells. destruct (cells m') as [|c1 cs]; [discriminate|]. cbn [nth_error] in Hc0. injection Hc0 as ->. cbn [flat_map].
      rewrite firstn_app, map_length, seq_length, Nat.sub_diag, firstn_O, app_nil_r. rewrite firstn_all2 by (rewrite map_length, seq_length; lia).
      rewrite <- (map_map (fun na => nth na (positions h p) czero) (cadd (lattice (a_ p) c0))). f_equal.
      rewrite <- Hr. generalize (positions h p). intros l. clear. induction l as [|x l IH]; [reflexivity|]. cbn [length seq map nth]. f_equal. rewrite <- seq_shift, map_map. exact IH.
    - intros R a b Hra Hrb. apply Hhop; assumption.
  Qed.

  (** *** Order *)
  Lemma ph_order_spec order p h : well_formed h p -> Permutation order (seq 0 (natoms p)) ->
    exists p' r, ph_order_atoms order p h = Ok (p', h ++ [r]) /\ well_formed (h ++ [r]) p' /\ natoms p' = natoms p /\ a_ p' = a_ p /\ r_at p' = length h /\
    map fst (hop (base p')) = map fst (hop (base p)) /\
    forall i j k l R, nth_error order i = Some k -> nth_error order j = Some l ->
      (forall x y, x < 3 -> y < 3 -> hopping (hop (base p')) R (3 * i + x) (3 * j + y) = hopping (hop (base p)) R (3 * k + x) (3 * l + y)) /\
      bond (h ++ [r]) p' R i j = bond h p R k l /\ same_atom p' p i k.
  Proof.
    intros Hwf Hperm. destruct Hwf as (Hs & Hr & HM & Hn & HZ).
    assert (Hlen : length order = natoms p) by (rewrite (Permutation_length Hperm), seq_length; reflexivity).
    assert (Hall : Forall (fun k => k < natoms p) order).
    { apply Forall_forall. intros k Hk. apply (Permutation_in _ Hperm) in Hk. apply in_seq in Hk. lia. }
    assert (Hb : forallb (fun na => na <? natoms p) order = true) by (apply forallb_forall; intros k Hk; rewrite Forall_forall in Hall; apply Nat.ltb_lt, Hall, Hk).
    destruct (order_Ok (blocks order) (base p)) as (m' & Em & Hfst & Hhop & _ & Hsz & _).
    { rewrite Hs. apply blocks_bound, Hall. }
    unfold ph_order_atoms. rewrite Hb, Hlen, Nat.eqb_refl, Em. cbn [negb andb bind]. eexists _, _. split; [reflexivity|].
    set (r := pick (positions h p) order). set (p' := {| base := m'; natoms := _; M := _; names := _; r_at := _; a_ := _; ZQ_ := _ |}).
    assert (Hallr : Forall (fun k => k < length (positions h p)) order) by (rewrite Hr; exact Hall).
    assert (HallM : Forall (fun k => k < length (M p)) order) by (rewrite HM; exact Hall).
    assert (Halln : Forall (fun k => k < length (names p)) order) by (rewrite Hn; exact Hall).
    assert (Hpos : positions (h ++ [r]) p' = r).
    { unfold positions, p'. cbn [r_at natoms]. rewrite app_nth2, Nat.sub_diag by lia. cbn [nth]. apply firstn_all2. unfold r. rewrite (proj1 (pick_all _ _ Hallr)). lia. }
    split; [|split; [reflexivity|split; [reflexivity|split; [reflexivity|split; [exact Hfst|]]]]].
    - unfold well_formed. rewrite Hpos. unfold p'. cbn [base natoms M names ZQ_]. unfold r. rewrite (proj1 (pick_all _ _ Hallr)), (proj1 (pick_all _ _ HallM)), (proj1 (pick_all _ _ Halln)), Hsz.
      split; [exact Hs|]. split; [exact Hlen|]. split; [exact Hlen|]. split; [exact Hlen|]. destruct (ZQ_ p) as [z|]; cbn [option_map]; [|exact I].
      rewrite (proj1 (pick_all z order ltac:(rewrite HZ; exact Hall))). exact Hlen.
    - intros i j k l R Hi Hj. split; [|split].
      + intros x y Hx Hy. apply Hhop; apply nth_blocks; assumption.
      + unfold bond, atom_at. rewrite Hpos. unfold p'. cbn [a_]. unfold r.
        assert (Hnth : forall i k, nth_error order i = Some k -> nth i (pick (positions h p) order) czero = nth k (positions h p) czero).
        { intros i' k' E. pose proof (proj2 (pick_all _ _ Hallr) i' k' E) as E'.
          destruct (nth_error (positions h p) k') as [v|] eqn:E2.
          - rewrite (nth_error_nth _ _ _ E'), (nth_error_nth _ _ _ E2). reflexivity.
          - apply nth_error_None in E2. rewrite Forall_forall in Hallr. apply nth_error_In in E. specialize (Hallr _ E). lia. }
        rewrite (Hnth i k Hi), (Hnth j l Hj). reflexivity.
      + unfold same_atom, p'. cbn [M names ZQ_]. split; [apply pick_all; assumption|]. split; [apply pick_all; assumption|].
        destruct (ZQ_ p) as [z|]; cbn [option_map]; [|exact I]. apply pick_all; [rewrite HZ; exact Hall|exact Hi].
  Qed.

  (** *** Shift *)
  Lemma positions_move s n d (r : list (@cart K)) : firstn n (move s n d r) = map (fun ix => if s (fst ix) then cadd (snd ix) d else snd ix) (combine (seq 0 (length (firstn n r))) (firstn n r)).
  Proof.
    unfold move.
    assert (H : forall o m (r : list (@cart K)), m = n - o -> firstn m (map (fun ix => if (fst ix <? n) && s (fst ix) then cadd (snd ix) d else snd ix) (combine (seq o (length r)) r)) =
      map (fun ix => if s (fst ix) then cadd (snd ix) d else snd ix) (combine (seq o (length (firstn m r))) (firstn m r))).
    { clear r. intros o m r. revert o m. induction r as [|x r IH]; intros o m Hm; [destruct m; reflexivity|]. destruct m as [|m]; [reflexivity|].
      cbn [length seq combine map firstn]. rewrite IH by lia. cbn [fst snd]. rewrite (proj2 (Nat.ltb_lt o n)) by lia. reflexivity. }
    apply H. lia.
  Qed.
  Lemma nth_combine_seq (f : nat * @cart K -> @cart K) (l : list (@cart K)) k : k < length l -> nth k (map f (combine (seq 0 (length l)) l)) czero = f (k, nth k l czero).
  Proof.
    intros Hk.
    assert (H : forall o, nth k (map f (combine (seq o (length l)) l)) czero = f (o + k, nth k l czero)).
    { revert k Hk. induction l as [|x l IH]; intros k Hk o; [cbn in Hk; lia|]. cbn [length seq combine map]. destruct k as [|k]; cbn [nth]; [rewrite Nat.add_0_r; reflexivity|].
      rewrite IH by (cbn in Hk; lia). do 2 f_equal. lia. }
    apply H.
  Qed.

  Lemma ph_shift_spec s S p h : well_formed h p -> 0 < natoms p ->
    let '(p', h') := ph_shift_atoms s S p h in
    well_formed h' p' /\ natoms p' = natoms p /\ a_ p' = a_ p /\
    (forall k, k < natoms p -> same_atom p' p k k /\ atom_at h' p' k = if s k then cadd (atom_at h p k) (lattice (a_ p) S) else atom_at h p k) /\
    (forall p2, r_at p2 <> r_at p -> positions h' p2 = positions h p2) /\
    forall k l R, k < natoms p -> l < natoms p ->
      exists R', bond h p R' k l = bond h' p' R k l /\
      forall x y, x < 3 -> y < 3 -> hopping (hop (base p')) R (3 * k + x) (3 * l + y) = hopping (hop (base p)) R' (3 * k + x) (3 * l + y).
  Proof.
    intros Hwf H0. pose proof (wf_addr h p Hwf H0) as Haddr. destruct Hwf as (Hs & Hr & HM & Hn & HZ).
    unfold ph_shift_atoms. set (h' := update _ _ _). set (p' := {| base := _; natoms := _; M := _; names := _; r_at := _; a_ := _; ZQ_ := _ |}).
    assert (Hpos : positions h' p' = map (fun ix => if s (fst ix) then cadd (snd ix) (lattice (a_ p) S) else snd ix) (combine (seq 0 (length (positions h p))) (positions h p))).
    { unfold positions, p', h'. cbn [natoms r_at]. rewrite nth_update_same by exact Haddr. rewrite positions_move. reflexivity. }
    assert (Hat : forall k, k < natoms p -> atom_at h' p' k = if s k then cadd (atom_at h p k) (lattice (a_ p) S) else atom_at h p k).
    { intros k Hk. unfold atom_at. rewrite Hpos, nth_combine_seq by lia. reflexivity. }
    split; [|split; [reflexivity|split; [reflexivity|split; [|split]]]].
    - unfold well_formed. rewrite Hpos. rewrite map_length, combine_length, seq_length, Nat.min_id. unfold p'. cbn [base natoms M names ZQ_]. auto.
    - intros k Hk. split; [|apply Hat, Hk]. unfold same_atom, p'. cbn [M names ZQ_]. destruct (ZQ_ p); auto.
    - intros p2 H2. unfold positions, h'. rewrite nth_update_other by exact H2. reflexivity.
    - intros k l R Hk Hl. exists (if s k then (if s l then R else vsub R S) else (if s l then vadd R S else R)). split.
      + unfold bond. rewrite !Hat by assumption. unfold p'. cbn [a_]. generalize (atom_at h p l) (atom_at h p k). intros [[l1 l2] l3] [[r1 r2] r3].
        destruct (s k), (s l); rewrite ?lattice_sub, ?lattice_add; generalize (lattice (a_ p) S) (lattice (a_ p) R); intros [[s1 s2] s3] [[t1 t2] t3];
          unfold cadd, cmul; cbn [fst snd]; apply (f_equal2 pair); [apply (f_equal2 pair)| |apply (f_equal2 pair)| |apply (f_equal2 pair)| |apply (f_equal2 pair)|]; ring.
      + intros x y Hx Hy. unfold p'. cbn [base]. rewrite shift_hopping by (rewrite Hs; lia).
        assert (E : forall k x, x < 3 -> (3 * k + x) / 3 = k) by (intros k' x' Hx'; rewrite Nat.mul_comm, Nat.div_add_l, (Nat.div_small x' 3) by lia; lia).
        rewrite !E by assumption. reflexivity.
  Qed.
  Lemma ph_round_trip_diagonal n1 n2 n3 (p : ph F K L ZQ) h : (0 < n1)%Z -> (0 < n2)%Z -> (0 < n3)%Z ->
    NoDup (map fst (hop (base p))) -> well_formed h p ->
    exists p' h' p'', ph_supercell (Mult n1) (Mult n2) (Mult n3) p h = Ok (p', h') /\ ph_unit_cell p' = Ok p'' /\
    natoms p'' = natoms p /\ M p'' = M p /\ names p'' = names p /\ ZQ_ p'' = ZQ_ p /\ a_ p'' = a_ p /\ positions h' p'' = positions h p /\
    forall R a b, a < size (base p) -> b < size (base p) -> hopping (hop (base p'')) R a b = hopping (hop (base p)) R a b.
  Proof.
    intros H1 H2 H3 Hnd Hwf.
    assert (Hd' : det3 (arg1 (Mult n1)) (arg2 (Mult n2)) (arg3 (Mult n3)) = (n1 * n2 * n3)%Z) by (unfold det3; cbn [arg1 arg2 arg3 vx vy vz]; ring).
    assert (Hd : det3 (arg1 (Mult n1)) (arg2 (Mult n2)) (arg3 (Mult n3)) <> 0%Z) by (rewrite Hd'; nia).
    destruct (ph_supercell_spec (Mult n1) (Mult n2) (Mult n3) p h Hd Hnd Hwf) as (sc & p' & r & Esc & Ep & _).
    destruct (el_supercell_spec (Mult n1) (Mult n2) (Mult n3) (base p) Hd Hnd) as (sc' & m' & Esc' & Em & Hcells & _).
    rewrite Esc in Esc'. injection Esc' as <-.
    assert (Hb : base p' = m').
    { pose proof Ep as E. unfold ph_supercell in E. rewrite Esc in E. cbn [bind] in E. rewrite Em in E. cbn [bind] in E. injection E as E _. rewrite <- E. reflexivity. }
    destruct (ph_unit_cell_spec (Mult n1) (Mult n2) (Mult n3) p h p' (h ++ [r]) vzero Hd Hnd Hwf Ep) as (p'' & E & A1 & _ & A2 & A3 & A4 & A5 & A6 & A7).
    { rewrite Hb, Hcells. apply (first_cell_diagonal n1 n2 n3 sc H1 H2 H3 Esc). }
    exists p', (h ++ [r]), p''. repeat (split; [assumption|]). split; [|split].
    - rewrite A5, Hd', Z.sgn_pos by nia. destruct (a_ p) as [[[[x1 x2] x3] [[y1 y2] y3]] [[z1 z2] z3]].
      unfold cscale, cmul. cbn [fst snd]. change (ofZ 1) with (k1 : K). repeat apply f_equal2; ring.
    - rewrite A6. rewrite <- (map_id (positions h p)) at 2. apply map_ext. intros [[x y] z].
      destruct (a_ p) as [[[[x1 x2] x3] [[y1 y2] y3]] [[z1 z2] z3]].
      unfold lattice, cadd, cmul. cbn [fst snd vx vy vz vzero]. change (ofZ 0) with (k0 : K). repeat apply f_equal2; ring.
    - intros R a b Ha Hb'. rewrite A7 by assumption. f_equal. apply vec_ext; unfold vsub; cbn [vx vy vz vzero]; lia.
  Qed.
End Ph.
