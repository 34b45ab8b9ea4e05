(** Property C64: files with electron-phonon coupling. *)
From Coq Require Import Reals Lra.
From Verif Require Import Text FrcModel LatModel Num NumC EpmatModel EpmatProofs.
Local Open Scope nat_scope.

(** Same lattice vectors, same coupling and same flags *)
Definition same_model (c : crystal) (m m' : emodel) : Prop :=
  eRk m' = eRk m /\ eRg m' = eRg m /\ emass m' = emass m /\ endegen m' = endegen m /\
  forall g x k a b, g < length (eRg m) -> x < 3 * nat_ c -> k < length (eRk m) -> a < nel c -> b < nel c ->
    edata m' g x k a b = edata m g x k a b.

(** Same degeneracies *)
Definition same_degeneracies (m m' : emodel) : Prop :=
  match edk m, edk m', edg m, edg m' with
  | Some dk, Some dk', Some dg, Some dg' =>
    k0 dk' = k0 dk /\ k1 dk' = k1 dk /\ g0 dg' = g0 dg /\ g1 dg' = g1 dg /\ g2 dg' = g2 dg /\
    (forall i j k, i < k0 dk -> j < k1 dk -> k < length (eRk m) -> kdeg dk' i j k = kdeg dk i j k) /\
    (forall h i j g, h < g0 dg -> i < g1 dg -> j < g2 dg -> g < length (eRg m) -> gdeg dg' h i j g = gdeg dg h i j g)
  | _, _, _, _ => False
  end.

Definition positive_masses (c : crystal) : Prop := forall i, i < nat_ c -> (0 < M c i)%R.
(** The flags of phonons and coupling agree, as required for long-range terms. *)
Definition consistent (c : crystal) (m : emodel) : Prop := lr c = true -> ph_mass c = emass m.
(** Degeneracies as in all files that can be read in text format *)
Definition file_degeneracies (m : emodel) : Prop :=
  exists dk dg, edk m = Some dk /\ edg m = Some dg /\ g0 dg = 1 /\ k0 dk = g1 dg /\ k1 dk = g1 dg.

Lemma sqrt_mass c x : positive_masses c -> x < 3 * nat_ c -> sqrt (M c (x / 3)) <> 0%R.
Proof. intros P Hx. apply Rgt_not_eq, sqrt_lt_R0, P. apply Nat.div_lt_upper_bound; lia. Qed.

(** C64. A model without Wigner-Seitz degeneracies divided out is read as it has been
    written, including the degeneracies. *)
Theorem C64_roundtrip c m : endegen m = false -> positive_masses c -> consistent c m -> file_degeneracies m ->
  exists t m', to_wigner m = Ok t /\ construct c t (to_epmatwp c m) (emass m) (endegen m) = Ok m' /\
  same_model c m m' /\ same_degeneracies m m'.
Proof.
  intros En P Co (dk & dg & Ek & Eg & E0 & E1 & E2). unfold to_wigner. rewrite En, Ek, Eg, E0, E1, E2, Nat.ltb_irrefl. cbn [orb andb Nat.eqb]. rewrite !andb_false_r. cbn [orb].
  eexists. destruct (read_written (eRk m) (eRg m) (g1 dg) (g2 dg) (kdeg dk) (gdeg dg)) as (dk' & dg' & E & K0 & K1 & G0 & G1 & G2 & HK & HG).
  destruct (read_coupling_ok c m []) as (d & Ed & Hd). rewrite app_nil_r in Ed. unfold construct. rewrite E. cbn [bind]. rewrite Ed. cbn [bind].
  eexists. split; [reflexivity|]. split; [reflexivity|]. cbn [eRk eRg emass endegen edata edk edg]. split.
  - repeat split; [symmetry; exact En|]. intros g x k a b Hg Hx Hk Ha Hb. cbn [edata].
    assert (Em : (if lr c && negb (Bool.eqb (ph_mass c) (emass m)) then ph_mass c else emass m) = emass m).
    { unfold consistent in Co. destruct (lr c); [rewrite Co by reflexivity|]; destruct (emass m); reflexivity. }
    rewrite Em. specialize (Hd g x k a b Hg Hx Hk Ha Hb). destruct (emass m); rewrite Hd; [apply scale_divide, sqrt_mass; assumption|reflexivity].
  - unfold same_degeneracies. rewrite Ek, Eg. cbn [edk edg]. repeat split; try congruence.
    + intros i j k Hi Hj Hk. apply HK; congruence.
    + intros h i j g Hh Hi Hj Hg. rewrite E0 in Hh. replace h with 0 by lia. apply HG; congruence.
Qed.
Print Assumptions C64_roundtrip.

(** Otherwise, the coupling is the same and all degeneracies are one. *)
Theorem C64_roundtrip_divided c m : endegen m = true -> positive_masses c -> consistent c m ->
  exists t m', to_wigner m = Ok t /\ construct c t (to_epmatwp c m) (emass m) (endegen m) = Ok m' /\
  same_model c m m' /\ exists dk dg, edk m' = Some dk /\ edg m' = Some dg /\
    k0 dk = 1 /\ k1 dk = 1 /\ g0 dg = 1 /\ g1 dg = 1 /\ g2 dg = 1 /\
    (forall k, k < length (eRk m) -> kdeg dk 0 0 k = 1%Z) /\ (forall g, g < length (eRg m) -> gdeg dg 0 0 0 g = 1%Z).
Proof.
  intros En P Co. unfold to_wigner. rewrite En.
  eexists. destruct (read_written (eRk m) (eRg m) 1 1 (fun _ _ _ => 1%Z) (fun _ _ _ _ => 1%Z)) as (dk' & dg' & E & K0 & K1 & G0 & G1 & G2 & HK & HG).
  destruct (read_coupling_ok c m []) as (d & Ed & Hd). rewrite app_nil_r in Ed. unfold construct. rewrite E. cbn [bind]. rewrite Ed. cbn [bind].
  unfold divide_degeneracy. rewrite K0, K1, G0, G1, G2. unfold fits, axis. change (1 <? 1) with false. cbn [Nat.eqb orb andb negb]. rewrite !andb_false_r. cbn [orb bind].
  eexists. split; [reflexivity|]. split; [reflexivity|]. cbn [eRk eRg emass endegen edata edk edg]. split.
  - repeat split; [symmetry; exact En|]. intros g x k a b Hg Hx Hk Ha Hb. cbn [edata].
    assert (Em : (if lr c && negb (Bool.eqb (ph_mass c) (emass m)) then ph_mass c else emass m) = emass m).
    { unfold consistent in Co. destruct (lr c); [rewrite Co by reflexivity|]; destruct (emass m); reflexivity. }
    rewrite Em. specialize (Hd g x k a b Hg Hx Hk Ha Hb). specialize (HK 0 0 k ltac:(lia) ltac:(lia) Hk). specialize (HG 0 0 0 g ltac:(lia) ltac:(lia) Hg).
    destruct (emass m); rewrite HK, HG; cbn [Z.eqb]; rewrite !divide_1, Hd; [apply scale_divide, sqrt_mass; assumption|reflexivity].
  - exists dk', dg'. repeat split; try assumption; [intros; apply HK|intros; apply HG]; lia.
Qed.
Print Assumptions C64_roundtrip_divided.

(** Contents of the coupling file: for each lattice vector, displacement and lattice
    vector, the transposed matrix without division by the root of the mass. *)
Theorem C64_contents c m g x k a b : g < length (eRg m) -> x < 3 * nat_ c -> k < length (eRk m) -> a < nel c -> b < nel c ->
  nth ((((g * (3 * nat_ c) + x) * length (eRk m) + k) * nel c + b) * nel c + a) (to_epmatwp c m) (RtoC 0) =
  (if emass m then scale (edata m g x k a b) (sqrt (M c (x / 3))) else edata m g x k a b) /\
  length (to_epmatwp c m) = length (eRg m) * (3 * nat_ c) * length (eRk m) * nel c * nel c.
Proof.
  intros Hg Hx Hk Ha Hb. change (to_epmatwp c m) with (flat_map (slab c m) (seq 0 (length (eRg m)))). split.
  - replace ((((g * (3 * nat_ c) + x) * length (eRk m) + k) * nel c + b) * nel c + a) with (g * count c m + (((x * length (eRk m) + k) * nel c + b) * nel c + a)) by (unfold count; ring).
    rewrite (nth_flat_map_seq _ _ (count c m)); [apply slab_nth; assumption|apply slab_length|exact Hg|]. unfold count.
    assert (B1 : b * nel c + a < nel c * nel c) by nia. assert (B2 : x * length (eRk m) + k < 3 * nat_ c * length (eRk m)) by nia. nia.
  - rewrite (length_flat_map_seq _ _ (count c m)) by (apply slab_length). unfold count. ring.
Qed.
Print Assumptions C64_contents.

(** If writing has been interrupted, either reading fails or nothing is missing. *)
Theorem C64_interrupted c m t p s p' s' divide_mass divide_ndegen : endegen m = true -> to_wigner m = Ok t ->
  t = p ++ s -> to_epmatwp c m = p' ++ s' ->
  construct c p p' divide_mass divide_ndegen = construct c t (to_epmatwp c m) divide_mass divide_ndegen \/
  exists e, construct c p p' divide_mass divide_ndegen = Raise e.
Proof.
  intros En Et Ep Es. unfold to_wigner in Et. rewrite En in Et. injection Et as Et. fold (ones (eRk m) (eRg m)) in Et.
  assert (W : read_wigner p = read_wigner t \/ exists e, read_wigner p = Raise e).
  { destruct s as [|x s]; [left; rewrite Ep, app_nil_r; reflexivity|]. rewrite <- Et. apply (wigner_interrupted _ _ p (x :: s)); [congruence|discriminate]. }
  destruct W as [W|[e W]]; [|right; exists e; unfold construct; rewrite W; reflexivity].
  destruct s' as [|x s']; [left; rewrite Es, app_nil_r; unfold construct; rewrite W; reflexivity|]. right. exists ValueError.
  unfold construct. rewrite W. destruct (read_written (eRk m) (eRg m) 1 1 (fun _ _ _ => 1%Z) (fun _ _ _ _ => 1%Z)) as (dk' & dg' & E & _). rewrite <- Et. unfold ones. rewrite E. cbn [bind].
  unfold read_coupling. rewrite read_slabs_short; [reflexivity|].
  assert (L : length (to_epmatwp c m) = length (eRg m) * count c m) by (apply (length_flat_map_seq (slab c m)), slab_length). rewrite Es, app_length in L. unfold count in L. cbn [length] in L. lia.
Qed.
Print Assumptions C64_interrupted.

(** *** Examples *)
Definition c2 : crystal := {| nel := 2; nat_ := 1; M := fun _ => 4%R; lr := false; ph_mass := true |}.
Definition m2 : emodel := {| eRk := [V3 0 0 0; V3 1 0 0]; eRg := [V3 0 0 0; V3 (-1) 0 0; V3 0 7 0];
  edk := Some {| k0 := 2; k1 := 2; kdeg := fun i j k => Z.of_nat (1 + i + 2 * j) |};
  edg := Some {| g0 := 1; g1 := 2; g2 := 1; gdeg := fun h i j g => Z.of_nat (i + g) |};
  edata := fun g x k a b => (INR (a + 2 * b), INR (g + x)); emass := true; endegen := false |}.
Definition m2' : emodel := {| eRk := eRk m2; eRg := eRg m2; edk := None; edg := None; edata := edata m2; emass := true; endegen := true |}.

Example C64_roundtrip_example : endegen m2 = false /\ positive_masses c2 /\ consistent c2 m2 /\ file_degeneracies m2.
Proof. split; [reflexivity|]. split; [intros i _; cbn; lra|]. split; [discriminate|]. eexists _, _. repeat split. Qed.
Example C64_roundtrip_divided_example : endegen m2' = true /\ positive_masses c2 /\ consistent c2 m2' /\ exists t, to_wigner m2' = Ok t /\
  exists p s, t = p ++ s /\ s <> [] /\ (exists w, read_wigner p = Ok w) /\ exists p s, t = p ++ s /\ read_wigner p = Raise StopIteration.
Proof.
  split; [reflexivity|]. split; [intros i _; cbn; lra|]. split; [discriminate|]. eexists. split; [reflexivity|].
  eexists (firstn _ _), (skipn _ _). split; [symmetry; apply (firstn_skipn 114)|]. split; [vm_compute; discriminate|]. split; [eexists; vm_compute; reflexivity|].
  eexists (firstn _ _), (skipn _ _). split; [symmetry; apply (firstn_skipn 100)|]. vm_compute. reflexivity.
Qed.

(** *** Failures *)

(** Not if the degeneracies are written: a file whose last number is incomplete is
    accepted. *)
Theorem C64_interrupted_refuted : exists c m t p s m' m'', endegen m = false /\ positive_masses c /\ consistent c m /\ file_degeneracies m /\ to_wigner m = Ok t /\ t = p ++ s /\
  construct c t (to_epmatwp c m) (emass m) false = Ok m' /\ construct c p (to_epmatwp c m) (emass m) false = Ok m'' /\
  same_model c m m'' /\ same_degeneracies m m' /\ ~ same_degeneracies m m''.
Proof.
  set (c := {| nel := 1; nat_ := 1; M := fun _ => 1%R; lr := false; ph_mass := true |}).
  set (m := {| eRk := [vzero]; eRg := [vzero]; edk := Some {| k0 := 1; k1 := 1; kdeg := fun _ _ _ => 1%Z |}; edg := Some {| g0 := 1; g1 := 1; g2 := 1; gdeg := fun _ _ _ _ => 12%Z |};
    edata := fun _ _ _ _ _ => RtoC 1; emass := false; endegen := false |}).
  set (t := wigner_text [vzero] [vzero] 1 1 (fun _ _ _ => 1%Z) (fun _ _ _ _ => 12%Z)).
  exists c, m, t, (firstn 51 t), (skipn 51 t). unfold construct.
  assert (E1 : exists w, read_wigner t = Ok w /\ length (fst (fst (fst w))) = 1 /\ length (snd (fst w)) = 1 /\ w = ([vzero], snd (fst (fst w)), [vzero], snd w) /\ k0 (snd (fst (fst w))) = 1 /\ k1 (snd (fst (fst w))) = 1 /\ g0 (snd w) = 1 /\ g1 (snd w) = 1 /\ g2 (snd w) = 1 /\ kdeg (snd (fst (fst w))) 0 0 0 = 1%Z /\ gdeg (snd w) 0 0 0 0 = 12%Z) by (eexists; split; [vm_compute; reflexivity|]; repeat split).
  assert (E2 : exists w, read_wigner (firstn 51 t) = Ok w /\ w = ([vzero], snd (fst (fst w)), [vzero], snd w) /\ gdeg (snd w) 0 0 0 0 = 1%Z) by (eexists; split; [vm_compute; reflexivity|]; repeat split).
  destruct E1 as ([[[Rk dk] Rg] dg] & E1 & _ & _ & Ew & K0 & K1 & G0 & G1 & G2 & HK & HG). destruct E2 as ([[[Rk' dk'] Rg'] dg'] & E2 & Ew' & HG'). cbn [fst snd] in *. injection Ew as -> ->. injection Ew' as -> ->.
  rewrite E1, E2. cbn [bind]. destruct (read_coupling_ok c m []) as (d & Ed & Hd). rewrite app_nil_r in Ed. change (length (eRg m)) with (length [vzero]) in Ed. change (length (eRk m)) with (length [vzero]) in Ed. rewrite Ed. cbn [bind].
  eexists _, _. split; [reflexivity|]. split; [intros i _; cbn; lra|]. split; [discriminate|]. split; [eexists _, _; repeat split|]. split; [reflexivity|]. split; [symmetry; apply firstn_skipn|]. split; [reflexivity|]. split; [reflexivity|]. split; [|split].
  - repeat split. intros g x k a b Hg Hx Hk Ha Hb. exact (Hd g x k a b Hg Hx Hk Ha Hb).
  - unfold same_degeneracies. cbn [edk edg m k0 k1 g0 g1 g2 kdeg gdeg eRk eRg length]. repeat split; try assumption.
    + intros i j k Hi Hj Hk. replace i with 0 by lia. replace j with 0 by lia. replace k with 0 by lia. exact HK.
    + intros h i j g Hh Hi Hj Hg. replace h with 0 by lia. replace i with 0 by lia. replace j with 0 by lia. replace g with 0 by lia. exact HG.
  - unfold same_degeneracies. cbn [edk edg m]. intros (_ & _ & _ & _ & _ & _ & H). assert (H1 : gdeg dg' 0 0 0 0 = 12%Z) by (apply H; cbn; lia). rewrite HG' in H1. discriminate.
Qed.
Print Assumptions C64_interrupted_refuted.

(** A model whose degeneracies have not been divided out cannot be written after
    standardization. *)
Theorem C64_standardized_refuted m : endegen m = false -> to_wigner (no_degeneracy m) = Raise AttributeError.
Proof. intros E. unfold to_wigner. cbn. rewrite E. reflexivity. Qed.
Print Assumptions C64_standardized_refuted.

(** With long-range terms, if the flags of phonons and coupling disagree, the coupling of
    the model that is read back with the same arguments is not the same. *)
Theorem C64_long_range_refuted : exists c t f m t' m', positive_masses c /\
  construct c t f true true = Ok m /\ to_wigner m = Ok t' /\ construct c t' (to_epmatwp c m) true true = Ok m' /\
  edata m' 0 0 0 0 0 <> edata m 0 0 0 0 0.
Proof.
  set (c := {| nel := 1; nat_ := 1; M := fun _ => 4%R; lr := true; ph_mass := false |}).
  set (t := ones [vzero] [vzero]).
  assert (E1 : exists w, read_wigner t = Ok w /\ w = ([vzero], snd (fst (fst w)), [vzero], snd w) /\ k0 (snd (fst (fst w))) = 1 /\ k1 (snd (fst (fst w))) = 1 /\ g0 (snd w) = 1 /\ g1 (snd w) = 1 /\ g2 (snd w) = 1 /\ kdeg (snd (fst (fst w))) 0 0 0 = 1%Z /\ gdeg (snd w) 0 0 0 0 = 1%Z) by (eexists; split; [vm_compute; reflexivity|]; repeat split).
  destruct E1 as ([[[Rk dk] Rg] dg] & E1 & Ew & K0 & K1 & G0 & G1 & G2 & HK & HG). cbn [fst snd] in *. injection Ew as -> ->.
  assert (Cons : forall f d, read_coupling 1 3 1 1 f = Ok d -> exists m, construct c t f true true = Ok m /\ eRk m = [vzero] /\ eRg m = [vzero] /\ emass m = true /\ endegen m = true /\ edata m 0 0 0 0 0 = d 0 0 0 0 0).
  { intros f d Ed. unfold construct. rewrite E1. cbn [bind]. change (read_coupling (length [vzero]) (3 * nat_ c) (length [vzero]) (nel c) f) with (read_coupling 1 3 1 1 f). rewrite Ed. cbn [bind].
    unfold divide_degeneracy. rewrite K0, K1, G0, G1, G2. unfold fits, axis. change (1 <? 1) with false. cbn [Nat.eqb orb andb negb]. rewrite !andb_false_r. cbn [orb bind].
    eexists. split; [reflexivity|]. repeat split. cbn [edata c lr ph_mass Bool.eqb negb andb]. rewrite HK, HG. cbn [Z.eqb]. rewrite !divide_1. reflexivity. }
  destruct (Cons [RtoC 1; RtoC 1; RtoC 1] _ eq_refl) as (m & Em & Ek & Eg & Ema & En & Ed). exists c, t, [RtoC 1; RtoC 1; RtoC 1], m, t.
  destruct (read_coupling_ok c m []) as (d & Er & Hd). rewrite app_nil_r, Ek, Eg in Er. destruct (Cons _ d Er) as (m' & Em' & _ & _ & _ & _ & Ed').
  exists m'. split; [intros i _; cbn; lra|]. split; [exact Em|]. split; [unfold to_wigner; rewrite En, Ek, Eg; reflexivity|]. split; [exact Em'|].
  rewrite Ed', Hd by (rewrite ?Ek, ?Eg; cbn; lia). rewrite Ema, Ed. cbn [nth Nat.mul Nat.add firstn c M]. unfold scale, RtoC, Re. intros H. injection H as H.
  change (nth 0 _ _) with (RtoC 1) in H. unfold RtoC in H. cbn [fst snd nth] in H. replace (sqrt 4) with 2%R in H; [lra|]. symmetry. apply sqrt_lem_1; lra.
Qed.
Print Assumptions C64_long_range_refuted.

(** Degeneracies that depend on the second orbital are lost (only those for the first
    one are written). *)
Theorem C64_first_row_refuted : exists c m t m', endegen m = false /\ positive_masses c /\ consistent c m /\ to_wigner m = Ok t /\
  construct c t (to_epmatwp c m) (emass m) (endegen m) = Ok m' /\ same_model c m m' /\
  exists dg dg', edg m = Some dg /\ edg m' = Some dg' /\ g0 dg = 2 /\ g0 dg' = 1.
Proof.
  set (m := {| eRk := eRk m2; eRg := eRg m2; edk := edk m2; edg := Some {| g0 := 2; g1 := 2; g2 := 1; gdeg := fun h i j g => Z.of_nat (h + i + g) |}; edata := edata m2; emass := true; endegen := false |}).
  set (m0 := {| eRk := eRk m2; eRg := eRg m2; edk := edk m2; edg := Some {| g0 := 1; g1 := 2; g2 := 1; gdeg := fun h i j g => Z.of_nat (h + i + g) |}; edata := edata m2; emass := true; endegen := false |}).
  destruct (C64_roundtrip c2 m0) as (t & m' & Et & Em & S & D); [reflexivity|intros i _; cbn; lra|discriminate|eexists _, _; repeat split|].
  exists c2, m, t, m'. split; [reflexivity|]. split; [intros i _; cbn; lra|]. split; [discriminate|]. split; [exact Et|]. split; [exact Em|]. split; [exact S|].
  unfold same_degeneracies in D. cbn [edk edg m0 m2] in D. destruct (edk m'); [|contradiction]. destruct (edg m') as [dg'|]; [|contradiction]. eexists _, dg'. split; [reflexivity|]. split; [reflexivity|]. split; [reflexivity|apply D].
Qed.
Print Assumptions C64_first_row_refuted.
