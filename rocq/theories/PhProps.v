(** Theorems about phonons: sum rules, masses, long-range terms, polarization,
    folding (C52, C53, C54, C55, C56, C59, C60, C80). *)
From Coq Require Import Reals Lra Lia Qcanon.
From Verif Require Import OField Common CommonProofs LatModel VorModel Num NumProofs NumC ElModel WSModel WSSpec WSProofs2 KrModel KrProofs
  PhModel PhProofs PhProofs2 PhSumModel PhSumSpec PhSumProofs PhLRModel PhLRProofs.
Local Open Scope nat_scope.

(** C52. After the correction, the force constants add up to zero over all second
    atoms and cells; nothing but the self terms changes... *)
Theorem C52_sum_rule {F : num} nat_ nr (p : @ifc F) : (0 < vx nr /\ 0 < vy nr /\ 0 < vz nr)%Z ->
  exists q, asr nat_ nr p = Ok q /\
    (forall i x y, i < nat_ -> nsum (fun j => nsum (fun m => q i j m x y) (ws_mesh nr)) (seq 0 nat_) = n0) /\
    (forall i j m x y, ~ (i < nat_ /\ i = j /\ m = vzero) -> q i j m x y = p i j m x y).
Proof. exact (asr_sum nat_ nr p). Qed.
Print Assumptions C52_sum_rule.

(** ... and nothing at all if the sum rule holds before, e.g. because the
    correction has been applied before. *)
Theorem C52_idempotent {F : num} nat_ nr (p : @ifc F) : (0 < vx nr /\ 0 < vy nr /\ 0 < vz nr)%Z ->
  (forall i x y, i < nat_ -> nsum (fun j => nsum (fun m => p i j m x y) (ws_mesh nr)) (seq 0 nat_) = n0) ->
  exists q, asr nat_ nr p = Ok q /\ forall i j m x y, q i j m x y = p i j m x y.
Proof. exact (asr_id nat_ nr p). Qed.
Print Assumptions C52_idempotent.

(** Rigid translations cost no energy in the resulting model (mass-weighted
    displacements if the model is divided by masses). *)
Theorem C52_translation nat_ nr M (p : @ifc C) q len divide_mass nproc : (0 < vx nr /\ 0 < vy nr /\ 0 < vz nr)%Z ->
  0 < nproc -> 0 < nat_ -> (forall na, (0 < M na)%R) -> asr nat_ nr p = Ok q ->
  exists data, phid_model nat_ nr M q len true divide_mass nproc = Ok data /\
    forall i x y, i < nat_ -> x < 3 -> y < 3 ->
      nsum (fun j => nmul (D_sum (fun _ => n1) data (i * 3 + x) (j * 3 + y)) (RtoC (if divide_mass then sqrt (M j) else 1%R))) (seq 0 nat_) = n0.
Proof. exact (asr_translation nat_ nr M p q len divide_mass nproc). Qed.
Print Assumptions C52_translation.

Example C52_example :
  let p : @ifc gauss := fun i j m x y => (Z.of_nat (i + 2 * j) + vx m, 0)%Z in
  let q := get_ok p (asr 2 (V3 2 1 1) p) in
  asr 2 (V3 2 1 1) p = Ok q /\ q 0 0 vzero 0 0 = (-6, 0)%Z /\ q 0 1 vzero 0 0 = (2, 0)%Z.
Proof. split; [reflexivity|split; vm_compute; reflexivity]. Qed.

(** C53. *)
Theorem C53_neutral nat_ Z e u : 0 < nat_ -> fold_right Rplus 0%R (map (fun n => zasr nat_ Z n e u) (seq 0 nat_)) = 0%R.
Proof. exact (zasr_sum nat_ Z e u). Qed.
Print Assumptions C53_neutral.

Theorem C53_shift nat_ Z na na' e u : (zasr nat_ Z na e u - zasr nat_ Z na' e u = Z na e u - Z na' e u)%R.
Proof. exact (zasr_shift nat_ Z na na' e u). Qed.
Print Assumptions C53_shift.

Theorem C53_idempotent nat_ Z na e u : fold_right Rplus 0%R (map (fun n => Z n e u) (seq 0 nat_)) = 0%R -> zasr nat_ Z na e u = Z na e u.
Proof. exact (zasr_id nat_ Z na e u). Qed.
Print Assumptions C53_idempotent.

Example C53_example : zasr 2 (fun na _ _ => INR (na + 1)) 0 1 1 = (- / 2)%R.
Proof. unfold zasr. cbn. lra. Qed.

(** C54. If no residual norm of the orthogonalized constraints lies strictly
    between zero and the smallest safe divisor, the corrected force constants
    are symmetric and satisfy all requested sum rules at once... *)
Theorem C54_rules {K : ofield} (eps : K) R nat_ pos sqM divide_mass asr rsr data :
  kltb eps k0 = false -> NoDup R -> closed_under_negation R ->
  (divide_mass = true -> forall k, k < nat_ -> sqM k <> k0) ->
  resolved_constraints R nat_ eps pos asr rsr ->
  symmetric R nat_ (physical divide_mass sqM data) ->
  rules pos R nat_ asr rsr (physical divide_mass sqM (sum_rule_correction eps R nat_ pos sqM divide_mass asr rsr data)).
Proof. exact (src_rules eps R nat_ pos sqM divide_mass asr rsr data). Qed.
Print Assumptions C54_rules.

(** ... and no other such force constants are closer to the original ones. *)
Theorem C54_closest {K : ofield} (eps : K) R nat_ pos sqM divide_mass asr rsr data F :
  kltb eps k0 = false -> NoDup R -> closed_under_negation R ->
  (divide_mass = true -> forall k, k < nat_ -> sqM k <> k0) ->
  resolved_constraints R nat_ eps pos asr rsr -> rules pos R nat_ asr rsr F ->
  kltb (deviation (length R) nat_ F (physical divide_mass sqM data))
    (deviation (length R) nat_ (physical divide_mass sqM (sum_rule_correction eps R nat_ pos sqM divide_mass asr rsr data)) (physical divide_mass sqM data)) = false.
Proof. exact (fun He Hn Hc HM => src_closest eps R nat_ pos sqM divide_mass asr rsr data He Hn Hc HM F). Qed.
Print Assumptions C54_closest.

(** In exact arithmetic without safety margin, the condition always holds. *)
Theorem C54_exact {K : ofield} R nat_ pos asr rsr : resolved_constraints R nat_ (k0 : K) pos asr rsr.
Proof. exact (resolved_zero R nat_ pos asr rsr). Qed.
Print Assumptions C54_exact.

(** Symmetry of the force constants is always preserved. *)
Theorem C54_symmetric {K : ofield} (eps : K) R nat_ pos sqM divide_mass asr rsr data :
  NoDup R -> closed_under_negation R ->
  (divide_mass = true -> forall k, k < nat_ -> sqM k <> k0) ->
  symmetric R nat_ (physical divide_mass sqM data) ->
  symmetric R nat_ (physical divide_mass sqM (sum_rule_correction eps R nat_ pos sqM divide_mass asr rsr data)).
Proof. exact (src_sym eps R nat_ pos sqM divide_mass asr rsr data). Qed.
Print Assumptions C54_symmetric.

(** Data that satisfies the sum rules is unchanged. *)
Theorem C54_unchanged {K : ofield} (eps : K) R nat_ pos sqM divide_mass asr rsr data :
  kltb eps k0 = false -> NoDup R -> closed_under_negation R ->
  (divide_mass = true -> forall k, k < nat_ -> sqM k <> k0) ->
  rules pos R nat_ asr rsr (physical divide_mass sqM data) ->
  forall n k x l y, n < length R -> k < nat_ -> x < 3 -> l < nat_ -> y < 3 ->
  sum_rule_correction eps R nat_ pos sqM divide_mass asr rsr data (n, (k, x), (l, y)) = data (n, (k, x), (l, y)).
Proof.
  exact (fun He Hn Hc HM Hr n k x l y H1 H2 H3 H4 H5 => src_id eps R nat_ pos sqM divide_mass asr rsr data He Hn Hc HM Hr _
    (proj2 (in_all_idx (length R) nat_ n k x l y) (conj H1 (conj H2 (conj H3 (conj H4 H5)))))).
Qed.
Print Assumptions C54_unchanged.

(** Without the lattice vector -R (impossible after standardize with
    symmetrize), the first lattice vector is taken for it and the sum rule can
    be violated. *)
Theorem C54_open_set_refuted : exists (R : list vec) (data : cidx -> Qfield),
  NoDup R /\ symmetric R 1 data /\
  ~ acoustic_rule (length R) 1 (sum_rule_correction k0 R 1 (fun _ _ _ => k0) (fun _ => k1) false true false data).
Proof.
  exists [V3 1 0 0; V3 2 0 0], (fun '(n, (k, x), (l, y)) => if (n =? 1) && (x =? 0) && (y =? 1) then Q2Qc 1 else Q2Qc 0).
  split; [repeat constructor; cbn; intuition discriminate|]. split.
  - intros n m k x l y Hn Hm E. exfalso. cbn in Hn, Hm. destruct n as [|[|n]], m as [|[|m]]; try lia; discriminate.
  - intros H. specialize (H 0 1 0 ltac:(lia) ltac:(lia) ltac:(lia)). vm_compute in H. discriminate.
Qed.
Print Assumptions C54_open_set_refuted.

(** One atom, two neighbors, -1 for either of them, 3 on site: a third must be
    subtracted everywhere (with masses that cancel). *)
Example C54_example :
  let R := [V3 (-1) 0 0; V3 0 0 0; V3 1 0 0] in
  let data : cidx -> Qfield := fun '(n, (k, x), (l, y)) => if (x =? 0) && (y =? 0) then Q2Qc (if n =? 1 then 3 else -1) else Q2Qc 0 in
  let data' := @sum_rule_correction Qfield k0 R 1 (fun n _ _ => Q2Qc 0) (fun _ => Q2Qc 2) true true false data in
  closed_under_negation R /\ NoDup R /\ @symmetric Qfield R 1 (@physical Qfield true (fun _ => Q2Qc 2) data) /\
  this (data' (0, (0, 0), (0, 0))) = (-4 # 3)%Q /\ this (data' (1, (0, 0), (0, 0))) = (8 # 3)%Q /\ this (data' (2, (0, 0), (0, 0))) = (-4 # 3)%Q.
Proof.
  intros R data data'. split; [|split; [repeat constructor; cbn; intuition discriminate|split; [|vm_compute; auto]]].
  - intros T [<-|[<-|[<-|[]]]]; cbn; auto.
  - intros n m k x l y Hn Hm E Hk Hx Hl Hy. cbn in Hn, Hm. assert (k = 0) by lia. assert (l = 0) by lia. subst k l. unfold physical, data.
    rewrite (andb_comm (y =? 0)). do 2 f_equal. destruct n as [|[|[|n]]], m as [|[|[|m]]]; try lia; try discriminate; reflexivity.
Qed.

(** C55. The long-range part gives no force for rigid translations at q = 0... *)
Theorem C55_acoustic p na x y : (forall na, 0 < M_ p na)%R -> na < PhLRModel.nat_ p ->
  nsum (fun nb => nmul (D_lr p (K3 0 0 0) na x nb y) (RtoC (if divide_mass p then sqrt (M_ p nb) else 1%R))) (seq 0 (PhLRModel.nat_ p)) = n0.
Proof. exact (fun HM Hna => D_lr_acoustic p HM na x y Hna). Qed.
Print Assumptions C55_acoustic.

(** ... respects time-reversal symmetry, so that the short-range force constants
    stay real... *)
Theorem C55_time_reversal p q na x nb y : D_lr p (NumC.kopp q) na x nb y = nconj (D_lr p q na x nb y).
Proof. exact (D_lr_reversal p q na x nb y). Qed.
Print Assumptions C55_time_reversal.

(** ... and is Hermitian between different atoms; for one atom, its dependence
    on q is Hermitian. *)
Theorem C55_hermitian p q na x nb y : na <> nb -> D_lr p q na x nb y = nconj (D_lr p q nb y na x).
Proof. exact (D_lr_hermitian p q na x nb y). Qed.
Print Assumptions C55_hermitian.

Theorem C55_hermitian_same p q q' na x y :
  nsub (D_lr p q na x na y) (D_lr p q' na x na y) = nconj (nsub (D_lr p q na y na x) (D_lr p q' na y na x)).
Proof. exact (D_lr_hermitian_diag p q q' na x y). Qed.
Print Assumptions C55_hermitian_same.

(** C56. *)
Theorem C56_norm nat_ b1 b2 q e : let '(L, T, Z) := polarization nat_ b1 b2 q e in
  (0 <= L /\ 0 <= T /\ 0 <= Z /\ L + T + Z = Rsum (fun i => norm2 (e i)) (3 * nat_))%R.
Proof. exact (polarization_sum nat_ b1 b2 q e). Qed.
Print Assumptions C56_norm.

(** Displacements in the direction of q are purely longitudinal, those
    perpendicular to it within the plane transverse. *)
Theorem C56_longitudinal nat_ b1 b2 q e (c : nat -> C) :
  let d := ((fst q * fst b1 + snd q * fst b2)%R, (fst q * snd b1 + snd q * snd b2)%R) in
  (/ 10000000000 <= sqrt (fst d * fst d + snd d * snd d))%R ->
  (forall na, na < nat_ -> e (3 * na) = nmul (c na) (RtoC (fst d)) /\ e (3 * na + 1) = nmul (c na) (RtoC (snd d)) /\ e (3 * na + 2) = n0) ->
  polarization nat_ b1 b2 q e = (Rsum (fun i => norm2 (e i)) (3 * nat_), 0, 0)%R.
Proof. exact (polarization_longitudinal nat_ b1 b2 q e c). Qed.
Print Assumptions C56_longitudinal.

Theorem C56_transverse nat_ b1 b2 q e (c : nat -> C) :
  let d := ((fst q * fst b1 + snd q * fst b2)%R, (fst q * snd b1 + snd q * snd b2)%R) in
  (/ 10000000000 <= sqrt (fst d * fst d + snd d * snd d))%R ->
  (forall na, na < nat_ -> e (3 * na) = nmul (c na) (RtoC (- snd d)) /\ e (3 * na + 1) = nmul (c na) (RtoC (fst d)) /\ e (3 * na + 2) = n0) ->
  polarization nat_ b1 b2 q e = (0, Rsum (fun i => norm2 (e i)) (3 * nat_), 0)%R.
Proof. exact (polarization_transverse nat_ b1 b2 q e c). Qed.
Print Assumptions C56_transverse.

Example C56_example : let e i := RtoC (match i with 0 => 3 | 1 => 4 | _ => 0 end) in
  polarization 1 (1, 0)%R (0, 1)%R (3, 4)%R e = (25, 0, 0)%R /\ polarization 1 (1, 0)%R (0, 1)%R (-4, 3)%R e = (0, 25, 0)%R.
Proof.
  intros e. assert (E25 : sqrt 25 = 5%R) by (replace 25%R with (5 * 5)%R by ring; apply sqrt_square; lra). split.
  - rewrite (C56_longitudinal 1 _ _ _ _ (fun _ => RtoC 1)).
    + unfold Rsum, norm2, e, Re, Im, RtoC. cbn. f_equal. f_equal. ring.
    + cbn [fst snd]. match goal with |- (_ <= sqrt ?a)%R => replace a with 25%R by ring end. rewrite E25. lra.
    + intros [|na] Hna; [|lia]. unfold e, RtoC. cbn. repeat split; apply f_equal2; ring.
  - rewrite (C56_transverse 1 _ _ _ _ (fun _ => RtoC (-1))).
    + unfold Rsum, norm2, e, Re, Im, RtoC. cbn. f_equal. f_equal. ring.
    + cbn [fst snd]. match goal with |- (_ <= sqrt ?a)%R => replace a with 25%R by ring end. rewrite E25. lra.
    + intros [|na] Hna; [|lia]. unfold e, RtoC. cbn. repeat split; apply f_equal2; ring.
Qed.

(** C59. Division by masses is what the name says, multiplication undoes it. *)
Theorem C59_divide nat_ M d a b : a < nat_ * 3 -> b < nat_ * 3 ->
  divide_by_mass nat_ M d a b = nmul (d a b) (RtoC (/ sqrt (M (a / 3)) * / sqrt (M (b / 3)))).
Proof. exact (divide_by_mass_spec nat_ M d a b). Qed.
Print Assumptions C59_divide.

Theorem C59_multiply nat_ M (p : @ifc C) i j m x y : i < nat_ -> j < nat_ ->
  multiply_by_mass nat_ M p i j m x y = nmul (p i j m x y) (RtoC (sqrt (M i) * sqrt (M j))).
Proof. exact (multiply_by_mass_spec nat_ M p i j m x y). Qed.
Print Assumptions C59_multiply.

Theorem C59_back nat_ M (d : nat -> nat -> C) i j x y : (forall na, (0 < M na)%R) -> i < nat_ -> j < nat_ -> x < 3 -> y < 3 ->
  multiply_by_mass nat_ M (fun i j _ x y => divide_by_mass nat_ M d (i * 3 + x) (j * 3 + y)) i j vzero x y = d (i * 3 + x) (j * 3 + y).
Proof. exact (mass_back nat_ M d i j x y). Qed.
Print Assumptions C59_back.

Theorem C59_symmetric nat_ M (d : nat -> nat -> C) a b : a < nat_ * 3 -> b < nat_ * 3 -> d b a = nconj (d a b) ->
  divide_by_mass nat_ M d b a = nconj (divide_by_mass nat_ M d a b).
Proof. exact (mass_hermitian nat_ M d a b). Qed.
Print Assumptions C59_symmetric.

(** The signed square root: odd, and inverse to the signed square. *)
Theorem C59_sgnsqrt w : (sgnsqrt (- w) = - sgnsqrt w /\ sgnsqrt w * Rabs (sgnsqrt w) = w /\ sgnsqrt (w * Rabs w) = w)%R.
Proof. exact (conj (sgnsqrt_opp w) (conj (sgnsqrt_square w) (sgnsqrt_inverse w))). Qed.
Print Assumptions C59_sgnsqrt.

Example C59_example : sgnsqrt (-4) = (-2)%R /\
  divide_by_mass 2 (fun na => if na =? 0 then 1 else 4)%R (fun _ _ => RtoC 6) 1 4 = RtoC 3.
Proof.
  assert (E4 : sqrt 4 = 2%R) by (replace 4%R with (2 * 2)%R by ring; apply sqrt_square; lra). split.
  - replace (-4)%R with ((-2) * Rabs (-2))%R by (rewrite Rabs_left by lra; ring). apply sgnsqrt_inverse.
  - rewrite divide_by_mass_spec by lia. change (1 / 3) with 0. change (4 / 3) with 1. cbn -[sqrt]. rewrite E4, sqrt_1. apply f_equal2; field.
Qed.

(** C60. Folding to the mesh preserves the dynamical matrix at all q points of the
    mesh (times masses)... *)
Theorem C60_mesh nat_ M divide_mass nr data nproc : (0 < vx nr /\ 0 < vy nr /\ 0 < vz nr)%Z -> (0 < nproc)%Z -> (forall na, (0 < M na)%R) ->
  exists p, to_flfrc_phid nat_ M divide_mass nr data nproc = Ok p /\
  forall n i j x y, i < nat_ -> j < nat_ -> x < 3 -> y < 3 ->
    nsum (fun m => nmul (phase (mesh_point nr n) (vscale (-1) m)) (p i j m x y)) (ws_mesh nr) =
    nmul (RtoC (if divide_mass then sqrt (M i) * sqrt (M j) else 1)%R) (D_sum (phase (mesh_point nr n)) data (i * 3 + x) (j * 3 + y)).
Proof. exact (to_flfrc_mesh nat_ M divide_mass nr data nproc). Qed.
Print Assumptions C60_mesh.

(** ... and a model set up from the result agrees with the original there. *)
Theorem C60_back nat_ M divide_mass nr data nproc len nproc' : (0 < vx nr /\ 0 < vy nr /\ 0 < vz nr)%Z -> (0 < nproc)%Z -> 0 < nproc' -> 0 < nat_ ->
  (forall na, (0 < M na)%R) ->
  exists p data', to_flfrc_phid nat_ M divide_mass nr data nproc = Ok p /\ phid_model nat_ nr M p len true divide_mass nproc' = Ok data' /\
  forall n a b, a < nat_ * 3 -> b < nat_ * 3 ->
    D_sum (phase (mesh_point nr n)) data' a b = D_sum (phase (mesh_point nr n)) data a b.
Proof. exact (to_flfrc_back nat_ M divide_mass nr data nproc len nproc'). Qed.
Print Assumptions C60_back.

(** Two lattice vectors that are equivalent modulo the mesh, two processes. *)
Example C60_example :
  let data : list (vec * (nat -> nat -> C)) := [(V3 1 0 0, fun _ _ => RtoC 1); (V3 (-1) 0 0, fun _ _ => RtoC 2); (vzero, fun _ _ => RtoC 5)] in
  exists p, to_flfrc_phid 1 (fun _ => 1%R) false (V3 2 1 1) data 2 = Ok p /\ p 0 0 (V3 1 0 0) 0 0 = RtoC 3 /\ p 0 0 vzero 0 0 = RtoC 5.
Proof.
  intros data. destruct (to_flfrc_Ok 1 (fun _ => 1%R) false (V3 2 1 1) data 2) as (p & E & G); [lia|]. exists p. split; [exact E|].
  rewrite !G by lia. unfold data. cbn [nsum map fold_right fst snd].
  repeat match goal with |- context [veqb ?a ?b] => let v := eval vm_compute in (veqb a b) in change (veqb a b) with v end.
  cbv iota. unfold nsum. cbn. split; apply f_equal2; ring.
Qed.

(** C80. q2r: for dynamical matrices that respect time-reversal symmetry, the
    model reproduces them at the q points of the mesh. *)
Theorem C80_reproduces shape nq nat_ M D divide_mass_in divide_mass len nproc :
  pad_mesh shape = Ok nq -> (0 < vx nq /\ 0 < vy nq /\ 0 < vz nq)%Z -> 0 < nat_ -> 0 < nproc -> (forall na, (0 < M na)%R) ->
  (forall n a b, on_mesh nq n -> a < nat_ * 3 -> b < nat_ * 3 -> D (mesh_index nq (-1) n) a b = nconj (D n a b)) ->
  exists data, ph_q2r shape nat_ M D divide_mass_in false true divide_mass len nproc = Ok data /\
    forall n a b, on_mesh nq n -> a < nat_ * 3 -> b < nat_ * 3 ->
      let mass (dm : bool) := (if dm then / sqrt (M (a / 3)%nat) * / sqrt (M (b / 3)%nat) else 1)%R in
      D_sum (phase (mesh_point nq n)) data a b = nmul (RtoC (mass divide_mass * / mass divide_mass_in)) (D n a b).
Proof. exact (ph_q2r_reproduces shape nq nat_ M D divide_mass_in divide_mass len nproc). Qed.
Print Assumptions C80_reproduces.

Example C80_example :
  let D (n : vec) (a b : nat) : C :=
    if (a =? b)%nat then RtoC (if vx n =? 0 then 1%R else 2%R)%Z else (0%R, if vx n =? 0 then 0%R else if vx n =? 1 then 3%R else (-3)%R)%Z in
  exists data, ph_q2r [3]%Z 1 (fun _ => 2%R) D true false true true (fun _ _ _ => 1%Q) 2 = Ok data /\
    D_sum (phase (mesh_point (V3 3 1 1) (V3 1 0 0))) data 1 1 = RtoC 2.
Proof.
  intros D. destruct (C80_reproduces [3]%Z (V3 3 1 1) 1 (fun _ => 2%R) D true true (fun _ _ _ => 1%Q) 2) as (d & E & G); [reflexivity|cbn; lia|lia|lia|intros; lra| |].
  - intros n a b Hn _ _. unfold on_mesh in Hn. cbn in Hn. assert (vx n = 0 \/ vx n = 1 \/ vx n = 2)%Z as [E|[E|E]] by lia;
      
      unfold D; change (vx (mesh_index (V3 3 1 1) (-1) n)) with ((-1 * vx n) mod 3)%Z; rewrite E;
      repeat match goal with |- context [(?a mod 3 =? ?b)%Z] => let v := eval vm_compute in (a mod 3 =? b)%Z in change (a mod 3 =? b)%Z with v end;
      destruct (a =? b)%nat; cbn; apply f_equal2; ring.
  - exists d. split; [exact E|]. rewrite G by (unfold on_mesh; cbn; lia). cbn.
    apply f_equal2; [|ring]. assert (sqrt 2 <> 0)%R by (apply Rgt_not_eq, sqrt_lt_R0; lra). field. assumption.
Qed.
