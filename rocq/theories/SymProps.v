(** Properties C19-C22, C75, C77, C78: symmetry-equivalent mesh points
    (elphmod/bravais.py, elphmod/eliashberg.py). *)
From Coq Require Import Permutation Reals QArith Lra.
From Verif Require Import Common LatModel SymModel SymSpec SymProofs SymProofs2 SymProofs3 GeoModel GeoProofs.
From Verif Require Import StackModel StackSpec StackProofs EliashModel EliashSpec EliashProofs.
Local Open Scope Z_scope.

(** C19. The images of a point are the mesh points obtained from it via a
    symmetry of the lattice, i.e., an integer matrix that preserves all lengths,
    each of them once. *)
Theorem C19_images k nk angle : allowed_angle angle -> 0 < nk ->
  exists l, images k nk angle = Ok l /\ NoDup l /\
    forall k', In k' l <-> in_mesh nk k' /\ equivalent angle nk k k'.
Proof. exact (images_spec angle nk k). Qed.
Print Assumptions C19_images.

(** The loop of [images] always ends, after at most seven iterations. *)
Theorem C19_terminates k nk angle fuel : allowed_angle angle -> 0 < nk -> (7 <= fuel)%nat ->
  images_loop fuel angle nk k [] = images_loop 7 angle nk k [] /\ images_loop 7 angle nk k [] <> None.
Proof.
  intros Ha Hn Hf. split; [exact (images_loop_stable angle nk k Ha fuel Hf)|].
  destruct (images_loop_ok angle nk k Ha 7 (le_n 7)) as (l & -> & _). discriminate.
Qed.
Print Assumptions C19_terminates.

(** Being an image is an equivalence relation. *)
Theorem C19_equivalence angle nk : allowed_angle angle -> 0 < nk ->
  (forall a, equivalent angle nk a a) /\
  (forall a b, equivalent angle nk a b -> equivalent angle nk b a) /\
  (forall a b c, equivalent angle nk a b -> equivalent angle nk b c -> equivalent angle nk a c).
Proof.
  intros Ha Hn. split; [intros a; exact (equivalent_refl angle nk a Hn)|].
  split; [intros a b; exact (equivalent_sym angle nk a b Ha Hn)|intros a b c; exact (equivalent_trans angle nk a b c Ha Hn)].
Qed.
Print Assumptions C19_equivalence.

Example C19_example : allowed_angle 60 /\ images (1, 0) 4 60 = Ok [(0, 1); (3, 1); (3, 0); (0, 3); (1, 3); (1, 0)].
Proof. split; [left; reflexivity|vm_compute; reflexivity]. Qed.

Example C19_example_square : images (1, 2) 5 90 = Ok [(3, 1); (4, 3); (2, 4); (1, 2); (1, 3); (3, 4); (4, 2); (2, 1)].
Proof. vm_compute. reflexivity. Qed.

(** C20. Of all equivalent points, the irreducible one is the first in the
    sequence (0, 0), (0, 1), ... *)
Theorem C20_irreducibles nk angle : allowed_angle angle -> 0 < nk ->
  exists irr, irreducibles nk angle = Ok irr /\ NoDup irr /\
    forall q, In q irr <-> in_mesh nk q /\ forall k, in_mesh nk k -> before k q -> ~ equivalent angle nk k q.
Proof. exact (irreducibles_spec angle nk). Qed.
Print Assumptions C20_irreducibles.

(** Every mesh point is equivalent to exactly one irreducible point. *)
Theorem C20_unique nk angle irr k : allowed_angle angle -> 0 < nk ->
  irreducibles nk angle = Ok irr -> in_mesh nk k -> exists! r, In r irr /\ equivalent angle nk r k.
Proof. intros Ha Hn. exact (irreducibles_unique angle nk Ha Hn irr k). Qed.
Print Assumptions C20_unique.

(** The images of the irreducible points are the mesh, without repetitions. *)
Theorem C20_partition nk angle irr : allowed_angle angle -> 0 < nk -> irreducibles nk angle = Ok irr ->
  exists orbits, Forall2 (fun q l => images q nk angle = Ok l) irr orbits /\
    NoDup (concat orbits) /\ forall k, In k (concat orbits) <-> in_mesh nk k.
Proof.
  intros Ha Hn E. exists (map (images_list angle nk) irr). split; [|split].
  - clear E. induction irr as [|q irr IH]; constructor; [|exact IH].
    unfold images_list. destruct (images_spec angle nk q Ha Hn) as (l & -> & _). reflexivity.
  - rewrite <- flat_map_concat_map. apply (Permutation_NoDup (Permutation_sym (orbits_partition angle nk Ha Hn irr E))), mesh2_NoDup.
  - intros k. rewrite <- flat_map_concat_map, <- in_mesh2. split; apply Permutation_in;
      [|apply Permutation_sym]; exact (orbits_partition angle nk Ha Hn irr E).
Qed.
Print Assumptions C20_partition.

Example C20_example : irreducibles 4 60 = Ok [(0, 0); (0, 1); (0, 2); (1, 1)].
Proof. vm_compute. reflexivity. Qed.

(** C21. Values that are given are kept. *)
Theorem C21_keeps {V} (eqV : V -> V -> bool) (eqV_ok : forall x y, eqV x y = true <-> x = y)
  angle nk d k v : allowed_angle angle -> 0 < nk ->
  d k = Some v -> complete eqV angle nk d k = Some v.
Proof. intros Ha Hn. exact (complete_extends eqV eqV_ok angle nk Ha Hn d k v). Qed.
Print Assumptions C21_keeps.

(** Every value found on the mesh is the one given at an equivalent point. *)
Theorem C21_source {V} (eqV : V -> V -> bool) (eqV_ok : forall x y, eqV x y = true <-> x = y)
  angle nk d k v : allowed_angle angle -> 0 < nk -> in_mesh nk k ->
  complete eqV angle nk d k = Some v ->
  exists k0, in_mesh nk k0 /\ equivalent angle nk k0 k /\ d k0 = Some v.
Proof. intros Ha Hn. exact (complete_source eqV eqV_ok angle nk Ha Hn d k v). Qed.
Print Assumptions C21_source.

(** If the given data are values of a symmetric function, the function is
    recovered wherever an equivalent point is given. *)
Theorem C21_symmetric {V} (eqV : V -> V -> bool) (eqV_ok : forall x y, eqV x y = true <-> x = y)
  angle nk (g : pt -> V) d k k0 : allowed_angle angle -> 0 < nk ->
  (forall k k', in_mesh nk k -> in_mesh nk k' -> equivalent angle nk k k' -> g k = g k') ->
  (forall k v, in_mesh nk k -> d k = Some v -> v = g k) ->
  in_mesh nk k -> in_mesh nk k0 -> equivalent angle nk k0 k -> d k0 <> None ->
  complete eqV angle nk d k = Some (g k).
Proof. intros Ha Hn Hg. exact (complete_symmetric eqV eqV_ok angle nk Ha Hn g Hg d k k0). Qed.
Print Assumptions C21_symmetric.

(** In particular, values at the irreducible points suffice. *)
Theorem C21_irreducible {V} (eqV : V -> V -> bool) (eqV_ok : forall x y, eqV x y = true <-> x = y)
  angle nk (g : pt -> V) d irr : allowed_angle angle -> 0 < nk ->
  (forall k k', in_mesh nk k -> in_mesh nk k' -> equivalent angle nk k k' -> g k = g k') ->
  (forall k v, in_mesh nk k -> d k = Some v -> v = g k) ->
  irreducibles nk angle = Ok irr -> (forall k, In k irr -> d k <> None) ->
  forall k, in_mesh nk k -> complete eqV angle nk d k = Some (g k).
Proof. intros Ha Hn Hg. exact (complete_irreducible eqV eqV_ok angle nk Ha Hn g Hg d irr). Qed.
Print Assumptions C21_irreducible.

(** The integer maps used in the model are the rotations and reflections in
    Cartesian coordinates that the code computes. *)
Theorem C21_cartesian angle reflect n k : allowed_angle angle ->
  symmetry_image (IZR angle) reflect (INR n * (if angle =? 90 then 90 else 60))%R (IZR (fst k), IZR (snd k)) =
  let K := rot_n angle n k in let K := if reflect then refl angle K else K in (IZR (fst K), IZR (snd K)).
Proof. exact (symmetry_image_int angle reflect n k). Qed.
Print Assumptions C21_cartesian.

(** Data that do not fulfil the symmetries can stay incomplete although an
    equivalent point is given. *)
Theorem C21_gap_refuted :
  exists (d : @data Z) k k0, in_mesh 4 k /\ in_mesh 4 k0 /\ equivalent 60 4 k0 k /\ d k0 <> None /\
    complete Z.eqb 60 4 d k = None.
Proof.
  exists (fun k => if pt_eq_dec k (0, 1) then None else Some (4 * fst k + snd k)), (0, 1), (1, 0).
  split; [cbv; split; split; congruence|]. split; [cbv; split; split; congruence|].
  split; [|split; [discriminate|vm_compute; reflexivity]].
  apply equivalent_iff; [left; reflexivity|lia|]. exists (M2 0 (-1) 1 1). split; [vm_compute; tauto|reflexivity].
Qed.
Print Assumptions C21_gap_refuted.

Example C21_example : let d := fun k : pt => if pt_eq_dec k (0, 0) then Some 5 else if pt_eq_dec k (0, 1) then Some 7
    else if pt_eq_dec k (0, 2) then Some 8 else if pt_eq_dec k (1, 1) then Some 9 else None in
  map (complete Z.eqb 60 4 d) (mesh2 4) = map Some
    [5; 7; 8; 7; 7; 9; 9; 7; 8; 9; 8; 9; 7; 7; 9; 9].
Proof. vm_compute. reflexivity. Qed.

(** C77. Completion of the k dependence: if a quantity is invariant under
    simultaneous symmetry operations on q and k, its values for the sorted
    irreducible q points yield it on both full meshes. *)
Theorem C77_complete_k {V} nq nk (F : pt -> pt -> V) wedge irr : 0 < nq -> 0 < nk ->
  (forall sym q k, In sym (syms 60 true) -> in_mesh nq q -> in_mesh nk k ->
     F (get_image 60 nq sym q) (get_image 60 nk sym k) = F q k) ->
  irreducibles nq 60 = Ok irr ->
  (forall i q, nth_error (sorted_points nq irr) i = Some q -> forall k, wedge i k = F q k) ->
  exists m, complete_k nq nk wedge = Ok m /\
    forall Q K, in_mesh nq Q -> in_mesh nk K -> m Q K = Some (F Q K).
Proof. intros Hq Hk HF. exact (complete_k_spec nq nk F Hq Hk HF wedge irr). Qed.
Print Assumptions C77_complete_k.

(** The twelve symmetries are exactly the isometries. *)
Theorem C77_symmetries angle M : allowed_angle angle ->
  (isometry angle M <-> exists sym, In sym (syms angle true) /\
     forall k, act M k = let K := rot_n angle (snd sym) k in if fst sym then refl angle K else K).
Proof.
  intros Ha. rewrite (isometry_group angle M Ha). split.
  - intros H. destruct (group_syms_all angle M Ha H) as (sym & Hs & <-). exists sym. split; [exact Hs|]. intros k.
    unfold symM. destruct (fst sym); [rewrite act_mul, act_refl|]; rewrite act_rot_n; reflexivity.
  - intros (sym & Hs & H). replace M with (symM angle sym); [exact (syms_group angle sym true Ha Hs)|].
    assert (HE : forall k, act (symM angle sym) k = act M k).
    { intros k. rewrite H. unfold symM. destruct (fst sym); [rewrite act_mul, act_refl|]; rewrite act_rot_n; reflexivity. }
    pose proof (HE (1, 0)) as H1. pose proof (HE (0, 1)) as H2. destruct M as [a b c d], (symM angle sym) as [a' b' c' d']. unfold act in H1, H2.
    cbn [fst snd m11 m12 m21 m22] in H1, H2. injection H1 as A1 A2. injection H2 as B1 B2. f_equal; lia.
Qed.
Print Assumptions C77_symmetries.

Example C77_hypothesis : let F (q k : pt) := if pt_eq_dec q k then 1 else 0 in
  forallb (fun sym => forallb (fun q => forallb (fun k =>
    F (get_image 60 4 sym q) (get_image 60 4 sym k) =? F q k) (mesh2 4)) (mesh2 4)) (syms 60 true) = true.
Proof. vm_compute. reflexivity. Qed.

Example C77_example : exists m, complete_k 2 2 (fun i k => 10 * Z.of_nat i + fst k * fst k + fst k * snd k + snd k * snd k) = Ok m /\
  m (1, 1) (0, 0) = Some 10 /\ m (0, 0) (1, 1) = Some 3.
Proof. eexists. split; [reflexivity|]. split; vm_compute; reflexivity. Qed.

(** C22. The points are shifted by multiples of the period only, and no other
    choice of multiples has a smaller variance. *)
Theorem C22_stack argsort points p : sorts argsort -> (0 < p)%Q -> points <> [] ->
  exists y, stack argsort points p = Ok y /\ shifted p points y /\
    forall z, shifted p points z -> (var y <= var z)%Q.
Proof. exact (stack_spec argsort points p). Qed.
Print Assumptions C22_stack.

Theorem C22_empty argsort p : stack argsort [] p = Raise ValueError.
Proof. reflexivity. Qed.
Print Assumptions C22_empty.

(** The example of the docstring. *)
Example C22_example :
  option_map (map Qred) (match stack ref_argsort [3; 5; 9; 12]%Q 10 with Ok l => Some l | _ => None end) = Some [13; 15; 9; 12]%Q.
Proof. vm_compute. reflexivity. Qed.

Local Open Scope R_scope.

(** C75. The averages of McMillan's formula, computed from irreducible q points
    and orbit sizes, are the averages over the full mesh. *)
Theorem C75_averages nq nph N0 eps irr weights W2 G2 DD w2 g2dd dd :
  (0 < nq)%Z -> irreducibles nq 60 = Ok irr -> mcmillan_weights nq = Ok weights ->
  (forall nu, symmetric nq (fun q => W2 q nu)) -> (forall nu, symmetric nq (fun q => G2 q nu)) -> symmetric nq DD ->
  (forall i q, nth_error (sorted_points nq irr) i = Some q ->
     dd i = DD q /\ forall nu, w2 i nu = W2 q nu /\ g2dd i nu = G2 q nu) ->
  mcmillan_average weights nph N0 eps w2 g2dd dd =
  (full_lambda nq nph N0 eps W2 G2 DD, full_wlog nq nph eps W2 G2, full_w2nd nq nph eps W2 G2).
Proof. exact (mcmillan_average_eq nq nph N0 eps irr weights W2 G2 DD w2 g2dd dd). Qed.
Print Assumptions C75_averages.

Example C75_example : mcmillan_weights 4 = Ok [1; 6; 3; 6]%nat /\ symmetric 4 (fun _ => 1).
Proof. split; [vm_compute; reflexivity|]. intros k k' _ _ _. reflexivity. Qed.

(** C78. McMillan's formula: Tc is positive and proportional to the phonon
    energy, never increases with the Coulomb pseudopotential and never
    decreases with the coupling strength, if the net attraction exceeds the
    lower bound of 0.001 imposed by the code. *)
Theorem C78_positive kB lamda wlog mustar : 0 < kB -> 0 < wlog -> 0 < Tc kB lamda wlog mustar None false.
Proof. exact (Tc_pos kB lamda wlog mustar). Qed.
Print Assumptions C78_positive.

Theorem C78_linear kB lamda wlog mustar c correct : kB <> 0 ->
  Tc kB lamda (c * wlog) mustar None correct = c * Tc kB lamda wlog mustar None correct.
Proof. exact (Tc_scale kB lamda wlog mustar c correct). Qed.
Print Assumptions C78_linear.

Theorem C78_mustar kB l w m m' : 0 < kB -> 0 < w -> 0 <= l -> m <= m' ->
  Tc kB l w m' None false <= Tc kB l w m None false.
Proof. exact (Tc_mustar kB l w m m'). Qed.
Print Assumptions C78_mustar.

Theorem C78_lamda kB l l' w m : 0 < kB -> 0 < w -> 0 <= m -> m < 1 ->
  l <= l' -> 1/1000 <= l - m * (1 + 62/100 * l) -> Tc kB l w m None false <= Tc kB l' w m None false.
Proof. exact (Tc_lamda kB l l' w m). Qed.
Print Assumptions C78_lamda.

(** Where the lower bound is active, Tc decreases with the coupling strength. *)
Theorem C78_clamped_refuted : exists l l', 0 <= l < l' /\
  Tc 1 l' 1 (1/2) None false < Tc 1 l 1 (1/2) None false.
Proof.
  exists 0, (1/2). split; [lra|]. unfold Tc. rewrite !Rmax_left by lra.
  apply Rmult_lt_compat_l; [lra|]. apply exp_increasing. lra.
Qed.
Print Assumptions C78_clamped_refuted.

Example C78_example : 1/1000 <= 1/2 - 1/10 * (1 + 62/100 * (1/2)).
Proof. lra. Qed.
