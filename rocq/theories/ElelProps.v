(** Property C71: elphmod/elel.py. [hopping h R a b] is the total matrix element that
    the list [h] of lattice vectors and matrices assigns to R (ElSpec.v). *)
From Coq Require Import Permutation Sorted Reals Lra.
From Verif Require Import Common CommonProofs LatModel LatSpec Num NumProofs NumC ElModel ElSpec ElProofs ElProofs2 ElProofs3 ElProofs4 WSModel WSSpec WSProofs WSProofs2 VorModel KrModel KrProofs PhProofs2 ElelModel ElelProofs.
From Verif Require Import Num.
Local Open Scope nat_scope.

Definition mat11 (x : Z * Z) : @mat gauss := fun _ _ => x.
(** A chain with interaction between neighbors *)
Definition w_ex : @elel gauss := {| wsize := 1; whop := [(V3 1 0 0, mat11 (1, 2)%Z); (V3 0 0 0, mat11 (5, 0)%Z); (V3 (-1) 0 0, mat11 (1, -2)%Z)]; wflat := false; wcells := [vzero] |}.
(** One of the lattice vectors twice, another one without interaction *)
Definition w_ex2 : @elel gauss := {| wsize := 1; whop := [(V3 1 0 0, mat11 (1, 2)%Z); (V3 2 0 0, mat11 (0, 0)%Z); (V3 1 0 0, mat11 (4, 0)%Z)]; wflat := false; wcells := [vzero] |}.

(** C71. W(q) is the Fourier transform of the total interactions. *)
Theorem C71_fourier {F : num} (e : vec -> F) (m : @elel F) a b K : NoDup K -> (forall x, In x (whop m) -> In (fst x) K) ->
  W e m a b = nsum (fun R => nmul (hopping (whop m) R a b) (e R)) K.
Proof. exact (H_hopping e (to_el m) a b K). Qed.
Print Assumptions C71_fourier.

(** WR(R) is the first matrix stored for R or zero, i.e., the total interaction
    without repeated lattice vectors. *)
Theorem C71_lookup {F : num} (m : @elel F) R x : WR m R = Ok x ->
  (exists n, nth_error (whop m) n = Some (R, x) /\ forall n' y, n' < n -> nth_error (whop m) n' <> Some (R, y)) \/
  ((forall y, ~ In (R, y) (whop m)) /\ forall a b, x a b = n0).
Proof. rewrite WR_t. exact (t_first (to_el m) R x). Qed.
Print Assumptions C71_lookup.
Theorem C71_coefficient {F : num} (m : @elel F) R : NoDup (map fst (whop m)) -> whop m <> [] ->
  exists x, WR m R = Ok x /\ forall a b, x a b = hopping (whop m) R a b.
Proof. rewrite WR_t. exact (t_spec (to_el m) R). Qed.
Print Assumptions C71_coefficient.

Example C71_coefficient_example : NoDup (map fst (whop w_ex)) /\ (exists x, WR w_ex (V3 (-1) 0 0) = Ok x /\ x 0 0 = (1, -2)%Z) /\ (exists x, WR w_ex (V3 2 0 0) = Ok x /\ x 0 0 = (0, 0)%Z).
Proof. split; [cbn; repeat constructor; cbn; intuition discriminate|]. split; eexists; split; reflexivity. Qed.

(** Standardization does not change the interaction. Lattice vectors are sorted and
    unique afterward, vectors without interaction are dropped. *)
Theorem C71_standardize {F : num} (e : vec -> F) (m : @elel F) R a b : a < wsize m -> b < wsize m ->
  hopping (whop (elel_standardize None m)) R a b = hopping (whop m) R a b /\
  W e (elel_standardize None m) a b = W e m a b.
Proof.
  intros Ha Hb. rewrite W_H. change (whop (elel_standardize None m)) with (hop (to_el (elel_standardize None m))). rewrite standardize_eq. split.
  - exact (standardize_hopping (to_el m) R a b Ha Hb).
  - exact (standardize_H e (to_el m) a b Ha Hb).
Qed.
Print Assumptions C71_standardize.

Theorem C71_sorted {F : num} small (m : @elel F) :
  StronglySorted vlt (map fst (whop (elel_standardize small m))) /\ wsize (elel_standardize small m) = wsize m.
Proof.
  split; [|reflexivity]. change (whop (elel_standardize small m)) with (hop (to_el (elel_standardize small m))). rewrite standardize_eq.
  exact (standardize_sorted (fun x => x) small false (to_el m)).
Qed.
Print Assumptions C71_sorted.

Theorem C71_vectors {F : num} (m : @elel F) R :
  In R (map fst (whop (elel_standardize None m))) <->
  exists x, In (R, x) (whop m) /\ exists a b, a < wsize m /\ b < wsize m /\ x a b <> n0.
Proof.
  change (whop (elel_standardize None m)) with (hop (to_el (elel_standardize None m))). rewrite standardize_eq.
  exact (standardize_keys' (to_el m) R).
Qed.
Print Assumptions C71_vectors.

Theorem C71_threshold {F : num} small (m : @elel F) R a b : a < wsize m -> b < wsize m ->
  hopping (whop (elel_standardize (Some small) m)) R a b =
  nsum (fun x => if veqb (fst x) R then (if small (snd x a b) then n0 else snd x a b) else n0) (whop m).
Proof.
  change (whop (elel_standardize (Some small) m)) with (hop (to_el (elel_standardize (Some small) m))). rewrite standardize_eq.
  exact (standardize_eps small (to_el m) R a b).
Qed.
Print Assumptions C71_threshold.

Example C71_standardize_example : map (fun x => (fst x, snd x 0 0)) (whop (elel_standardize None w_ex2)) = [(V3 1 0 0, (5, 2)%Z)].
Proof. reflexivity. Qed.

(** The interaction between orbitals in cells i and j of a supercell is the one in the
    original crystal. *)
Theorem C71_supercell {F : num} a1 a2 a3 (m : @elel F) :
  det3 (arg1 a1) (arg2 a2) (arg3 a3) <> 0%Z -> NoDup (map fst (whop m)) ->
  exists sc m', supercell a1 a2 a3 = Ok sc /\ elel_supercell a1 a2 a3 m = Ok m' /\
    wcells m' = sc_cells sc /\ wsize m' = length (sc_cells sc) * wsize m /\ NoDup (map fst (whop m')) /\
    forall Q i j c c' a b, nth_error (sc_cells sc) i = Some c -> nth_error (sc_cells sc) j = Some c' ->
      a < wsize m -> b < wsize m ->
      hopping (whop m') Q (i * wsize m + a) (j * wsize m + b) =
      hopping (whop m) (vsub (vadd (comb (arg1 a1) (arg2 a2) (arg3 a3) Q) c') c) a b.
Proof.
  intros Hd Hn. destruct (el_supercell_spec a1 a2 a3 (to_el m) Hd Hn) as (sc & m' & Es & Em & E1 & E2 & _ & E4 & _ & G).
  rewrite supercell_eq, Em. eexists sc, _. split; [exact Es|]. split; [reflexivity|]. cbn [wcells wsize whop]. split; [exact E1|]. split; [exact E2|]. split; [exact E4|]. exact G.
Qed.
Print Assumptions C71_supercell.

(** Plane waves are mapped onto the same plane waves. *)
Theorem C71_bloch {F : num} a1 a2 a3 (m m' : @elel F) (e : vec -> F) i c a psi :
  det3 (arg1 a1) (arg2 a2) (arg3 a3) <> 0%Z -> NoDup (map fst (whop m)) ->
  elel_supercell a1 a2 a3 m = Ok m' -> (forall Q T, e (vadd Q T) = nmul (e Q) (e T)) ->
  nth_error (wcells m') i = Some c -> a < wsize m ->
  nsum (fun j => nsum (fun b =>
    nmul (W (fun Q => e (comb (arg1 a1) (arg2 a2) (arg3 a3) Q)) m' (i * wsize m + a) (j * wsize m + b))
         (nmul (e (nth j (wcells m') vzero)) (psi b))) (seq 0 (wsize m))) (seq 0 (length (wcells m'))) =
  nmul (e c) (nsum (fun b => nmul (W e m a b) (psi b)) (seq 0 (wsize m))).
Proof.
  intros Hd Hn Em. rewrite supercell_eq in Em. destruct (el_supercell a1 a2 a3 (to_el m)) as [m1|] eqn:E1; [|discriminate]. injection Em as <-.
  exact (el_supercell_bloch a1 a2 a3 (to_el m) m1 e i c a psi Hd Hn E1).
Qed.
Print Assumptions C71_bloch.

Example C71_supercell_example : exists m', elel_supercell (Mult 3) (Mult 1) (Mult 1) w_ex = Ok m' /\ NoDup (map fst (whop w_ex)) /\ wcells m' = [V3 0 0 0; V3 1 0 0; V3 2 0 0] /\
  hopping (whop m') (V3 1 0 0) 2 0 = (1, 2)%Z /\ hopping (whop m') (V3 0 0 0) 1 0 = (1, -2)%Z.
Proof. eexists. split; [vm_compute; reflexivity|]. split; [cbn; repeat constructor; cbn; intuition discriminate|]. repeat split. Qed.

(** Not so if lattice vectors are repeated: all but the last are lost. *)
Theorem C71_repeated_refuted : exists m m' : @elel gauss, elel_supercell (Mult 1) (Mult 1) (Mult 1) m = Ok m' /\
  hopping (whop m') (V3 1 0 0) 0 0 <> hopping (whop m) (V3 1 0 0) 0 0.
Proof. exists w_ex2. eexists. split; [vm_compute; reflexivity|]. vm_compute. discriminate. Qed.
Print Assumptions C71_repeated_refuted.

(** A model without interaction cannot be used after standardization. *)
Theorem C71_zero_refuted : exists m : @elel gauss,
  (forall e, W_call e m = Ok (W e m)) /\ (forall R, exists x, WR m R = Ok x) /\
  let m' := elel_standardize None m in (forall e, W_call e m' = Raise ValueError) /\ (forall R, WR m' R = Raise IndexError).
Proof.
  exists {| wsize := 1; whop := [(vzero, mat11 (0, 0)%Z)]; wflat := false; wcells := [vzero] |}. split; [reflexivity|]. split; [|split; reflexivity].
  intros R. unfold WR. cbn [whop find]. destruct (veqb _ _); eexists; reflexivity.
Qed.
Print Assumptions C71_zero_refuted.

(** Models read from files with lattice vectors that are distinct on a mesh have the
    same Fourier transform on the mesh after the mapping to Wigner-Seitz cells. *)
Theorem C71_mesh_partial nq norb (h : list (vec * (nat -> nat -> C))) len nproc :
  (0 < vx nq /\ 0 < vy nq /\ 0 < vz nq)%Z -> 0 < norb -> 0 < nproc ->
  NoDup (map (fun x => V3 (vx (fst x) mod vx nq)%Z (vy (fst x) mod vy nq)%Z (vz (fst x) mod vz nq)%Z) h) ->
  exists data, elel_q2r [vx nq; vy nq; vz nq] norb (fold_mesh nq h) len false nproc = Ok data /\
  forall n a b, a < norb -> b < norb -> W_sum (phase (mesh_point nq n)) data a b = W_sum (phase (mesh_point nq n)) h a b.
Proof.
  intros H1 H2 H3 Nd. apply from_Wmat_mesh; try assumption.
  rewrite (map_ext _ (fun x => V3 (vx (fst x) mod vx nq)%Z (vy (fst x) mod vy nq)%Z (vz (fst x) mod vz nq)%Z)); [exact Nd|]. intros x. unfold mesh_index. rewrite !Z.mul_1_l. reflexivity.
Qed.
Print Assumptions C71_mesh_partial.

Example C71_mesh_example : NoDup (map (fun x => V3 (vx (fst x) mod 3)%Z (vy (fst x) mod 1)%Z (vz (fst x) mod 1)%Z) (whop w_ex)).
Proof. cbn. repeat constructor; cbn; intuition discriminate. Qed.

(** Otherwise, later ones replace earlier ones: for a mesh of two points, the
    interaction with one of the neighbors is lost. *)
Theorem C71_mesh_refuted : exists h : list (vec * @mat C), exists nq len data,
  elel_q2r [vx nq; vy nq; vz nq] 1 (fold_mesh nq h) len false 1 = Ok data /\
  W_sum (phase (mesh_point nq vzero)) data 0 0 <> W_sum (phase (mesh_point nq vzero)) h 0 0.
Proof.
  set (h := [(V3 1 0 0, fun _ _ => RtoC 1); (V3 (-1) 0 0, fun _ _ => RtoC 1)] : list (vec * @mat C)). set (nq := V3 2 1 1).
  set (h' := [(V3 1 0 0, fun _ _ => RtoC 1)] : list (vec * @mat C)).
  destruct (C71_mesh_partial nq 1 h' (fun _ _ _ => 0%Q) 1) as (d & E & G); [cbn; lia|lia|lia|cbn; repeat constructor; intros []|].
  exists h, nq, (fun _ _ _ => 0%Q), d. split.
  - rewrite <- E. unfold elel_q2r. cbn [pad_mesh bind]. unfold to_lattice.
    assert (F1 : fold_mesh nq h = fold_mesh nq h'); [|rewrite F1; reflexivity].
    unfold fold_mesh, h, h'. cbn [fold_left fst snd]. change (-1 mod vx nq)%Z with (1 mod vx nq)%Z.
    apply FunctionalExtensionality.functional_extensionality_dep. intros m. cbn [vx vy vz]. destruct (veqb m _); reflexivity.
  - rewrite G by lia. assert (P : forall R, phase (mesh_point nq vzero) R = @n1 C).
    { intros R. unfold phase. replace (kdot (mesh_point nq vzero) R) with 0%R; [apply expi_0|]. unfold kdot, mesh_point, vzero. cbn. lra. }
    unfold W_sum, h, h', RtoC. cbn [nsum fst snd]. rewrite !P. cbn. intros H. injection H. lra.
Qed.
Print Assumptions C71_mesh_refuted.
