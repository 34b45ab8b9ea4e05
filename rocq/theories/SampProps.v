(** C93: sampling of the electron-phonon coupling on meshes and in the band basis. *)
From Coq Require Import Reals List Lra Lia ZArith.
From Verif Require Import Common Cx CxProofs MPIModel MPIProofs DiagModel DiagProofs HermSpec HermProofs SampModel SampSpec SampProofs.
Import ListNotations.
Local Open Scope R_scope.

(** Eigenvectors, or the original basis where none are given *)
Definition or_identity {I : Type} (U : option (I -> basis)) (K : I) : basis :=
  match U with Some U => U K | None => delta end.
Definition nonempty (nk : pt) : Prop := in_mesh nk (0, 0, 0)%nat.

Lemma delta_sum n i f : (i < n)%nat -> csum n (fun j => (delta j i * f j)%C) = f i.
Proof.
  intros H. rewrite <- (csum_delta n i f H). apply csum_ext. intros j _. unfold delta. destruct (Nat.eqb j i); ring.
Qed.
Lemma delta_sum_conj n i f : (i < n)%nat -> csum n (fun j => (conj (delta j i) * f j)%C) = f i.
Proof.
  intros H. rewrite <- (delta_sum n i f H). apply csum_ext. intros j _. unfold delta. destruct (Nat.eqb j i); rewrite conj_R; reflexivity.
Qed.

Lemma processed_braket nph nel U u KQ K iq g v m n :
  (u = None -> (v < nph)%nat) -> (U = None -> (m < nel)%nat /\ (n < nel)%nat) ->
  processed nph nel U u false KQ K iq g v m n =
  braket nph nel (or_identity U KQ) (or_identity U K) (or_identity u iq) g v m n.
Proof.
  intros Hv Hmn. unfold processed. rewrite <- bands_modes.
  assert (EU : forall x, match U with Some U => to_bands nel (U KQ) (U K) g | None => g end x m n =
      to_bands nel (or_identity U KQ) (or_identity U K) g x m n).
  { intros x. destruct U as [U|]; [reflexivity|]. destruct (Hmn eq_refl) as [Hm Hn]. cbn [or_identity]. unfold to_bands.
    rewrite (csum_ext nel _ (fun a => (conj (delta a m) * g x a n)%C)).
    - rewrite delta_sum_conj by exact Hm. reflexivity.
    - intros a _. rewrite (csum_ext nel _ (fun b => (delta b n * (conj (delta a m) * g x a b))%C)) by (intros; ring).
      rewrite delta_sum by exact Hn. reflexivity. }
  destruct u as [u|].
  - cbn [or_identity]. unfold to_modes. apply csum_ext. intros x _. rewrite EU. reflexivity.
  - rewrite EU. cbn [or_identity]. unfold to_modes.
    rewrite (csum_ext nph _ (fun x => (delta x v * to_bands nel (or_identity U KQ) (or_identity U K) g x m n)%C)) by (intros; ring).
    rewrite delta_sum by (apply Hv; reflexivity). reflexivity.
Qed.

Lemma kq_mesh nk q K : nonempty nk -> in_mesh nk (kq nk q K).
Proof.
  destruct nk as [[n1 n2] n3], q as [[q1 q2] q3], K as [[i j] l]. cbn. intros (H1 & H2 & H3).
  repeat split; apply kq_index_lt; assumption.
Qed.
Lemma kq_half nk q K : nonempty nk -> within_half nk (mesh_point nk (kq nk q K)) (translate (mesh_point nk K) q).
Proof.
  destruct nk as [[n1 n2] n3], q as [[q1 q2] q3], K as [[i j] l]. cbn. intros (H1 & H2 & H3).
  repeat split; apply kq_near; assumption.
Qed.
Lemma kq_equivalent nk q K M : nonempty nk -> equivalent q (mesh_point nk M) ->
  equivalent (mesh_point nk (kq nk q K)) (translate (mesh_point nk K) q).
Proof.
  destruct nk as [[n1 n2] n3], q as [[q1 q2] q3], K as [[i j] l], M as [[a b] c]. cbn. intros (H1 & H2 & H3) (E1 & E2 & E3).
  split; [|split]; [exact (kq_exact n1 q1 i a H1 E1)|exact (kq_exact n2 q2 j b H2 E2)|exact (kq_exact n3 q3 l c H3 E3)].
Qed.
Lemma equivalent_unique nk K K' p : nonempty nk -> in_mesh nk K -> in_mesh nk K' ->
  equivalent (mesh_point nk K) p -> equivalent (mesh_point nk K') p -> K = K'.
Proof.
  destruct nk as [[n1 n2] n3], p as [[q1 q2] q3], K as [[i j] l], K' as [[a b] c]. cbn.
  intros (H1 & H2 & H3) (I1 & I2 & I3) (J1 & J2 & J3) (E1 & E2 & E3) (F1 & F2 & F3).
  f_equal; [f_equal|];
    [exact (mesh_unique n1 i a q1 H1 I1 J1 E1 F1)|exact (mesh_unique n2 j b q2 H2 I2 J2 E2 F2)|exact (mesh_unique n3 l c q3 H3 I3 J3 E3 F3)].
Qed.

Lemma sample_at nph nel nk U u squared g q i : (i < length q)%nat ->
  nth i (map (sample_one nph nel nk U u squared g q) (seq 0 (length q))) (fun _ _ _ _ => RtoC 0) = sample_one nph nel nk U u squared g q i.
Proof.
  intros H. rewrite (nth_indep _ _ (sample_one nph nel nk U u squared g q 0)) by (rewrite map_length, seq_length; exact H).
  rewrite map_nth, seq_nth by exact H. reflexivity.
Qed.

(** The coupling between the k points of a mesh is that of the states at k + q and k
    (or of orbitals) and the change of the potential along the displacements of the
    mode (or of single atoms), for any number of processes. *)
Theorem C93_sample nproc nph nel nk U u g q : (0 < nproc)%nat -> q <> [] -> nonempty nk ->
  exists r, sample nproc nph nel nk U u false g q = Ok r /\ length r = length q /\
  forall i, (i < length q)%nat -> forall M, equivalent (nth i q (0, 0, 0)) (mesh_point nk M) ->
  forall K, in_mesh nk K -> exists K', in_mesh nk K' /\
    equivalent (mesh_point nk K') (translate (mesh_point nk K) (nth i q (0, 0, 0))) /\
    forall v m n, (u = None -> (v < nph)%nat) -> (U = None -> (m < nel)%nat /\ (n < nel)%nat) ->
    nth i r (fun _ _ _ _ => RtoC 0) K v m n =
    braket nph nel (or_identity U K') (or_identity U K) (or_identity u i)
      (g (nth i q (0, 0, 0)) (mesh_point nk K)) v m n.
Proof.
  intros Hp Hq Hk. eexists. split; [apply sample_serial; assumption|]. split; [rewrite map_length, seq_length; reflexivity|].
  intros i Hi M HM K HK. exists (kq nk (nth i q (0, 0, 0)) K).
  split; [apply kq_mesh; exact Hk|]. split; [eapply kq_equivalent; eassumption|].
  intros v m n Hv Hmn. rewrite sample_at by exact Hi. unfold sample_one. rewrite processed_braket by assumption.
  rewrite k_point_mesh. reflexivity.
Qed.
Print Assumptions C93_sample.

(** There is just one such point k + q. *)
Theorem C93_unique nk K K' p : nonempty nk -> in_mesh nk K -> in_mesh nk K' ->
  equivalent (mesh_point nk K) p -> equivalent (mesh_point nk K') p -> K = K'.
Proof. exact (equivalent_unique nk K K' p). Qed.
Print Assumptions C93_unique.

(** For q points between those of the mesh, the states at the nearest k + q are used
    (while g itself is that for the q point given). *)
Theorem C93_nearest nproc nph nel nk U u g q : (0 < nproc)%nat -> q <> [] -> nonempty nk ->
  exists r, sample nproc nph nel nk U u false g q = Ok r /\
  forall i, (i < length q)%nat -> forall K, in_mesh nk K -> exists K', in_mesh nk K' /\
    within_half nk (mesh_point nk K') (translate (mesh_point nk K) (nth i q (0, 0, 0))) /\
    forall v m n, (u = None -> (v < nph)%nat) -> (U = None -> (m < nel)%nat /\ (n < nel)%nat) ->
    nth i r (fun _ _ _ _ => RtoC 0) K v m n =
    braket nph nel (or_identity U K') (or_identity U K) (or_identity u i)
      (g (nth i q (0, 0, 0)) (mesh_point nk K)) v m n.
Proof.
  intros Hp Hq Hk. eexists. split; [apply sample_serial; assumption|].
  intros i Hi K HK. exists (kq nk (nth i q (0, 0, 0)) K).
  split; [apply kq_mesh; exact Hk|]. split; [apply kq_half; exact Hk|].
  intros v m n Hv Hmn. rewrite sample_at by exact Hi. unfold sample_one. rewrite processed_braket by assumption.
  rewrite k_point_mesh. reflexivity.
Qed.
Print Assumptions C93_nearest.

(** The number of processes does not matter. *)
Theorem C93_processes nproc nproc' nph nel nk U u squared g q : (0 < nproc)%nat -> (0 < nproc')%nat -> q <> [] ->
  sample nproc nph nel nk U u squared g q = sample nproc' nph nel nk U u squared g q.
Proof. intros H H' Hq. rewrite !sample_serial by assumption. reflexivity. Qed.
Print Assumptions C93_processes.

(** squared=True yields the squared absolute values of the coupling. *)
Theorem C93_squared nproc nph nel nk U u g q : (0 < nproc)%nat -> q <> [] ->
  exists r s, sample nproc nph nel nk U u false g q = Ok r /\ sample nproc nph nel nk U u true g q = Ok s /\
  length s = length q /\
  forall i, (i < length q)%nat -> forall K v m n,
    nth i s (fun _ _ _ _ => RtoC 0) K v m n = RtoC (abs2 (nth i r (fun _ _ _ _ => RtoC 0) K v m n)).
Proof.
  intros Hp Hq. do 2 eexists. split; [apply sample_serial; assumption|]. split; [apply sample_serial; assumption|].
  split; [rewrite map_length, seq_length; reflexivity|]. intros i Hi K v m n. rewrite !sample_at by exact Hi.
  unfold sample_one, processed. rewrite squared_abs2. reflexivity.
Qed.
Print Assumptions C93_squared.

(** The sum of squared absolute values over modes and bands is that over displacements
    and orbitals, whatever the (complete, orthonormal) eigenvectors are. *)
Theorem C93_total nproc nph nel nk U u g q : (0 < nproc)%nat -> q <> [] -> nonempty nk ->
  (forall K, in_mesh nk K -> unitary nel (U K)) -> (forall i, (i < length q)%nat -> unitary nph (u i)) ->
  exists r, sample nproc nph nel nk (Some U) (Some u) false g q = Ok r /\ length r = length q /\
  forall i, (i < length q)%nat -> forall K, in_mesh nk K ->
    total nph nel (nth i r (fun _ _ _ _ => RtoC 0) K) = total nph nel (g (nth i q (0, 0, 0)) (mesh_point nk K)).
Proof.
  intros Hp Hq Hk HU Hu. eexists. split; [apply sample_serial; assumption|].
  split; [rewrite map_length, seq_length; reflexivity|]. intros i Hi K HK. rewrite sample_at by exact Hi.
  unfold sample_one, processed. rewrite total_modes by (apply Hu; exact Hi).
  rewrite total_bands; [|apply HU, kq_mesh, Hk|apply HU, HK].
  rewrite k_point_mesh. reflexivity.
Qed.
Print Assumptions C93_total.

(** The squared coupling does not depend on the phases of the eigenvectors. *)
Theorem C93_gauge nproc nph nel nk U u (c : pt -> nat -> C) (d : nat -> nat -> C) g q : (0 < nproc)%nat -> q <> [] ->
  (forall K n, abs2 (c K n) = 1) -> (forall i v, abs2 (d i v) = 1) ->
  exists r s, sample nproc nph nel nk (Some U) (Some u) true g q = Ok r /\
  sample nproc nph nel nk (Some (fun K a n => (U K a n * c K n)%C)) (Some (fun i x v => (u i x v * d i v)%C)) true g q = Ok s /\
  forall i, (i < length q)%nat -> forall K v m n,
    nth i s (fun _ _ _ _ => RtoC 0) K v m n = nth i r (fun _ _ _ _ => RtoC 0) K v m n.
Proof.
  intros Hp Hq Hc Hd. do 2 eexists. split; [apply sample_serial; assumption|]. split; [apply sample_serial; assumption|].
  intros i Hi K v m n. rewrite !sample_at by exact Hi.
  unfold sample_one, processed. rewrite !squared_abs2. f_equal. rewrite !bands_modes.
  set (q0 := nth i q (0, 0, 0)). set (g0 := g q0 (k_point nk K)). set (K' := kq nk q0 K).
  assert (E : braket nph nel (fun a n => (U K' a n * c K' n)%C) (fun a n => (U K a n * c K n)%C)
      (fun x v => (u i x v * d i v)%C) g0 v m n =
    (conj (c K' m) * c K n * d i v * braket nph nel (U K') (U K) (u i) g0 v m n)%C).
  { unfold braket, element. rewrite <- csum_scal. apply csum_ext. intros a _. rewrite <- csum_scal. apply csum_ext. intros b _.
    unfold along. rewrite (csum_ext nph _ (fun x => (u i x v * g0 x a b * d i v)%C)) by (intros; ring).
    rewrite csum_scal_r, conj_mult. ring. }
  rewrite E, !abs2_mult, abs2_of_conj, !Hc, Hd. ring.
Qed.
Print Assumptions C93_gauge.

(** transform does to sampled coupling what sample would have done right away. *)
Theorem C93_transform nproc nproc' nph nel nk U u squared g q : (0 < nproc)%Z -> (0 < nproc')%nat -> q <> [] ->
  let q3 := map (fun q => (fst q, snd q, 0)) q in
  exists r s t, sample nproc' nph nel (nk, nk, 1%nat) None None false g q3 = Ok r /\
  sample nproc' nph nel (nk, nk, 1%nat) U u squared g q3 = Ok s /\
  transform nproc nph nel nk U u squared (fun i => nth i r (fun _ _ _ _ => RtoC 0)) q = Ok t /\ length t = length q /\
  forall i, (i < length q)%nat -> forall K v m n,
    fst (nth i t (fun _ _ _ _ => RtoC 0, fun _ _ _ _ => RtoC 0)) K v m n = nth i s (fun _ _ _ _ => RtoC 0) K v m n.
Proof.
  intros Hp Hp' Hq q3. assert (Hq3 : q3 <> []) by (unfold q3; destruct q; [congruence|discriminate]).
  assert (Hl : length q3 = length q) by (unfold q3; apply map_length).
  do 3 eexists. split; [apply sample_serial; assumption|]. split; [apply sample_serial; assumption|].
  split; [apply scatter_compute_gather_serial; exact Hp|]. split; [rewrite map_length, seq_length; reflexivity|].
  intros i Hi K v m n. rewrite sample_at by lia. 
  rewrite (nth_indep _ _ (transform_one nph nel nk U u squared (fun i => nth i (map (sample_one nph nel (nk, nk, 1%nat) None None false g q3) (seq 0 (length q3))) (fun _ _ _ _ => RtoC 0)) q 0)) by (rewrite map_length, seq_length; exact Hi).
  rewrite map_nth, seq_nth by exact Hi. cbn [Nat.add]. unfold transform_one.
  destruct (nth i q (0, 0)) as [q1 q2] eqn:Eq. cbn [fst]. rewrite sample_at by lia. unfold sample_one at 2.
  assert (E3 : nth i q3 (0, 0, 0) = (q1, q2, 0)).
  { unfold q3. set (f := fun q : R * R => (fst q, snd q, 0)). rewrite (nth_indep _ (0, 0, 0) (f (0, 0))) by (rewrite map_length; exact Hi).
    rewrite (map_nth f), Eq. reflexivity. }
  unfold sample_one. cbn [processed]. rewrite E3. reflexivity.
Qed.
Print Assumptions C93_transform.

(** The array passed to transform stays the same if the modulus is not squared or if
    eigenvectors are given, ... *)
Theorem C93_unchanged nproc nph nel nk U u squared g q : (0 < nproc)%Z ->
  squared = false \/ U <> None \/ u <> None ->
  exists t, transform nproc nph nel nk U u squared g q = Ok t /\
  forall i, (i < length q)%nat -> snd (nth i t (fun _ _ _ _ => RtoC 0, fun _ _ _ _ => RtoC 0)) = g i.
Proof.
  intros Hp H. eexists. split; [apply scatter_compute_gather_serial; exact Hp|]. intros i Hi.
  rewrite (nth_indep _ _ (transform_one nph nel nk U u squared g q 0)) by (rewrite map_length, seq_length; exact Hi).
  rewrite map_nth, seq_nth by exact Hi. cbn [Nat.add]. unfold transform_one. destruct (nth i q (0, 0)).
  cbn [snd]. destruct U, u, squared; try reflexivity. destruct H as [H|[H|H]]; congruence.
Qed.
Print Assumptions C93_unchanged.

(** ... but not in general: with squared=True alone, the caller's coupling is
    overwritten. *)
Theorem C93_unchanged_refuted :
  ~ (forall nproc nph nel nk U u squared g q, (0 < nproc)%Z ->
      exists t, transform nproc nph nel nk U u squared g q = Ok t /\
      forall i, (i < length q)%nat -> forall K v m n,
        snd (nth i t (fun _ _ _ _ => RtoC 0, fun _ _ _ _ => RtoC 0)) K v m n = g i K v m n).
Proof.
  intros H. destruct (H 1%Z 1%nat 1%nat 1%nat None None true (fun _ _ _ _ _ => RtoC 2) [(0, 0)] ltac:(lia)) as (t & Ht & E).
  unfold transform in Ht. rewrite scatter_compute_gather_serial in Ht by lia. injection Ht as <-.
  specialize (E 0%nat ltac:(cbn; lia) (0, 0, 0)%nat 0%nat 0%nat 0%nat). cbn in E.
  apply (f_equal fst) in E. cbn in E. lra.
Qed.
Print Assumptions C93_unchanged_refuted.

(** A case with two orbitals, two displacements, meshes of 2 x 1 x 1 points, and
    states that are (anti)symmetric at one k point and orbitals at the other *)
Definition U_ex (K : pt) : basis :=
  match K with
  | (0, _, _)%nat => fun a n => match a, n with
    | 0%nat, 0%nat => RtoC (3 / 5) | 1%nat, 0%nat => RtoC (4 / 5) | 0%nat, 1%nat => RtoC (- 4 / 5) | 1%nat, 1%nat => RtoC (3 / 5) | _, _ => RtoC 0 end
  | _ => delta
  end.
Definition g_ex (q k : R * R * R) : vertex := fun x a b => (INR (x + 2 * a + b), 1).

Lemma U_ex_unitary K : unitary 2 (U_ex K).
Proof.
  destruct K as [[[|i] j] l]; split; intros m n Hm Hn; destruct m as [|[|m]]; try lia; destruct n as [|[|n]]; try lia;
    unfold U_ex, delta; cbn; apply c_ext; cbn; lra.
Qed.

Example C93_example :
  exists r, sample 3 2 2 (2, 1, 1)%nat (Some U_ex) (Some (fun _ => U_ex (0, 0, 0)%nat)) false g_ex [(0, 0, 0); (PI, 0, 0)] = Ok r /\
  nth 1 r (fun _ _ _ _ => RtoC 0) (1, 0, 0)%nat 0%nat 0%nat 1%nat =
    braket 2 2 (U_ex (0, 0, 0)%nat) delta (U_ex (0, 0, 0)%nat) (g_ex (PI, 0, 0) (PI, 0, 0)) 0 0 1 /\
  total 2 2 (nth 1 r (fun _ _ _ _ => RtoC 0) (1, 0, 0)%nat) = 52.
Proof.
  destruct (C93_sample 3 2 2 (2, 1, 1)%nat (Some U_ex) (Some (fun _ => U_ex (0, 0, 0)%nat)) g_ex [(0, 0, 0); (PI, 0, 0)])
    as (r & Hr & Hlen & H); [lia|discriminate|cbn; lia|].
  exists r. split; [exact Hr|].
  assert (EP : mesh_point (2, 1, 1)%nat (1, 0, 0)%nat = (PI, 0, 0)) by (cbn; f_equal; [f_equal|]; field).
  assert (Eq : equivalent (PI, 0, 0) (PI, 0, 0)).
  { cbn. repeat split; exists 0%Z; match goal with |- Rabs ?x <= 0 => replace x with 0 by ring end; rewrite Rabs_R0; lra. }
  split.
  - destruct (H 1%nat ltac:(cbn; lia) (1, 0, 0)%nat ltac:(cbn [nth]; rewrite EP; exact Eq) (1, 0, 0)%nat ltac:(cbn; lia)) as (K' & HK' & EK' & HV).
    rewrite HV by discriminate. cbn [nth or_identity]. rewrite EP.
    assert (EK : K' = (0, 0, 0)%nat).
    { eapply (C93_unique (2, 1, 1)%nat); [cbn; lia|exact HK'|cbn; lia|exact EK'|]. cbn [nth]. rewrite EP. cbn.
      repeat split; [exists (-1)%Z|exists 0%Z|exists 0%Z]; match goal with |- Rabs ?x <= 0 => replace x with 0 by field end; rewrite Rabs_R0; lra. }
    rewrite EK. reflexivity.
  - destruct (C93_total 3 2 2 (2, 1, 1)%nat U_ex (fun _ => U_ex (0, 0, 0)%nat) g_ex [(0, 0, 0); (PI, 0, 0)]) as (r' & Hr' & _ & HT);
      [lia|discriminate|cbn; lia|intros; apply U_ex_unitary|intros; apply U_ex_unitary|].
    assert (Er : r = r') by (assert (Er := eq_trans (eq_sym Hr) Hr'); injection Er as Er; exact Er). subst r'.
    rewrite HT by (cbn; lia). unfold total, g_ex, abs2. cbn. lra.
Qed.
Print Assumptions C93_example.
