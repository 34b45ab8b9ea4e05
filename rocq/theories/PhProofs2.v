(** More proofs about PhModel.v: dynamical matrices on meshes. *)
From Coq Require Import Permutation Reals Lra Lia.
From Verif Require Import Common CommonProofs LatModel LatProofs MPIModel MPIProofs VorModel Num NumProofs NumC RootsProofs ElModel WSModel WSSpec WSProofs WSProofs2 KrModel KrProofs PhModel PhProofs.
Local Open Scope nat_scope.

Add Ring Cring5 : (@n_ring C).

Lemma phase_sym nr n R : phase (mesh_point nr n) R = phase (mesh_point nr R) n.
Proof. unfold phase. f_equal. unfold kdot, mesh_point. cbn [kx ky kz]. unfold Rdiv. ring. Qed.

Lemma mesh_neg_phase nr k m : meshes nr -> phase (mesh_point nr k) (vopp m) = phase (mesh_point nr (mesh_index nr (-1) k)) m.
Proof.
  intros Hm. rewrite (phase_sym nr (mesh_index nr (-1) k)).
  rewrite (mesh_phase nr m (mesh_index nr (-1) k) (vscale (-1) k) Hm).
  - rewrite (phase_sym nr m). unfold phase. f_equal. unfold kdot, mesh_point, vopp, vscale. cbn [kx ky kz vx vy vz]. rewrite !mult_IZR, !opp_IZR. unfold Rdiv. ring.
  - apply same_cell_sym. apply (mesh_index_same nr (-1) Hm).
Qed.

Lemma mesh_neg_neg nr k : on_mesh nr k -> mesh_index nr (-1) (mesh_index nr (-1) k) = k.
Proof.
  intros Hk. assert (Hm : meshes nr) by (unfold on_mesh in Hk; unfold meshes; lia).
  apply (mesh_unique nr Hm); [apply (mesh_index_on nr (-1) Hm)|exact Hk|].
  pose proof (mesh_index_same nr (-1) Hm (mesh_index nr (-1) k)) as H1. pose proof (mesh_index_same nr (-1) Hm k) as H2.
  destruct H1 as ((a1 & A1) & (a2 & A2) & (a3 & A3)), H2 as ((b1 & B1) & (b2 & B2) & (b3 & B3)).
  unfold vscale in A1, A2, A3, B1, B2, B3. cbn [vx vy vz] in A1, A2, A3, B1, B2, B3.
  repeat split; [exists (b1 - a1)%Z|exists (b2 - a2)%Z|exists (b3 - a3)%Z]; lia.
Qed.

Lemma mesh_neg_perm nr : meshes nr -> Permutation (map (mesh_index nr (-1)) (ws_mesh nr)) (ws_mesh nr).
Proof.
  intros Hm. apply NoDup_Permutation.
  - pose proof (nodup_ws_mesh nr) as Hnd. assert (Hin : forall k, In k (ws_mesh nr) -> on_mesh nr k) by (intros k; apply in_ws_mesh).
    revert Hnd Hin. generalize (ws_mesh nr). intros l. induction l as [|k l IH]; intros Hnd Hin; cbn [map]; [constructor|].
    inversion Hnd as [|? ? H1 H2]; subst. constructor; [|apply IH; [exact H2|intros; apply Hin; right; assumption]].
    intros H. apply in_map_iff in H. destruct H as (k' & E & Hk'). apply H1.
    replace k with k'; [exact Hk'|]. rewrite <- (mesh_neg_neg nr k'), <- (mesh_neg_neg nr k), E; [reflexivity| |]; apply Hin; cbn; auto.
  - apply nodup_ws_mesh.
  - intros k. rewrite in_map_iff, (in_ws_mesh nr). split.
    + intros (k' & <- & _). apply (mesh_index_on nr (-1) Hm).
    + intros Hk. exists (mesh_index nr (-1) k). split; [apply mesh_neg_neg; exact Hk|]. apply in_ws_mesh. apply (mesh_index_on nr (-1) Hm).
Qed.

(** Time-reversal symmetry makes the transform real. *)
Lemma ifftn_real nr f m : meshes nr -> (forall k, on_mesh nr k -> f (mesh_index nr (-1) k) = nconj (f k)) ->
  RtoC (Re (ifftn nr f m)) = ifftn nr f m.
Proof.
  intros Hm Hf. assert (E : nconj (ifftn nr f m) = ifftn nr f m).
  { rewrite ifftn_phase by exact Hm. rewrite n_conj_mul, conj_RtoC, n_conj_sum. f_equal.
    rewrite <- (nsum_perm _ _ _ (mesh_neg_perm nr Hm)), nsum_map. apply nsum_ext. intros k Hk. apply (in_ws_mesh nr) in Hk.
    assert (Hk' := mesh_index_on nr (-1) Hm k).
    rewrite n_conj_mul, phase_conj, (mesh_neg_phase nr (mesh_index nr (-1) k)) by exact Hm.
    rewrite <- Hf by exact Hk'. rewrite !(mesh_neg_neg nr k Hk). reflexivity. }
  destruct (ifftn nr f m) as [x y]. cbn in E. injection E as E. unfold RtoC, Re. cbn [fst]. apply f_equal. lra.
Qed.

(** Factors due to masses. *)
Definition mass_factor (divided : bool) (M : nat -> R) (a b : nat) : R :=
  if divided then (/ sqrt (M (a / 3)%nat) * / sqrt (M (b / 3)%nat))%R else 1%R.

Lemma srm_mesh_ph nr (p : @ifc C) nat_ len nproc : meshes nr -> 0 < nproc -> 0 < nat_ ->
  exists h, short_range_model Cdivn true nr (-1) 2 nat_ 3 len (1 # 10000000) p nproc = Ok h /\
    forall n a b, a < nat_ * 3 -> b < nat_ * 3 -> nsum (fun x => nmul (snd x a b) (phase (mesh_point nr n) (fst x))) h =
      nsum (fun m => nmul (phase (mesh_point nr n) (vscale (-1) m)) (p (a / 3) (b / 3) m (a mod 3) (b mod 3))) (ws_mesh nr).
Proof.
  intros Hnr Hp Ho.
  pose proof (fun n a b => short_range_mesh nr (-1) 2 nat_ 3 len (1 # 10000000) p nproc n a b Hnr (or_intror eq_refl) eq_refl eq_refl Hp ltac:(lia)) as G.
  destruct (G nr 0%nat 0%nat ltac:(lia) ltac:(lia)) as (h & Eh & _). exists h. split; [exact Eh|]. intros n a b Ha Hb.
  destruct (G n a b ltac:(lia) ltac:(lia)) as (h' & Eh' & E). rewrite Eh in Eh'. injection Eh' as <-.
  rewrite (nsum_ext _ (fun x => nmul (phase (mesh_point nr n) (fst x)) (snd x a b))) by (intros x _; ring). exact E.
Qed.

Lemma phid_model_mesh nat_ nr M (p : @ifc C) len dm nproc : meshes nr -> 0 < nproc -> 0 < nat_ ->
  exists data, phid_model nat_ nr M p len true dm nproc = Ok data /\
    forall n a b, a < nat_ * 3 -> b < nat_ * 3 -> D_sum (phase (mesh_point nr n)) data a b =
      nmul (RtoC (mass_factor dm M a b))
        (nsum (fun m => nmul (phase (mesh_point nr n) (vscale (-1) m)) (p (a / 3) (b / 3) m (a mod 3) (b mod 3))) (ws_mesh nr)).
Proof.
  intros Hnr Hp Ho. destruct (srm_mesh_ph nr p nat_ len nproc Hnr Hp Ho) as (h & Eh & G).
  unfold phid_model. rewrite Eh. cbn [bind]. eexists. split; [reflexivity|]. intros n a b Ha Hb. rewrite <- G by assumption.
  unfold D_sum, mass_factor. destruct dm.
  - rewrite nsum_map, <- nsum_mul_l. apply nsum_ext. intros x _. cbn [fst snd]. rewrite divide_by_mass_spec by assumption. ring.
  - replace (RtoC 1) with (@n1 C) by reflexivity. ring.
Qed.

Lemma div3 i x : x < 3 -> (i * 3 + x) / 3 = i /\ (i * 3 + x) mod 3 = x.
Proof.
  intros H. split; [rewrite Nat.div_add_l by lia; rewrite (Nat.div_small x 3) by exact H; lia|].
  rewrite Nat.add_comm, Nat.mod_add by lia. apply Nat.mod_small. exact H.
Qed.

Lemma div3_lt a n : a < n * 3 -> a / 3 < n /\ a mod 3 < 3 /\ a / 3 * 3 + a mod 3 = a.
Proof.
  intros H. pose proof (Nat.div_mod a 3 ltac:(lia)). pose proof (Nat.mod_upper_bound a 3 ltac:(lia)).
  split; [apply Nat.div_lt_upper_bound; lia|]. split; lia.
Qed.

(** [q2r] reproduces the dynamical matrices. *)
Definition time_reversal (nq : vec) (D : vec -> nat -> nat -> C) (n : nat) : Prop :=
  forall k a b, on_mesh nq k -> a < n -> b < n -> D (mesh_index nq (-1) k) a b = nconj (D k a b).

Lemma ph_q2r_reproduces shape nq nat_ M D dm_in dm len nproc :
  pad_mesh shape = Ok nq -> meshes nq -> 0 < nat_ -> 0 < nproc -> (forall na, (0 < M na)%R) -> time_reversal nq D (nat_ * 3) ->
  exists data, ph_q2r shape nat_ M D dm_in false true dm len nproc = Ok data /\
    forall n a b, on_mesh nq n -> a < nat_ * 3 -> b < nat_ * 3 ->
      D_sum (phase (mesh_point nq n)) data a b = nmul (RtoC (mass_factor dm M a b * / mass_factor dm_in M a b)) (D n a b).
Proof.
  intros Es Hnq Ho Hp HM HD. unfold ph_q2r. rewrite Es. cbn [bind]. unfold q2r_phid.
  set (p0 := fun i j m x y => RtoC (Re (ifftn nq (fun k => D k (i * 3 + x) (j * 3 + y)) m))).
  set (p := if dm_in then multiply_by_mass nat_ M p0 else p0). cbn [bind].
  destruct (phid_model_mesh nat_ nq M p len dm nproc Hnq Hp Ho) as (data & E & G). exists data. split; [exact E|].
  intros n a b Hn Ha Hb. rewrite G by assumption. destruct (div3_lt a nat_ Ha) as (A1 & A2 & A3), (div3_lt b nat_ Hb) as (B1 & B2 & B3).
  assert (Ep : forall m, p (a / 3) (b / 3) m (a mod 3) (b mod 3) = nmul (RtoC (/ mass_factor dm_in M a b)) (ifftn nq (fun k => D k a b) m)).
  { intros m. assert (E0 : p0 (a / 3) (b / 3) m (a mod 3) (b mod 3) = ifftn nq (fun k => D k a b) m).
    { unfold p0. rewrite A3, B3. apply ifftn_real; [exact Hnq|]. intros k Hk. apply HD; assumption. }
    unfold p, mass_factor. destruct dm_in.
    - rewrite multiply_by_mass_spec, E0 by assumption. 
      replace (/ (/ sqrt (M (a / 3)%nat) * / sqrt (M (b / 3)%nat)))%R with (sqrt (M (a / 3)%nat) * sqrt (M (b / 3)%nat))%R; [ring|].
      pose proof (sqrt_lt_R0 _ (HM (a / 3)%nat)). pose proof (sqrt_lt_R0 _ (HM (b / 3)%nat)). field. lra.
    - rewrite E0, Rinv_1. replace (RtoC 1) with (@n1 C) by reflexivity. ring. }
  rewrite <- RtoC_mul. rewrite (nsum_ext _ (fun m => nmul (RtoC (/ mass_factor dm_in M a b))
    (nmul (phase (mesh_point nq n) (vscale (-1) m)) (nmul (RtoC (/ meshN nq)) (nsum (fun k => nmul (D k a b) (phase (mesh_point nq k) (vscale (- -1) m))) (ws_mesh nq)))))).
  - rewrite nsum_mul_l. rewrite (mesh_inversion nq Hnq (-1) (fun k => D k a b) n (or_intror eq_refl) Hn). ring.
  - intros m _. rewrite Ep, ifftn_phase by exact Hnq. replace (vscale (- -1) m) with m by (apply vec_ext; unfold vscale; cbn [vx vy vz]; lia). ring.
Qed.

(** Rigid translations with the simple acoustic sum rule. *)
Lemma gamma_phase nr m : meshes nr -> phase (mesh_point nr vzero) m = n1.
Proof.
  intros _. unfold phase. replace (kdot (mesh_point nr vzero) m) with 0%R; [apply expi_0|].
  unfold kdot, mesh_point, vzero. cbn [kx ky kz vx vy vz]. unfold Rdiv. ring.
Qed.

Lemma asr_translation nat_ nr M (p : @ifc C) q len dm nproc : meshes nr -> 0 < nproc -> 0 < nat_ -> (forall na, (0 < M na)%R) ->
  asr nat_ nr p = Ok q ->
  exists data, phid_model nat_ nr M q len true dm nproc = Ok data /\
    forall i x y, i < nat_ -> x < 3 -> y < 3 ->
      nsum (fun j => nmul (D_sum (fun _ => n1) data (i * 3 + x) (j * 3 + y)) (RtoC (if dm then sqrt (M j) else 1%R))) (seq 0 nat_) = n0.
Proof.
  intros Hnr Hp Ho HM E. destruct (asr_sum nat_ nr p Hnr) as (q' & E' & Hs & _). rewrite E in E'. injection E' as <-.
  destruct (phid_model_mesh nat_ nr M q len dm nproc Hnr Hp Ho) as (data & Ed & G). exists data. split; [exact Ed|].
  intros i x y Hi Hx Hy.
  rewrite (nsum_ext _ (fun j => nmul (RtoC (if dm then / sqrt (M i) else 1%R)) (nsum (fun m => q i j m x y) (ws_mesh nr)))).
  - rewrite nsum_mul_l, Hs by exact Hi. ring.
  - intros j Hj. apply in_seq in Hj. replace (D_sum (fun _ => n1) data (i * 3 + x) (j * 3 + y)) with (D_sum (phase (mesh_point nr vzero)) data (i * 3 + x) (j * 3 + y)).
    2: { unfold D_sum. apply nsum_ext. intros z _. rewrite gamma_phase by exact Hnr. reflexivity. }
    rewrite G by lia. destruct (div3 i x Hx) as [A1 A2], (div3 j y Hy) as [B1 B2]. rewrite A1, A2, B1, B2.
    rewrite (nsum_ext (fun m => nmul (phase (mesh_point nr vzero) (vscale (-1) m)) (q i j m x y)) (fun m => q i j m x y)).
    2: { intros m _. rewrite gamma_phase by exact Hnr. ring. }
    unfold mass_factor. rewrite A1, B1. destruct dm.
    + transitivity (nmul (nmul (RtoC (/ sqrt (M i) * / sqrt (M j))) (RtoC (sqrt (M j)))) (nsum (fun m => q i j m x y) (ws_mesh nr))); [ring|].
      rewrite RtoC_mul. f_equal. f_equal. pose proof (sqrt_lt_R0 _ (HM j)). pose proof (sqrt_lt_R0 _ (HM i)). field. lra.
    + replace (RtoC 1) with (@n1 C) by reflexivity. ring.
Qed.

(** ** Folding *)
Lemma skipn_add {A} n m (l : list A) : skipn n (skipn m l) = skipn (n + m) l.
Proof.
  revert l. induction m as [|m IH]; intros l; [rewrite Nat.add_0_r; reflexivity|].
  destruct l as [|x l]; [rewrite !skipn_nil; reflexivity|]. rewrite Nat.add_succ_r. cbn [skipn]. apply IH.
Qed.

Lemma slices_concat {A} sizes : forall c (data : list A), Forall (fun x => (0 <= x)%Z) sizes -> (0 <= c)%Z ->
  concat (slices (cumsum_from c sizes) data) = firstn (Z.to_nat (sumZ sizes)) (skipn (Z.to_nat c) data).
Proof.
  induction sizes as [|s sizes IH]; intros c data Hs Hc.
  - reflexivity.
  - inversion Hs as [|? ? H1 H2]; subst. 
    assert (E : slices (cumsum_from c (s :: sizes)) data = firstn (Z.to_nat s) (skipn (Z.to_nat c) data) :: slices (cumsum_from (c + s) sizes) data).
    { destruct sizes; cbn [cumsum_from slices]; replace (c + s - c)%Z with s by lia; reflexivity. }
    rewrite E. cbn [concat sumZ]. rewrite IH by (try assumption; lia).
    pose proof (sumZ_nonneg sizes H2).
    replace (Z.to_nat (c + s)) with (Z.to_nat s + Z.to_nat c) by lia.
    replace (Z.to_nat (s + sumZ sizes)) with (Z.to_nat s + Z.to_nat (sumZ sizes)) by lia.
    rewrite <- skipn_add. generalize (skipn (Z.to_nat c) data). intros l.
    clear. revert l. induction (Z.to_nat s) as [|n IH]; intros l; [reflexivity|]. destruct l as [|x l]; cbn [firstn skipn app plus].
    + rewrite !firstn_nil. reflexivity.
    + f_equal. apply IH.
Qed.

Lemma fold_slice_spec nr l i j k a b : fold_slice nr l i j k a b =
  nsum (fun x => if veqb k (mesh_index nr (-1) (fst x)) then snd x (i * 3 + a) (j * 3 + b) else n0) l.
Proof.
  unfold fold_slice.
  assert (H : forall (p : @ifc C), fold_left (fun (phid : @ifc C) x => let m := mesh_index nr (-1) (fst x) in
     fun i j k a b => if veqb k m then nadd (phid i j k a b) (snd x (i * 3 + a) (j * 3 + b)) else phid i j k a b) l p i j k a b =
     nadd (p i j k a b) (nsum (fun x => if veqb k (mesh_index nr (-1) (fst x)) then snd x (i * 3 + a) (j * 3 + b) else n0) l)).
  { induction l as [|x l IH]; intros p; cbn [fold_left nsum]; [ring|]. rewrite IH. cbv zeta. destruct (veqb k (mesh_index nr (-1) (fst x))); ring. }
  rewrite H. ring.
Qed.

Lemma nsum_concat {A} (f : A -> C) (ls : list (list A)) : nsum (fun l => nsum f l) ls = nsum f (concat ls).
Proof. induction ls as [|l ls IH]; cbn [nsum concat]; [reflexivity|]. rewrite nsum_app, IH. reflexivity. Qed.

Lemma to_flfrc_Ok nat_ M dm nr data nproc : (0 < nproc)%Z -> exists p, to_flfrc_phid nat_ M dm nr data nproc = Ok p /\
  forall i j k a b, i < nat_ -> j < nat_ -> p i j k a b =
    nmul (RtoC (if dm then sqrt (M i) * sqrt (M j) else 1)%R)
     (nsum (fun x => if veqb k (mesh_index nr (-1) (fst x)) then snd x (i * 3 + a) (j * 3 + b) else n0) data).
Proof.
  intros Hp. unfold to_flfrc_phid.
  destruct (distribute_spec (Z.of_nat (length data)) nproc ltac:(lia) Hp) as (sizes & bounds & Ed & Hlen & Hsum & Hbal & _).
  assert (Eb : bounds = cumsum_from 0 sizes).
  { unfold distribute in Ed. destruct (distribute_sizes _ _) as [s|]; cbn [bind] in Ed; [|discriminate]. injection Ed as -> <-. reflexivity. }
  assert (Hnn : Forall (fun x => (0 <= x)%Z) sizes).
  { apply Forall_forall. intros x Hx. apply In_nth_error in Hx. destruct Hx as [i Hi]. destruct (Hbal i i x x Hi Hi ltac:(lia)). lia. }
  rewrite Ed. cbn [bind]. eexists. split; [reflexivity|]. intros i j k a b Hi Hj.
  assert (E : nsum (fun l => fold_slice nr l i j k a b) (slices bounds data) =
    nsum (fun x => if veqb k (mesh_index nr (-1) (fst x)) then snd x (i * 3 + a) (j * 3 + b) else n0) data).
  { rewrite (nsum_ext _ (fun l => nsum (fun x => if veqb k (mesh_index nr (-1) (fst x)) then snd x (i * 3 + a) (j * 3 + b) else n0) l)) by (intros; apply fold_slice_spec).
    rewrite nsum_concat, Eb, slices_concat, Hsum by (assumption || lia). cbn [Z.to_nat skipn]. rewrite Nat2Z.id, firstn_all. reflexivity. }
  destruct dm.
  - rewrite multiply_by_mass_spec, E by assumption. ring.
  - rewrite E. replace (RtoC 1) with (@n1 C) by reflexivity. ring.
Qed.

(** Dynamical matrices on the mesh survive the folding. *)
Lemma to_flfrc_mesh nat_ M dm nr data nproc : meshes nr -> (0 < nproc)%Z -> (forall na, (0 < M na)%R) ->
  exists p, to_flfrc_phid nat_ M dm nr data nproc = Ok p /\
  forall n i j x y, i < nat_ -> j < nat_ -> x < 3 -> y < 3 ->
    nsum (fun m => nmul (phase (mesh_point nr n) (vscale (-1) m)) (p i j m x y)) (ws_mesh nr) =
    nmul (RtoC (if dm then sqrt (M i) * sqrt (M j) else 1)%R) (D_sum (phase (mesh_point nr n)) data (i * 3 + x) (j * 3 + y)).
Proof.
  intros Hnr Hp HM. destruct (to_flfrc_Ok nat_ M dm nr data nproc Hp) as (p & E & G). exists p. split; [exact E|].
  intros n i j x y Hi Hj Hx Hy.
  rewrite (nsum_ext _ (fun m => nmul (RtoC (if dm then sqrt (M i) * sqrt (M j) else 1)%R)
    (nsum (fun z => nmul (phase (mesh_point nr n) (vscale (-1) m)) (if veqb m (mesh_index nr (-1) (fst z)) then snd z (i * 3 + x) (j * 3 + y) else n0)) data))).
  2: { intros m _. rewrite G, nsum_mul_l by assumption. ring. }
  rewrite nsum_mul_l. f_equal. rewrite nsum_swap. unfold D_sum. apply nsum_ext. intros z _.
  rewrite (nsum_single _ (ws_mesh nr) (mesh_index nr (-1) (fst z))).
  - unfold veqb. destruct (vec_eq_dec _ _); [|congruence].
    rewrite (mesh_phase nr n (vscale (-1) (mesh_index nr (-1) (fst z))) (fst z) Hnr); [ring|].
    destruct (mesh_index_same nr (-1) Hnr (fst z)) as ((a1 & A1) & (a2 & A2) & (a3 & A3)). unfold vscale in *. cbn [vx vy vz] in *.
    repeat split; [exists a1|exists a2|exists a3]; cbn [vx vy vz]; lia.
  - apply nodup_ws_mesh.
  - apply in_ws_mesh. apply (mesh_index_on nr (-1) Hnr).
  - intros m _ Hne. unfold veqb. destruct (vec_eq_dec _ _); [congruence|ring].
Qed.

(** The file, read back, gives the same dynamical matrices on the mesh. *)
Lemma to_flfrc_back nat_ M dm nr data nproc len nproc' : meshes nr -> (0 < nproc)%Z -> 0 < nproc' -> 0 < nat_ -> (forall na, (0 < M na)%R) ->
  exists p data', to_flfrc_phid nat_ M dm nr data nproc = Ok p /\ phid_model nat_ nr M p len true dm nproc' = Ok data' /\
  forall n a b, a < nat_ * 3 -> b < nat_ * 3 ->
    D_sum (phase (mesh_point nr n)) data' a b = D_sum (phase (mesh_point nr n)) data a b.
Proof.
  intros Hnr Hp Hp' Ho HM. destruct (to_flfrc_mesh nat_ M dm nr data nproc Hnr Hp HM) as (p & E & G).
  destruct (phid_model_mesh nat_ nr M p len dm nproc' Hnr Hp' Ho) as (data' & E' & G'). exists p, data'. split; [exact E|]. split; [exact E'|].
  intros n a b Ha Hb. destruct (div3_lt a nat_ Ha) as (A1 & A2 & A3), (div3_lt b nat_ Hb) as (B1 & B2 & B3).
  rewrite G', G by assumption. rewrite A3, B3. unfold mass_factor. destruct dm.
  - transitivity (nmul (nmul (RtoC (/ sqrt (M (a / 3)%nat) * / sqrt (M (b / 3)%nat))) (RtoC (sqrt (M (a / 3)%nat) * sqrt (M (b / 3)%nat)))) (D_sum (phase (mesh_point nr n)) data a b)); [ring|].
    rewrite RtoC_mul. replace (/ sqrt (M (a / 3)%nat) * / sqrt (M (b / 3)%nat) * (sqrt (M (a / 3)%nat) * sqrt (M (b / 3)%nat)))%R with 1%R.
    + replace (RtoC 1) with (@n1 C) by reflexivity. ring.
    + pose proof (sqrt_lt_R0 _ (HM (a / 3)%nat)). pose proof (sqrt_lt_R0 _ (HM (b / 3)%nat)). field. lra.
  - replace (RtoC 1) with (@n1 C) by reflexivity. ring.
Qed.

(** ** Masses: undone, Hermitian *)
Lemma mass_back nat_ M (d : nat -> nat -> C) i j x y : (forall na, (0 < M na)%R) -> i < nat_ -> j < nat_ -> x < 3 -> y < 3 ->
  multiply_by_mass nat_ M (fun i j _ x y => divide_by_mass nat_ M d (i * 3 + x) (j * 3 + y)) i j vzero x y = d (i * 3 + x) (j * 3 + y).
Proof.
  intros HM Hi Hj Hx Hy. rewrite multiply_by_mass_spec, divide_by_mass_spec by lia.
  assert (E : forall k x, x < 3 -> (k * 3 + x) / 3 = k) by (intros k' x' Hx'; rewrite Nat.div_add_l, (Nat.div_small x' 3) by lia; lia).
  rewrite !E by assumption. destruct (d (i * 3 + x) (j * 3 + y)) as [u v].
  assert (H1 : sqrt (M i) <> 0%R) by (apply Rgt_not_eq, sqrt_lt_R0, HM). assert (H2 : sqrt (M j) <> 0%R) by (apply Rgt_not_eq, sqrt_lt_R0, HM).
  unfold RtoC. cbn. apply f_equal2; field; auto.
Qed.

Lemma mass_hermitian nat_ M (d : nat -> nat -> C) a b : a < nat_ * 3 -> b < nat_ * 3 -> d b a = nconj (d a b) ->
  divide_by_mass nat_ M d b a = nconj (divide_by_mass nat_ M d a b).
Proof.
  intros Ha Hb H. rewrite !divide_by_mass_spec by assumption. rewrite H. destruct (d a b) as [u v]. unfold RtoC. cbn. apply f_equal2; ring.
Qed.
