(** Proofs about PhUpdModel.v. *)
From Coq Require Import Permutation Reals Lra Lia FunctionalExtensionality.
From Verif Require Import Common CommonProofs LatModel LatProofs VorModel Num NumProofs NumC ElModel WSModel WSSpec WSProofs WSProofs2 KrModel KrProofs
  PhModel PhProofs PhProofs2 PhLRModel PhLRProofs PhUpdModel.
Local Open Scope nat_scope.

Add Ring Cring6 : (@n_ring C).

(** The part of matrices on a mesh that respects time-reversal symmetry. *)
Definition half : C := RtoC (/ 2).
Definition symmetric (nq : vec) (D : matrices) : matrices := fun n a b => nmul half (nadd (D n a b) (nconj (D (mesh_index nq (-1) n) a b))).

Lemma half_half (z : C) : nadd (nmul half z) (nmul half z) = z.
Proof. destruct z as [x y]. cbn. apply f_equal2; field. Qed.

Lemma half_conj : nconj half = half.
Proof. apply RtoC_conj. Qed.

Lemma symmetric_reversal nq D n : time_reversal nq (symmetric nq D) n.
Proof.
  intros k a b Hk _ _. unfold symmetric. rewrite (mesh_neg_neg nq k Hk). rewrite n_conj_mul, n_conj_add, n_conj_conj, half_conj. ring.
Qed.

Lemma ifftn_symmetric nq (f : vec -> C) m : meshes nq ->
  ifftn nq (fun k => nmul half (nadd (f k) (nconj (f (mesh_index nq (-1) k))))) m = RtoC (Re (ifftn nq f m)).
Proof.
  intros Hm. assert (E : ifftn nq (fun k => nconj (f (mesh_index nq (-1) k))) m = nconj (ifftn nq f m)).
  { rewrite !ifftn_phase by exact Hm. rewrite n_conj_mul, conj_RtoC, n_conj_sum. f_equal.
    rewrite <- (nsum_perm (fun k => nconj _) _ _ (mesh_neg_perm nq Hm)), nsum_map. apply nsum_ext. intros k Hk. apply (in_ws_mesh nq) in Hk.
    rewrite n_conj_mul, phase_conj, (mesh_neg_phase nq (mesh_index nq (-1) k)) by exact Hm. rewrite (mesh_neg_neg nq k Hk). reflexivity. }
  transitivity (nmul half (nadd (ifftn nq f m) (nconj (ifftn nq f m)))).
  - rewrite <- E, !ifftn_phase by exact Hm. 
    transitivity (nmul (RtoC (/ meshN nq)) (nadd (nmul half (nsum (fun k => nmul (f k) (phase (mesh_point nq k) m)) (ws_mesh nq)))
      (nmul half (nsum (fun k => nmul (nconj (f (mesh_index nq (-1) k))) (phase (mesh_point nq k) m)) (ws_mesh nq))))); [|ring].
    f_equal. rewrite <- !nsum_mul_l, <- nsum_add. apply nsum_ext. intros k _. ring.
  - destruct (ifftn nq f m) as [x y]. cbn. apply f_equal2; field.
Qed.

Lemma q2r_phid_symmetric nat_ nq M D dm asr : meshes nq -> q2r_phid nat_ nq M D dm asr = q2r_phid nat_ nq M (symmetric nq D) dm asr.
Proof.
  intros Hm. unfold q2r_phid.
  replace (fun i j m x y => RtoC (Re (ifftn nq (fun k => symmetric nq D k (i * 3 + x) (j * 3 + y)) m)))
    with (fun i j m x y => RtoC (Re (ifftn nq (fun k => D k (i * 3 + x) (j * 3 + y)) m))); [reflexivity|].
  apply functional_extensionality. intros i. apply functional_extensionality. intros j. apply functional_extensionality. intros m.
  apply functional_extensionality. intros x. apply functional_extensionality. intros y.
  unfold symmetric. rewrite (ifftn_symmetric nq (fun k => D k (i * 3 + x) (j * 3 + y)) m Hm). reflexivity.
Qed.

Lemma mass_factor_nz d M a b : (forall na, (0 < M na)%R) -> mass_factor d M a b <> 0%R.
Proof.
  intros HM. unfold mass_factor. destruct d; [|lra]. pose proof (sqrt_lt_R0 _ (HM (a / 3))) as A. pose proof (sqrt_lt_R0 _ (HM (b / 3))) as B.
  apply Rinv_0_lt_compat in A. apply Rinv_0_lt_compat in B. pose proof (Rmult_lt_0_compat _ _ A B). lra.
Qed.

(** [q2r] for any matrices. *)
Lemma q2r_any shape nq nat_ M D dm len nproc :
  pad_mesh shape = Ok nq -> meshes nq -> 0 < nat_ -> 0 < nproc -> (forall na, (0 < M na)%R) ->
  exists data, ph_q2r shape nat_ M D dm false true dm len nproc = Ok data /\
    forall n a b, on_mesh nq n -> a < nat_ * 3 -> b < nat_ * 3 -> D_sum (phase (mesh_point nq n)) data a b = symmetric nq D n a b.
Proof.
  intros Es Hm Ho Hp HM.
  destruct (ph_q2r_reproduces shape nq nat_ M (symmetric nq D) dm dm len nproc Es Hm Ho Hp HM (symmetric_reversal nq D _)) as (data & E & G).
  exists data. split.
  - rewrite <- E. unfold ph_q2r. rewrite Es. cbn [bind]. rewrite (q2r_phid_symmetric nat_ nq M D dm false Hm). reflexivity.
  - intros n a b Hn Ha Hb. rewrite G by assumption. rewrite Rinv_r by (apply mass_factor_nz; exact HM). rewrite RtoC_1. ring.
Qed.

(** The reciprocal lattice vector between the points n and - n. *)
Definition wrap (n : vec) : vec := V3 (if vx n =? 0 then 0 else 1)%Z (if vy n =? 0 then 0 else 1)%Z (if vz n =? 0 then 0 else 1)%Z.

Lemma neg_mod a n : (0 <= a < n)%Z -> (-1 * a mod n = if a =? 0 then 0 else n - a)%Z.
Proof.
  intros H. destruct (Z.eqb_spec a 0) as [->|Ha]; [reflexivity|].
  replace (-1 * a)%Z with (n - a + (-1) * n)%Z by ring. rewrite Z.mod_add by lia. apply Z.mod_small. lia.
Qed.

Lemma mesh_point_neg nq n : on_mesh nq n -> mesh_point nq (mesh_index nq (-1) n) = NumC.kopp (NumC.kadd (mesh_point nq n) (NumC.kopp (krec (wrap n)))).
Proof.
  intros ((H1 & H1') & (H2 & H2') & (H3 & H3')). unfold mesh_index, mesh_point, NumC.kadd, NumC.kopp, krec, wrap. cbn [vx vy vz kx ky kz].
  rewrite !neg_mod by lia.
  assert (G : forall a n, (0 <= a)%Z -> (a < n)%Z ->
    (2 * PI * IZR (if a =? 0 then 0 else n - a)%Z / IZR n = - (2 * PI * IZR a / IZR n + - (2 * PI * IZR (if a =? 0 then 0 else 1)%Z)))%R).
  { intros a m Ha Hm. assert (IZR m <> 0)%R by (apply not_0_IZR; lia). destruct (Z.eqb_spec a 0) as [->|Hz]; [field; assumption|].
    rewrite minus_IZR. field. assumption. }
  rewrite !G by assumption. reflexivity.
Qed.

Lemma long_range_reversal p q a b : long_range p (NumC.kopp q) a b = nconj (long_range p q a b).
Proof. destruct p as [p|]; cbn [long_range]; [apply D_lr_reversal|]. cbn. apply f_equal2; ring. Qed.

Lemma long_range_mesh nq p n a b : on_mesh nq n ->
  nconj (sample (long_range p) nq (mesh_index nq (-1) n) a b) = long_range p (NumC.kadd (mesh_point nq n) (NumC.kopp (krec (wrap n)))) a b.
Proof. intros Hn. unfold sample. rewrite (mesh_point_neg nq n Hn), long_range_reversal, n_conj_conj. reflexivity. Qed.

(** Half of the difference of long-range terms at equivalent points. *)
Definition mismatch (p : option polar) (nq n : vec) (a b : nat) : C :=
  nmul half (nsub (long_range p (mesh_point nq n) a b) (long_range p (NumC.kadd (mesh_point nq n) (NumC.kopp (krec (wrap n)))) a b)).

Definition real_data (s : ph) : Prop := forall x a b, In x (data s) -> nconj (snd x a b) = snd x a b.

Lemma D_eq s q a b : D s q a b = nadd (D_sum (phase q) (data s) a b) (long_range (polar_ s) q a b).
Proof. unfold D. destruct (polar_ s); cbn [long_range]; [reflexivity|]. ring. Qed.

Lemma D_sum_reversal nq data n a b : meshes nq -> (forall x a b, In x data -> nconj (snd x a b) = snd x a b) ->
  nconj (D_sum (phase (mesh_point nq (mesh_index nq (-1) n))) data a b) = D_sum (phase (mesh_point nq n)) data a b.
Proof.
  intros Hm Hr. unfold D_sum. rewrite n_conj_sum. apply nsum_ext. intros x Hx. rewrite n_conj_mul, Hr by exact Hx. f_equal.
  rewrite <- mesh_neg_phase by exact Hm. rewrite phase_conj. f_equal. apply vec_ext; unfold vopp; cbn [vx vy vz]; lia.
Qed.

Lemma sample_symmetric s nq n a b : meshes nq -> on_mesh nq n -> real_data s ->
  symmetric nq (sample (D s) nq) n a b = nsub (D s (mesh_point nq n) a b) (mismatch (polar_ s) nq n a b).
Proof.
  intros Hm Hn Hr. unfold symmetric, sample at 1. unfold sample. rewrite !D_eq, n_conj_add.
  rewrite (D_sum_reversal nq (data s) n a b Hm Hr).
  pose proof (long_range_mesh nq (polar_ s) n a b Hn) as E. unfold sample in E. rewrite E. unfold mismatch.
  generalize (D_sum (phase (mesh_point nq n)) (data s) a b). intros x.
  generalize (long_range (polar_ s) (mesh_point nq n) a b). intros y.
  transitivity (nsub (nadd (nadd (nmul half x) (nmul half x)) (nadd (nmul half y) (nmul half y))) (nmul half (nsub y (long_range (polar_ s) (NumC.kadd (mesh_point nq n) (NumC.kopp (krec (wrap n)))) a b)))); [ring|].
  rewrite !half_half. reflexivity.
Qed.

Section Update.
  Variables (s : ph) (nq : vec) (nproc : nat).
  Hypothesis Hs : pad_mesh (mesh_ s) = Ok nq.
  Hypothesis Hm : meshes nq.
  Hypothesis Ho : 0 < atoms s.
  Hypothesis Hp : 0 < nproc.
  Hypothesis HM : forall na, (0 < mass s na)%R.

  (** What an update makes of given matrices [D0]. *)
  Lemma update_ok D0' p : exists s', update_short_range false nproc (Ph (atoms s) (mass s) (divided s) (mesh_ s) (len s) (data s) p (Some D0')) = Ok s' /\
    atoms s' = atoms s /\ mass s' = mass s /\ divided s' = divided s /\ mesh_ s' = mesh_ s /\ len s' = len s /\ polar_ s' = p /\ PhUpdModel.D0 s' = Some D0' /\
    forall n a b, on_mesh nq n -> a < atoms s * 3 -> b < atoms s * 3 ->
      D s' (mesh_point nq n) a b = nadd (symmetric nq D0' n a b) (mismatch p nq n a b).
  Proof.
    unfold update_short_range. cbn [PhUpdModel.D0 mesh_ polar_ atoms mass divided len data]. rewrite Hs. cbn [bind].
    set (D' := match p with Some p0 => _ | None => D0' end).
    destruct (q2r_any (mesh_ s) nq (atoms s) (mass s) D' (divided s) (len s) nproc Hs Hm Ho Hp HM) as (d & E & G).
    rewrite E. cbn [bind]. eexists. split; [reflexivity|]. cbn [atoms mass divided mesh_ len polar_ PhUpdModel.D0]. do 7 (split; [reflexivity|]).
    intros n a b Hn Ha Hb. rewrite D_eq. cbn [data polar_]. rewrite G by assumption.
    assert (ED : forall n, D' n a b = nsub (D0' n a b) (sample (long_range p) nq n a b)).
    { intros n'. unfold D'. unfold sample. destruct p; cbn [long_range]; [reflexivity|]. ring. }
    unfold symmetric. rewrite !ED. rewrite n_conj_sub. rewrite (long_range_mesh nq p n a b Hn). unfold mismatch, sample.
    generalize (long_range p (mesh_point nq n) a b). intros y.
    match goal with |- nadd (nmul half (nadd (nsub ?u y) (nsub ?v ?w))) y = _ =>
      transitivity (nadd (nsub (nmul half (nadd u v)) (nmul half (nadd y w))) (nadd (nmul half y) (nmul half y))); [rewrite half_half; ring|ring] end.
  Qed.

  Lemma sample_orig_ok : sample_orig s = Ok (Ph (atoms s) (mass s) (divided s) (mesh_ s) (len s) (data s) (polar_ s) (Some (sample (D s) nq))).
  Proof. unfold sample_orig. rewrite Hs. reflexivity. Qed.
End Update.

(** The data before an update do not matter. *)
Lemma update_data asr nproc s d : update_short_range asr nproc s =
  update_short_range asr nproc (Ph (atoms s) (mass s) (divided s) (mesh_ s) (len s) d (polar_ s) (D0 s)).
Proof. reflexivity. Qed.
