(** Proofs about KrModel.v. *)
From Coq Require Import Permutation Reals Lra Lia.
From Verif Require Import Common CommonProofs LatModel LatProofs VorModel Num NumProofs NumC RootsProofs ElModel WSModel WSSpec WSProofs WSProofs2 KrModel.
Local Open Scope R_scope.

Add Ring Cring3 : (@n_ring C).

Lemma mesh_sum nr (f : vec -> C) : nsum f (ws_mesh nr) =
  nsum (fun a => nsum (fun b => nsum (fun c => f (V3 a b c)) (zrange 0 (vz nr))) (zrange 0 (vy nr))) (zrange 0 (vx nr)).
Proof.
  unfold ws_mesh. rewrite nsum_flat_map. apply nsum_ext. intros a _. rewrite nsum_flat_map. apply nsum_ext. intros b _.
  rewrite nsum_map. reflexivity.
Qed.

Lemma nsum_three (f g h : Z -> C) l1 l2 l3 :
  nsum (fun a => nsum (fun b => nsum (fun c => nmul (nmul (f a) (g b)) (h c)) l3) l2) l1 =
  nmul (nmul (nsum f l1) (nsum g l2)) (nsum h l3).
Proof.
  rewrite (nsum_ext _ (fun a => nmul (f a) (nmul (nsum g l2) (nsum h l3)))).
  - rewrite nsum_mul_r. ring.
  - intros a _. rewrite (nsum_ext _ (fun b => nmul (g b) (nmul (f a) (nsum h l3)))).
    + rewrite nsum_mul_r. ring.
    + intros b _. rewrite nsum_mul_l. ring.
Qed.

Lemma one_delta N s n k : (0 < N)%Z -> (s = 1 \/ s = -1)%Z -> (0 <= n < N)%Z -> (0 <= k < N)%Z ->
  nmul (nsum (fun m => expi (IZR s * (2 * PI / IZR N) * IZR (m * (n - k)))) (zrange 0 N)) (RtoC (/ IZR N)) = if (n =? k)%Z then n1 else n0.
Proof.
  intros HN Hs Hn Hk. assert (HR : IZR N <> 0) by (apply not_0_IZR; lia). rewrite roots_sum_sign by assumption.
  destruct (Z.eqb_spec n k) as [-> |Hne].
  - rewrite Z.sub_diag, Z.mod_0_l by lia. cbn. apply f_equal2; [field; exact HR|ring].
  - destruct (Z.eqb_spec ((n - k) mod N) 0) as [E|E]; [|ring]. exfalso. apply Z.mod_divide in E; [|lia]. destruct E as [c Hc]. assert (c = 0)%Z by nia. nia.
Qed.

Definition meshN (nr : vec) : R := IZR (vx nr) * IZR (vy nr) * IZR (vz nr).

Section Mesh.
  Context (nr : vec).
  Hypothesis Hnr : (0 < vx nr /\ 0 < vy nr /\ 0 < vz nr)%Z.

  Lemma meshN_0 : IZR (vx nr) <> 0 /\ IZR (vy nr) <> 0 /\ IZR (vz nr) <> 0.
  Proof. repeat split; apply not_0_IZR; lia. Qed.

  Lemma mesh_delta s n k : (s = 1 \/ s = -1)%Z -> on_mesh nr n -> on_mesh nr k ->
    nmul (nsum (fun m => nmul (phase (mesh_point nr n) (vscale s m)) (phase (mesh_point nr k) (vscale (- s) m))) (ws_mesh nr)) (RtoC (/ meshN nr)) =
    if veqb n k then n1 else n0.
  Proof.
    intros Hs (N1 & N2 & N3) (K1 & K2 & K3). pose proof meshN_0 as (R1 & R2 & R3).
    rewrite mesh_sum.
    rewrite (nsum_ext _ (fun a => nsum (fun b => nsum (fun c =>
      nmul (nmul (expi (IZR s * (2 * PI / IZR (vx nr)) * IZR (a * (vx n - vx k)))) (expi (IZR s * (2 * PI / IZR (vy nr)) * IZR (b * (vy n - vy k)))))
       (expi (IZR s * (2 * PI / IZR (vz nr)) * IZR (c * (vz n - vz k))))) (zrange 0 (vz nr))) (zrange 0 (vy nr)))).
    2: { intros a _. apply nsum_ext. intros b _. apply nsum_ext. intros c _. unfold phase. rewrite <- !expi_add. f_equal.
         unfold kdot, mesh_point, vscale. cbn [kx ky kz vx vy vz]. rewrite !mult_IZR, !minus_IZR, opp_IZR. field. auto. }
    rewrite nsum_three.
    replace (RtoC (/ meshN nr)) with (nmul (nmul (RtoC (/ IZR (vx nr))) (RtoC (/ IZR (vy nr)))) (RtoC (/ IZR (vz nr)))).
    2: { unfold meshN. cbn. apply f_equal2; field; auto. }
    pose proof (one_delta (vx nr) s (vx n) (vx k) ltac:(lia) Hs N1 K1) as D1.
    pose proof (one_delta (vy nr) s (vy n) (vy k) ltac:(lia) Hs N2 K2) as D2.
    pose proof (one_delta (vz nr) s (vz n) (vz k) ltac:(lia) Hs N3 K3) as D3.
    match goal with |- nmul (nmul (nmul ?x ?y) ?z) (nmul (nmul ?p ?q) ?r) = _ =>
      replace (nmul (nmul (nmul x y) z) (nmul (nmul p q) r)) with (nmul (nmul (nmul x p) (nmul y q)) (nmul z r)) by ring end.
    rewrite D1, D2, D3. unfold veqb.
    destruct (vec_eq_dec n k) as [->|Hne]; [rewrite !Z.eqb_refl; ring|].
    destruct (Z.eqb_spec (vx n) (vx k)) as [E1|], (Z.eqb_spec (vy n) (vy k)) as [E2|], (Z.eqb_spec (vz n) (vz k)) as [E3|]; try ring.
    exfalso. apply Hne. apply vec_ext; assumption.
  Qed.

  (** Discrete Fourier inversion. *)
  Lemma mesh_inversion s (f : vec -> C) n : (s = 1 \/ s = -1)%Z -> on_mesh nr n ->
    nsum (fun m => nmul (phase (mesh_point nr n) (vscale s m))
      (nmul (RtoC (/ meshN nr)) (nsum (fun k => nmul (f k) (phase (mesh_point nr k) (vscale (- s) m))) (ws_mesh nr)))) (ws_mesh nr) = f n.
  Proof.
    intros Hs Hn.
    rewrite (nsum_ext _ (fun m => nsum (fun k => nmul (f k) (nmul (nmul (phase (mesh_point nr n) (vscale s m)) (phase (mesh_point nr k) (vscale (- s) m))) (RtoC (/ meshN nr)))) (ws_mesh nr))).
    2: { intros m _. rewrite <- !nsum_mul_l. apply nsum_ext. intros k _. ring. }
    rewrite nsum_swap. rewrite (nsum_single _ (ws_mesh nr) n).
    - rewrite nsum_mul_l, nsum_mul_r, mesh_delta by assumption. unfold veqb. destruct (vec_eq_dec n n); [ring|congruence].
    - apply (nodup_ws_mesh nr).
    - apply (in_ws_mesh nr). exact Hn.
    - intros k Hk Hne. apply (in_ws_mesh nr) in Hk. rewrite nsum_mul_l, nsum_mul_r, mesh_delta by assumption.
      unfold veqb. destruct (vec_eq_dec n k); [congruence|ring].
  Qed.

  Lemma ifftn_phase f m : ifftn nr f m = nmul (RtoC (/ meshN nr)) (nsum (fun k => nmul (f k) (phase (mesh_point nr k) m)) (ws_mesh nr)).
  Proof.
    unfold ifftn. fold (meshN nr). f_equal. apply nsum_ext. intros k _. f_equal. unfold phase. f_equal. unfold kdot, mesh_point. cbn [kx ky kz].
    pose proof meshN_0 as (R1 & R2 & R3). field. auto.
  Qed.

  Lemma conj_RtoC x : nconj (RtoC x) = RtoC x.
  Proof. cbn. apply f_equal2; ring. Qed.

  Lemma to_lattice_phase (H : vec -> nat -> nat -> C) m a b : to_lattice true nr H m a b =
    nmul (RtoC (/ meshN nr)) (nsum (fun k => nmul (H k a b) (phase (mesh_point nr k) (vscale (-1) m))) (ws_mesh nr)).
  Proof.
    cbn [to_lattice]. rewrite ifftn_phase, n_conj_mul, conj_RtoC, n_conj_sum. f_equal. apply nsum_ext. intros k _.
    rewrite n_conj_mul, n_conj_conj, phase_conj. replace (vscale (-1) m) with (vopp m) by (apply vec_ext; unfold vopp, vscale; cbn [vx vy vz]; lia). reflexivity.
  Qed.
End Mesh.

Definition unit_factor (from to : bool) : R := if Bool.eqb from to then 1 else if from then Ry else / Ry.

Lemma H_scale e (h : list (vec * (nat -> nat -> C))) c a b :
  nsum (fun x => nmul (snd x a b) (e (fst x))) (map (fun x => (fst x, fun a b => nmul (snd x a b) c)) h) =
  nmul c (nsum (fun x => nmul (snd x a b) (e (fst x))) h).
Proof. rewrite nsum_map, <- nsum_mul_l. apply nsum_ext. intros x _. cbn [fst snd]. ring. Qed.

Lemma srm_mesh nr (t : vec -> nat -> nat -> C) norb len nproc : (0 < vx nr /\ 0 < vy nr /\ 0 < vz nr)%Z -> (0 < nproc)%nat -> (0 < norb)%nat ->
  exists h, short_range_model Cdivn true nr 1 2 norb 1 len (1 # 10000000) (fun i j R _ _ => t R i j) nproc = Ok h /\
    forall n a b, (a < norb)%nat -> (b < norb)%nat -> nsum (fun x => nmul (snd x a b) (phase (mesh_point nr n) (fst x))) h =
      nsum (fun m => nmul (phase (mesh_point nr n) m) (t m a b)) (ws_mesh nr).
Proof.
  intros Hnr Hp Ho.
  pose proof (fun n a b => short_range_mesh nr 1 2 norb 1 len (1 # 10000000) (fun i j R _ _ => t R i j) nproc n a b Hnr (or_introl eq_refl) eq_refl eq_refl Hp Nat.lt_0_1) as G.
  destruct (G nr 0%nat 0%nat ltac:(lia) ltac:(lia)) as (h & Eh & _). exists h. split; [exact Eh|]. intros n a b Ha Hb.
  destruct (G n a b ltac:(lia) ltac:(lia)) as (h' & Eh' & E). rewrite Eh in Eh'. injection Eh' as <-.
  rewrite (nsum_ext _ (fun x => nmul (phase (mesh_point nr n) (fst x)) (snd x a b))) by (intros x _; ring).
  rewrite E, !Nat.div_1_r. apply nsum_ext. intros m _. replace (vscale 1 m) with m by (apply vec_ext; unfold vscale; cbn [vx vy vz]; lia). reflexivity.
Qed.

Lemma k2r_mesh m shape nk norb H len fft ryd nproc :
  pad_mesh shape = Ok nk -> (0 < vx nk /\ 0 < vy nk /\ 0 < vz nk)%Z -> (0 < norb)%nat -> (0 < nproc)%nat -> divide_ndegen m = true ->
  exists m', k2r m shape norb H len fft ryd nproc = Ok m' /\ size m' = norb /\ rydberg m' = rydberg m /\
    forall n a b, (a < norb)%nat -> (b < norb)%nat ->
      ElModel.H (phase (mesh_point nk n)) m' a b = nmul (RtoC (unit_factor ryd (rydberg m)))
        (nsum (fun R => nmul (phase (mesh_point nk n) R) (to_lattice fft nk H R a b)) (ws_mesh nk)).
Proof.
  intros Es Hnk Ho Hp Hd. unfold k2r. rewrite Es, Hd. cbn [bind]. cbv zeta.
  destruct (srm_mesh nk (to_lattice fft nk H) norb len nproc Hnk Hp Ho) as (h & Eh & G). rewrite Eh. cbn [bind].
  eexists. split; [reflexivity|]. cbn [size rydberg]. split; [reflexivity|]. split; [reflexivity|].
  intros n a b Ha Hb. unfold ElModel.H. cbn [hop]. unfold unit_factor.
  destruct (Bool.eqb ryd (rydberg m)); [|destruct ryd].
  - rewrite G by assumption. replace (RtoC 1) with (@n1 C) by reflexivity. ring.
  - rewrite H_scale, G by assumption. reflexivity.
  - rewrite H_scale, G by assumption. reflexivity.
Qed.

Lemma to_lattice_inversion nk (H : vec -> nat -> nat -> C) n a b : (0 < vx nk /\ 0 < vy nk /\ 0 < vz nk)%Z -> on_mesh nk n ->
  nsum (fun R => nmul (phase (mesh_point nk n) R) (to_lattice true nk H R a b)) (ws_mesh nk) = H n a b.
Proof.
  intros Hnk Hn. rewrite <- (mesh_inversion nk Hnk 1 (fun k => H k a b) n (or_introl eq_refl) Hn).
  apply nsum_ext. intros R _. rewrite to_lattice_phase by exact Hnk. replace (vscale 1 R) with R by (apply vec_ext; unfold vscale; cbn [vx vy vz]; lia). reflexivity.
Qed.

Lemma k2r_reproduces m shape nk norb H len ryd nproc :
  pad_mesh shape = Ok nk -> (0 < vx nk /\ 0 < vy nk /\ 0 < vz nk)%Z -> (0 < norb)%nat -> (0 < nproc)%nat -> divide_ndegen m = true ->
  exists m', k2r m shape norb H len true ryd nproc = Ok m' /\ size m' = norb /\ rydberg m' = rydberg m /\
    forall n a b, on_mesh nk n -> (a < norb)%nat -> (b < norb)%nat ->
      ElModel.H (phase (mesh_point nk n)) m' a b = nmul (RtoC (unit_factor ryd (rydberg m))) (H n a b).
Proof.
  intros Es Hnk Ho Hp Hd. destruct (k2r_mesh m shape nk norb H len true ryd nproc Es Hnk Ho Hp Hd) as (m' & E & E1 & E2 & G).
  exists m'. split; [exact E|]. split; [exact E1|]. split; [exact E2|]. intros n a b Hn Ha Hb. rewrite G, to_lattice_inversion by assumption. reflexivity.
Qed.

Lemma elel_q2r_reproduces shape nq norb W len nproc :
  pad_mesh shape = Ok nq -> (0 < vx nq /\ 0 < vy nq /\ 0 < vz nq)%Z -> (0 < norb)%nat -> (0 < nproc)%nat ->
  exists d, elel_q2r shape norb W len true nproc = Ok d /\
    forall n a b, on_mesh nq n -> (a < norb)%nat -> (b < norb)%nat -> W_sum (phase (mesh_point nq n)) d a b = W n a b.
Proof.
  intros Es Hnk Ho Hp. unfold elel_q2r. rewrite Es. cbn [bind]. cbv zeta.
  destruct (srm_mesh nq (to_lattice true nq W) norb len nproc Hnk Hp Ho) as (h & Eh & G). exists h. split; [exact Eh|].
  intros n a b Hn Ha Hb. unfold W_sum. rewrite G, to_lattice_inversion by assumption. reflexivity.
Qed.
