From Coq Require Import Permutation Sorted Reals.
From Verif Require Import Common CommonProofs LatModel LatSpec LatProofs Num NumProofs NumC ElModel ElSpec ElProofs ElProofs2 ElProofs3 WSModel WSSpec WSProofs WSProofs2 VorModel KrModel KrProofs PhProofs2 ElelModel.
From Verif Require Import Num.
Local Open Scope nat_scope.

Section Elel.
  Context {F : num}.
  Add Ring FR : (@n_ring F).

  (** The corresponding tight-binding model *)
  Definition to_el (m : @elel F) : @el F :=
    {| size := wsize m; hop := whop m; flatR := wflat m; cells := wcells m; Nsc := None; divide_ndegen := true; rydberg := false |}.

  Lemma W_H e m a b : W e m a b = H e (to_el m) a b.
  Proof. reflexivity. Qed.

  Lemma find_dget (d : list (vec * @mat F)) R : match find (fun x => veqb (fst x) R) d with Some x => Some (snd x) | None => None end = dget d R.
  Proof. induction d as [|[Q x] d IH]; cbn; [reflexivity|]. destruct (veqb Q R); [reflexivity|exact IH]. Qed.
  Lemma WR_t m R : WR m R = t (to_el m) R.
  Proof.
    unfold WR, t. change (hop (to_el m)) with (whop m). rewrite <- find_dget. destruct (find _ _); [reflexivity|]. destruct (whop m); reflexivity.
  Qed.

  Lemma sc_step_eq sz sc i c const x : elel_sc_step sz sc i c const x = @sc_step F sz sc i c const x.
  Proof. reflexivity. Qed.

  Lemma supercell_eq a1 a2 a3 m : elel_supercell a1 a2 a3 m =
    match el_supercell a1 a2 a3 (to_el m) with
    | Ok m' => Ok {| wsize := size m'; whop := hop m'; wflat := match hop m' with [] => true | _ => false end; wcells := cells m' |}
    | Raise e => Raise e
    end.
  Proof.
    unfold elel_supercell, el_supercell, sc_const. destruct (supercell a1 a2 a3) as [sc|]; [|reflexivity]. cbn [bind].
    change (size (to_el m)) with (wsize m). change (hop (to_el m)) with (whop m). change (@elel_sc_step F) with (@sc_step F).
    destruct (fold_left _ _ _); reflexivity.
  Qed.

  Lemma standardize_eq small m : to_el (elel_standardize small m) = standardize (fun x => x) small false (to_el m).
  Proof.
    unfold elel_standardize, standardize, to_el, set_hop. cbn [wsize whop wflat wcells size hop flatR cells Nsc divide_ndegen rydberg].
    assert (S : forall (h d : list (vec * @mat F)), fold_left (elel_std_step (wsize m)) h d = fold_left (std_step (wsize m) false) h d).
    { induction h as [|x h IH]; intros d; [reflexivity|]. exact (IH _). }
    unfold chop. destruct small; rewrite S; reflexivity.
  Qed.

  (** ** Interaction on the mesh *)
  Lemma fold_mesh_spec nq (h : list (vec * @mat F)) : NoDup (map (fun x => mesh_index nq 1 (fst x)) h) -> forall m a b,
  fold_mesh nq h m a b = nsum (fun x => if veqb m (mesh_index nq 1 (fst x)) then snd x a b else n0) h.
Proof.
  unfold fold_mesh. intros Nd m a b.
  assert (I : forall x : vec * @mat F, V3 (vx (fst x) mod vx nq)%Z (vy (fst x) mod vy nq)%Z (vz (fst x) mod vz nq)%Z = mesh_index nq 1 (fst x)).
  { intros x. unfold mesh_index. rewrite !Z.mul_1_l. reflexivity. }
  assert (G : forall f : vec -> @mat F, fold_left (fun WR x => fun m => if veqb m (V3 (vx (fst x) mod vx nq)%Z (vy (fst x) mod vy nq)%Z (vz (fst x) mod vz nq)%Z) then snd x else WR m) h f m a b =
    (if existsb (fun x => veqb m (mesh_index nq 1 (fst x))) h then nsum (fun x => if veqb m (mesh_index nq 1 (fst x)) then snd x a b else n0) h else f m a b)).
  { induction h as [|x h IH]; intros f; [reflexivity|]. cbn [map] in Nd. apply NoDup_cons_iff in Nd as [Nx Nd]. cbn [fold_left existsb nsum]. rewrite (IH Nd), I.
    destruct (veqb m (mesh_index nq 1 (fst x))) eqn:E; cbn [orb].
    - assert (Z : existsb (fun x => veqb m (mesh_index nq 1 (fst x))) h = false).
      { apply not_true_iff_false. intros T. apply existsb_exists in T as (y & Hy & T). apply veqb_eq in E, T. apply Nx. rewrite <- E, T. apply in_map_iff. exists y. split; [reflexivity|exact Hy]. }
      rewrite Z. assert (S : nsum (fun x => if veqb m (mesh_index nq 1 (fst x)) then snd x a b else n0) h = n0).
      { rewrite (nsum_ext _ (fun _ => n0)); [apply nsum_0|]. intros y Hy. destruct (veqb m (mesh_index nq 1 (fst y))) eqn:T; [|reflexivity]. exfalso. revert Z. apply not_false_iff_true, existsb_exists. exists y. split; [exact Hy|exact T]. }
      rewrite S. cbv beta iota. destruct x as [Q x]. cbn [fst snd] in *. rewrite E. ring.
    - destruct x as [Q x]. cbn [fst snd] in *. rewrite E. destruct (existsb _ h); [ring|reflexivity]. }
  rewrite G. destruct (existsb _ h) eqn:E; [reflexivity|]. symmetry. rewrite (nsum_ext _ (fun _ => n0)); [apply nsum_0|].
  intros y Hy. destruct (veqb m (mesh_index nq 1 (fst y))) eqn:T; [|reflexivity]. exfalso. revert E. apply not_false_iff_true, existsb_exists. exists y. split; [exact Hy|exact T].
Qed.
End Elel.

Add Ring CR : (@n_ring C).

Lemma from_Wmat_mesh nq norb (h : list (vec * (nat -> nat -> C))) len nproc :
  (0 < vx nq /\ 0 < vy nq /\ 0 < vz nq)%Z -> 0 < norb -> 0 < nproc -> NoDup (map (fun x => mesh_index nq 1 (fst x)) h) ->
  exists data, elel_q2r [vx nq; vy nq; vz nq] norb (fold_mesh nq h) len false nproc = Ok data /\
  forall n a b, a < norb -> b < norb -> W_sum (phase (mesh_point nq n)) data a b = W_sum (phase (mesh_point nq n)) h a b.
Proof.
  intros Hnq Ho Hp Nd. unfold elel_q2r. cbn [pad_mesh bind]. destruct nq as [x y z]. cbn [vx vy vz] in *.
  destruct (srm_mesh (V3 x y z) (to_lattice false (V3 x y z) (fold_mesh (V3 x y z) h)) norb len nproc Hnq Hp Ho) as (d & Ed & G). exists d. split; [exact Ed|].
  intros n a b Ha Hb. unfold W_sum. rewrite (G n a b Ha Hb). unfold to_lattice. set (nr := V3 x y z) in *.
  rewrite (nsum_ext _ (fun m => nsum (fun z => nmul (phase (mesh_point nr n) m) (if veqb m (mesh_index nr 1 (fst z)) then snd z a b else n0)) h)).
  2: { intros m _. rewrite (fold_mesh_spec nr h Nd). rewrite nsum_mul_l. reflexivity. }
  rewrite nsum_swap. apply nsum_ext. intros w _.
  rewrite (nsum_single _ (ws_mesh nr) (mesh_index nr 1 (fst w))).
  - unfold veqb. destruct (vec_eq_dec _ _); [|congruence]. rewrite (mesh_phase nr n (mesh_index nr 1 (fst w)) (fst w) Hnq); [ring|].
    destruct (mesh_index_same nr 1 Hnq (fst w)) as ((a1 & A1) & (a2 & A2) & (a3 & A3)). unfold vscale in *. cbn [vx vy vz] in *.
    repeat split; [exists (- a1)%Z|exists (- a2)%Z|exists (- a3)%Z]; cbn [vx vy vz]; lia.
  - apply nodup_ws_mesh.
  - apply in_ws_mesh. apply (mesh_index_on nr 1 Hnq).
  - intros m _ Hne. unfold veqb. destruct (vec_eq_dec _ _); [congruence|ring].
Qed.
