(** Decay of matrix elements with distance. *)
From Coq Require Import Reals Lra.
From Verif Require Import GeoModel PathModel Common CommonProofs LatModel MPIModel VorModel Num NumC LatProofs WSModel WSProofs WSProofs2 WSSpec PhModel DecModel DecSpec DecProofs WSProps.
Local Open Scope nat_scope.

(** ** C116 *)

(** For a model created from force constants on any mesh, with any masses, bond lengths and
    number of processes, the result lists each nonvanishing block of the force constants
    exactly once, with the length of its own bond (within the tolerance of the search for
    shortest bonds) and its Frobenius norm. *)
Theorem C116_force_constants nat_ nq M phid len dm nproc :
  (0 < vx nq)%Z /\ (0 < vy nq)%Z /\ (0 < vz nq)%Z -> 0 < nproc ->
  exists p out blocks, dcreate nat_ nq M phid len true dm nproc = Ok p /\ decay p = Ok out /\ NoDup blocks /\
    (forall v i j, In (v, i, j) blocks <-> i < nat_ /\ j < nat_ /\ exists c, In (v, c) (d_data p) /\ coupled c i j) /\
    Forall2 (fun (b : vec * nat * nat) o => let '(v, i, j) := b in
      (fst o <= len v i j /\ len v i j < fst o + (1 # 10000000))%Q /\
      forall c, In (v, c) (d_data p) -> block_norm c i j (snd o)) blocks out.
Proof. exact (decay_created nat_ nq M phid len dm nproc). Qed.
Print Assumptions C116_force_constants.

(** Without division by the degeneracy, blocks that do not belong to a shortest bond are
    listed as well, but with a length of zero. *)
Theorem C116_undivided nat_ nq M phid len dm nproc :
  (0 < vx nq)%Z /\ (0 < vy nq)%Z /\ (0 < vz nq)%Z -> 0 < nproc ->
  exists p out blocks, dcreate nat_ nq M phid len false dm nproc = Ok p /\ decay p = Ok out /\ NoDup blocks /\
    (forall v i j, In (v, i, j) blocks <-> i < nat_ /\ j < nat_ /\ exists c, In (v, c) (d_data p) /\ coupled c i j) /\
    Forall2 (fun (b : vec * nat * nat) o => let '(v, i, j) := b in
      (shortest nq (-1) 2 len (1 # 10000000) i j v -> fst o <= len v i j /\ len v i j < fst o + (1 # 10000000))%Q /\
      (~ shortest nq (-1) 2 len (1 # 10000000) i j v -> fst o = 0%Q) /\
      forall c, In (v, c) (d_data p) -> block_norm c i j (snd o)) blocks out.
Proof. exact (decay_undivided nat_ nq M phid len dm nproc). Qed.
Print Assumptions C116_undivided.

(** A chain with atoms at 0 and 1/4 of the lattice constant, two cells and force constants
    only for the bond of length 3/4 from the second atom of one cell to the first of the next. *)
Definition bond (i j : nat) (m : vec) (x y : nat) : C :=
  if (i =? 0) && (j =? 1) && veqb m (V3 1 0 0) then RtoC 1 else n0.

Example C116_wigner_example : let d := get_ok [] (wigner (V3 2 1 1) (-1) 2 2 2 chain_len (1 # 10000000) 1) in
  map (fun x => (vx (fst x), [snd (snd x 0 1); snd (snd x 1 0)], [fst (snd x 0 1); fst (snd x 1 0)])) d =
  [(0%Z, [1 # 4; 1 # 4]%Q, [1; 1]); (1%Z, [0; 3 # 4]%Q, [0; 1]); ((-1)%Z, [3 # 4; 0]%Q, [1; 0])].
Proof. vm_compute. reflexivity. Qed.

(** After order_atoms has exchanged the two atoms, the only nonvanishing block, which belongs
    to the bond from the new atom 1 to the new atom 0 of length 3/4, is listed with a length of
    zero: the lengths still belong to the old order of the atoms. *)
Theorem C116_order_refuted : exists p out v c,
  dcreate 2 (V3 2 1 1) (fun _ => 1%R) bond chain_len true false 1 = Ok p /\
  In (v, c) (d_data (dorder [1; 0] p)) /\ coupled c 1 0 /\ (chain_len v 0 1 == 3 # 4)%Q /\
  decay (dorder [1; 0] p) = Ok out /\ out <> [] /\ forall o, In o out -> fst o = 0%Q.
Proof.
  assert (Hn : (0 < vx (V3 2 1 1))%Z /\ (0 < vy (V3 2 1 1))%Z /\ (0 < vz (V3 2 1 1))%Z) by (cbn; lia).
  destruct (dcreate_unfold 2 (V3 2 1 1) (fun _ => 1%R) bond chain_len true false 1 Hn ltac:(lia)) as (d & Ed & Ep).
  set (c' := fun (x : vec * wentry) a b => const 2 (V3 2 1 1) (fun _ => 1%R) bond true false x
    (nth (a / 3) [1; 0] 0 * 3 + a mod 3) (nth (b / 3) [1; 0] 0 * 3 + b mod 3)).
  assert (Eo : forall q, q = DModel 2 (map (fun x => (fst x, const 2 (V3 2 1 1) (fun _ => 1%R) bond true false x)) d) (Some (map (fun x i j => snd (snd x i j)) d)) ->
    dorder [1; 0] q = DModel 2 (map (fun x => (fst x, c' x)) d) (Some (map (fun x i j => snd (snd x i j)) d))).
  { intros q ->. unfold dorder. cbn [d_nat d_data d_l]. rewrite map_map. reflexivity. }
  assert (Ex : exists x, nth_error d 2 = Some x /\ fst x = V3 (-1) 0 0 /\ fst (snd x 0 1) = 1).
  { assert (G : match wigner (V3 2 1 1) (-1) 2 2 2 chain_len (1 # 10000000) 1 with Ok d =>
      match nth_error d 2 with Some x => veqb (fst x) (V3 (-1) 0 0) && (fst (snd x 0 1) =? 1) | None => false end | _ => false end = true) by (vm_compute; reflexivity).
    rewrite Ed in G. destruct (nth_error d 2) as [x|]; [|discriminate]. exists x. apply andb_prop in G. destruct G as [G1 G2]. apply veqb_eq in G1. apply Nat.eqb_eq in G2. auto. }
  destruct Ex as (x & Ix & Fx & Nx). apply nth_error_In in Ix.
  assert (Kx : coupled (c' x) 1 0).
  { exists 0, 0. split; [lia|]. split; [lia|]. unfold c'.
    change (const 2 (V3 2 1 1) (fun _ => 1%R) bond true false x 0 3 <> n0).
    unfold const, short_const. change (0 / 3) with 0. change (3 / 3) with 1. rewrite Nx, Fx. cbn. intros E. injection E as E. lra. }
  destruct (decay_replaced 2 (V3 2 1 1) chain_len d 1 c' Hn ltac:(lia) Ed) as (out & blocks & H1 & H2 & H3 & H4). cbn zeta in *.
  exists (DModel 2 (map (fun x => (fst x, const 2 (V3 2 1 1) (fun _ => 1%R) bond true false x)) d) (Some (map (fun x i j => snd (snd x i j)) d))).
  exists out, (V3 (-1) 0 0), (c' x). split; [exact Ep|]. rewrite (Eo _ eq_refl). cbn [d_data].
  split; [apply in_map_iff; exists x; rewrite Fx; auto|]. split; [exact Kx|]. split; [reflexivity|]. split; [exact H1|].
  assert (Ib : In (V3 (-1) 0 0, 1, 0) blocks).
  { apply H3. split; [lia|]. split; [lia|]. exists (c' x). split; [|exact Kx]. cbn [d_data]. apply in_map_iff. exists x. rewrite Fx. auto. }
  split.
  { intros ->. inversion H4. subst blocks. destruct Ib. }
  rewrite decay_unfold in H1. injection H1 as <-. intros o I. apply in_map_iff in I. destruct I as ([[y i] j] & <- & I). cbn [fst snd].
  apply filter_In in I. cbn [fst snd] in I. destruct I as [I G]. apply in_triples in I. destruct I as (Iy & Hi & Hj). apply gt0_iff, frobenius_pos in G.
  destruct G as (u & w & Hu & Hw & D). unfold c', const, short_const in D.
  replace ((i * 3 + u) / 3) with i in D by (rewrite Nat.div_add_l by lia; rewrite Nat.div_small by lia; lia).
  replace ((j * 3 + w) / 3) with j in D by (rewrite Nat.div_add_l by lia; rewrite Nat.div_small by lia; lia).
  replace ((i * 3 + u) mod 3) with u in D by (rewrite Nat.add_comm, Nat.mod_add by lia; rewrite Nat.mod_small by lia; lia).
  replace ((j * 3 + w) mod 3) with w in D by (rewrite Nat.add_comm, Nat.mod_add by lia; rewrite Nat.mod_small by lia; lia).
  set (i' := nth i [1; 0] 0) in *. set (j' := nth j [1; 0] 0) in *.
  replace ((i' * 3 + u) / 3) with i' in D by (rewrite Nat.div_add_l by lia; rewrite Nat.div_small by lia; lia).
  replace ((j' * 3 + w) / 3) with j' in D by (rewrite Nat.div_add_l by lia; rewrite Nat.div_small by lia; lia).
  destruct (Nat.eqb_spec (fst (snd y i' j')) 0) as [E|E]; [contradiction|].
  assert (B : i' = 0 /\ j' = 1 /\ mesh_index (V3 2 1 1) (-1) (fst y) = V3 1 0 0).
  { unfold bond in D. destruct (Nat.eqb_spec i' 0); [|exfalso; apply D; cbn; f_equal; field; apply not_0_INR; exact E].
    destruct (Nat.eqb_spec j' 1); [|exfalso; apply D; cbn; f_equal; field; apply not_0_INR; exact E].
    destruct (veqb (mesh_index (V3 2 1 1) (-1) (fst y)) (V3 1 0 0)) eqn:V; [apply veqb_eq in V; auto|exfalso; apply D; cbn; f_equal; field; apply not_0_INR; exact E]. }
  destruct B as (Bi & Bj & Bm).
  assert (i = 1) as -> by (unfold i' in Bi; destruct i as [|[|i]]; [discriminate|reflexivity|lia]).
  assert (j = 0) as -> by (unfold j' in Bj; destruct j as [|[|j]]; [reflexivity|discriminate|lia]).
  rewrite Bi, Bj in E.
  assert (G : match wigner (V3 2 1 1) (-1) 2 2 2 chain_len (1 # 10000000) 1 with Ok d =>
      forallb (fun y => negb (veqb (mesh_index (V3 2 1 1) (-1) (fst y)) (V3 1 0 0)) || (fst (snd y 0 1) =? 0) ||
        match snd (snd y 1 0) with Qmake 0 1 => true | _ => false end) d | _ => false end = true) by (vm_compute; reflexivity).
  rewrite Ed in G. rewrite forallb_forall in G. specialize (G y Iy). rewrite (proj2 (veqb_eq _ _) Bm) in G. cbn [negb orb] in G.
  rewrite (proj2 (Nat.eqb_neq _ _) E) in G. cbn [orb] in G. destruct (snd (snd y 1 0)) as [n q]. clear - G. destruct n; [|discriminate G|discriminate G]. destruct q; [discriminate G|discriminate G|]. reflexivity.
Qed.
Print Assumptions C116_order_refuted.

(** Electron-phonon coupling as a function of the distance of the electrons: every lattice
    vector with a nonvanishing matrix element, in order, with its length and the greatest
    absolute value of its matrix elements. *)
Theorem C116_coupling_electron a0 a Rk Rg modes size data :
  0 < length Rg -> 0 < modes -> 0 < size ->
  exists g : nat -> R, decay_epmate a0 a Rk Rg modes size data =
    Ok (map (fun k => (distance a (nth k Rk vzero) * a0, g k)%R) (filter (fun k => gt0 (g k)) (seq 0 (length Rk)))) /\
  (forall v, vector_length a v (distance a v)) /\ (forall n, gt0 (g n) = true <-> (0 < g n)%R) /\
  forall k, k < length Rk -> greatest (fun z => exists r x m n, r < length Rg /\ x < modes /\ m < size /\ n < size /\ z = data r x k m n) (g k).
Proof.
  intros Hg Hx Hs. unfold decay_epmate.
  match goal with |- context [decay_max a0 a Rk ?el] => set (e := el) end.
  assert (I : forall k z, In z (e k) <-> exists r x m n, r < length Rg /\ x < modes /\ m < size /\ n < size /\ z = data r x k m n).
  { intros k z. unfold e. rewrite in_flat_map. split.
    - intros (r & Ir & J). apply in_flat_map in J. destruct J as (x & Ix & J). apply in_flat_map in J. destruct J as (m & Im & J).
      apply in_map_iff in J. destruct J as (n & <- & In'). apply in_seq in Ir, Ix, Im, In'. exists r, x, m, n. repeat split; lia.
    - intros (r & x & m & n & Hr & Hx' & Hm & Hn & ->). exists r. split; [apply in_seq; lia|]. apply in_flat_map. exists x. split; [apply in_seq; lia|].
      apply in_flat_map. exists m. split; [apply in_seq; lia|]. apply in_map_iff. exists n. split; [reflexivity|]. apply in_seq. lia. }
  destruct (decay_max_spec a0 a Rk e) as (g & E & G).
  { intros k _ E. assert (F := proj2 (I k (data 0 0 k 0 0))). rewrite E in F. apply F. exists 0, 0, 0, 0. auto. }
  exists g. split; [exact E|]. split; [apply distance_spec|]. split; [intros n; apply gt0_iff|]. intros k Hk. apply (greatest_ext (fun z => In z (e k))); [intros z; apply I|apply G, Hk].
Qed.
Print Assumptions C116_coupling_electron.

(** The same as a function of the distance of the displaced atom. *)
Theorem C116_coupling_phonon a0 a Rk Rg modes size data :
  0 < length Rk -> 0 < modes -> 0 < size ->
  exists g : nat -> R, decay_epmatp a0 a Rk Rg modes size data =
    Ok (map (fun r => (distance a (nth r Rg vzero) * a0, g r)%R) (filter (fun r => gt0 (g r)) (seq 0 (length Rg)))) /\
  (forall v, vector_length a v (distance a v)) /\ (forall n, gt0 (g n) = true <-> (0 < g n)%R) /\
  forall r, r < length Rg -> greatest (fun z => exists x k m n, x < modes /\ k < length Rk /\ m < size /\ n < size /\ z = data r x k m n) (g r).
Proof.
  intros Hg Hx Hs. unfold decay_epmatp.
  match goal with |- context [decay_max a0 a Rg ?el] => set (e := el) end.
  assert (I : forall r z, In z (e r) <-> exists x k m n, x < modes /\ k < length Rk /\ m < size /\ n < size /\ z = data r x k m n).
  { intros r z. unfold e. rewrite in_flat_map. split.
    - intros (x & Ir & J). apply in_flat_map in J. destruct J as (k & Ix & J). apply in_flat_map in J. destruct J as (m & Im & J).
      apply in_map_iff in J. destruct J as (n & <- & In'). apply in_seq in Ir, Ix, Im, In'. exists x, k, m, n. repeat split; lia.
    - intros (x & k & m & n & Hr & Hx' & Hm & Hn & ->). exists x. split; [apply in_seq; lia|]. apply in_flat_map. exists k. split; [apply in_seq; lia|].
      apply in_flat_map. exists m. split; [apply in_seq; lia|]. apply in_map_iff. exists n. split; [reflexivity|]. apply in_seq. lia. }
  destruct (decay_max_spec a0 a Rg e) as (g & E & G).
  { intros r _ E. assert (F := proj2 (I r (data r 0 0 0 0))). rewrite E in F. apply F. exists 0, 0, 0, 0. auto. }
  exists g. split; [exact E|]. split; [apply distance_spec|]. split; [intros n; apply gt0_iff|]. intros r Hk. apply (greatest_ext (fun z => In z (e r))); [intros z; apply I|apply G, Hk].
Qed.
Print Assumptions C116_coupling_phonon.

(** Hopping: all lattice vectors in order, with their lengths and the greatest absolute value
    of the elements of the Hamiltonian in Ry, also where it vanishes. *)
Theorem C116_hopping Ry a size data : 0 < size -> exists out, decayH Ry a size data = Ok out /\
  Forall2 (fun (x : vec * (nat -> nat -> C)) o => vector_length a (fst x) (fst o) /\
    exists h, greatest (fun z => exists m n, m < size /\ n < size /\ z = snd x m n) h /\ snd o = (h / Ry)%R) data out.
Proof.
  intros Hs. set (e := fun x : vec * (nat -> nat -> C) => flat_map (fun m => map (snd x m) (seq 0 size)) (seq 0 size)).
  assert (I : forall x z, In z (e x) <-> exists m n, m < size /\ n < size /\ z = snd x m n).
  { intros x z. unfold e. rewrite in_flat_map. split.
    - intros (m & Im & J). apply in_map_iff in J. destruct J as (n & <- & J). apply in_seq in Im, J. exists m, n. repeat split; lia.
    - intros (m & n & Hm & Hn & ->). exists m. split; [apply in_seq; lia|]. apply in_map, in_seq. lia. }
  assert (N : forall x, e x <> []). { intros x E. assert (F := proj2 (I x (snd x 0 0))). rewrite E in F. apply F. exists 0, 0. auto. }
  set (h := fun x => match amax (e x) with Ok v => v | Raise _ => 0%R end).
  exists (map (fun x => (distance a (fst x), h x / Ry)%R) data). split.
  - unfold decayH. apply all_res_all. intros x _. fold (e x). unfold h. destruct (amax_spec (e x) (N x)) as (v & E & _). rewrite E. reflexivity.
  - induction data as [|x data IH]; cbn [map]; constructor; [|exact IH]. cbn [fst snd]. split; [apply distance_spec|].
    exists (h x). split; [|reflexivity]. unfold h. destruct (amax_spec (e x) (N x)) as (v & E & G). rewrite E.
    apply (greatest_ext (fun z => In z (e x))); [intros z; apply I|exact G].
Qed.
Print Assumptions C116_hopping.

(** Two lattice vectors, one of them without matrix elements; an empty array. *)
Example C116_hypotheses : (0 < vx (V3 2 1 1))%Z /\ 0 < length [V3 0 0 0; V3 1 0 0] /\ decayH 1 (R3 1 0 0, R3 0 1 0, R3 0 0 1)%R 0 [(vzero, fun _ _ => n0)] = Raise ValueError.
Proof.
  split; [reflexivity|]. split; [apply Nat.lt_0_succ|]. unfold decayH. cbn [all_res seq flat_map]. unfold amax. cbn [bind]. reflexivity.
Qed.
