(** More proofs about WSModel.v: complex numbers. *)
From Coq Require Import Permutation Reals Lra Lia.
From Verif Require Import Common CommonProofs LatModel LatProofs SymModel SymSpec SymProofs VorModel VorSpec VorProofs Num NumProofs NumC RootsProofs WSModel WSSpec WSProofs.
Local Open Scope R_scope.

Lemma mesh_phase nr n R R' : (0 < vx nr /\ 0 < vy nr /\ 0 < vz nr)%Z -> same_cell nr R R' ->
  phase (mesh_point nr n) R = phase (mesh_point nr n) R'.
Proof.
  intros (H1 & H2 & H3) ((a & A) & (b & B) & (c & C)).
  unfold phase, kdot, mesh_point. cbn [kx ky kz].
  replace (vx R) with (vx R' + a * vx nr)%Z by lia. replace (vy R) with (vy R' + b * vy nr)%Z by lia.
  replace (vz R) with (vz R' + c * vz nr)%Z by lia.
  match goal with |- expi ?l = expi ?r => replace l with (r + 2 * PI * IZR (a * vx n + b * vy n + c * vz n)) end.
  - rewrite expi_add, expi_2PI. destruct (expi _). cbn. apply f_equal2; ring.
  - rewrite !plus_IZR, !mult_IZR. field. repeat split; apply not_0_IZR; lia.
Qed.

Definition Cdivn (x : C) (n : nat) : C := nmul x (RtoC (/ INR n)).

Lemma Cdivn_sum x n : (0 < n)%nat -> nsum (fun _ => Cdivn x n) (seq 0 n) = x.
Proof.
  intros Hn. rewrite nsum_const. unfold Cdivn. destruct x as [a b]. cbn.
  assert (H : INR n <> 0) by (apply not_0_INR; lia). apply f_equal2; field; exact H.
Qed.

Lemma short_range_mesh nr sgn nsc nb ncart len eps data nproc n a b :
  (0 < vx nr /\ 0 < vy nr /\ 0 < vz nr)%Z -> (sgn = 1 \/ sgn = -1)%Z -> (0 < nsc)%Z -> (0 < eps)%Q -> (0 < nproc)%nat ->
  (0 < ncart)%nat -> (a < nb * ncart)%nat -> (b < nb * ncart)%nat ->
  exists l, short_range_model Cdivn true nr sgn nsc nb ncart len eps data nproc = Ok l /\
    nsum (fun x => nmul (phase (mesh_point nr n) (fst x)) (snd x a b)) l =
    nsum (fun m => nmul (phase (mesh_point nr n) (vscale sgn m))
      (data (a / ncart)%nat (b / ncart)%nat m (a mod ncart)%nat (b mod ncart)%nat)) (ws_mesh nr).
Proof.
  intros H1 H2 H3 H4 H5 H6 H7 H8. apply short_range_exact; try assumption.
  - apply Cdivn_sum.
  - intros R R'. apply mesh_phase. exact H1.
Qed.

(** Weights in two dimensions. *)
Lemma wigner_2d_weights nk angle d1 d2 l k : allowed_angle angle -> (0 < nk)%Z ->
  small_shift angle nk d1 -> small_shift angle nk d2 -> wigner_2d nk angle d1 d2 0 = Ok l ->
  (qsum (map (fun x => 1 / inject_Z (Z.of_nat (snd x))) (filter (fun x => if pt_eq_dec (pmod nk (fst x)) (pmod nk k) then true else false) l)) == 1)%Q.
Proof.
  intros Ha Hn Hd1 Hd2 El. destruct (wigner_2d_spec nk angle d1 d2 Ha Hn Hd1 Hd2) as (l' & El' & _ & Hnd & Hin).
  rewrite El in El'. injection El' as <-.
  set (f := fun x : pt * nat => if pt_eq_dec (pmod nk (fst x)) (pmod nk k) then true else false).
  destruct (to_Voronoi_nearest k nk angle d1 d2 Ha Hn Hd1 Hd2) as (v & _ & Hv1 & Hv2 & Hv3).
  assert (Hf : forall p n, In (p, n) (filter f l) <-> In p v /\ n = length v).
  { intros p n. rewrite filter_In, Hin. unfold f. cbn [fst]. split.
    - intros ((Hp & (vv & V1 & V2 & ->)) & Hc). destruct (pt_eq_dec _ _) as [Ec|] in Hc; [|discriminate].
      apply same_class_iff in Ec; [|exact Hn]. split.
      + apply Hv3. apply (nearest_class angle nk d1 d2 p k p Hn Ec). exact Hp.
      + apply Nat.le_antisymm; apply NoDup_incl_length; try assumption; intros q Hq.
        * apply Hv3. apply (nearest_class angle nk d1 d2 p k q Hn Ec). apply V2. exact Hq.
        * apply V2. apply (nearest_class angle nk d1 d2 p k q Hn Ec). apply Hv3. exact Hq.
    - intros [Hp ->]. apply Hv3 in Hp. pose proof (proj1 Hp) as Ec. split; [split|].
      + apply (nearest_class angle nk d1 d2 p k p Hn Ec). exact Hp.
      + exists v. split; [exact Hv1|]. split; [|reflexivity]. intros q. rewrite Hv3. symmetry. apply nearest_class; assumption.
      + apply same_class_iff in Ec; [|exact Hn]. destruct (pt_eq_dec _ _); [reflexivity|contradiction]. }
  assert (Hlen : length (filter f l) = length v).
  { rewrite <- (map_length fst). apply Nat.le_antisymm; apply NoDup_incl_length.
    - apply NoDup_map_filter. exact Hnd.
    - intros p Hp. apply in_map_iff in Hp. destruct Hp as ([p' n] & <- & Hp). apply Hf in Hp. tauto.
    - exact Hv1.
    - intros p Hp. apply in_map_iff. exists (p, length v). split; [reflexivity|]. apply Hf. auto. }
  rewrite (qsum_const (fun x : pt * nat => snd x) (length v)).
  - rewrite Hlen. field. destruct v; [congruence|]. unfold Qeq; cbn; lia.
  - intros [p n] Hp. apply Hf in Hp. tauto.
  - destruct v; [congruence|cbn; lia].
Qed.
