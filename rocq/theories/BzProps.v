(** C99: images of and outlines of Brillouin zones. *)
From Coq Require Import Reals Lra Lia List ZArith.
From Verif Require Import Common CommonProofs GeoModel GeoProofs MPIModel DiagModel DiagProofs OrbProofs BzModel BzSpec BzProofs.
Import ListNotations.
Local Open Scope R_scope.

(** ** Images

    The image covers the box [-X, X] x [-Y, Y] with pixels of the requested resolution, row by
    row from top to bottom. Pixels whose centre does not belong to the first Brillouin zone of
    the lattice have the value for the outside. All others show the data set that belongs to
    the sector of the centre, interpolated at the crystal coordinates of the centre times the
    number of mesh points. For 60 and 120 degrees (arbitrary orientation) and for 90 degrees
    (first lattice vector in x direction) the box is the smallest one that contains the zone. *)
Theorem C99_image A nproc ndata (fn : nat -> R -> R -> A) nk points angle angle0 outside even :
  (angle = 60 \/ angle = 90 \/ angle = 120)%Z -> (0 < nproc)%Z -> (0 < ndata)%nat -> (0 <= points)%Z ->
  exists X Y xs ys img, let nx := length xs in let ny := length ys in
    toBZ nproc ndata fn nk points angle angle0 outside even = Ok img /\ length img = (ny * nx)%nat /\
    toBZ_only_k points angle angle0 even = Ok (X, Y, xs, ys) /\
    resolution points even X nx /\ resolution points even Y ny /\
    forall i j, (i < ny)%nat -> (j < nx)%nat ->
      let k := centre X Y nx ny i j in
      nth_error xs j = Some (fst k) /\ nth_error ys i = Some (snd k) /\
      (~ first_zone angle angle0 k -> nth_error img (i * nx + j) = Some outside) /\
      (first_zone angle angle0 k -> exists w, (w < ndata)%nat /\ (k <> (0, 0) -> in_sector angle0 ndata w k) /\
        nth_error img (i * nx + j) = Some (fn w (dot2 k (unit_vector angle0) * INR nk) (dot2 k (unit_vector (angle0 + IZR angle)) * INR nk))).
Proof.
  intros Ha Hp Hd Hn. destruct (frame_zone angle angle0 Ha) as (f & Hf & _ & _ & _).
  exists (kxmax f), (kymax f), (map (kx f points even) (seq 0 (nkx f points even))), (map (ky f points even) (seq 0 (nky f points even))), (map (pixel f angle0 points even ndata fn nk outside) (seq 0 (nky f points even * nkx f points even))).
  cbn zeta. rewrite !map_length, !seq_length.
  split; [unfold toBZ; rewrite Hf; cbn [bind]; unfold image; apply distributed_ok; exact Hp|]. split; [reflexivity|].
  split; [unfold toBZ_only_k; rewrite Hf; reflexivity|].
  split; [apply pixels_ok; [exact Hn|rewrite kxmax_extent; exact (extent_nonneg _ _ _ _ Hf)]|]. split; [apply pixels_ok; [exact Hn|rewrite kymax_extent; exact (extent_nonneg _ _ _ _ Hf)]|].
  intros i j Hi Hj. set (k := centre _ _ _ _ i j). pose proof (pixel_at angle angle0 points even ndata fn nk outside f Ha Hf Hd i j Hi Hj) as [P1 P2]. unfold nkx, nky in k. fold k in P1, P2.
  assert (L : (i * nkx f points even + j < nky f points even * nkx f points even)%nat) by nia.
  rewrite !nth_error_map, !nth_error_seq by assumption. cbn [option_map].
  split; [unfold k, centre, kx, nkx; rewrite midpoint_centre by exact Hj; reflexivity|]. split; [unfold k, centre, ky, nky; rewrite midpoint_rev by exact Hi; reflexivity|]. split.
  - intros N. f_equal. exact (P1 N).
  - intros Z. exists (sector angle0 ndata k). split; [apply sector_lt; exact Hd|]. split; [intros K; apply sector_ok; assumption|]. f_equal. exact (P2 Z).
Qed.
Print Assumptions C99_image.

(** The sector of a point other than the origin is unique. *)
Theorem C99_sector angle0 n w w' k : (0 < n)%nat -> (w < n)%nat -> (w' < n)%nat -> in_sector angle0 n w k -> in_sector angle0 n w' k -> w = w'.
Proof. exact (sector_unique angle0 n w w' k). Qed.
Print Assumptions C99_sector.

(** The box is tight and every point of the zone is found in a pixel. *)
Theorem C99_box_partial points angle angle0 even X Y xs ys :
  (angle = 60 \/ angle = 90 \/ angle = 120)%Z -> (angle <> 90)%Z \/ angle0 = 0 -> toBZ_only_k points angle angle0 even = Ok (X, Y, xs, ys) ->
  largest fst (first_zone angle angle0) X /\ largest snd (first_zone angle angle0) Y /\
  (xs <> [] -> ys <> [] -> forall k, first_zone angle angle0 k -> exists x y, In x xs /\ In y ys /\
    Rabs (fst k - x) <= X / INR (length xs) /\ Rabs (snd k - y) <= Y / INR (length ys)).
Proof.
  intros Ha H E. destruct (frame_zone angle angle0 Ha) as (f & Hf & _ & _ & _). unfold toBZ_only_k in E. rewrite Hf in E. cbn [bind] in E. injection E as <- <- <- <-.
  assert (LL : largest fst (first_zone angle angle0) (kxmax f) /\ largest snd (first_zone angle angle0) (kymax f)).
  { assert (C : (angle = 60 \/ angle = 120)%Z \/ angle = 90%Z /\ angle0 = 0) by (destruct Ha as [|[|]]; destruct H; tauto). destruct C as [C|[-> ->]].
    - destruct (extent_hex angle angle0 fst C linear_x) as (f1 & E1 & L1). destruct (extent_hex angle angle0 snd C linear_y) as (f2 & E2 & L2).
      assert (f1 = f) as -> by congruence. assert (f2 = f) as -> by congruence. split; [exact L1|exact L2].
    - destruct extent_square as (f1 & E1 & Kx & Ky & L1 & L2). assert (f1 = f) as -> by congruence. rewrite Kx, Ky. split; [exact L1|exact L2]. }
  destruct LL as [LX LY]. split; [exact LX|]. split; [exact LY|]. intros Nx Ny k Hk. rewrite !map_length, !seq_length.
  assert (Px : (0 < nkx f points even)%nat) by (destruct (nkx f points even); [exfalso; apply Nx; reflexivity|lia]). assert (Py : (0 < nky f points even)%nat) by (destruct (nky f points even); [exfalso; apply Ny; reflexivity|lia]).
  destruct (pixel_near (kxmax f) (nkx f points even) (fst k) Px ltac:(rewrite kxmax_extent; exact (extent_nonneg _ _ _ _ Hf)) (proj1 LX k Hk)) as (j & Hj & Bj).
  destruct (pixel_near (kymax f) (nky f points even) (snd k) Py ltac:(rewrite kymax_extent; exact (extent_nonneg _ _ _ _ Hf)) (proj1 LY k Hk)) as (i & Hi & Bi).
  exists (kx f points even j), (ky f points even (nky f points even - 1 - i)). split; [apply in_map, in_seq; lia|]. split; [apply in_map, in_seq; lia|]. split.
  - unfold kx. rewrite midpoint_centre by exact Hj. exact Bj.
  - unfold ky. replace (nky f points even - 1 - (nky f points even - 1 - i))%nat with i by lia. rewrite midpoint_centre by exact Hi. exact Bi.
Qed.
Print Assumptions C99_box_partial.

(** What is missing: the square zone in other orientations is cut off. *)
Theorem C99_box_refuted points even : exists X Y xs ys k, toBZ_only_k points 90 45 even = Ok (X, Y, xs, ys) /\ first_zone 90 45 k /\ X < Rabs (fst k).
Proof.
  destruct square_cut as (f & k & Hf & Hk & L). unfold toBZ_only_k. rewrite Hf. cbn [bind]. do 4 eexists. exists k. split; [reflexivity|]. split; assumption.
Qed.
Print Assumptions C99_box_refuted.

(** The number of processes does not matter. *)
Theorem C99_parallel A nproc nproc' ndata (fn : nat -> R -> R -> A) nk points angle angle0 outside even : (0 < nproc)%Z -> (0 < nproc')%Z ->
  toBZ nproc ndata fn nk points angle angle0 outside even = toBZ nproc' ndata fn nk points angle angle0 outside even.
Proof.
  intros H H'. unfold toBZ. destruct (frame_of angle angle0) as [f|e]; [|reflexivity]. cbn [bind]. unfold image. rewrite !distributed_ok by assumption. reflexivity.
Qed.
Print Assumptions C99_parallel.

(** Other angles than 60, 90, and 120 degrees are not supported. *)
Theorem C99_angle A nproc ndata (fn : nat -> R -> R -> A) nk points angle angle0 outside even :
  ~ (angle = 60 \/ angle = 90 \/ angle = 120)%Z ->
  toBZ nproc ndata fn nk points angle angle0 outside even = Raise UnboundLocalError /\
  toBZ_only_k points angle angle0 even = Raise UnboundLocalError /\ BZ angle angle0 = Raise UnboundLocalError.
Proof.
  intros H. assert (E1 : (angle =? 60)%Z = false) by (apply Z.eqb_neq; tauto). assert (E2 : (angle =? 90)%Z = false) by (apply Z.eqb_neq; tauto). assert (E3 : (angle =? 120)%Z = false) by (apply Z.eqb_neq; tauto).
  assert (F : frame_of angle angle0 = Raise UnboundLocalError) by (unfold frame_of; destruct (translations2 _ _); destruct (reciprocals2 _ _); rewrite E1, E2, E3; reflexivity).
  unfold toBZ, toBZ_only_k, BZ. rewrite F. destruct (translations2 _ _); destruct (reciprocals2 _ _). rewrite E1, E2, E3. split; [|split]; reflexivity.
Qed.
Print Assumptions C99_angle.

(** ** Outline

    The outline returned for 60 and 120 degrees encloses the first Brillouin zone, nothing
    more and nothing less. *)
Theorem C99_outline_partial angle angle0 : (angle = 60 \/ angle = 120)%Z ->
  exists l, BZ angle angle0 = Ok l /\ length l = 7%nat /\ nth_error l 0 = nth_error l 6 /\ forall k, left_of_all l k <-> first_zone angle angle0 k.
Proof.
  intros [-> | ->].
  - destruct (outline60 angle0 (0, 0)) as (l & E & _). exists l. split; [exact E|]. split; [|split].
    + unfold BZ in E. destruct (translations2 _ _), (reciprocals2 _ _). cbn [Z.eqb Pos.eqb] in E. injection E as <-. reflexivity.
    + unfold BZ in E. destruct (translations2 _ _), (reciprocals2 _ _). cbn [Z.eqb Pos.eqb] in E. injection E as <-. reflexivity.
    + intros k. destruct (outline60 angle0 k) as (l' & E' & H). assert (l' = l) as -> by congruence. exact H.
  - destruct (outline120 angle0 (0, 0)) as (l & E & _). exists l. split; [exact E|]. split; [|split].
    + unfold BZ in E. destruct (translations2 _ _), (reciprocals2 _ _). cbn [Z.eqb Pos.eqb] in E. injection E as <-. reflexivity.
    + unfold BZ in E. destruct (translations2 _ _), (reciprocals2 _ _). cbn [Z.eqb Pos.eqb] in E. injection E as <-. reflexivity.
    + intros k. destruct (outline120 angle0 k) as (l' & E' & H). assert (l' = l) as -> by congruence. exact H.
Qed.
Print Assumptions C99_outline_partial.

(** What is missing: the outline for 90 degrees is twice as large as the zone. *)
Theorem C99_outline_refuted angle0 : exists l, BZ 90 angle0 = Ok l /\ (forall k, left_of_all l k <-> first_zone 90 angle0 (scale2 (1 / 2) k)) /\
  exists k, left_of_all l k /\ ~ first_zone 90 angle0 k.
Proof.
  destruct (outline90 angle0 (0, 0)) as (l & E & _). exists l.
  assert (H : forall k, left_of_all l k <-> first_zone 90 angle0 (scale2 (1 / 2) k)). { intros k. destruct (outline90 angle0 k) as (l' & E' & H). assert (l' = l) as -> by congruence. exact H. }
  split; [exact E|]. split; [exact H|]. exists (unit_vector angle0). rewrite H. destruct (square_zone angle0) as (b1 & b2 & _ & _ & _ & Z). rewrite !Z.
  assert (S : forall x u v, dot2 (scale2 x u) v = x * dot2 u v) by (intros x u v; unfold dot2, scale2; cbn [fst snd]; ring).
  rewrite !S, unit_norm, unit_dot. replace (90 * deg) with (PI / 2) by (unfold deg; field). rewrite cos_PI2, Rmult_0_r, Rabs_R0, !Rmult_1_r, Rabs_R1, Rabs_right by lra. split; [lra|].
  intros [B _]. lra.
Qed.
Print Assumptions C99_outline_refuted.

(** ** Examples *)

(** The zone contains the origin but not the end of the first lattice vector. *)
Example C99_zone_example : first_zone 90 0 (0, 0) /\ first_zone 90 0 (1 / 2, - (1 / 2)) /\ ~ first_zone 90 0 (1, 0).
Proof.
  destruct (square_zone 0) as (b1 & b2 & _ & _ & _ & Z). rewrite !Z, unit_0, unit_90. unfold dot2. cbn [fst snd].
  repeat split; try (apply Rabs_le; lra). intros [B _]. apply abs_between in B. lra.
Qed.

(** Six sectors: the y axis is in the second one. *)
Example C99_sector_example : in_sector 0 6 1 (0, 1).
Proof.
  exists 1, (PI / 2). split; [lra|]. rewrite cos_PI2, sin_PI2. split; [f_equal; ring|]. cbn [INR]. pose proof PI_RGT_0. lra.
Qed.

(** A picture of two by two pixels of a square zone *)
Example C99_image_example : exists img, toBZ 3 1 (fun _ x y => (x, y)) 12 4 90 0 (7, 7) false = Ok img /\ img = [(-3, 3); (3, 3); (-3, -3); (3, -3)].
Proof.
  destruct (C99_image (R * R) 3 1 (fun _ x y => (x, y)) 12 4 90 0 (7, 7) false) as (X & Y & xs & ys & img & E & L & Ek & _ & _ & P); try lia.
  destruct extent_square as (f & Ef & KX & KY & _). unfold toBZ_only_k in Ek. rewrite Ef in Ek. cbn [bind] in Ek. injection Ek as <- <- Ex Ey.
  assert (R2 : pixels 4 false (1 / 2) = 2%nat). { unfold pixels. replace (4 * (1 / 2)) with (IZR 2) by lra. rewrite (np_round_unique (IZR 2) 2); [reflexivity|]. rewrite Rminus_diag_eq, Rabs_R0 by reflexivity. lra. }
  assert (Nx : length xs = 2%nat) by (rewrite <- Ex, map_length, seq_length; unfold nkx; rewrite KX; exact R2). assert (Ny : length ys = 2%nat) by (rewrite <- Ey, map_length, seq_length; unfold nky; rewrite KY; exact R2).
  rewrite Nx, Ny, KX, KY in P. rewrite Nx, Ny in L. exists img. split; [exact E|].
  destruct (square_zone 0) as (b1 & b2 & _ & _ & _ & Z).
  assert (Q : forall i j, (i < 2)%nat -> (j < 2)%nat -> nth_error img (i * 2 + j) = Some (6 * INR j - 3, 3 - 6 * INR i)).
  { intros i j Hi Hj. destruct (P i j Hi Hj) as (_ & _ & _ & H). destruct H as (w & _ & _ & H).
    - rewrite Z, unit_0, unit_90. unfold dot2, centre. cbn [fst snd].
      assert (0 <= INR i <= 1 /\ 0 <= INR j <= 1) by (destruct i as [|[|]], j as [|[|]]; cbn [INR]; try lia; lra). cbn [INR]. split; apply Rabs_le; lra.
    - rewrite H, unit_0. change (IZR 90) with 90. rewrite unit_90. unfold dot2, centre. cbn beta. cbn [fst snd]. cbn [INR]. apply f_equal. apply f_equal2; field. }
  pose proof (Q 0%nat 0%nat ltac:(lia) ltac:(lia)) as Q0. pose proof (Q 0%nat 1%nat ltac:(lia) ltac:(lia)) as Q1. pose proof (Q 1%nat 0%nat ltac:(lia) ltac:(lia)) as Q2. pose proof (Q 1%nat 1%nat ltac:(lia) ltac:(lia)) as Q3.
  destruct img as [|x0 [|x1 [|x2 [|x3 [|]]]]]; try discriminate. cbn [nth_error Nat.mul Nat.add] in Q0, Q1, Q2, Q3. injection Q0 as ->. injection Q1 as ->. injection Q2 as ->. injection Q3 as ->. cbn [INR].
  repeat f_equal; lra.
Qed.
