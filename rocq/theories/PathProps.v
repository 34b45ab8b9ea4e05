(** Theorems about paths, points on lines and meshes (C27, C29, C30). *)
From Coq Require Import Reals Lra Lia.
From Verif Require Import Common CommonProofs GeoModel PathModel PathSpec PathProofs2.
Local Open Scope R_scope.

(** C27. Between successive corners, the path proceeds in equal steps, whose number
    is the one requested but at least one; the abscissa grows by the
    Cartesian distance. *)
Theorem C27_segments round N b points : (2 <= length points)%nat ->
  exists k x corners, path round N b 0 points = Ok (k, x, corners) /\
  length k = length x /\ length corners = length points /\ nth_error corners 0 = Some 0%nat /\ nth_error x 0 = Some 0 /\ (last corners 0 + 1)%nat = length k /\
  forall i p q, nth_error points i = Some p -> nth_error points (S i) = Some q ->
    exists c xc, let n := Z.to_nat (Z.max 1 (round (N * distance b p q))) in
    nth_error corners i = Some c /\ nth_error corners (S i) = Some (c + n)%nat /\ (0 < n)%nat /\
    forall j, (j <= n)%nat -> nth_error k (c + j) = Some (scale3 (2 * PI) (between n j p q)) /\ nth_error x (c + j) = Some (xc + INR j / INR n * distance b p q).
Proof. exact (path_visits round N b points). Qed.
Print Assumptions C27_segments.

Theorem C27_corners round N b points k x corners : (2 <= length points)%nat -> path round N b 0 points = Ok (k, x, corners) ->
  forall i p, nth_error points i = Some p -> exists c, nth_error corners i = Some c /\ nth_error k c = Some (scale3 (2 * PI) p).
Proof. exact (path_corner round N b points k x corners). Qed.
Print Assumptions C27_corners.

(** The abscissa never decreases; its increments are distances. *)
Theorem C27_abscissa round N b points k x corners : path round N b 0 points = Ok (k, x, corners) ->
  forall m u v xu xv, nth_error k m = Some u -> nth_error k (S m) = Some v -> nth_error x m = Some xu -> nth_error x (S m) = Some xv ->
    xv - xu = distance b u v / (2 * PI) /\ xu <= xv.
Proof. exact (path_abscissa round N b points k x corners). Qed.
Print Assumptions C27_abscissa.

(** A single point yields an empty path, hence a corner that does not exist. *)
Theorem C27_single_refuted round N b p : path round N b 0 [p] = Ok ([], [], [0%nat]).
Proof. exact (path_single round N b p). Qed.
Print Assumptions C27_single_refuted.

(** Three corners, the last two of which agree. *)
Example C27_example :
  let round x := if Rlt_dec 1 x then 2%Z else 0%Z in
  let b := (R3 1 0 0, R3 0 1 0, R3 0 0 1) in
  let p := R3 0 0 0 in let q := R3 1 0 0 in
  distance b p q = 1 /\ distance b q q = 0 /\
  exists k x, path round 2 b 0 [p; q; q] = Ok (k, x, [0; 2; 3]%nat) /\ nth_error k 1 = Some (scale3 (2 * PI) (R3 (1 / 2) 0 0)).
Proof.
  intros round b p q. assert (D1 : distance b p q = 1).
  { unfold distance, b, p, q. cbn. replace (_ + _) with 1 by ring. apply sqrt_1. }
  assert (D2 : distance b q q = 0).
  { unfold distance, b, q. cbn. replace (_ + _) with 0 by ring. apply sqrt_0. }
  split; [exact D1|]. split; [exact D2|].
  destruct (C27_segments round 2 b [p; q; q] ltac:(cbn; lia)) as (k & x & cs & E & _ & H2 & H3 & _ & _ & G).
  exists k, x. destruct (G 0%nat p q eq_refl eq_refl) as (c & xc & C1 & C2 & _ & C4). destruct (G 1%nat q q eq_refl eq_refl) as (c' & xc' & C1' & C2' & _).
  rewrite D1 in C2, C4. rewrite D2 in C2'. unfold round in C2, C4, C2'. destruct (Rlt_dec 1 (2 * 1)) as [_|]; [|lra]. destruct (Rlt_dec 1 (2 * 0)); [lra|].
  change (Z.to_nat (Z.max 1 2)) with 2%nat in *. change (Z.to_nat (Z.max 1 0)) with 1%nat in *.
  destruct cs as [|c0 [|c1 [|c2 [|]]]]; try discriminate. cbn in C1, C2, C1', C2', H3. 
  assert (c = 0%nat) by congruence. assert (c1 = 2%nat) by (cut (Some c1 = Some 2%nat); [congruence|rewrite C2; subst; reflexivity]).
  assert (c' = 2%nat) by congruence. assert (c2 = 3%nat) by (cut (Some c2 = Some 3%nat); [congruence|rewrite C2'; subst; reflexivity]).
  assert (c0 = 0%nat) by congruence. subst. split; [exact E|].
  refine (eq_trans (proj1 (C4 1%nat ltac:(lia))) _). f_equal. f_equal. unfold between, p, q. cbn. f_equal; field.
Qed.

(** C29. If the point is found to be on the line, it is close to a point of the
    line; if this is independent of eps, it is on the line. *)
Theorem C29_close t A B eps : A <> B -> point_on_path t A B eps = Some true ->
  exists u, on_segment A B u /\ distance2 t u * distance2 B A < 3 * (eps * eps).
Proof. exact (pop_close t A B eps). Qed.
Print Assumptions C29_close.

Theorem C29_sound t A B : A <> B -> (forall eps, 0 < eps -> point_on_path t A B eps = Some true) -> on_segment A B t.
Proof. exact (pop_sound t A B). Qed.
Print Assumptions C29_sound.

(** Points on a line in a plane of constant third coordinate are found... *)
Theorem C29_complete_partial t A B eps : 0 < eps -> rz A = rz B -> on_segment A B t -> point_on_path t A B eps = Some true.
Proof. exact (pop_complete t A B eps). Qed.
Print Assumptions C29_complete_partial.

(** ... but the third coordinate is forgotten in the length of the line... *)
Theorem C29_out_of_plane_refuted eps : on_segment (R3 0 0 0) (R3 0 0 1) (R3 0 0 (1 / 2)) /\ point_on_path (R3 0 0 (1 / 2)) (R3 0 0 0) (R3 0 0 1) eps = None.
Proof. exact (pop_vertical eps). Qed.
Print Assumptions C29_out_of_plane_refuted.

(** ... and every point is on a line from a point to itself. *)
Theorem C29_degenerate_refuted t A eps : 0 < eps -> point_on_path t A A eps = Some true.
Proof. exact (pop_degenerate t A eps). Qed.
Print Assumptions C29_degenerate_refuted.

Example C29_example : point_on_path (R3 1 2 5) (R3 0 0 5) (R3 2 4 5) (1 / 100) = Some true.
Proof. apply C29_complete_partial; [lra|reflexivity|]. exists (1 / 2). split; [lra|]. cbn. f_equal; field. Qed.

(** C30. The mesh: each point of the grid at its place in row-major order... *)
Theorem C30_mesh n : n <> [] -> Forall (fun x => (0 < x)%Z) n ->
  exists l, mesh n = Ok l /\ Z.of_nat (length l) = fold_right Z.mul 1%Z n /\
  forall i, on_grid n i -> nth_error l (Z.to_nat (place n i)) = Some (map (fun x => 2 * PI * IZR (fst x) / IZR (snd x)) (combine i n)).
Proof. exact (mesh_spec n). Qed.
Print Assumptions C30_mesh.

(** ... and nowhere else. *)
Theorem C30_unique n l : n <> [] -> Forall (fun x => (0 < x)%Z) n -> mesh n = Ok l ->
  NoDup l /\ forall v, In v l <-> exists i, on_grid n i /\ v = map (fun x => 2 * PI * IZR (fst x) / IZR (snd x)) (combine i n).
Proof. exact (mesh_unique n l). Qed.
Print Assumptions C30_unique.

(** kpoints: the same in units of two pi, with equal weights that add up to one
    if requested; zero means to ask for the number of points. *)
Theorem C30_kpoints nk answers weights : length answers = length nk -> nk <> [] ->
  (forall d n a, nth_error nk d = Some n -> nth_error answers d = Some a -> (0 < n)%Z \/ n = 0%Z /\ match a with Some m => (0 < m)%Z | None => True end) ->
  let nk' := map (fun x => if (fst x =? 0)%Z then match snd x with Some m => m | None => 1%Z end else fst x) (combine nk answers) in
  let N := fold_right Z.mul 1%Z nk' in
  exists l, kpoints nk answers weights = Ok (N, l) /\ Z.of_nat (length l) = N /\
  forall i, on_grid nk' i -> nth_error l (Z.to_nat (place nk' i)) = Some (map (fun x => IZR (fst x) / IZR (snd x)) (combine i nk') ++ if weights then [1 / IZR N] else []).
Proof. exact (kpoints_spec nk answers weights). Qed.
Print Assumptions C30_kpoints.

Example C30_example : place [2; 3; 4]%Z [1; 2; 3]%Z = 23%Z /\ on_grid [2; 3; 4]%Z [1; 2; 3]%Z /\
  exists l, kpoints [2; 0; 4]%Z [None; Some 3%Z; None] true = Ok (24%Z, l) /\ nth_error l 23 = Some [1 / 2; 2 / 3; 3 / 4; 1 / 24].
Proof.
  assert (H : on_grid [2; 3; 4]%Z [1; 2; 3]%Z) by (repeat (apply on_grid_cons; split; [lia|]); split; [reflexivity|intros [|d]; discriminate]).
  split; [reflexivity|]. split; [exact H|].
  destruct (C30_kpoints [2; 0; 4]%Z [None; Some 3%Z; None] true) as (l & E & _ & G); [reflexivity|discriminate| |].
  - intros [|[|[|d]]] n a Hn Ha; try (destruct d; discriminate); injection Hn as <-; injection Ha as <-; [left|right; split; [reflexivity|]|left]; lia.
  - exists l. split; [exact E|]. exact (G [1; 2; 3]%Z H).
Qed.
