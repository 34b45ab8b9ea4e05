(** Theorems about Wigner-Seitz cells and Fourier interpolation (C24, C25, C26,
    C79). *)
From Coq Require Import Permutation Reals Sorting.Sorted.
From Verif Require Import Common CommonProofs LatModel SymModel SymSpec VorModel VorSpec VorProofs MPIModel
  Num NumC WSModel WSSpec WSProofs WSProofs2 FourModel FourProofs.
Local Open Scope Z_scope.

(** ** C24: mapping points to the Voronoi cell *)

(** With zero tolerance, the result consists of exactly those points of the
    class (modulo the mesh dimension) which no other point of the class beats. *)
Theorem C24_nearest k nk angle dk1 dk2 :
  allowed_angle angle -> 0 < nk -> small_shift angle nk dk1 -> small_shift angle nk dk2 ->
  exists l, to_Voronoi k nk angle dk1 dk2 0 = Ok l /\ NoDup l /\ l <> [] /\
  forall p, In p l <-> nearest angle nk dk1 dk2 k p.
Proof. exact (to_Voronoi_nearest k nk angle dk1 dk2). Qed.
Print Assumptions C24_nearest.

Example C24_example : to_Voronoi (2, 2) 4 60 0 0 0 = Ok [(-2, 2); (2, -2)] /\
  to_Voronoi (7, 1) 3 60 0 0 0 = Ok [(1, 1); (-2, 1); (1, -2)] /\
  to_Voronoi (7, 1) 3 120 (1 # 4) 0 0 = Ok [(1, 1)] /\ small_shift 120 3 (1 # 4) /\ small_shift 120 3 0.
Proof. repeat split; vm_compute; reflexivity. Qed.

(** With a tolerance: the candidates that exceed the best of them by no more
    than the tolerance. *)
Theorem C24_tolerance k nk angle dk1 dk2 eps :
  allowed_angle angle -> 0 < nk -> (0 <= eps)%Q ->
  exists l, to_Voronoi k nk angle dk1 dk2 eps = Ok l /\ NoDup l /\ l <> [] /\
  forall p, In p l <-> In p (candidates (pmod nk k) nk) /\
    forall q, In q (candidates (pmod nk k) nk) ->
      (dist2 angle (inject_Z (fst p) - dk1) (inject_Z (snd p) - dk2) <=
       dist2 angle (inject_Z (fst q) - dk1) (inject_Z (snd q) - dk2) + eps)%Q.
Proof. exact (to_Voronoi_candidates k nk angle dk1 dk2 eps). Qed.
Print Assumptions C24_tolerance.

(** All points returned, for any shift and tolerance, belong to the class. *)
Theorem C24_class k nk angle dk1 dk2 eps l p :
  allowed_angle angle -> 0 < nk -> (0 <= eps)%Q ->
  to_Voronoi k nk angle dk1 dk2 eps = Ok l -> In p l -> same_class nk p k.
Proof.
  exact (fun Ha Hn He E Hp => match to_Voronoi_candidates k nk angle dk1 dk2 eps Ha Hn He with
    | ex_intro _ l' (conj E' (conj _ (conj _ H))) =>
      candidate_class nk k Hn p (proj1 (proj1 (H p) (eq_ind (Ok l) (fun r => match r with Ok l => In p l | Raise _ => False end) Hp (Ok l') (eq_trans (eq_sym E) E'))))
    end).
Qed.
Print Assumptions C24_class.

(** For larger shifts, the closest point can be missed. *)
Theorem C24_large_shift_refuted : exists k nk angle dk1 dk2 l p,
  allowed_angle angle /\ 0 < nk /\ (Qabs dk1 < inject_Z nk)%Q /\ (Qabs dk2 < inject_Z nk)%Q /\
  to_Voronoi k nk angle dk1 dk2 0 = Ok l /\ same_class nk p k /\ ~ In p l /\
  forall q, In q l -> (dist2 angle (inject_Z (fst p) - dk1) (inject_Z (snd p) - dk2) <
    dist2 angle (inject_Z (fst q) - dk1) (inject_Z (snd q) - dk2))%Q.
Proof.
  exists (0, 0), 1, 60, (9 # 10)%Q, (-9 # 10)%Q, (get_ok [] (to_Voronoi (0, 0) 1 60 (9 # 10) (-9 # 10) 0)), (1, -1).
  split; [left; reflexivity|]. repeat split; try (vm_compute; reflexivity).
  - vm_compute. intros H. repeat (destruct H as [H|H]; [discriminate|]). exact H.
  - intros q Hq. vm_compute in Hq. repeat (destruct Hq as [<-|Hq]; [vm_compute; reflexivity|]). destruct Hq.
Qed.
Print Assumptions C24_large_shift_refuted.

(** ** C25: Wigner-Seitz lattice vectors *)

(** Two dimensions: each closest point of each class, once, in lexicographical
    order, together with the number of closest points of its class. *)
Theorem C25_two_dimensions nk angle dk1 dk2 :
  allowed_angle angle -> 0 < nk -> small_shift angle nk dk1 -> small_shift angle nk dk2 ->
  exists l, wigner_2d nk angle dk1 dk2 0 = Ok l /\
    StronglySorted (fun x y => pt_leb (fst x) (fst y) = true) l /\ NoDup (map fst l) /\
    (forall p n, In (p, n) l <-> nearest angle nk dk1 dk2 p p /\ number_nearest angle nk dk1 dk2 p n).
Proof. exact (wigner_2d_spec nk angle dk1 dk2). Qed.
Print Assumptions C25_two_dimensions.

Theorem C25_two_dimensions_weights nk angle dk1 dk2 l k :
  allowed_angle angle -> 0 < nk -> small_shift angle nk dk1 -> small_shift angle nk dk2 ->
  wigner_2d nk angle dk1 dk2 0 = Ok l ->
  (qsum (map (fun x => 1 / inject_Z (Z.of_nat (snd x)))
    (filter (fun x => if pt_eq_dec (pmod nk (fst x)) (pmod nk k) then true else false) l)) == 1)%Q.
Proof. exact (wigner_2d_weights nk angle dk1 dk2 l k). Qed.
Print Assumptions C25_two_dimensions_weights.

Example C25_example_2d : wigner_2d 2 120 0 0 0 =
  Ok [((-1, -1), 2%nat); ((-1, 0), 2%nat); ((0, -1), 2%nat); ((0, 0), 1%nat); ((0, 1), 2%nat); ((1, 0), 2%nat); ((1, 1), 2%nat)].
Proof. vm_compute. reflexivity. Qed.

(** Three dimensions, any number of processes, any bond lengths: the lattice
    vectors are those of the shortest equivalent bonds (within the supercells
    searched), without repetition, with the number and length of the shortest
    equivalent bonds for each pair of orbitals and zeros for other pairs. *)
Theorem C25_wigner nr sgn nsc nb1 nb2 len eps nproc :
  0 < vx nr /\ 0 < vy nr /\ 0 < vz nr -> sgn = 1 \/ sgn = -1 -> 0 < nsc -> (0 < eps)%Q -> (0 < nproc)%nat ->
  exists d, wigner nr sgn nsc nb1 nb2 len eps nproc = Ok d /\
    NoDup (map fst d) /\
    (forall R, In R (map fst d) <-> exists i j, (i < nb1)%nat /\ (j < nb2)%nat /\ shortest nr sgn nsc len eps i j R) /\
    forall R c i j, In (R, c) d -> (i < nb1)%nat -> (j < nb2)%nat ->
      (shortest nr sgn nsc len eps i j R ->
        degeneracy nr sgn nsc len eps i j R (fst (c i j)) /\ least_length nr sgn nsc len i j R (snd (c i j))) /\
      (~ shortest nr sgn nsc len eps i j R -> c i j = (0%nat, 0%Q)).
Proof. exact (fun H1 H2 H3 H4 H5 => wigner_spec nr sgn nsc nb1 nb2 len eps H1 H2 H3 H4 nproc H5). Qed.
Print Assumptions C25_wigner.

(** The weights 1 / degeneracy of equivalent lattice vectors add up to one for
    every mesh point and pair of orbitals. *)
Theorem C25_weights nr sgn nsc nb1 nb2 len eps nproc d m i j :
  0 < vx nr /\ 0 < vy nr /\ 0 < vz nr -> sgn = 1 \/ sgn = -1 -> 0 < nsc -> (0 < eps)%Q ->
  (0 < nproc)%nat -> wigner nr sgn nsc nb1 nb2 len eps nproc = Ok d ->
  on_mesh nr m -> (i < nb1)%nat -> (j < nb2)%nat ->
  (qsum (map (fun x => 1 / inject_Z (Z.of_nat (fst (snd x i j))))
    (filter (fun x => veqb (mesh_index nr sgn (fst x)) m && negb (fst (snd x i j) =? 0)%nat) d)) == 1)%Q.
Proof. exact (wigner_weights nr sgn nsc nb1 nb2 len eps nproc d m i j). Qed.
Print Assumptions C25_weights.

(** A chain with two cells and two orbitals at 0 and 1/4: the bond lengths. *)
Definition chain_len (R : vec) (i j : nat) : Q :=
  Qabs (inject_Z (vx R) + (Z.of_nat j - Z.of_nat i # 4)) + Qabs (inject_Z (vy R)) + Qabs (inject_Z (vz R)).

Example C25_example : let d := get_ok [] (wigner (V3 2 1 1) 1 2 2 2 chain_len (1 # 100) 3) in
  is_ok (wigner (V3 2 1 1) 1 2 2 2 chain_len (1 # 100) 3) = true /\
  map (fun x => (vx (fst x), [fst (snd x 0 0); fst (snd x 0 1); fst (snd x 1 0); fst (snd x 1 1)]%nat)) d =
  [(0, [1; 1; 1; 1]%nat); (-1, [2; 1; 0; 2]%nat); (1, [2; 0; 1; 2]%nat)].
Proof. vm_compute. auto. Qed.

(** ** C26: mesh data on Wigner-Seitz lattice vectors *)

(** At every wave vector of the mesh, the Fourier sum over the Wigner-Seitz
    lattice vectors equals the one over the original mesh, for every matrix
    element, any bond lengths and any number of processes. *)
Theorem C26_mesh_exact nr sgn nsc nb ncart len eps data nproc n a b :
  0 < vx nr /\ 0 < vy nr /\ 0 < vz nr -> sgn = 1 \/ sgn = -1 -> 0 < nsc -> (0 < eps)%Q -> (0 < nproc)%nat ->
  (0 < ncart)%nat -> (a < nb * ncart)%nat -> (b < nb * ncart)%nat ->
  exists l, short_range_model Cdivn true nr sgn nsc nb ncart len eps data nproc = Ok l /\
    nsum (fun x => nmul (phase (mesh_point nr n) (fst x)) (snd x a b)) l =
    nsum (fun m => nmul (phase (mesh_point nr n) (vscale sgn m))
      (data (a / ncart)%nat (b / ncart)%nat m (a mod ncart)%nat (b mod ncart)%nat)) (ws_mesh nr).
Proof. exact (short_range_mesh nr sgn nsc nb ncart len eps data nproc n a b). Qed.
Print Assumptions C26_mesh_exact.

(** The same for exact arithmetic in general and any phases periodic on the
    mesh. *)
Theorem C26_mesh_exact_generic {F : num} nr sgn nsc nb ncart len eps (divn : F -> nat -> F) data nproc e a b :
  0 < vx nr /\ 0 < vy nr /\ 0 < vz nr -> sgn = 1 \/ sgn = -1 -> 0 < nsc -> (0 < eps)%Q -> (0 < nproc)%nat ->
  (0 < ncart)%nat -> (a < nb * ncart)%nat -> (b < nb * ncart)%nat ->
  (forall x n, (0 < n)%nat -> nsum (fun _ => divn x n) (seq 0 n) = x) ->
  (forall R R', same_cell nr R R' -> e R = e R') ->
  exists l, short_range_model divn true nr sgn nsc nb ncart len eps data nproc = Ok l /\
    nsum (fun x => nmul (e (fst x)) (snd x a b)) l =
    nsum (fun m => nmul (e (vscale sgn m))
      (data (a / ncart)%nat (b / ncart)%nat m (a mod ncart)%nat (b mod ncart)%nat)) (ws_mesh nr).
Proof.
  exact (fun H1 H2 H3 H4 H5 => short_range_exact nr sgn nsc nb ncart len eps H1 H2 H3 H4 divn data nproc H5 e a b).
Qed.
Print Assumptions C26_mesh_exact_generic.

(** Without division by the degeneracy, every lattice vector carries the data
    of its mesh point. *)
Theorem C26_undivided {F : num} nr sgn nsc nb ncart len eps (divn : F -> nat -> F) data nproc :
  0 < vx nr /\ 0 < vy nr /\ 0 < vz nr -> sgn = 1 \/ sgn = -1 -> 0 < nsc -> (0 < nproc)%nat ->
  exists d l, wigner nr sgn nsc nb nb len eps nproc = Ok d /\
    short_range_model divn false nr sgn nsc nb ncart len eps data nproc = Ok l /\ map fst l = map fst d /\
    forall R c a b, In (R, c) l ->
      c a b = data (a / ncart)%nat (b / ncart)%nat (mesh_index nr sgn R) (a mod ncart)%nat (b mod ncart)%nat.
Proof. exact (fun H1 H2 H3 H5 => short_range_plain nr sgn nsc nb ncart len eps H1 H2 H3 divn data nproc H5). Qed.
Print Assumptions C26_undivided.

(** Gaussian integers that are multiples of the degeneracies. *)
Example C26_example : let divn := fun (x : gauss) n => (fst x / Z.of_nat n, snd x / Z.of_nat n) in
  let data := fun i j m (_ _ : nat) => ((10 + 2 * Z.of_nat i + 4 * Z.of_nat j + 6 * vx m, 2) : gauss) in
  let r := short_range_model divn true (V3 2 1 1) 1 2 2 1 chain_len (1 # 100) data 3 in
  is_ok r = true /\
  map (fun x => (vx (fst x), snd x 0%nat 0%nat, snd x 0%nat 1%nat, snd x 1%nat 0%nat)) (get_ok [] r) =
  [(0, (10, 2), (14, 2), (12, 2)); (-1, (8, 1), (20, 2), (0, 0)); (1, (8, 1), (0, 0), (18, 2))].
Proof. vm_compute. auto. Qed.

(** ** C79: Fourier interpolation *)

(** At the mesh points, the interpolant reproduces (the real part of) the data
    up to the coefficients dropped, each of which is below 1e-6; it is exact if
    all dropped coefficients are zero. *)
Theorem C79_mesh (sign angle N : Z) (data : Z -> Z -> C) :
  0 < N -> sign = 1 \/ sign = -1 -> angle = 60 \/ angle = 90 \/ angle = 120 ->
  exists f, Fourier_interpolation data N angle sign = Ok f /\
    (forall x y, 0 <= x < N -> 0 <= y < N -> (Rabs (f (IZR x) (IZR y) - Re (data x y)) <= IZR N * IZR N * (1 / 1000000))%R) /\
    ((forall n m, 0 <= n < N -> 0 <= m < N ->
        tiny (coefficient sign N data n m) = true -> coefficient sign N data n m = n0) ->
      forall x y, 0 <= x < N -> 0 <= y < N -> f (IZR x) (IZR y) = Re (data x y)).
Proof. exact (fourier_interpolation_mesh sign angle N data). Qed.
Print Assumptions C79_mesh.

Theorem C79_periodic (sign angle N : Z) (data : Z -> Z -> C) f : 0 < N ->
  Fourier_interpolation data N angle sign = Ok f ->
  forall x y a b, f (x + IZR (a * N))%R (y + IZR (b * N))%R = f x y.
Proof. exact (fun H => fourier_periodic sign angle N data H f). Qed.
Print Assumptions C79_periodic.

(** Because of the threshold, the docstring's "yields the same value as
    data[i, j]" fails for small data. *)
Theorem C79_exact_refuted : exists data f, Fourier_interpolation data 1 60 (-1) = Ok f /\ f 0%R 0%R <> Re (data 0 0).
Proof.
  destruct fourier_small as (f & E & H). exists (fun _ _ => RtoC (1 / 10000000)), f. split; [exact E|].
  rewrite H. cbn. intros Hc. assert (Hp : (0 < 1 / 10000000)%R) by (apply Rdiv_lt_0_compat; apply IZR_lt; reflexivity).
  rewrite <- Hc in Hp. exact (Rlt_irrefl 0 Hp).
Qed.
Print Assumptions C79_exact_refuted.
