(** Model of elphmod/bravais.py: paths, points on lines and meshes, with real
    numbers in place of floats. *)
From Verif Require Import Common GeoModel.
Local Open Scope R_scope.

Definition sub3 (u v : r3) : r3 := R3 (rx u - rx v) (ry u - ry v) (rz u - rz v).
(** numpy.linalg.norm *)
Definition norm3 (u : r3) : R := sqrt (dot3 u u).
(** [np.einsum('kc,cx->kx', points, b)] *)
Definition cartesian (b : r3 * r3 * r3) (p : r3) : r3 :=
  add3 (add3 (scale3 (rx p) (fst (fst b))) (scale3 (ry p) (snd (fst b)))) (scale3 (rz p) (snd b)).

Definition is_zero (x : R) : bool := if Req_EM_T x 0 then true else false.
(** [np.all(points[i] == 0)] *)
Definition is_Gamma (p : r3) : bool := is_zero (rx p) && is_zero (ry p) && is_zero (rz p).

(** ** path: bravais.py:1491-1683

    Modelled for points in three dimensions given by coordinates (labels are
    looked up in a dictionary first) and given [recvec]; [round] is the composition
    of Python's round and int. The optional fourth result is not modelled. *)
Section Path.
  Variables (round : R -> Z) (N : R) (b : r3 * r3 * r3) (moveG : R).

  (** bravais.py:1642: [max(1, int(round(N * dx)))] *)
  Definition steps (dx : R) : nat := Z.to_nat (Z.max 1 (round (N * dx))).

  (** bravais.py:1641-1650: one iteration of the loop *)
  Definition segment (first : bool) (p q : r3) (x0 : R) : list (r3 * R) * R :=
    let dx := norm3 (sub3 (cartesian b q) (cartesian b p)) in
    let n := steps dx in
    let x1 := x0 + dx in
    let j0 := if first || negb (is_zero moveG) && is_Gamma p then 0%nat else 1%nat in
    (map (fun j => (scale3 (/ INR n) (add3 (scale3 (INR j) q) (scale3 (INR n - INR j) p)),
                    (INR j * x1 + (INR n - INR j) * x0) / INR n)) (seq j0 (n + 1 - j0)), x1).

  (** bravais.py:1640-1654: the loop; [len] is [len(k)]; k, x and new corners are
      returned. *)
  Fixpoint segments (first : bool) (x0 : R) (len : nat) (points : list r3) : list (r3 * R) * list nat :=
    match points with
    | p :: (q :: _) as rest =>
      let (s, x1) := segment first p q x0 in
      let (k, corners) := segments false x1 (len + length s) rest in
      (s ++ k, (len + length s - 1)%nat :: corners)
    | _ => ([], [])
    end.

  (** [k[i] += moveG * k[j]] *)
  Definition move (i j : nat) (k : list r3) : res (list r3) :=
    match nth_error k i, nth_error k j with
    | Some u, Some v => Ok (firstn i k ++ add3 u (scale3 moveG v) :: skipn (S i) k)
    | _, _ => Raise IndexError
    end.

  (** bravais.py:1656-1665 *)
  Fixpoint move_Gamma (i last : nat) (points : list r3) (corners : list nat) (k : list r3) : res (list r3) :=
    match points, corners with
    | p :: points, c :: corners =>
      do k <- (if is_Gamma p then
                 if (i =? 0)%nat then move c (c + 1) k
                 else
                   do k <- move c (c - 1) k ;;
                   if (i =? last)%nat then Ok k else move (c + 1) (c + 2) k
               else Ok k) ;;
      move_Gamma (S i) last points corners k
    | _, _ => Ok k
    end.

  (** bravais.py:1629-1683 *)
  Definition path (points : list r3) : res (list r3 * list R * list nat) :=
    match points with
    | [] => Raise ValueError
    | _ =>
      let (kx, corners) := segments true 0 0 points in
      let corners := 0%nat :: corners in
      do k <- (if is_zero moveG then Ok (map fst kx) else move_Gamma 0 (length corners - 1) points corners (map fst kx)) ;;
      Ok (map (scale3 (2 * PI)) k, map snd kx, corners)
    end.
End Path.

(** ** point_on_path: bravais.py:2564-2587

    [None] is returned if the point is not found to be on the line. *)
Definition point_on_path (t A B : r3) (eps : R) : option bool :=
  let c := cross3 (sub3 B A) (sub3 t A) in
  let small v := if Rlt_dec (Rabs v) eps then true else false in
  if small (rx c) && small (ry c) && small (rz c) then
    let d := dot3 (sub3 B A) (sub3 t A) in
    if Rle_dec 0 d then
      let squared_distance := rx (sub3 B A) * rx (sub3 B A) + ry (sub3 B A) * ry (sub3 B A) in
      if Rle_dec d squared_distance then Some true else None
    else None
  else None.

(** ** mesh: bravais.py:2646-2667 (flat; without [flat], the same points in an
    array of shape [n]). For no dimensions at all, NumPy's moveaxis fails. *)
Definition range (n : Z) : list Z := map Z.of_nat (seq 0 (Z.to_nat n)).

(** All index tuples in row-major order (numpy.meshgrid with [indexing='ij']). *)
Fixpoint indices (n : list Z) : list (list Z) :=
  match n with
  | [] => [[]]
  | n :: ns => flat_map (fun i => map (cons i) (indices ns)) (range n)
  end.

Definition mesh (n : list Z) : res (list (list R)) :=
  match n with
  | [] => Raise ValueError
  | _ => Ok (map (fun i => map (fun x => 2 * PI * IZR (fst x) / IZR (snd x)) (combine i n)) (indices n))
  end.

(** ** kpoints: bravais.py:2669-2694

    [answers]: what is entered for the number of points (None: nothing);
    the printed lines (the number of points; then coordinates and weight). *)
Definition kpoints (nk : list Z) (answers : list (option Z)) (weights : bool) : res (Z * list (list R)) :=
  let nk := map (fun x => if (fst x =? 0)%Z then match snd x with Some m => m | None => 1%Z end else fst x) (combine nk answers) in
  let n := fold_right Z.mul 1%Z nk in
  do m <- mesh nk ;;
  Ok (n, map (fun k => map (fun c => c / (2 * PI)) k ++ (if weights then [1 / IZR n] else [])) m).
