(** Specification vocabulary: symmetric two-dimensional crystals and their
    dynamical matrices. *)
From Coq Require Import Reals.
From Verif Require Import Common SymModel GeoModel Num NumC.
Local Open Scope R_scope.

(** Lattice vectors of unit length, the first along the x axis. The angle is
    the one between the reciprocal lattice vectors, hence that between these
    vectors is 120, 90 or 60 degrees. *)
Definition lattice (angle : Z) : r2 * r2 :=
  ((1, 0),
   if (angle =? 60)%Z then (- (1 / 2), sqrt 3 / 2) else if (angle =? 90)%Z then (0, 1) else (1 / 2, sqrt 3 / 2)).

(** Cartesian coordinates of a lattice vector. *)
Definition cart (angle : Z) (R : pt) : r2 :=
  (IZR (fst R) * fst (fst (lattice angle)) + IZR (snd R) * fst (snd (lattice angle)),
   IZR (fst R) * snd (fst (lattice angle)) + IZR (snd R) * snd (snd (lattice angle))).

(** The vector from atom n in cell 0 to atom m in cell R. *)
Definition bond (angle : Z) (r : nat -> r2) (R : pt) (n m : nat) : r2 :=
  (fst (cart angle R) + fst (r m) - fst (r n), snd (cart angle R) + snd (r m) - snd (r n)).

(** Orthogonal 3x3 matrices that map the plane onto itself. *)
Definition op3 : Type := nat -> nat -> R.
Definition in_plane (O : op3) (v : r2) : r2 :=
  (O 0%nat 0%nat * fst v + O 0%nat 1%nat * snd v, O 1%nat 0%nat * fst v + O 1%nat 1%nat * snd v).

(** Rotation by 120 degrees about the z axis, and reflection across the y-z plane. *)
Definition threefold : op3 := fun x y =>
  match x, y with
  | 0%nat, 0%nat => - (1 / 2)
  | 0%nat, 1%nat => - (sqrt 3 / 2)
  | 1%nat, 0%nat => sqrt 3 / 2
  | 1%nat, 1%nat => - (1 / 2)
  | 2%nat, 2%nat => 1
  | _, _ => 0
  end.
Definition mirror : op3 := fun x y =>
  match x, y with
  | 0%nat, 0%nat => -1
  | 1%nat, 1%nat => 1
  | 2%nat, 2%nat => 1
  | _, _ => 0
  end.

(** [Phi R a b]: force constant (possibly divided by masses) between the
    displacements a in cell 0 and b in cell R; displacement 3 n + x is that of
    atom n in direction x. *)
Definition crystal : Type := pt -> nat -> nat -> R.

(** An operation is a symmetry if it maps each atom onto itself or one of its
    periodic images and the force constants of a bond onto those of the image of
    the bond. *)
Definition symmetry_of (angle : Z) (nat_ : nat) (r : nat -> r2) (Phi : crystal) (O : op3) : Prop :=
  (forall n, (n < nat_)%nat -> exists T, in_plane O (r n) = add2 (r n) (cart angle T)) /\
  (forall n m R R', (n < nat_)%nat -> (m < nat_)%nat -> bond angle r R' n m = in_plane O (bond angle r R n m) ->
     forall x y, (x < 3)%nat -> (y < 3)%nat ->
       let row x' := O x x' * (Phi R (3 * n + x')%nat (3 * m + 0)%nat * O y 0%nat +
                               Phi R (3 * n + x')%nat (3 * m + 1)%nat * O y 1%nat +
                               Phi R (3 * n + x')%nat (3 * m + 2)%nat * O y 2%nat) in
       Phi R' (3 * n + x)%nat (3 * m + y)%nat = row 0%nat + row 1%nat + row 2%nat).

(** Finitely many cells interact. *)
Definition range_of (cells : list pt) (Phi : crystal) : Prop :=
  NoDup cells /\ forall R, ~ In R cells -> forall a b, Phi R a b = 0.

(** The dynamical matrix at point k of a mesh of nq x nq points:
    sum over R of Phi(R) exp(2 pi i k R / nq). *)
Definition dynmat (nq : Z) (cells : list pt) (Phi : crystal) (k : pt) (a b : nat) : C :=
  nsum (fun R => nmul (RtoC (Phi R a b)) (expi (2 * PI * IZR (fst k * fst R + snd k * snd R) / IZR nq))) cells.

(** Coordinates of a mesh point with period 2 pi. *)
Definition mesh_q (nq : Z) (k : pt) : r2 := (2 * PI * IZR (fst k) / IZR nq, 2 * PI * IZR (snd k) / IZR nq).

(** The symmetries used: rotations by multiples of 120 degrees (not for the
    square lattice), the reflection, and time reversal, which maps q to -q. *)
Local Open Scope Z_scope.
Definition rotated (angle : Z) (k : pt) : list pt :=
  let (k1, k2) := k in
  if angle =? 90 then [(k1, k2)]
  else if angle =? 60 then [(k1, k2); (- k1 - k2, k1); (k2, - k1 - k2)]
  else [(k1, k2); (- k2, k1 - k2); (k2 - k1, - k1)].
Definition mirrored (angle : Z) (k : pt) : pt :=
  let (k1, k2) := k in if angle =? 90 then (- k1, k2) else if angle =? 60 then (- k1, k1 + k2) else (- k1, k2 - k1).
Definition images_used (angle : Z) (k : pt) : list pt :=
  flat_map (fun k => [k; mirrored angle k]) (rotated angle k).
Definition negated (k : pt) : pt := (- fst k, - snd k).

(** Image of a point, or its negative, on the periodic mesh. *)
Definition reaches (angle nq : Z) (k0 k : pt) : Prop :=
  exists k', In k' (images_used angle k0) /\ (k = pmod nq k' \/ k = pmod nq (negated k')).
