(** Specification notions for Brillouin zones. *)
From Coq Require Import Reals List ZArith.
From Verif Require Import Common GeoModel.
Import ListNotations.
Local Open Scope R_scope.

Definition norm_sq (k : r2) : R := fst k * fst k + snd k * snd k.

(** Reciprocal lattice of the lattice spanned by unit vectors at angles [angle0] and
    [angle0 + angle] (degrees): a vector whose products with both are integers *)
Definition unit_vector (angle : R) : r2 := (cos (angle * PI / 180), sin (angle * PI / 180)).
Definition reciprocal (angle : Z) (angle0 : R) (G : r2) : Prop :=
  exists n1 n2 : Z, dot2 (unit_vector angle0) G = IZR n1 /\ dot2 (unit_vector (angle0 + IZR angle)) G = IZR n2.

(** The first Brillouin zone: no point of the reciprocal lattice is closer than the origin. *)
Definition first_zone (angle : Z) (angle0 : R) (k : r2) : Prop :=
  forall G, reciprocal angle angle0 G -> norm_sq k <= norm_sq (fst k - fst G, snd k - snd G).

(** Sector number [w] out of [n], counting anti-clockwise from the direction [angle0] (degrees) *)
Definition in_sector (angle0 : R) (n w : nat) (k : r2) : Prop :=
  exists r t, 0 < r /\ k = (r * cos t, r * sin t) /\
    angle0 * PI / 180 + 2 * PI * INR w / INR n <= t < angle0 * PI / 180 + 2 * PI * INR (S w) / INR n.

(** On the left side of all edges of a polygon given by its corners (the last of which is
    the first again) *)
Fixpoint left_of_all (corners : list r2) (k : r2) : Prop :=
  match corners with
  | p :: rest =>
    match rest with
    | q :: _ => 0 <= (fst q - fst p) * (snd k - snd p) - (snd q - snd p) * (fst k - fst p) /\ left_of_all rest k
    | [] => True
    end
  | [] => True
  end.

(** Centre of a pixel of an image with the given extents and shape; rows from top to bottom *)
Definition centre (X Y : R) (nx ny i j : nat) : r2 :=
  (X * ((2 * INR j + 1) / INR nx - 1), Y * (1 - (2 * INR i + 1) / INR ny)).

(** [X] is the largest coordinate (absolute value) of a region. *)
Definition largest (coordinate : r2 -> R) (region : r2 -> Prop) (X : R) : Prop :=
  (forall k, region k -> Rabs (coordinate k) <= X) /\ exists k, region k /\ Rabs (coordinate k) = X.

(** Number of pixels for an extent [X] at a given resolution, rounded (up) to even numbers
    if required *)
Definition resolution (points : Z) (even : bool) (X : R) (n : nat) : Prop :=
  if even then Nat.Even n /\ Rabs (INR n - IZR points * X) <= 3 / 2 else Rabs (INR n - IZR points * X) <= 1 / 2.
