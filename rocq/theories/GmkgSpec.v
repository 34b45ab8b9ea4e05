(** Specification notions for the path through the hexagonal Brillouin zone. *)
From Coq Require Import Reals List ZArith.
From Verif Require Import Common GeoModel.
Import ListNotations.
Local Open Scope R_scope.

(** [v] is the Cartesian point (in units of two pi over the lattice constant) with crystal
    coordinates [k] (period two pi), where [angle] is the angle between the reciprocal
    lattice vectors: there are lattice vectors of unit length at the angle 180 - [angle]. *)
Definition cartesian (angle : Z) (k v : r2) : Prop :=
  let t := IZR (180 - angle) * PI / 180 in
  fst v = fst k / (2 * PI) /\ cos t * fst v + sin t * snd v = snd k / (2 * PI).

Definition distance (u v : r2) : R := sqrt ((fst u - fst v) * (fst u - fst v) + (snd u - snd v) * (snd u - snd v)).

(** Crystal coordinates that differ by a reciprocal lattice vector *)
Definition equivalent (k q : r2) : Prop := exists n1 n2 : Z, fst q = fst k + 2 * PI * IZR n1 /\ snd q = snd k + 2 * PI * IZR n2.

(** A point of the uniform mesh *)
Definition mesh_pt (N : Z) (q : r2) : Prop := exists n1 n2 : Z, q = (2 * PI * IZR n1 / IZR N, 2 * PI * IZR n2 / IZR N).

(** A point on the line between two points, the second one excluded or included *)
Definition between (incl : bool) (p q r : r2) : Prop :=
  exists t, 0 <= t /\ (if incl then t <= 1 else t < 1) /\ r = (fst p + t * (fst q - fst p), snd p + t * (snd q - snd p)).

(** Crystal coordinates of the special points: M; K between M and the origin (not straight),
    and the K in the direction of the line from M to the neighbouring K (straight). *)
Definition special_M : r2 := (0, PI).
Definition special_K (angle : Z) (straight : bool) : r2 :=
  match straight, (angle =? 60)%Z with
  | false, true => (2 * PI / 3, 2 * PI / 3)
  | false, false => (2 * PI / 3, 4 * PI / 3)
  | true, true => (- (4 * PI / 3), 2 * PI / 3)
  | true, false => (- (4 * PI / 3), - (2 * PI / 3))
  end.
