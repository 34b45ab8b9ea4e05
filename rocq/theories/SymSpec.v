(** Specification vocabulary: symmetries of a two-dimensional lattice. *)
From Verif Require Import Common SymModel.
Local Open Scope Z_scope.

(** Integer 2x2 matrices acting on indices of mesh points. *)
Record mat2 := M2 { m11 : Z; m12 : Z; m21 : Z; m22 : Z }.
Definition act (M : mat2) (k : pt) : pt :=
  (m11 M * fst k + m12 M * snd k, m21 M * fst k + m22 M * snd k).

(** Squared length (in units of the squared length of the basis vectors) of a
    vector with integer components k1 and k2 if the basis vectors have equal
    length and enclose the angle: k1^2 + 2 cos(angle) k1 k2 + k2^2. *)
Definition sqnorm (angle : Z) (k : pt) : Z :=
  fst k * fst k + snd k * snd k +
  (if angle =? 60 then fst k * snd k else if angle =? 120 then - (fst k * snd k) else 0).

(** Symmetries of the lattice. *)
Definition isometry (angle : Z) (M : mat2) : Prop :=
  forall k, sqnorm angle (act M k) = sqnorm angle k.

Definition allowed_angle (angle : Z) : Prop := angle = 60 \/ angle = 90 \/ angle = 120.

Definition in_mesh (nk : Z) (k : pt) : Prop := 0 <= fst k < nk /\ 0 <= snd k < nk.

(** Two points of the (periodic) mesh are equivalent. *)
Definition equivalent (angle nk : Z) (k k' : pt) : Prop :=
  exists M, isometry angle M /\ (fst k' - fst (act M k)) mod nk = 0 /\ (snd k' - snd (act M k)) mod nk = 0.

(** The sequence (0, 0), (0, 1), ..., (0, nk - 1), (1, 0), (1, 1), ... *)
Definition before (k k' : pt) : Prop := fst k < fst k' \/ fst k = fst k' /\ snd k < snd k'.
