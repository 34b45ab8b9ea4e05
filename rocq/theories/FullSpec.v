(** Specification of the order of bands on a mesh. *)
From Coq Require Import QArith Qabs List Permutation ZArith.
From Verif Require Import SymModel SymSpec BandSpec.
Import ListNotations.
Local Open Scope Z_scope.

(** The points of a mesh of nk x nk points in the irreducible wedge shown in the
    documentation: the triangle with the corners G, M and K (or G, X and M). *)
Definition wedge (angle nk : Z) (k : pt) : Prop :=
  let (a, b) := k in
  0 <= a /\ if angle =? 60 then a <= b /\ a + 2 * b <= nk
            else if angle =? 90 then a <= b /\ 2 * b <= nk
            else 2 * a <= b /\ 2 * b <= nk + a.

(** The main path from G to M (or X), and the side path through a point n of it,
    in the direction of the first axis or of the sum of both. *)
Definition main_path (angle nk : Z) (k : pt) : Prop := wedge angle nk k /\ fst k = 0.
Definition side_path (angle nk : Z) (n k : pt) : Prop :=
  wedge angle nk k /\ exists t, k = (fst n + t, snd n + if angle =? 120 then t else 0).

(** On a path, the last point before q without degeneracies or else the first
    point of the path is p. *)
Definition last_resolved (path : pt -> Prop) (res : pt -> Prop) (p q : pt) : Prop :=
  path p /\ path q /\ before p q /\ (res p \/ forall p', path p' -> ~ before p' p) /\
  forall p', path p' -> before p p' -> before p' q -> ~ res p'.

(** Band i continues from p, where it is the state [b p] [i], to q. *)
Definition continues (bands : nat) (ev : pt -> nat -> Q) (evec : pt -> nat -> nat -> Q * Q) (dv : option Q)
    (b : pt -> list nat) (p q : pt) (i : nat) : Prop :=
  let x := nth i (b p) 0%nat in let y := nth i (b q) 0%nat in
  within dv (ev p x) (ev q y) /\ forall j, (j < bands)%nat -> j <> y ->
    (overlap bands (fun r => evec p r x) (fun r => evec q r j) < overlap bands (fun r => evec p r x) (fun r => evec q r y))%Q.

(** All neighboring eigenvalues at p differ by more than eps. *)
Definition resolved_at (bands : nat) (ev : pt -> nat -> Q) (eps : Q) (p : pt) : Prop :=
  forall i, (S i < bands)%nat -> (eps < Qabs (ev p (S i) - ev p i))%Q.
