(** Specification: averages over the full mesh of q points. *)
From Verif Require Import Common LatModel SymModel SymSpec EliashModel.
Local Open Scope R_scope.

(** Functions on the mesh that do not distinguish equivalent points. *)
Definition symmetric (nq : Z) (f : pt -> R) : Prop :=
  forall k k', in_mesh nq k -> in_mesh nq k' -> equivalent 60 nq k k' -> f k = f k'.

(** Coupling divided by squared frequency; soft modes do not contribute. *)
Definition coupling (eps : R) (w2 g2dd : pt -> nat -> R) (q : pt) (nu : nat) : R :=
  if Rlt_dec (w2 q nu) eps then 0 else g2dd q nu / w2 q nu.

Definition full_sum (nq : Z) (nph : nat) (f : pt -> nat -> R) : R :=
  rsum (fun q => rsum (f q) (seq 0 nph)) (list_prod (zrange 0 nq) (zrange 0 nq)).

Definition full_lambda nq nph N0 eps w2 g2dd (dd : pt -> R) : R :=
  N0 * full_sum nq nph (coupling eps w2 g2dd) / rsum dd (list_prod (zrange 0 nq) (zrange 0 nq)).

Definition full_wlog nq nph eps w2 g2dd : R :=
  exp (full_sum nq nph (fun q nu => coupling eps w2 g2dd q nu * ln (w2 q nu) / 2) /
       full_sum nq nph (coupling eps w2 g2dd)).

Definition full_w2nd nq nph eps w2 g2dd : R :=
  sqrt (full_sum nq nph (fun q nu => coupling eps w2 g2dd q nu * w2 q nu) /
        full_sum nq nph (coupling eps w2 g2dd)).
