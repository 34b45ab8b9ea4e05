(** Specification vocabulary: dual bases, matrix inverses. *)
From Verif Require Import Common GeoModel.
Local Open Scope R_scope.

Definition independent2 (a1 a2 : r2) : Prop := fst a1 * snd a2 - snd a1 * fst a2 <> 0.
Definition independent3 (a1 a2 a3 : r3) : Prop :=
  forall x y z, add3 (add3 (scale3 x a1) (scale3 y a2)) (scale3 z a3) = R3 0 0 0 -> x = 0 /\ y = 0 /\ z = 0.

Definition dual2 (a1 a2 b1 b2 : r2) : Prop :=
  dot2 a1 b1 = 1 /\ dot2 a1 b2 = 0 /\ dot2 a2 b1 = 0 /\ dot2 a2 b2 = 1.

Definition dual3 (a1 a2 a3 b1 b2 b3 : r3) : Prop :=
  (dot3 a1 b1 = 1 /\ dot3 a1 b2 = 0 /\ dot3 a1 b3 = 0) /\
  (dot3 a2 b1 = 0 /\ dot3 a2 b2 = 1 /\ dot3 a2 b3 = 0) /\
  (dot3 a3 b1 = 0 /\ dot3 a3 b2 = 0 /\ dot3 a3 b3 = 1).

(** Contract of numpy.linalg.inv in exact arithmetic: an inverse is returned
    whenever one exists; otherwise LinAlgError is raised. *)
Definition inverse_of (B A : m3) : Prop := forall x, mv B (mv A x) = x /\ mv A (mv B x) = x.
Definition inv_contract (inv : m3 -> option m3) : Prop :=
  forall A, match inv A with Some B => inverse_of B A | None => forall B, ~ inverse_of B A end.
