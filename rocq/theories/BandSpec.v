(** Specification of the ordering of bands. *)
From Coq Require Import QArith Qabs List Permutation.
Import ListNotations.
Local Open Scope Q_scope.

(** All neighboring eigenvalues at point m differ by more than eps. *)
Definition resolved (bands : nat) (v : nat -> nat -> Q) (eps : Q) (m : nat) : Prop :=
  forall i, (S i < bands)%nat -> eps < Qabs (v m (S i) - v m i).

(** The point with which point n is compared: the last preceding one without
    degeneracies or else the first one. *)
Definition reference (bands : nat) (v : nat -> nat -> Q) (eps : Q) (n m : nat) : Prop :=
  (m < n)%nat /\ (m = 0%nat \/ resolved bands v eps m) /\ forall m', (m < m' < n)%nat -> ~ resolved bands v eps m'.

(** Scalar product of complex vectors u and w of given dimension and its square. *)
Definition re_dot (dim : nat) (u w : nat -> Q * Q) : Q := fold_right Qplus 0 (map (fun r => fst (u r) * fst (w r) + snd (u r) * snd (w r)) (seq 0 dim)).
Definition im_dot (dim : nat) (u w : nat -> Q * Q) : Q := fold_right Qplus 0 (map (fun r => snd (u r) * fst (w r) - fst (u r) * snd (w r)) (seq 0 dim)).
Definition overlap (dim : nat) (u w : nat -> Q * Q) : Q := re_dot dim u w * re_dot dim u w + im_dot dim u w * im_dot dim u w.

(** Eigenvector b at point n. *)
Definition vec (V : nat -> nat -> nat -> Q * Q) (n b : nat) : nat -> Q * Q := fun r => V n r b.

(** Two energies are closer than dv, if given. *)
Definition within (dv : option Q) (x y : Q) : Prop := match dv with None => True | Some dv => Qabs (x - y) < dv end.
