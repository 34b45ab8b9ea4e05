(** Property C28: reciprocal vectors and coordinates (elphmod/bravais.py). *)
From Coq Require Import Lra.
From Verif Require Import Common GeoModel GeoSpec GeoProofs.
Local Open Scope R_scope.

(** C28. The reciprocal vectors are the dual basis. *)
Theorem C28_reciprocals3 a1 a2 a3 : independent3 a1 a2 a3 ->
  let '(b1, b2, b3) := reciprocals3 a1 a2 a3 in dual3 a1 a2 a3 b1 b2 b3.
Proof. exact (reciprocals3_dual a1 a2 a3). Qed.
Print Assumptions C28_reciprocals3.

Theorem C28_reciprocals2 a1 a2 : independent2 a1 a2 ->
  let (b1, b2) := reciprocals2 a1 a2 in dual2 a1 a2 b1 b2.
Proof. exact (reciprocals2_dual a1 a2). Qed.
Print Assumptions C28_reciprocals2.

(** There is only one dual basis, and taking it twice gives the lattice
    vectors back. *)
Theorem C28_unique a1 a2 a3 b1 b2 b3 c1 c2 c3 :
  dual3 a1 a2 a3 b1 b2 b3 -> dual3 a1 a2 a3 c1 c2 c3 -> c1 = b1 /\ c2 = b2 /\ c3 = b3.
Proof. exact (dual3_unique a1 a2 a3 b1 b2 b3 c1 c2 c3). Qed.
Print Assumptions C28_unique.

Theorem C28_involutive a1 a2 a3 : independent3 a1 a2 a3 ->
  let '(b1, b2, b3) := reciprocals3 a1 a2 a3 in reciprocals3 b1 b2 b3 = (a1, a2, a3).
Proof. exact (reciprocals3_involutive a1 a2 a3). Qed.
Print Assumptions C28_involutive.

(** The volumes of dual cells are inverse to each other. *)
Theorem C28_volume a1 a2 a3 b1 b2 b3 : dual3 a1 a2 a3 b1 b2 b3 -> volume a1 a2 a3 * volume b1 b2 b3 = 1.
Proof. exact (volume_dual a1 a2 a3 b1 b2 b3). Qed.
Print Assumptions C28_volume.

(** The coordinate transforms are inverse to each other. *)
Theorem C28_coordinates inv a1 a2 a3 l : inv_contract inv -> independent3 a1 a2 a3 ->
  cartesian_to_crystal inv (crystal_to_cartesian3 l a1 a2 a3) a1 a2 a3 = Ok l /\
  exists l', cartesian_to_crystal inv l a1 a2 a3 = Ok l' /\ crystal_to_cartesian3 l' a1 a2 a3 = l.
Proof. exact (crystal_cartesian_inverse inv a1 a2 a3 l). Qed.
Print Assumptions C28_coordinates.

(** Linearly dependent lattice vectors are rejected. *)
Theorem C28_singular inv a1 a2 a3 l : inv_contract inv -> ~ independent3 a1 a2 a3 ->
  cartesian_to_crystal inv l a1 a2 a3 = Raise ValueError.
Proof. exact (cartesian_to_crystal_singular inv a1 a2 a3 l). Qed.
Print Assumptions C28_singular.

Example C28_example : independent3 (R3 1 1 0) (R3 0 1 1) (R3 1 0 1) /\ independent2 (1, 0) (-1/2, 1) /\
  ~ independent3 (R3 1 2 3) (R3 2 4 6) (R3 0 0 1) /\ inv_contract ref_inv.
Proof.
  split; [|split; [|split]].
  - apply independent3_det. unfold det, dot3, cross3. cbn. lra.
  - unfold independent2. cbn. lra.
  - intros H. apply independent3_det in H. apply H. unfold det, dot3, cross3. cbn. lra.
  - exact ref_inv_contract.
Qed.
