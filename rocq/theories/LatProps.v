(** Properties C17 and C18: supercells (elphmod/bravais.py). *)
From Verif Require Import Common CommonProofs LatModel LatSpec LatProofs.
Local Open Scope Z_scope.

(** C17. For linearly independent supercell vectors, whatever their
    orientation, the call succeeds, N is the absolute value of the determinant,
    the listed cells represent each lattice point modulo the supercell exactly
    once, and the origin is one of them. The vectors B are reciprocal to the
    supercell vectors. *)
Theorem C17_cells a1 a2 a3 :
  let N1 := arg1 a1 in let N2 := arg2 a2 in let N3 := arg3 a3 in
  det3 N1 N2 N3 <> 0 ->
  exists s, supercell a1 a2 a3 = Ok s /\
    sc_N1 s = N1 /\ sc_N2 s = N2 /\ sc_N3 s = N3 /\
    sc_N s = Z.abs (det3 N1 N2 N3) /\
    Z.of_nat (length (sc_cells s)) = Z.abs (det3 N1 N2 N3) /\
    representatives (in_lattice N1 N2 N3) (sc_cells s) /\
    In vzero (sc_cells s) /\
    (forall R, comb N1 N2 N3 (V3 (dot R (sc_B1 s)) (dot R (sc_B2 s)) (dot R (sc_B3 s))) = vscale (sc_N s) R).
Proof. exact (supercell_spec a1 a2 a3). Qed.
Print Assumptions C17_cells.

(** Linearly dependent vectors are accepted without complaint; the supercell
    then has no cells at all. *)
Theorem C17_degenerate a1 a2 a3 : det3 (arg1 a1) (arg2 a2) (arg3 a3) = 0 ->
  exists s, supercell a1 a2 a3 = Ok s /\ sc_N s = 0 /\ sc_cells s = [] /\
  forall R, to_supercell R s = Raise ValueError.
Proof. exact (supercell_degenerate a1 a2 a3). Qed.
Print Assumptions C17_degenerate.

Example C17_example :
  det3 (arg1 (Vect (V3 1 (-1) 0))) (arg2 (Vect (V3 1 1 0))) (arg3 (Mult (-1))) = -2 /\
  exists s, supercell (Vect (V3 1 (-1) 0)) (Vect (V3 1 1 0)) (Mult (-1)) = Ok s /\
    sc_cells s = [V3 0 0 0; V3 1 0 0].
Proof. split; [reflexivity|]. eexists. split; vm_compute; reflexivity. Qed.

Example C17_degenerate_example :
  det3 (arg1 (Mult 2)) (arg2 (Vect (V3 4 0 0))) (arg3 (Mult 1)) = 0.
Proof. reflexivity. Qed.

(** C18. Any lattice vector is decomposed into a vector of the supercell's
    lattice and the listed cell... *)
Theorem C18_decomposition a1 a2 a3 s R :
  det3 (arg1 a1) (arg2 a2) (arg3 a3) <> 0 -> supercell a1 a2 a3 = Ok s ->
  exists S i c, to_supercell R s = Ok (S, i) /\ nth_error (sc_cells s) i = Some c /\
    R = vadd (comb (arg1 a1) (arg2 a2) (arg3 a3) S) c.
Proof. exact (to_supercell_spec a1 a2 a3 s R). Qed.
Print Assumptions C18_decomposition.

(** ... and there is only one such decomposition. *)
Theorem C18_unique a1 a2 a3 s R S i c :
  det3 (arg1 a1) (arg2 a2) (arg3 a3) <> 0 -> supercell a1 a2 a3 = Ok s ->
  nth_error (sc_cells s) i = Some c ->
  R = vadd (comb (arg1 a1) (arg2 a2) (arg3 a3) S) c ->
  to_supercell R s = Ok (S, i).
Proof. exact (to_supercell_unique a1 a2 a3 s R S i c). Qed.
Print Assumptions C18_unique.

Example C18_example :
  exists s, supercell (Vect (V3 1 (-1) 0)) (Vect (V3 1 1 0)) (Mult (-1)) = Ok s /\
    to_supercell (V3 (-2) 5 3) s = Ok (V3 (-4) 1 (-3), 1%nat).
Proof.
  exists (get_ok (Build_supercell_info 0 vzero vzero vzero vzero vzero vzero []) (supercell (Vect (V3 1 (-1) 0)) (Vect (V3 1 1 0)) (Mult (-1)))).
  split; vm_compute; reflexivity.
Qed.
