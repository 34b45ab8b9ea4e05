(** Theorems about mass-spring models: supercells, unit cells, order and shifts of
    atoms (C58). *)
From Coq Require Import Lia Permutation QArith Qcanon.
From Verif Require Import OField Common CommonProofs LatModel LatSpec LatProofs Num NumProofs ElModel ElSpec ElProofs ElProofs4 PhCellModel PhCellSpec PhCellProofs.
Local Open Scope nat_scope.

(** C58. Supercell: atom k of the cell c becomes atom i * natoms + k, where c is
    the i-th cell. Masses, labels, charges, bond vectors and all force constants
    are those of the original model. *)
Theorem C58_supercell {F : num} {K : ofield} {L ZQ : Type} a1 a2 a3 (p : ph F K L ZQ) h :
  det3 (arg1 a1) (arg2 a2) (arg3 a3) <> 0%Z -> NoDup (map fst (hop (base p))) -> well_formed h p ->
  exists sc p' r, supercell a1 a2 a3 = Ok sc /\ ph_supercell a1 a2 a3 p h = Ok (p', h ++ [r]) /\
  well_formed (h ++ [r]) p' /\ natoms p' = natoms p * length (sc_cells sc) /\ r_at p' = length h /\
  a_ p' = (lattice (a_ p) (arg1 a1), lattice (a_ p) (arg2 a2), lattice (a_ p) (arg3 a3)) /\
  (forall i j c c' k l Q, nth_error (sc_cells sc) i = Some c -> nth_error (sc_cells sc) j = Some c' -> k < natoms p -> l < natoms p ->
    let R := vsub (vadd (comb (arg1 a1) (arg2 a2) (arg3 a3) Q) c') c in
    (forall x y, x < 3 -> y < 3 ->
      hopping (hop (base p')) Q (3 * (i * natoms p + k) + x) (3 * (j * natoms p + l) + y) = hopping (hop (base p)) R (3 * k + x) (3 * l + y)) /\
    bond (h ++ [r]) p' Q (i * natoms p + k) (j * natoms p + l) = bond h p R k l /\
    same_atom p' p (i * natoms p + k) k).
Proof. exact (ph_supercell_spec a1 a2 a3 p h). Qed.
Print Assumptions C58_supercell.

(** Back to the unit cell: everything is recovered up to the position of the first
    cell c0 of the supercell and the handedness of the supercell. *)
Theorem C58_unit_cell_partial {F : num} {K : ofield} {L ZQ : Type} a1 a2 a3 (p p' : ph F K L ZQ) h h' c0 :
  det3 (arg1 a1) (arg2 a2) (arg3 a3) <> 0%Z -> NoDup (map fst (hop (base p))) -> well_formed h p ->
  ph_supercell a1 a2 a3 p h = Ok (p', h') -> nth_error (cells (base p')) 0 = Some c0 ->
  exists p'', ph_unit_cell p' = Ok p'' /\ natoms p'' = natoms p /\ size (base p'') = size (base p) /\ M p'' = M p /\ names p'' = names p /\ ZQ_ p'' = ZQ_ p /\
  (let s := ofZ (Z.sgn (det3 (arg1 a1) (arg2 a2) (arg3 a3))) in
   a_ p'' = (cmul s (fst (fst (a_ p))), cmul s (snd (fst (a_ p))), cmul s (snd (a_ p)))) /\
  positions h' p'' = map (cadd (lattice (a_ p) c0)) (positions h p) /\
  forall R a b, a < size (base p) -> b < size (base p) -> hopping (hop (base p'')) R a b = hopping (hop (base p)) (vsub R c0) a b.
Proof. exact (ph_unit_cell_spec a1 a2 a3 p h p' h' c0). Qed.
Print Assumptions C58_unit_cell_partial.

(** For positive multiples of the lattice vectors, all of this is trivial and the
    original model is recovered. *)
Theorem C58_round_trip {F : num} {K : ofield} {L ZQ : Type} n1 n2 n3 (p : ph F K L ZQ) h : (0 < n1)%Z -> (0 < n2)%Z -> (0 < n3)%Z ->
  NoDup (map fst (hop (base p))) -> well_formed h p ->
  exists p' h' p'', ph_supercell (Mult n1) (Mult n2) (Mult n3) p h = Ok (p', h') /\ ph_unit_cell p' = Ok p'' /\
  natoms p'' = natoms p /\ M p'' = M p /\ names p'' = names p /\ ZQ_ p'' = ZQ_ p /\ a_ p'' = a_ p /\ positions h' p'' = positions h p /\
  forall R a b, a < size (base p) -> b < size (base p) -> hopping (hop (base p'')) R a b = hopping (hop (base p)) R a b.
Proof. exact (ph_round_trip_diagonal n1 n2 n3 p h). Qed.
Print Assumptions C58_round_trip.

(** An example: a chain of two atoms, bonds of different strength. *)
Definition one : Qfield := Q2Qc 1%Q.
Definition zero : Qfield := Q2Qc 0%Q.
Definition unit : @basis Qfield := ((one, zero, zero), (zero, one, zero), (zero, zero, one)).
Definition springs (x y : Z) (a b : nat) : gauss := if (a =? 0) && (b =? 3) then (x, 0)%Z else if (a =? 3) && (b =? 0) then (y, 0)%Z else (0, 0)%Z.
Definition chain : ph gauss Qfield nat nat :=
  {| base := {| size := 6; hop := [(V3 (-1) 0 0, springs 5 0); (vzero, springs 7 7); (V3 1 0 0, springs 0 5)]; flatR := false; cells := [vzero];
       Nsc := None; divide_ndegen := false; rydberg := false |};
     natoms := 2; M := [Q2Qc 2%Q; Q2Qc 3%Q] : list Qfield; names := [10; 11]; r_at := 0; a_ := unit; ZQ_ := Some [20; 21] |}.
Definition chain_heap : @heap Qfield := [[(zero, zero, zero); (Q2Qc (1 # 3)%Q, zero, zero)]].

Example chain_ok : well_formed chain_heap chain /\ NoDup (map fst (hop (base chain))).
Proof. split; [repeat split|]. cbn. repeat constructor; cbn; intuition discriminate. Qed.

Example C58_example :
  let '(p', h') := get_ok (chain, chain_heap) (ph_supercell (Mult 2) (Mult 1) (Mult 1) chain chain_heap) in
  is_ok (ph_supercell (Mult 2) (Mult 1) (Mult 1) chain chain_heap) = true /\
  natoms p' = 4 /\ map (fun x => this (fst (fst x))) (positions h' p') = [0; 1 # 3; 1; 4 # 3]%Q /\
  hopping (hop (base p')) vzero 0 3 = (7, 0)%Z /\ hopping (hop (base p')) vzero 3 6 = (5, 0)%Z /\ hopping (hop (base p')) (V3 (-1) 0 0) 0 9 = (5, 0)%Z.
Proof. vm_compute. auto 10. Qed.

(** For a left-handed supercell, the lattice vectors of the unit cell come back
    with the wrong sign, but the atoms and lattice vectors R do not. *)
Theorem C58_left_handed_refuted : exists (p p' p'' : ph gauss Qfield nat nat) h h' h'',
  well_formed h p /\ NoDup (map fst (hop (base p))) /\
  ph_supercell (Vect (V3 0 1 0)) (Vect (V3 1 0 0)) (Mult 1) p h = Ok (p', h') /\ ph_unit_cell p' = Ok p'' /\ h'' = h' /\
  map fst (hop (base p'')) = map fst (hop (base p)) /\
  bond h'' p'' (V3 1 0 0) 0 0 <> bond h p (V3 1 0 0) 0 0.
Proof.
  set (r := get_ok (chain, chain_heap) (ph_supercell (Vect (V3 0 1 0)) (Vect (V3 1 0 0)) (Mult 1) chain chain_heap)).
  exists chain, (fst r), (get_ok chain (ph_unit_cell (fst r))), chain_heap, (snd r), (snd r).
  split; [exact (proj1 chain_ok)|]. split; [exact (proj2 chain_ok)|]. split; [rewrite <- surjective_pairing; apply ok_get; vm_compute; reflexivity|].
  split; [apply ok_get; vm_compute; reflexivity|]. split; [reflexivity|]. split; [vm_compute; reflexivity|]. vm_compute. discriminate.
Qed.
Print Assumptions C58_left_handed_refuted.

(** Relabelling atoms. *)
Theorem C58_order {F : num} {K : ofield} {L ZQ : Type} order (p : ph F K L ZQ) h : well_formed h p -> Permutation order (seq 0 (natoms p)) ->
  exists p' r, ph_order_atoms order p h = Ok (p', h ++ [r]) /\ well_formed (h ++ [r]) p' /\ natoms p' = natoms p /\ a_ p' = a_ p /\ r_at p' = length h /\
  map fst (hop (base p')) = map fst (hop (base p)) /\
  forall i j k l R, nth_error order i = Some k -> nth_error order j = Some l ->
    (forall x y, x < 3 -> y < 3 -> hopping (hop (base p')) R (3 * i + x) (3 * j + y) = hopping (hop (base p)) R (3 * k + x) (3 * l + y)) /\
    bond (h ++ [r]) p' R i j = bond h p R k l /\ same_atom p' p i k.
Proof. exact (ph_order_spec order p h). Qed.
Print Assumptions C58_order.

Example C58_order_example : let '(p', h') := get_ok (chain, chain_heap) (ph_order_atoms [1; 0] chain chain_heap) in
  is_ok (ph_order_atoms [1; 0] chain chain_heap) = true /\ names p' = [11; 10] /\ hopping (hop (base p')) (V3 1 0 0) 0 3 = (5, 0)%Z /\
  is_ok (ph_order_atoms [0; 2] chain chain_heap) = false /\ is_ok (ph_order_atoms [0] chain chain_heap) = false.
Proof. vm_compute. auto 10. Qed.

(** Shifting atoms by lattice vectors: the selected atoms move; force constants
    stay with the same bond vectors; objects with own positions do not notice. *)
Theorem C58_shift {F : num} {K : ofield} {L ZQ : Type} s S (p : ph F K L ZQ) h : well_formed h p -> 0 < natoms p ->
  let '(p', h') := ph_shift_atoms s S p h in
  well_formed h' p' /\ natoms p' = natoms p /\ a_ p' = a_ p /\
  (forall k, k < natoms p -> same_atom p' p k k /\ atom_at h' p' k = if s k then cadd (atom_at h p k) (lattice (a_ p) S) else atom_at h p k) /\
  (forall p2 : ph F K L ZQ, r_at p2 <> r_at p -> positions h' p2 = positions h p2) /\
  forall k l R, k < natoms p -> l < natoms p ->
    exists R', bond h p R' k l = bond h' p' R k l /\
    forall x y, x < 3 -> y < 3 -> hopping (hop (base p')) R (3 * k + x) (3 * l + y) = hopping (hop (base p)) R' (3 * k + x) (3 * l + y).
Proof. exact (ph_shift_spec s S p h). Qed.
Print Assumptions C58_shift.

Example C58_shift_example : let '(p', h') := ph_shift_atoms (fun k => k =? 1) (V3 (-1) 0 0) chain chain_heap in
  map (fun x => this (fst (fst x))) (positions h' p') = [0; -2 # 3]%Q /\ hopping (hop (base p')) vzero 0 3 = (5, 0)%Z /\ hopping (hop (base p')) (V3 1 0 0) 0 3 = (7, 0)%Z.
Proof. vm_compute. auto. Qed.

(** A unit cell shares positions with its supercell: shifting atoms of the former
    moves atoms of the latter. *)
Theorem C58_alias_refuted : exists (p p' p'' : ph gauss Qfield nat nat) h h',
  ph_supercell (Mult 2) (Mult 1) (Mult 1) p h = Ok (p', h') /\ ph_unit_cell p' = Ok p'' /\
  let '(_, h'') := ph_shift_atoms (fun _ => true) (V3 1 0 0) p'' h' in positions h'' p' <> positions h' p'.
Proof.
  set (r := get_ok (chain, chain_heap) (ph_supercell (Mult 2) (Mult 1) (Mult 1) chain chain_heap)).
  exists chain, (fst r), (get_ok chain (ph_unit_cell (fst r))), chain_heap, (snd r).
  split; [rewrite <- surjective_pairing; apply ok_get; vm_compute; reflexivity|]. split; [apply ok_get; vm_compute; reflexivity|]. vm_compute. discriminate.
Qed.
Print Assumptions C58_alias_refuted.

(** standardize: force constants are unchanged, lattice vectors are sorted;
    optional symmetrization takes the mean of D(R) and the transpose of D(-R). *)
Theorem C58_standardize {F : num} {K : ofield} {L ZQ : Type} (p : ph F K L ZQ) R a b : a < size (base p) -> b < size (base p) ->
  hopping (hop (base (ph_standardize (fun x => x) None false p))) R a b = hopping (hop (base p)) R a b.
Proof. exact (standardize_hopping (base p) R a b). Qed.
Print Assumptions C58_standardize.

Theorem C58_standardize_sorted {F : num} {K : ofield} {L ZQ : Type} half small sym (p : ph F K L ZQ) :
  Sorted.StronglySorted vlt (map fst (hop (base (ph_standardize half small sym p)))).
Proof. exact (standardize_sorted half small sym (base p)). Qed.
Print Assumptions C58_standardize_sorted.

Theorem C58_symmetrize {F : num} {K : ofield} {L ZQ : Type} half (p : ph F K L ZQ) R a b : half n0 = n0 -> a < size (base p) -> b < size (base p) ->
  (forall x : F, nconj x = x) ->
  hopping (hop (base (ph_standardize half None true p))) R a b = half (nadd (hopping (hop (base p)) R a b) (hopping (hop (base p)) (vopp R) b a)).
Proof. exact (fun H0 Ha Hb Hc => eq_trans (symmetrize_hopping half (base p) R a b H0 Ha Hb) (f_equal (fun x => half (nadd _ x)) (Hc _))). Qed.
Print Assumptions C58_symmetrize.

Example C58_standardize_example :
  map fst (hop (base (ph_standardize (fun x => x) None false (fst (ph_shift_atoms (fun k => k =? 1) (V3 1 0 0) chain chain_heap))))) =
    [V3 (-2) 0 0; V3 (-1) 0 0; V3 1 0 0; V3 2 0 0].
Proof. vm_compute. reflexivity. Qed.
