(** Theorems about primitive lattice vectors (C31, C82). *)
From Coq Require Import Reals Lra.
From Verif Require Import Common CommonProofs GeoModel PrimModel PrimSpec PrimProofs.
Local Open Scope R_scope.

(** C31. In bohr units the caller's list is left alone; so are other arguments
    if no such list is given... *)
Theorem C31_unchanged_partial ibrav a b c cosbc cosac cosab celldm bohr r_cell cell_units :
  bohr = true \/ celldm = None ->
  snd (primitives ibrav a b c cosbc cosac cosab celldm bohr r_cell cell_units) = celldm.
Proof. exact (prim_unchanged ibrav a b c cosbc cosac cosab celldm bohr r_cell cell_units). Qed.
Print Assumptions C31_unchanged_partial.

(** ... but by default (in angstrom) its first element is changed for every
    lattice... *)
Theorem C31_changed_refuted ibrav a b c cosbc cosac cosab x l r_cell cell_units : x <> 0 ->
  snd (primitives ibrav a b c cosbc cosac cosab (Some (x :: l)) false r_cell cell_units) = Some (x * a0 :: l) /\ x * a0 :: l <> x :: l.
Proof. exact (prim_changed ibrav a b c cosbc cosac cosab x l r_cell cell_units). Qed.
Print Assumptions C31_changed_refuted.

(** ... so that a second call with the same list returns another lattice. *)
Theorem C31_twice_refuted : exists l A A',
  let call l := primitives 1 1 1 1 0 0 0 (Some l) false None None in
  fst (call l) = Ok A /\ match snd (call l) with Some l' => fst (call l') = Ok A' | None => False end /\ A <> A'.
Proof. exact prim_twice. Qed.
Print Assumptions C31_twice_refuted.

(** C82. Lengths and angles as documented, from traditional constants. *)
Theorem C82_traditional a b c cosbc cosac cosab : a <> 0 ->
  let cell ibrav := fst (primitives ibrav a b c cosbc cosac cosab None false None None) in
  (exists A, cell 1%Z = Ok A /\ cell_with A a a a 0 0 0) /\
  (exists A, cell 4%Z = Ok A /\ cell_with A a a c 0 0 (- 1 / 2)) /\
  (- 1 / 2 <= cosab <= 1 -> exists A, cell 5%Z = Ok A /\ cell_with A a a a cosab cosab cosab) /\
  (- 1 / 2 <= cosab <= 1 -> exists A, cell (-5)%Z = Ok A /\ cell_with A a a a cosab cosab cosab) /\
  (exists A, cell 6%Z = Ok A /\ cell_with A a a c 0 0 0) /\
  (exists A, cell 8%Z = Ok A /\ cell_with A a b c 0 0 0) /\
  (-1 <= cosab <= 1 -> exists A, cell 12%Z = Ok A /\ cell_with A a b c 0 0 cosab) /\
  (-1 <= cosac <= 1 -> exists A, cell (-12)%Z = Ok A /\ cell_with A a b c 0 cosac 0) /\
  (-1 < cosab < 1 -> 0 <= 1 + 2 * cosbc * cosac * cosab - cosbc * cosbc - cosac * cosac - cosab * cosab ->
    exists A, cell 14%Z = Ok A /\ cell_with A a b c cosbc cosac cosab).
Proof.
  exact (fun Ha => conj (trad1 a b c cosbc cosac cosab None None) (conj (trad4 a b c cosbc cosac cosab None None Ha)
    (conj (trad5 a b c cosbc cosac cosab None None) (conj (tradm5 a b c cosbc cosac cosab None None)
    (conj (trad6 a b c cosbc cosac cosab None None Ha) (conj (trad8 a b c cosbc cosac cosab None None Ha)
    (conj (trad12 a b c cosbc cosac cosab None None Ha) (conj (tradm12 a b c cosbc cosac cosab None None Ha)
    (trad14 a b c cosbc cosac cosab None None Ha))))))))).
Qed.
Print Assumptions C82_traditional.

(** The same from dimensionless constants, in bohr. *)
Theorem C82_celldm d0 d1 d2 d3 d4 d5 :
  let cell ibrav := fst (primitives ibrav 1 1 1 0 0 0 (Some [d0; d1; d2; d3; d4; d5]) true None None) in
  (exists A, cell 1%Z = Ok A /\ cell_with A d0 d0 d0 0 0 0) /\
  (exists A, cell 4%Z = Ok A /\ cell_with A d0 d0 (d0 * d2) 0 0 (- 1 / 2)) /\
  (- 1 / 2 <= d3 <= 1 -> exists A, cell 5%Z = Ok A /\ cell_with A d0 d0 d0 d3 d3 d3) /\
  (- 1 / 2 <= d3 <= 1 -> exists A, cell (-5)%Z = Ok A /\ cell_with A d0 d0 d0 d3 d3 d3) /\
  (exists A, cell 6%Z = Ok A /\ cell_with A d0 d0 (d0 * d2) 0 0 0) /\
  (exists A, cell 8%Z = Ok A /\ cell_with A d0 (d0 * d1) (d0 * d2) 0 0 0) /\
  (-1 <= d3 <= 1 -> exists A, cell 12%Z = Ok A /\ cell_with A d0 (d0 * d1) (d0 * d2) 0 0 d3) /\
  (-1 <= d4 <= 1 -> exists A, cell (-12)%Z = Ok A /\ cell_with A d0 (d0 * d1) (d0 * d2) 0 d4 0) /\
  (-1 < d5 < 1 -> 0 <= 1 + 2 * d3 * d4 * d5 - d3 * d3 - d4 * d4 - d5 * d5 ->
    exists A, cell 14%Z = Ok A /\ cell_with A d0 (d0 * d1) (d0 * d2) d3 d4 d5).
Proof.
  exact (conj (lv1 d0 d1 d2 d3 d4 d5 true None None) (conj (lv4 d0 d1 d2 d3 d4 d5 true None None)
    (conj (lv5 d0 d1 d2 d3 d4 d5 true None None) (conj (lvm5 d0 d1 d2 d3 d4 d5 true None None)
    (conj (lv6 d0 d1 d2 d3 d4 d5 true None None) (conj (lv8 d0 d1 d2 d3 d4 d5 true None None)
    (conj (lv12 d0 d1 d2 d3 d4 d5 true None None) (conj (lvm12 d0 d1 d2 d3 d4 d5 true None None)
    (lv14 d0 d1 d2 d3 d4 d5 true None None))))))))).
Qed.
Print Assumptions C82_celldm.

(** Face-, body- and base-centered lattices: the lattice of the corresponding
    simple cell together with the centers of its faces, its body or base. *)
Theorem C82_centered d0 d1 d2 d3 d4 d5 :
  let cell ibrav := fst (primitives ibrav 1 1 1 0 0 0 (Some [d0; d1; d2; d3; d4; d5]) true None None) in
  let is_centered simple ibrav centers := exists A B, cell simple = Ok A /\ cell ibrav = Ok B /\ centered A B centers in
  let h := 1 / 2 in
  let body := [(h, h, h)] in
  let faces := [(0, h, h); (h, 0, h); (h, h, 0)] in
  is_centered 1%Z 2%Z faces /\ is_centered 1%Z 3%Z body /\ is_centered 1%Z (-3)%Z body /\ is_centered 6%Z 7%Z body /\
  is_centered 8%Z 9%Z [(h, h, 0)] /\ is_centered 8%Z (-9)%Z [(h, h, 0)] /\ is_centered 8%Z 91%Z [(0, h, h)] /\
  is_centered 8%Z 10%Z faces /\ is_centered 8%Z 11%Z body /\ is_centered 12%Z 13%Z [(h, 0, h)] /\ is_centered (-12)%Z (-13)%Z [(h, h, 0)].
Proof.
  exact (conj (center2 d0 d1 d2 d3 d4 d5 true None None) (conj (center3 d0 d1 d2 d3 d4 d5 true None None) (conj (centerm3 d0 d1 d2 d3 d4 d5 true None None)
    (conj (center7 d0 d1 d2 d3 d4 d5 true None None) (conj (center9 d0 d1 d2 d3 d4 d5 true None None) (conj (centerm9 d0 d1 d2 d3 d4 d5 true None None)
    (conj (center91 d0 d1 d2 d3 d4 d5 true None None) (conj (center10 d0 d1 d2 d3 d4 d5 true None None) (conj (center11 d0 d1 d2 d3 d4 d5 true None None)
    (conj (center13 d0 d1 d2 d3 d4 d5 true None None) (centerm13 d0 d1 d2 d3 d4 d5 true None None))))))))))).
Qed.
Print Assumptions C82_centered.

(** A triclinic cell that meets the conditions, and an unknown lattice. *)
Example C82_example : (-1 < 1 / 5 < 1 /\ 0 <= 1 + 2 * (1 / 3) * (1 / 4) * (1 / 5) - 1 / 3 * (1 / 3) - 1 / 4 * (1 / 4) - 1 / 5 * (1 / 5)) /\
  fst (primitives 99 1 1 1 0 0 0 None false None None) = Raise SystemExit /\
  fst (primitives 8 1 1 1 0 0 0 (Some [1; 1]) true None None) = Raise IndexError.
Proof. split; [lra|split; reflexivity]. Qed.
