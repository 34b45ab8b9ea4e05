(** Model of elphmod/bravais.py: symmetry-equivalent points of a uniform mesh. *)
From Verif Require Import Common LatModel.
Local Open Scope Z_scope.

Definition pt : Type := Z * Z.

Definition pt_eq_dec (p q : pt) : {p = q} + {p <> q}.
Proof. decide equality; apply Z.eq_dec. Defined.

Definition pt_mem (p : pt) (l : list pt) : bool := if in_dec pt_eq_dec p l then true else false.

(** ** images: bravais.py:464-509 *)

(** Lines 486-491; other angles: no rotation. *)
Definition rot (angle : Z) (k : pt) : pt :=
  let (k1, k2) := k in
  if angle =? 60 then (- k2, k1 + k2)
  else if angle =? 90 then (- k2, k1)
  else if angle =? 120 then (k1 - k2, k1)
  else (k1, k2).

Definition pmod (nk : Z) (k : pt) : pt := (fst k mod nk, snd k mod nk).

(** The loop of lines 483-504; [None] if it needs more than [fuel] iterations.
    Sets are modelled as lists. *)
Fixpoint images_loop (fuel : nat) (angle nk : Z) (k : pt) (points : list pt) : option (list pt) :=
  match fuel with
  | O => None
  | S fuel =>
    let k := pmod nk (rot angle k) in
    if pt_mem k points then Some points else images_loop fuel angle nk k (points ++ [k])
  end.

(** Lines 506-509. *)
Definition reflect (points : list pt) : list pt :=
  points ++ filter (fun k => negb (pt_mem k points)) (map (fun k => (snd k, fst k)) points).

(** Seven iterations suffice (C19_terminates). [nk = 0] raises
    ZeroDivisionError. *)
Definition images (k : pt) (nk angle : Z) : res (list pt) :=
  if nk =? 0 then Raise ZeroDivisionError
  else match images_loop 7 angle nk k [] with
       | Some points => Ok (reflect points)
       | None => Raise StopIteration
       end.

(** ** irreducibles: bravais.py:511-552 *)

(** Lines 533-536. *)
Definition mesh2 (nk : Z) : list pt := list_prod (zrange 0 nk) (zrange 0 nk).

(** Lines 542-546. *)
Definition irr_step (nk angle : Z) (irreducible : res (list pt)) (k : pt) : res (list pt) :=
  do irreducible <- irreducible ;;
  if pt_mem k irreducible then
    do im <- images k nk angle ;;
    let reducible := filter (fun q => if pt_eq_dec q k then false else true) im in
    Ok (filter (fun q => negb (pt_mem q reducible)) irreducible)
  else Ok irreducible.

Definition irreducibles (nk angle : Z) : res (list pt) :=
  fold_left (irr_step nk angle) (mesh2 nk) (Ok (mesh2 nk)).

(** ** symmetries: bravais.py:554-625 *)

(** A symmetry is a reflection across the y axis (after) a rotation by a
    multiple of 60 or 90 degrees. In the basis of mesh indices, with
    [a1, a2 = translations(180 - angle, angle0=0)], these are the integer maps
    below; that they agree with the Cartesian expressions of lines 583-596 is
    shown in SymProofs.v ([cartesian_rot], [cartesian_refl]). Rounding errors
    (and thus [int(round(...))]) are not modelled. Meant for the angles 60, 90
    and 120 degrees only. *)
Definition refl (angle : Z) (k : pt) : pt :=
  let (k1, k2) := k in
  if angle =? 60 then (- k1, k1 + k2)
  else if angle =? 90 then (- k1, k2)
  else (- k1, k2 - k1).

Fixpoint rot_n (angle : Z) (n : nat) (k : pt) : pt :=
  match n with O => k | S n => rot angle (rot_n angle n k) end.

(** Lines 579-608: the image of a mesh point under a symmetry. *)
Definition get_image (angle nk : Z) (sym : bool * nat) (k : pt) : pt :=
  let K := rot_n angle (snd sym) k in
  pmod nk (if fst sym then refl angle K else K).

(** Lines 612-618: order of the symmetries. *)
Definition syms (angle : Z) (unity : bool) : list (bool * nat) :=
  let n := if angle =? 90 then 4%nat else 6%nat in
  map (fun i => (false, i)) (if unity then seq 0 n else seq 1 (n - 1)) ++ map (fun i => (true, i)) (seq 0 n).

(** Data on the mesh; [None] stands for NaN. *)
Section Data.
  Context {V : Type} (eqV : V -> V -> bool).

  Definition data := pt -> option V.

  (** Line 602 with [epsilon = 0.0]: comparisons with NaN are false. *)
  Definition differ (x y : option V) : bool :=
    match x, y with Some x, Some y => negb (eqV x y) | _, _ => false end.

  (** [get_image] returns None if some point is mapped to different data. *)
  Definition fulfilled (angle nk : Z) (d : data) (sym : bool * nat) : bool :=
    forallb (fun k => negb (differ (d k) (d (get_image angle nk sym k)))) (mesh2 nk).

  (** ** complete: bravais.py:627-656 *)

  Definition update (d : data) (k : pt) (v : option V) : data :=
    fun q => if pt_eq_dec q k then v else d q.

  Definition isnan (x : option V) : bool := match x with None => true | Some _ => false end.

  (** Lines 651-652. *)
  Definition apply_sym (angle nk : Z) (irreducible : list pt) (d : data) (sym : bool * nat) : data :=
    fold_left (fun d k => update d (get_image angle nk sym k) (d k)) irreducible d.

  (** Lines 650-655; [symmetries] is a generator, so each symmetry is tested
      with the data completed so far. *)
  Fixpoint complete_loop (angle nk : Z) (irreducible : list pt) (l : list (bool * nat)) (d : data) : data :=
    match l with
    | [] => d
    | sym :: l =>
      if fulfilled angle nk d sym then
        let d := apply_sym angle nk irreducible d sym in
        if existsb (fun k => isnan (d k)) (mesh2 nk) then complete_loop angle nk irreducible l d else d
      else complete_loop angle nk irreducible l d
    end.

  (** The array is modified in place. *)
  Definition complete (angle nk : Z) (d : data) : data :=
    let irreducible := filter (fun k => negb (isnan (d k))) (mesh2 nk) in
    if (length irreducible =? length (mesh2 nk))%nat then d
    else complete_loop angle nk irreducible (syms angle false) d.
End Data.

(** ** complete_k: bravais.py:658-702 *)

Section CompleteK.
  Context {V : Type}.

  Definition mesh4 := pt -> pt -> option V.
  Definition update4 (m : mesh4) (q k : pt) (v : V) : mesh4 :=
    fun q' k' => if pt_eq_dec q' q then (if pt_eq_dec k' k then Some v else m q' k') else m q' k'.

  (** Lines 688-700: one irreducible q point [iq, q]. *)
  Definition complete_k_step (nq nk : Z) (wedge : nat -> pt -> V) (sym : bool * nat)
      (st : list pt * mesh4) (x : nat * pt) : list pt * mesh4 :=
    let (done, mesh) := st in
    let Q := get_image 60 nq sym (snd x) in
    if pt_mem Q done then st
    else (Q :: done,
          fold_left (fun m k => update4 m Q (get_image 60 nk sym k) (wedge (fst x) k)) (mesh2 nk) mesh).

  (** [sorted] of a set of mesh points. *)
  Definition sorted_points (nq : Z) (l : list pt) : list pt := filter (fun q => pt_mem q l) (mesh2 nq).

  (** All symmetries are fulfilled by constant data (lines 679-683).
      Uninitialized elements ([numpy.empty]) are None. *)
  Definition complete_k (nq nk : Z) (wedge : nat -> pt -> V) : res mesh4 :=
    do irr <- irreducibles nq 60 ;;
    let q := sorted_points nq irr in
    let enum := combine (seq 0 (length q)) q in
    Ok (snd (fold_left (fun st sym => fold_left (complete_k_step nq nk wedge sym) enum st)
               (syms 60 true) ([], fun _ _ => None))).
End CompleteK.
