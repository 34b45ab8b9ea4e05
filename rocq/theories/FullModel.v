(** Model of dispersion.dispersion_full and dispersion_full_nosym:
    dispersion.py:218-409. The matrices to be diagonalized enter via their
    eigenvalues and eigenvectors at the points of the mesh, [ev k i] and
    [evec k r i]. What a single process (rank 0) does is modelled; the broadcast
    of the final arrays is not (see MPIModel.v). *)
From Verif Require Import Common LatModel SymModel BandModel.
Local Open Scope Z_scope.

(** Line 227: the sorted list of irreducible points; element n is [k[n]]. *)
Definition point (k : list pt) (n : nat) : pt := nth n k (0, 0).

(** Lines 235-236 *)
Definition on_main_path (k : list pt) (n : nat) : bool := fst (point k n) =? 0.

(** Lines 238-243; for any other angle, the function is not defined. *)
Definition on_side_path (angle : Z) (k : list pt) (n m : nat) : bool :=
  if (angle =? 60) || (angle =? 90) then snd (point k m) =? snd (point k n)
  else snd (point k m) - fst (point k m) =? snd (point k n) - fst (point k n).

(** The arrays [o], [v] and [V]; a row of [o = np.empty(...)] that has not been
    assigned is None. *)
Record arrays := Arrays { ar_o : nat -> option (list nat); ar_v : nat -> nat -> Q; ar_V : nat -> nat -> nat -> cplx }.

Definition set_row {A} (f : nat -> A) (m : nat) (x : A) : nat -> A := fun n => if (n =? m)%nat then x else f n.

(** [l[index]] for an array of indices, e.g., [M[N]] *)
Definition take (l index : list nat) : list nat := map (fun i => nth i l 0%nat) index.

(** Lines 293-299 *)
Definition side_step (vectors : bool) (N : list nat) (st : arrays) (mM : nat * list nat) : arrays :=
  let (m, M) := mM in
  let om := take M N in
  Arrays (set_row (ar_o st) m (Some om)) (set_row (ar_v st) m (fun i => ar_v st m (nth i om 0%nat)))
    (if vectors then set_row (ar_V st) m (fun r i => ar_V st m r (nth i om 0%nat)) else ar_V st).

(** Lines 288-299 for one point n of the main path with the row N *)
Definition main_step (angle : Z) (k : list pt) (bands : nat) (vectors : bool) (dv : option Q) (eps : Q)
    (st : res arrays) (nN : nat * list nat) : res arrays :=
  do st <- st ;;
  let (n, N) := nN in
  let side_path := filter (on_side_path angle k n) (seq 0 (length k)) in
  do side_order <- band_order (length side_path) bands (fun i => ar_v st (nth i side_path 0%nat))
    (fun i => ar_V st (nth i side_path 0%nat)) false dv eps ;;
  Ok (fold_left (side_step vectors N) (combine side_path side_order) st).

(** Lines 278-301 *)
Definition order_paths (angle : Z) (k : list pt) (bands : nat) (vectors by_mean : bool) (dv : option Q) (eps : Q)
    (st : arrays) : res arrays :=
  if (angle =? 60) || (angle =? 90) || (angle =? 120) then
    let main_path := filter (on_main_path k) (seq 0 (length k)) in
    do main_order <- band_order (length main_path) bands (fun i => ar_v st (nth i main_path 0%nat))
      (fun i => ar_V st (nth i main_path 0%nat)) by_mean dv eps ;;
    fold_left (main_step angle k bands vectors dv eps) (combine main_path main_order) (Ok st)
  else Raise NameError.

(** Arrays on the mesh; elements that have not been assigned are None. *)
Record full := Full { v_mesh : @data (nat -> Q); V_mesh : @data (nat -> nat -> cplx); o_mesh : @data (list nat) }.

(** Lines 327-336 for one irreducible point; without [vectors] or [order], the
    respective array does not exist and is represented by one without values. *)
Definition fill_step (nk angle : Z) (vectors order : bool) (st : arrays) (mesh : res full) (x : nat * pt) : res full :=
  do mesh <- mesh ;;
  do im <- images (snd x) nk angle ;;
  Ok (fold_left (fun mesh K => Full (update (v_mesh mesh) K (Some (ar_v st (fst x))))
    (if vectors then update (V_mesh mesh) K (Some (ar_V st (fst x))) else V_mesh mesh)
    (if order then update (o_mesh mesh) K (ar_o st (fst x)) else o_mesh mesh)) im mesh).

(** Lines 218-359 *)
Definition dispersion_full (nk angle : Z) (bands : nat) (ev : pt -> nat -> Q) (evec : pt -> nat -> nat -> cplx)
    (vectors order by_mean : bool) (dv : option Q) (eps : Q) : res full :=
  do irr <- irreducibles nk angle ;;
  let k := sorted_points nk irr in
  let st := Arrays (fun _ => None) (fun n => ev (point k n)) (fun n => evec (point k n)) in
  do st <- (if order then order_paths angle k bands vectors by_mean dv eps st else Ok st) ;;
  fold_left (fill_step nk angle vectors order st) (combine (seq 0 (length k)) k)
    (Ok (Full (fun _ => None) (fun _ => None) (fun _ => None))).

(** Lines 361-409. The second argument of the result of [v[k1, k2, o[k1, k2]]]
    with an uninitialized row is not defined: None. *)
Definition dispersion_full_nosym (nk angle : Z) (bands : nat) (ev : pt -> nat -> Q) (evec : pt -> nat -> nat -> cplx)
    (vectors order by_mean : bool) (dv : option Q) (eps : Q) : res full :=
  let V k := if vectors then Some (evec k) else None in
  if order then
    do f <- dispersion_full nk angle bands ev evec false true by_mean dv eps ;;
    Ok (Full (fun k => match o_mesh f k with Some o => Some (fun i => ev k (nth i o 0%nat)) | None => None end)
             (fun k => match o_mesh f k, V k with Some o, Some V => Some (fun r i => V r (nth i o 0%nat)) | _, _ => None end)
             (o_mesh f))
  else Ok (Full (fun k => Some (ev k)) V (fun _ => None)).
