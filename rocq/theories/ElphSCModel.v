(** Model of elphmod/elph.py:394-551, [Model.supercell]. The supercells of the
    electron and phonon models, which are part of the result, are the subject of
    ElModel.v and PhCellModel.v; only their sizes occur here. *)
From Verif Require Import Common MPIModel LatModel Num ElModel ElphModel.
Local Open Scope nat_scope.

Section ElphSC.
  Context {F : num} (P : Type).

  (** Lines 452-454 and 456-458: [to_supercell(R + cells[i], supercell)] for all
      lattice vectors [R] *)
  Fixpoint map_vectors (sc : supercell_info) (c : vec) (R : list vec) : res (list (vec * nat)) :=
    match R with
    | [] => Ok []
    | v :: R => do x <- to_supercell (vadd v c) sc ;; do l <- map_vectors sc c R ;; Ok (x :: l)
    end.

  Definition in_slice (n i x : nat) : bool := (i * n <=? x) && (x <? i * n + n).

  (** Lines 479-486: the slice for displacements in cell [j], orbitals in cell [i]
      and orbitals in cell [l] is assigned. *)
  Definition set_cube (nph nel : nat) (m : @slab F) (j i l : nat) (y : @slab F) : @slab F := fun x a b =>
    if in_slice nph j x && in_slice nel i a && in_slice nel l b then y (x - j * nph) (a - i * nel) (b - l * nel)
    else m x a b.
  Definition assign_cube (nph nel i : nat) (const : @dict F) (gx : (vec * nat) * (vec * nat) * @slab F) : @dict F :=
    let '(G, K, y) := gx in
    let R := (fst G, fst K) in
    let old := match pget const R with Some m => m | None => fun _ _ _ => n0 end in
    pset const R (set_cube nph nel old (snd G) i (snd K) y).

  (** The items of the double loop of lines 462-465: targets and coupling *)
  Definition targets (s : @elph F P) (G K : list (vec * nat)) : list ((vec * nat) * (vec * nat) * @slab F) :=
    flat_map (fun g => map (fun k => (nth g G (vzero, 0), nth k K (vzero, 0), fun x => data P s g x k))
      (seq 0 (length (Rk P s)))) (seq 0 (length (Rg P s))).

  (** Lines 451-486 for one cell and lines 447-486 for one process *)
  Definition map_cell (sc : supercell_info) (s : @elph F P) (const : @dict F) (ic : nat * vec) : res (@dict F) :=
    do G <- map_vectors sc (snd ic) (Rg P s) ;;
    do K <- map_vectors sc (snd ic) (Rk P s) ;;
    Ok (fold_left (assign_cube (nph P s) (nel P s) (fst ic)) (targets s G K) const).
  Fixpoint map_cells (sc : supercell_info) (s : @elph F P) (l : list (nat * vec)) (const : @dict F) : res (@dict F) :=
    match l with
    | [] => Ok const
    | ic :: l => do const <- map_cell sc s const ic ;; map_cells sc s l const
    end.
  Definition own_cells (nproc rank : nat) (sc : supercell_info) : list (nat * vec) :=
    round_robin 0 nproc rank (combine (seq 0 (length (sc_cells sc))) (sc_cells sc)).

  Fixpoint all_processes {A} (f : nat -> res A) (ranks : list nat) : res (list A) :=
    match ranks with
    | [] => Ok []
    | r :: ranks => do x <- f r ;; do l <- all_processes f ranks ;; Ok (x :: l)
    end.

  (** Lines 508-551: the contributions of all processes of a node, then of all
      nodes, are added up. Returns [elph.cells], too. *)
  Definition elph_supercell (nproc : nat) (a1 a2 a3 : narg) (s : @elph F P) : res (list vec * @elph F P) :=
    do sc <- supercell a1 a2 a3 ;;
    do consts <- all_processes (fun r => map_cells sc s (own_cells nproc r sc) []) (seq 0 nproc) ;;
    let G := sorted_set (flat_map (map (fun x => fst (fst x))) consts) in
    let K := sorted_set (flat_map (map (fun x => snd (fst x))) consts) in
    Ok (sc_cells sc,
      {| nel := length (sc_cells sc) * nel P s; natoms := length (sc_cells sc) * natoms P s; Rg := G; Rk := K;
         data := fun g x k a b =>
           match nth_error G g, nth_error K k with
           | Some R, Some Q => nsum (fun const => match pget const (R, Q) with Some m => m x a b | None => n0 end) consts
           | _, _ => n0
           end;
         caches := fun _ => None; gqn := length K; Rk0 := origin K |}).

  (** ** The variant with sparse matrices *)

  (** Lines 469-474: [gs[X + x][A:A + nel, B:B + nel] += data[g, x, k].real] *)
  Definition add_cube (re : F -> F) (nph nel i : nat) (gs : @slab F) (gx : (vec * nat) * (vec * nat) * @slab F) : @slab F :=
    let '(G, K, y) := gx in fun x a b =>
    if in_slice nph (snd G) x && in_slice nel i a && in_slice nel (snd K) b
    then nadd (gs x a b) (re (y (x - snd G * nph) (a - i * nel) (b - snd K * nel))) else gs x a b.
  Definition add_cell (re : F -> F) (sc : supercell_info) (s : @elph F P) (gs : @slab F) (ic : nat * vec) : res (@slab F) :=
    do G <- map_vectors sc (snd ic) (Rg P s) ;;
    do K <- map_vectors sc (snd ic) (Rk P s) ;;
    Ok (fold_left (add_cube re (nph P s) (nel P s) (fst ic)) (targets s G K) gs).
  Fixpoint add_cells (re : F -> F) (sc : supercell_info) (s : @elph F P) (l : list (nat * vec)) (gs : @slab F) : res (@slab F) :=
    match l with
    | [] => Ok gs
    | ic :: l => do gs <- add_cell re sc s gs ic ;; add_cells re sc s l gs
    end.
  (** Lines 427-437 and 491-496: every process starts from the long-range part on
      the diagonal, [lr x] being the real part of [elph.g_lr()[x]] in the supercell;
      [comm.allreduce] adds up the matrices of all processes. *)
  Definition elph_supercell_sparse (re : F -> F) (lr : option (nat -> F)) (nproc : nat) (a1 a2 a3 : narg) (s : @elph F P)
      : res (@slab F) :=
    do sc <- supercell a1 a2 a3 ;;
    let start : slab := fun x a b => match lr with Some f => if a =? b then f x else n0 | None => n0 end in
    do l <- all_processes (fun r => add_cells re sc s (own_cells nproc r sc) start) (seq 0 nproc) ;;
    Ok (fun x a b => nsum (fun gs => gs x a b) l).
End ElphSC.
