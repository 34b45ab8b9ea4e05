(** Model of elphmod/bravais.py: Wigner-Seitz lattice vectors in three
    dimensions and the mapping of mesh data onto them. *)
From Verif Require Import Common LatModel MPIModel VorModel Num.
Local Open Scope Z_scope.

(** ** wigner: bravais.py:1228-1342

    Simplification: the length of the bond from orbital [i] to orbital [j] in
    the cell [R] (lines 1292-1299: cell dimensions [at], positions [tau],
    [tau2], square root, all in floating-point arithmetic) is any function
    [len] to the rational numbers. *)
(** An entry of the dictionary: degeneracies and lengths for all pairs. *)
Notation wentry := (nat -> nat -> nat * Q)%type.

Section Wigner.
  Context (nr : vec) (sgn nsc : Z) (nb1 nb2 : nat) (len : vec -> nat -> nat -> Q) (eps : Q).

  (** Lines 1268-1270. *)
  Definition ws_mesh : list vec :=
    flat_map (fun m1 => flat_map (fun m2 => map (fun m3 => V3 m1 m2 m3)
      (zrange 0 (vz nr))) (zrange 0 (vy nr))) (zrange 0 (vx nr)).

  (** Lines 1278-1286, with [supercells] from line 1262. *)
  Definition copies (m : vec) : list vec :=
    let supercells := zrange (- nsc) nsc in
    flat_map (fun M1 => flat_map (fun M2 => map (fun M3 =>
      vscale sgn (V3 (M1 * vx nr + vx m) (M2 * vy nr + vy m) (M3 * vz nr + vz m)))
      supercells) supercells) supercells.

  Definition wzero : wentry := fun _ _ => (0%nat, 0%Q).

  Definition wupd (c : wentry) (i j : nat) (x : nat * Q) : wentry :=
    fun i' j' => if ((i' =? i) && (j' =? j))%nat then x else c i' j'.

  (** Lines 1308-1314. *)
  Fixpoint wset (data : list (vec * wentry)) (R : vec) (i j : nat) (x : nat * Q) : list (vec * wentry) :=
    match data with
    | [] => [(R, wupd wzero i j x)]
    | (R', c) :: data => if veqb R' R then (R', wupd c i j x) :: data else (R', c) :: wset data R i j x
    end.

  (** Lines 1300 and 1302. *)
  Definition ws_length (m : vec) (i j : nat) : res Q :=
    match map (fun R => len R i j) (copies m) with
    | [] => Raise ValueError
    | x :: l => Ok (qmin x l)
    end.

  Definition ws_selected (m : vec) (i j : nat) (length : Q) : list vec :=
    filter (fun R => negb (Qle_bool eps (Qabs (len R i j - length)))) (copies m).

  (** Lines 1295-1314. *)
  Definition pair_step (m : vec) (data : res (list (vec * wentry))) (ij : nat * nat) : res (list (vec * wentry)) :=
    let (i, j) := ij in
    do data <- data ;;
    do l <- ws_length m i j ;;
    let selected := ws_selected m i j l in
    Ok (fold_left (fun data R => wset data R i j (length selected, l)) selected data).

  (** The dictionary of one process. *)
  Definition wigner_rank (nproc rank : nat) : res (list (vec * wentry)) :=
    fold_left (fun data m => fold_left (pair_step m) (list_prod (seq 0 nb1) (seq 0 nb2)) data)
      (round_robin 1 nproc rank ws_mesh) (Ok []).

  (** Lines 1316-1337: all processes gather all entries, in rank order. *)
  Definition wigner (nproc : nat) : res (list (vec * wentry)) :=
    fold_left (fun all rank =>
      do all <- all ;; do data <- wigner_rank nproc rank ;; Ok (all ++ data)) (seq 0 nproc) (Ok []).
End Wigner.

(** ** short_range_model: bravais.py:1344-1409

    [data i j m x y]: orbitals or atoms [i], [j], mesh point [m], Cartesian
    directions [x], [y] (below [ncart]). [divn a n] is [a / n] for n > 0. [bound]
    are the lattice vectors with degeneracies from [wigner] (line 1378). The
    lattice vectors are distributed among processes in contiguous slices
    (1380-1386) and gathered (1404-1407). *)
Section Short_range.
  Context {F : num}.

  Definition mesh_index (nr : vec) (sgn : Z) (R : vec) : vec :=
    V3 (sgn * vx R mod vx nr) (sgn * vy R mod vy nr) (sgn * vz R mod vz nr).

  (** Lines 1387-1402; the indices of the matrix are [i * ncart + x]. *)
  Definition short_const (divn : F -> nat -> F) (divide_ndegen : bool) (nr : vec) (sgn : Z) (ncart : nat)
      (data : nat -> nat -> vec -> nat -> nat -> F) (R : vec) (ndegen : nat -> nat -> nat) (a b : nat) : F :=
    let i := (a / ncart)%nat in
    let j := (b / ncart)%nat in
    let tmp := data i j (mesh_index nr sgn R) (a mod ncart)%nat (b mod ncart)%nat in
    if divide_ndegen then
      if (ndegen i j =? 0)%nat then n0 else divn tmp (ndegen i j)
    else tmp.

  Definition short_range_model (divn : F -> nat -> F) (divide_ndegen : bool) (nr : vec) (sgn nsc : Z)
      (nbasis ncart : nat) (len : vec -> nat -> nat -> Q) (eps : Q)
      (data : nat -> nat -> vec -> nat -> nat -> F) (nproc : nat) : res (list (vec * (nat -> nat -> F))) :=
    do bound <- wigner nr sgn nsc nbasis nbasis len eps nproc ;;
    do const <- scatter_compute_gather (fun x : vec * wentry =>
      short_const divn divide_ndegen nr sgn ncart data (fst x) (fun i j => fst (snd x i j)))
      (Z.of_nat nproc) bound ;;
    Ok (combine (map fst bound) const).
End Short_range.
