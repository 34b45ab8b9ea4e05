(** Model of elphmod/bravais.py: supercells. *)
From Verif Require Import Common.
Local Open Scope Z_scope.

(** ** Integer vectors (NumPy integer arrays and tuples of length 3) *)
Record vec := V3 { vx : Z; vy : Z; vz : Z }.

Definition vec_eq_dec (u v : vec) : {u = v} + {u <> v}.
Proof. decide equality; apply Z.eq_dec. Defined.

Definition veqb (u v : vec) : bool := if vec_eq_dec u v then true else false.

Definition vzero : vec := V3 0 0 0.
Definition vadd (u v : vec) : vec := V3 (vx u + vx v) (vy u + vy v) (vz u + vz v).
Definition vopp (u : vec) : vec := V3 (- vx u) (- vy u) (- vz u).
Definition vsub (u v : vec) : vec := V3 (vx u - vx v) (vy u - vy v) (vz u - vz v).
Definition vscale (n : Z) (u : vec) : vec := V3 (n * vx u) (n * vy u) (n * vz u).

(** [np.dot], [np.cross] *)
Definition dot (u v : vec) : Z := vx u * vx v + vy u * vy v + vz u * vz v.
Definition cross (u v : vec) : vec :=
  V3 (vy u * vz v - vz u * vy v) (vz u * vx v - vx u * vz v) (vx u * vy v - vy u * vx v).

(** Python's [range(lo, hi)] *)
Definition zrange (lo hi : Z) : list Z :=
  map (fun i => lo + Z.of_nat i) (seq 0 (Z.to_nat (hi - lo))).

(** ** supercell: bravais.py:372-435 *)

(** An argument is an integer or a sequence of three (lines 394-396). *)
Inductive narg := Mult (n : Z) | Vect (v : vec).

Definition arg1 (a : narg) : vec := match a with Mult n => V3 n 0 0 | Vect v => v end.
Definition arg2 (a : narg) : vec := match a with Mult n => V3 0 n 0 | Vect v => v end.
Definition arg3 (a : narg) : vec := match a with Mult n => V3 0 0 n | Vect v => v end.

Record supercell_info := {
  sc_N : Z;
  sc_N1 : vec; sc_N2 : vec; sc_N3 : vec;
  sc_B1 : vec; sc_B2 : vec; sc_B3 : vec;
  sc_cells : list vec
}.

(** Lines 413-416. *)
Definition corners (N1 N2 N3 : vec) : list vec :=
  flat_map (fun n1 => flat_map (fun n2 => map (fun n3 =>
    vadd (vadd (vscale n1 N1) (vscale n2 N2)) (vscale n3 N3))
    (zrange 0 2)) (zrange 0 2)) (zrange 0 2).

(** [corners.min(axis=0)] and [corners.max(axis=0)] of a nonempty list, one
    axis at a time. *)
Definition min_list (l : list Z) : Z :=
  match l with [] => 0 | x :: l => fold_left Z.min l x end.
Definition max_list (l : list Z) : Z :=
  match l with [] => 0 | x :: l => fold_left Z.max l x end.

(** [0 <= np.dot(R, B) < N] *)
Definition inside (N : Z) (B R : vec) : bool := (0 <=? dot R B) && (dot R B <? N).

(** Lines 418-431. *)
Definition cells_in (N : Z) (N1 N2 N3 B1 B2 B3 : vec) : list vec :=
  let c := corners N1 N2 N3 in
  let range f := zrange (min_list (map f c)) (max_list (map f c) + 1) in
  flat_map (fun n1 => flat_map (fun n2 => flat_map (fun n3 =>
    let R := V3 n1 n2 n3 in
    if inside N B1 R && inside N B2 R && inside N B3 R then [R] else [])
    (range vz)) (range vy)) (range vx).

(** The assertion of line 431 is evaluated on process 0 only; the cells are
    then broadcast, so that all processes return the same. *)
Definition supercell (a1 a2 a3 : narg) : res supercell_info :=
  let N1 := arg1 a1 in let N2 := arg2 a2 in let N3 := arg3 a3 in
  let N := dot N1 (cross N2 N3) in
  let B1 := vscale (Z.sgn N) (cross N2 N3) in
  let B2 := vscale (Z.sgn N) (cross N3 N1) in
  let B3 := vscale (Z.sgn N) (cross N1 N2) in
  let N := Z.abs N in
  let cells := cells_in N N1 N2 N3 B1 B2 B3 in
  if Z.of_nat (length cells) =? N then
    Ok {| sc_N := N; sc_N1 := N1; sc_N2 := N2; sc_N3 := N3;
          sc_B1 := B1; sc_B2 := B2; sc_B3 := B3; sc_cells := cells |}
  else Raise AssertionError.

(** ** to_supercell: bravais.py:437-462 *)

(** [divmod(x, N)] of NumPy integers is floor division, [//] is applied to
    each component; [cells.index] raises ValueError if there is no match.
    For a degenerate supercell (N = 0), NumPy's division yields 0 and a warning
    and the list of cells is empty, so that ValueError is raised as well. *)
Definition to_supercell (R : vec) (s : supercell_info) : res (vec * nat) :=
  let N := sc_N s in
  if N =? 0 then Raise ValueError
  else
    let R1 := dot R (sc_B1 s) / N in let r1 := dot R (sc_B1 s) mod N in
    let R2 := dot R (sc_B2 s) / N in let r2 := dot R (sc_B2 s) mod N in
    let R3 := dot R (sc_B3 s) / N in let r3 := dot R (sc_B3 s) mod N in
    let r := vadd (vadd (vscale r1 (sc_N1 s)) (vscale r2 (sc_N2 s))) (vscale r3 (sc_N3 s)) in
    let r := V3 (vx r / N) (vy r / N) (vz r / N) in
    match find_index (veqb r) (sc_cells s) with
    | Some i => Ok (V3 R1 R2 R3, i)
    | None => Raise ValueError
    end.
