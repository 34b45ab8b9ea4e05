(** Model of dos.double_delta: dos.py:204-285, with rational numbers in place of
    floats. A function on the mesh is a function of two indices. *)
From Coq Require Export QArith Qabs.
From Verif Require Import Common MiscModel.
From Coq Require Export List Arith.
Export ListNotations.
Local Open Scope Q_scope.

(** Lines 234-239: the corners, not reduced to the unit cell; those of one process. *)
Definition dd_corners (i j k : nat) : (nat * nat) * (nat * nat) * (nat * nat) := ((i + k, j + k), (i + 1, j), (i, j + 1))%nat.
Definition dd_indices (N : nat) : list (nat * nat * nat) :=
  flat_map (fun i => flat_map (fun j => map (fun k => (i, j, k)) (seq 0 2)) (seq 0 N)) (seq 0 N).
Definition dd_mine (size rank N : nat) : list (nat * nat * nat) :=
  filter (fun ijk => let '(i, j, k) := ijk in (rank =? ((i * N + j) * 2 + k) mod size)%nat) (dd_indices N).

(** Lines 241-243: [x[tuple(v.T % N)]] *)
Definition wrap (N : nat) (x : nat -> nat -> Q) (v : nat * nat) : Q := x (fst v mod N)%nat (snd v mod N)%nat.

Definition Qof (n : nat) : Q := inject_Z (Z.of_nat n).
Definition in01 (u : Q) : bool := Qle_bool 0 u && Qle_bool u 1.

(** Lines 251-264: contribution of one triangle, either nothing or one point and its weight. *)
Definition dd_triangle (N : nat) (x y f : nat -> nat -> Q) (z : Q) (ijk : nat * nat * nat) : list (list Q * Q) :=
  let '(i, j, k) := ijk in
  let '(X, Y, Z) := dd_corners i j k in
  let '(A, B, C) := (wrap N x X, wrap N x Y, wrap N x Z) in
  let '(a, b, c) := (wrap N y X, wrap N y Y, wrap N y Z) in
  let '(f1, f2, f3) := (wrap N f X, wrap N f Y, wrap N f Z) in
  let w := A * b - B * a - A * c + C * a + B * c - C * b in
  if Qeq_bool w 0 then [] else
  let U := (z * b - B * z - z * c + C * z + B * c - C * b) / w in
  let V := (A * z - z * a - A * c + C * a + z * c - C * z) / w in
  let W := (A * b - B * a - A * z + z * a + B * z - z * b) / w in
  if in01 U && in01 V && in01 W then
    [([U * Qof (fst X) + V * Qof (fst Y) + W * Qof (fst Z); U * Qof (snd X) + V * Qof (snd Y) + W * Qof (snd Z)],
      1 / Qof (N * N) * (U * f1 + V * f2 + W * f3) / Qabs w)]
  else [].

(** Lines 266-273: points and weights of all processes, in order of rank. *)
Definition dd_all (size N : nat) (x y f : nat -> nat -> Q) (z : Q) : list (list Q * Q) :=
  flat_map (fun rank => flat_map (dd_triangle N x y f z) (dd_mine size rank N)) (seq 0 size).

(** [np.average] *)
Definition Qsum (l : list Q) : Q := fold_right Qplus 0 l.
Definition average (l : list Q) : Q := Qsum l / Qof (length l).

(** [unique[tuple(d)] = w]: keys are compared as numbers. *)
Fixpoint key_eqb (p q : list Q) : bool :=
  match p, q with
  | [], [] => true
  | a :: p, b :: q => Qeq_bool a b && key_eqb p q
  | _, _ => false
  end.
Fixpoint dict_set (d : list (list Q * Q)) (k : list Q) (v : Q) : list (list Q * Q) :=
  match d with
  | [] => [(k, v)]
  | (k', v') :: d => if key_eqb k' k then (k', v) :: d else (k', v') :: dict_set d k v
  end.

(** Lines 275-283 *)
Definition pick {T} (l : list T) (g : list nat) : list T := flat_map (fun i => match nth_error l i with Some x => [x] | None => [] end) g.
Definition double_delta (size N : nat) (x y f : nat -> nat -> Q) (eps z : Q) : list (list Q * Q) :=
  let all := dd_all size N x y f z in
  fold_left (fun unique g =>
    let l := pick all g in
    let d := map (fun c => average (map (fun p => nth c (fst p) 0) l)) (seq 0 2) in
    let w := average (map snd l) in
    dict_set unique d w) (group eps (map fst all)) [].
