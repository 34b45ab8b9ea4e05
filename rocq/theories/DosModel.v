(** Model of elphmod/dos.py: densities of states (lines 14-202), with real numbers
    in place of floats. None stands for infinity. A mesh is a function of two
    indices together with its size N. *)
From Coq Require Export Reals.
From Verif Require Import Common.
From Coq Require Export List Arith.
Export ListNotations.
Local Open Scope R_scope.

Definition Rltb (a b : R) : bool := if Rlt_dec a b then true else false.
Definition Rleb (a b : R) : bool := if Rle_dec a b then true else false.
Definition Reqb (a b : R) : bool := if Req_EM_T a b then true else false.

(** [sorted([a, b, c], key=key)]: stable insertion sort. *)
Definition insert2 {T} (key : T -> R) (x a b : T) : T * T * T :=
  if Rleb (key x) (key a) then (x, a, b) else if Rleb (key x) (key b) then (a, x, b) else (a, b, x).
Definition sort3 {T} (key : T -> R) (a b c : T) : T * T * T :=
  if Rleb (key b) (key c) then insert2 key a b c else insert2 key a c b.

(** Corners of all triangles: lines 71-80 and 149-158. *)
Definition corners (N i j k : nat) : list (nat * nat) :=
  [((i + k) mod N, (j + k) mod N); ((i + 1) mod N, j); (i, (j + 1) mod N)]%nat.
Definition tri_indices (N : nat) : list (nat * nat * nat) :=
  flat_map (fun i => flat_map (fun j => map (fun k => (i, j, k)) (seq 0 2)) (seq 0 N)) (seq 0 N).

Definition sort_corners {T} (key : T -> R) (l : list T) (d : T) : T * T * T :=
  match l with [a; b; c] => sort3 key a b c | _ => (d, d, d) end.

Definition fst3 {T} (t : T * T * T) : T := fst (fst t).
Definition snd3 {T} (t : T * T * T) : T := snd (fst t).
Definition thd3 {T} (t : T * T * T) : T := snd t.

(** Lines 82-86 and 160-164. *)
Definition window {T} (key : T -> R) (minimum maximum : option R) (l : list (T * T * T)) : list (T * T * T) :=
  let l := match minimum with Some m => filter (fun v => Rleb m (key (thd3 v))) l | None => l end in
  match maximum with Some m => filter (fun v => Rleb (key (fst3 v)) m) l | None => l end.

(** Lines 88-89 and 166-167: the share of one process. *)
Definition share {T} (rank size : nat) (l : list T) : list T :=
  map snd (filter (fun nv => (rank =? fst nv mod size)%nat) (combine (seq 0 (length l)) l)).

(** Addition with infinity. *)
Definition plus_inf (x y : option R) : option R :=
  match x, y with Some x, Some y => Some (x + y) | _, _ => None end.
Definition sum_inf (l : list (option R)) : option R := fold_right plus_inf (Some 0) l.
Definition scale_inf (c : R) (x : option R) : option R := option_map (fun x => c * x) x.

(** Lines 94-111. *)
Definition tri_dos (E : R) (t : R * R * R) : option R :=
  let '(A, B, C) := t in
  if Rltb A E && Rleb E B then
    if Reqb E B && Reqb B C then Some (/ 2 / (E - A)) else Some ((E - A) / (B - A) / (C - A))
  else if Rleb B E && Rltb E C then
    if Reqb E A && Reqb A B then Some (/ 2 / (C - E)) else Some ((C - E) / (C - A) / (C - B))
  else if Reqb E A && Reqb A B && Reqb B C then None
  else Some 0.

(** Lines 14-115: the function that [hexDOS] returns, for a scalar argument. *)
Definition hexDOS (size N : nat) (e : nat -> nat -> R) (minimum maximum : option R) (E : R) : option R :=
  let triangles := map (fun ijk => let '(i, j, k) := ijk in
    sort_corners (fun x => x) (map (fun v => e (fst v) (snd v)) (corners N i j k)) 0) (tri_indices N) in
  let triangles := window (fun x => x) minimum maximum triangles in
  let D rank := sum_inf (map (tri_dos E) (share rank size triangles)) in
  scale_inf (/ INR (N * N)) (sum_inf (map D (seq 0 size))).

(** Lines 174-198: energies and couplings of the corners. *)
Definition tri_a2F (E : R) (t : (R * R) * (R * R) * (R * R)) : option R :=
  let '((A, a), (B, b), (C, c)) := t in
  if Rltb A E && Rleb E B then
    if Reqb E B && Reqb B C then Some (/ 2 / (E - A) * / 2 * (b + c))
    else Some ((E - A) / (B - A) / (C - A) * / 2 *
      (((E - A) * b + (B - E) * a) / (B - A) + ((E - A) * c + (C - E) * a) / (C - A)))
  else if Rleb B E && Rltb E C then
    if Reqb E A && Reqb A B then Some (/ 2 / (C - E) * / 2 * (a + b))
    else Some ((C - E) / (C - A) / (C - B) * / 2 *
      (((C - E) * a + (E - A) * c) / (C - A) + ((C - E) * b + (E - B) * c) / (C - B)))
  else if Reqb E A && Reqb A B && Reqb B C then None
  else Some 0.

(** Lines 117-202. *)
Definition hexa2F (size N : nat) (e g : nat -> nat -> R) (minimum maximum : option R) (E : R) : option R :=
  let triangles := map (fun ijk => let '(i, j, k) := ijk in
    sort_corners (fun v => e (fst v) (snd v)) (corners N i j k) (0, 0)%nat) (tri_indices N) in
  let triangles := window (fun v => e (fst v) (snd v)) minimum maximum triangles in
  let both v := (e (fst v) (snd v), g (fst v) (snd v)) in
  let D rank := sum_inf (map (fun t => tri_a2F E (both (fst3 t), both (snd3 t), both (thd3 t))) (share rank size triangles)) in
  scale_inf (/ INR (N * N)) (sum_inf (map D (seq 0 size))).
