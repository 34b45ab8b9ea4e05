(** Model of elphmod/dos.py:287-388 (isoline): lines of constant energy in the first
    Brillouin zone of the triangular lattice.

    Simplifications: rational numbers in place of floats (two vertices are equal if their
    coordinates are equal as numbers). The order of elements in Python sets is arbitrary:
    it is a parameter that may depend on the state of the loop, but the same on all
    processes. *)
From Verif Require Import Common SymModel VorModel LinModel.
Local Open Scope Q_scope.

Definition vertex : Type := Q * Q.
Definition corner : Type := Q * vertex.
Definition triangle : Type := corner * corner * corner.
Definition segment : Type := vertex * vertex.

Definition veqb (v w : vertex) : bool := Qeq_bool (fst v) (fst w) && Qeq_bool (snd v) (snd w).
Definition seqb (s t : segment) : bool := veqb (fst s) (fst t) && veqb (snd s) (snd t).

(** dos.py:294-295; [n] may be -1: the last element. *)
Definition dk (n : Z) : pt := nth (Z.to_nat (n mod 6)) [(1, 0); (0, 1); (-1, 1); (-1, 0); (0, -1); (1, -1)]%Z (0, 0)%Z.

Definition plus (p q : pt) : pt := (fst p + fst q, snd p + snd q)%Z.

(** dos.py:313-325: vertices outside of the Brillouin zone are moved onto its boundary. *)
Definition moved (N : Z) (c : pt) : vertex :=
  let (c1, c2) := c in
  let q1 := inject_Z c1 in let q2 := inject_Z c2 in
  if (N <? c1 - c2)%Z then (q1 - (1 # 2), q2 + (1 # 2))
  else if (c1 - c2 <? - N)%Z then (q1 + (1 # 2), q2 - (1 # 2))
  else if (N <? 2 * c1 + c2)%Z then (q1 - (1 # 2), q2)
  else if (2 * c1 + c2 <? - N)%Z then (q1 + (1 # 2), q2)
  else if (N <? c1 + 2 * c2)%Z then (q1, q2 - (1 # 2))
  else if (c1 + 2 * c2 <? - N)%Z then (q1, q2 + (1 # 2))
  else (q1, q2).

(** Comparison of tuples (energy, vertex) and sorting of three of them: dos.py:327-328 *)
Definition key_leb (x y : corner) : bool :=
  if Qeq_bool (fst x) (fst y) then
    if Qeq_bool (fst (snd x)) (fst (snd y)) then Qle_bool (snd (snd x)) (snd (snd y))
    else Qle_bool (fst (snd x)) (fst (snd y))
  else Qle_bool (fst x) (fst y).
Fixpoint insert_corner (x : corner) (l : list corner) : list corner :=
  match l with [] => [x] | y :: l => if key_leb x y then x :: y :: l else y :: insert_corner x l end.
Definition sort3 (x y z : corner) : triangle :=
  match insert_corner x (insert_corner y (insert_corner z [])) with
  | [a; b; c] => (a, b, c)
  | _ => (x, y, z)
  end.

Definition teqb (s t : triangle) : bool :=
  let '(a, b, c) := s in let '(a', b', c') := t in veqb (snd a) (snd a') && veqb (snd b) (snd b') && veqb (snd c) (snd c').

(** The method [add] of sets *)
Definition add {A} (eqb : A -> A -> bool) (s : list A) (x : A) : list A := if existsb (eqb x) s then s else s ++ [x].

(** dos.py:307-328 for one point and one [n]; [fun_] is the interpolant of line 297. *)
Definition triangle_at (fun_ : Q -> Q -> res Q) (N : Z) (K : pt) (n : Z) : res triangle :=
  let corner_at c := let v := moved N c in do e <- fun_ (fst v) (snd v) ;; Ok (e, v) in
  do x <- corner_at K ;;
  do y <- corner_at (plus K (dk n)) ;;
  do z <- corner_at (plus K (dk (n + 1))) ;;
  Ok (sort3 x y z).

(** dos.py:299-328 *)
Definition triangles_at (fun_ : Q -> Q -> res Q) (N : Z) (s : list triangle) (k : pt) : res (list triangle) :=
  do images <- to_Voronoi k N 60 0 0 0 ;;
  match images with
  | [K] => fold_left (fun s n => do s <- s ;; do t <- triangle_at fun_ N K n ;; Ok (add teqb s t)) [-1; 0; 1; 2; 3; 4]%Z (Ok s)
  | _ => Ok s
  end.
Definition all_triangles argsort (energies : list (list Q)) : res (list triangle) :=
  let N := shape1 energies in
  fold_left (fun s k => do s <- s ;; triangles_at (interpolant2 argsort 60 None energies) N s k) (mesh2 N) (Ok []).

(** dos.py:331: triangles[comm.rank::comm.size] *)
Definition strided {A} (rank size : nat) (l : list A) : list A :=
  map snd (filter (fun ix => fst ix mod size =? rank)%nat (combine (seq 0 (length l)) l)).

(** Elements of [my_points]: pairs of tuples, single tuples and (not hashable) arrays *)
Inductive entry := Pair (p q : vertex) | Tuple (p : vertex) | Array (p : vertex).

Definition mix (i j : vertex) (alpha : Q) : vertex :=
  (fst i * (1 - alpha) + fst j * alpha, snd i * (1 - alpha) + snd j * alpha).

Definition ltb (x y : Q) : bool := negb (Qle_bool y x).

(** dos.py:338-359 *)
Definition cut (E : Q) (t : triangle) : list entry :=
  let '((A, i), (B, j), (C, k)) := t in
  if ltb A E && Qle_bool E B then
    if Qeq_bool E B && Qeq_bool B C then [Pair j k]
    else
      let alpha := (E - A) / (B - A) in
      let beta := (E - A) / (C - A) in
      [Pair (mix i j alpha) (mix i k beta)]
  else if Qle_bool B E && ltb E C then
    if Qeq_bool E A && Qeq_bool A B then [Tuple i; Array j]
    else
      let alpha := (E - B) / (C - B) in
      let beta := (E - A) / (C - A) in
      [Pair (mix j k alpha) (mix i k beta)]
  else [].

(** dos.py:361-364. The elements of a set must be hashable. A tuple from a triangle is
    always followed by an array. *)
Fixpoint update (points : list segment) (group : list entry) : res (list segment) :=
  match group with
  | [] => Ok points
  | Pair p q :: group => update (add seqb points (p, q)) group
  | Tuple _ :: group => update points group
  | Array _ :: _ => Raise TypeError
  end.

(** [v in point], [point[1 - point.index(v)]] *)
Definition on (v : vertex) (s : segment) : bool := veqb (fst s) v || veqb (snd s) v.
Definition other (v : vertex) (s : segment) : vertex := if veqb (fst s) v then snd s else fst s.

Fixpoint remove (x : segment) (l : list segment) : list segment :=
  match l with [] => [] | y :: l => if seqb x y then l else y :: remove x l end.

Definition touches (contour : list vertex) (s : segment) : bool :=
  on (last contour (0, 0)) s || on (hd (0, 0) contour) s.

(** dos.py:371-384; [fuel] is the number of remaining segments. *)
Fixpoint join (order : list vertex -> list segment -> list segment) (fuel : nat) (points : list segment) (contours : list (list vertex)) (contour : list vertex) : list (list vertex) :=
  match fuel with
  | O => contours ++ [contour]
  | S fuel =>
      match order contour points with
      | [] => contours ++ [contour]
      | popped :: _ =>
          match find (touches contour) (order contour points) with
          | Some point =>
              let contour := if on (last contour (0, 0)) point then contour ++ [other (last contour (0, 0)) point]
                             else other (hd (0, 0) contour) point :: contour in
              join order fuel (remove point points) contours contour
          | None => join order fuel (remove popped points) (contours ++ [contour]) [fst popped; snd popped]
          end
      end
  end.

(** dos.py:335-386: the function of the energy; [order0] is the order of the set of
    triangles, [order] the one of the set of segments. *)
Definition FS (N : Z) (triangles : list triangle) (order : list vertex -> list segment -> list segment) (size : nat) (E : Q) : res (list (list vertex)) :=
  let my_points rank := flat_map (cut E) (strided rank size triangles) in
  do points <- fold_left (fun points rank => do points <- points ;; update points (my_points rank)) (seq 0 size) (Ok []) ;;
  match order [] points with
  | [] => Ok []
  | popped :: _ =>
      let contours := join order (length points - 1) (remove popped points) [] [fst popped; snd popped] in
      Ok (map (map (fun v => (fst v / inject_Z N, snd v / inject_Z N))) contours)
  end.

Definition isoline argsort (order0 : list triangle -> list triangle) (order : list vertex -> list segment -> list segment) (size : nat) (energies : list (list Q)) : res (Q -> res (list (list vertex))) :=
  do triangles <- all_triangles argsort energies ;;
  Ok (FS (shape1 energies) (order0 triangles) order size).
