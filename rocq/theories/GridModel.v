(** Model of elphmod/misc.py:245-330 (read_cube), 476-508 (real_space_grid), of the volume
    element at elphmod/el.py:266, and of elphmod/bravais.py:2525-2562 (readPOSCAR).

    Simplifications: as in Text.v. The process of rank 0 is modelled; others receive its
    results. *)
From Coq Require Import Qabs.
From Verif Require Export Text NmlModel.
Local Open Scope nat_scope.

Definition vec : Type := Q * Q * Q.
(** [map] of a function that may raise an exception *)
Fixpoint map_all {A B} (f : A -> res B) (l : list A) : res (list B) :=
  match l with [] => Ok [] | x :: l => do y <- f x ;; do ys <- map_all f l ;; Ok (y :: ys) end.
(** [next(lines)] *)
Definition next (ls : list text) : res (text * list text) := match ls with l :: ls => Ok (l, ls) | [] => Raise StopIteration end.
(** [row[:] = l] for a row of three elements; a list of one element is repeated *)
Definition set3 (l : list Q) : res vec :=
  match l with [x; y; z] => Ok (x, y, z) | [x] => Ok (x, x, x) | _ => Raise ValueError end.
(** [l[0]] *)
Definition first {A} (l : list A) : res A := match l with x :: _ => Ok x | [] => Raise IndexError end.
(** [l[i:j]] *)
Definition slice {A} (i j : nat) (l : list A) : list A := firstn (j - i) (skipn i l).
(** [np.empty(n)] *)
Definition empty (n : Z) : res nat := if (n <? 0)%Z then Raise ValueError else Ok (Z.to_nat n).

(** ** read_cube: misc.py:245-330

    [fresh]: what memory contains that has not been initialized, here the result of
    [np.empty(3)] in line 287. *)
Fixpoint cube_axes (k : nat) (ls : list text) : res (list (Z * vec) * list text) :=
  match k with
  | O => Ok ([], ls)
  | S k =>
    do (l, ls) <- next ls ;;
    let cols := str_split l in
    do c <- first cols ;; do n <- to_int c ;;
    do xs <- map_all to_float (slice 1 4 cols) ;; do v <- set3 xs ;;
    let '(x, y, z) := v in
    do (rest, ls) <- cube_axes k ls ;;
    Ok ((n, (x * inject_Z n, y * inject_Z n, z * inject_Z n)%Q) :: rest, ls)
  end.
Fixpoint cube_atoms (k : nat) (ls : list text) : res (list (Z * vec) * list text) :=
  match k with
  | O => Ok ([], ls)
  | S k =>
    do (l, ls) <- next ls ;;
    let cols := str_split l in
    do c <- first cols ;; do Z <- to_int c ;;
    do xs <- map_all to_float (slice 2 5 cols) ;; do v <- set3 xs ;;
    do (rest, ls) <- cube_atoms k ls ;;
    Ok ((Z, v) :: rest, ls)
  end.
(** Lines 314-318: [None] for elements that are not assigned. *)
Fixpoint cube_numbers (size : nat) (ws : list text) : res (list (option Q)) :=
  match ws, size with
  | [], _ => Ok (repeat None size)
  | w :: ws, O => do x <- to_float w ;; Raise IndexError
  | w :: ws, S size => do x <- to_float w ;; do rest <- cube_numbers size ws ;; Ok (Some x :: rest)
  end.

Record cube := Cube { origin : vec; axes : list vec; numbers : list Z; positions : list vec; shape : list Z; values : list (option Q) }.
Definition product (l : list Z) : Z := fold_right Z.mul 1%Z l.
Definition read_cube (fresh : vec) (only_header : bool) (file : text) : res cube :=
  let ls := lines file in
  do (l, ls) <- next ls ;; do (l, ls) <- next ls ;;
  do (l, ls) <- next ls ;;
  let cols := str_split l in
  do c <- first cols ;; do nat_ <- to_int c ;;
  do r0 <- map_all to_float (slice 1 4 cols) ;;
  do nat_ <- empty nat_ ;;
  let r0 := fresh in
  do (ax, ls) <- cube_axes 3 ls ;;
  do (at_, ls) <- cube_atoms nat_ ls ;;
  let n := map fst ax in
  if only_header then Ok (Cube r0 (map snd ax) (map fst at_) (map snd at_) n [])
  else
    do size <- empty (product n) ;;
    do data <- cube_numbers size (flat_map str_split ls) ;;
    if existsb (fun z => (z <? 0)%Z) n then Raise ValueError
    else Ok (Cube r0 (map snd ax) (map fst at_) (map snd at_) n data).

(** ** real_space_grid: misc.py:476-508 *)

(** [np.linspace(0.0, 1.0, num)[i]] *)
Definition linspace (num i : nat) : Q :=
  if num =? 1 then 0%Q else (inject_Z (Z.of_nat i) / inject_Z (Z.of_nat num - 1))%Q.
Definition real_space_grid (n1 n2 n3 : nat) (r0 a1 a2 a3 : vec) (i j k : nat) : vec :=
  let u := linspace n1 i in let v := linspace n2 j in let w := linspace n3 k in
  let comb (p : vec -> Q) := (p r0 + (u * p a1 + v * p a2 + w * p a3))%Q in
  (comb (fun x => fst (fst x)), comb (fun x => snd (fst x)), comb snd).

(** el.py:266 *)
Definition triple (a b c : vec) : Q :=
  let '(a1, a2, a3) := a in let '(b1, b2, b3) := b in let '(c1, c2, c3) := c in
  ((a2 * b3 - a3 * b2) * c1 + (a3 * b1 - a1 * b3) * c2 + (a1 * b2 - a2 * b1) * c3)%Q.
Definition dV (n1 n2 n3 : nat) (a1 a2 a3 : vec) : Q :=
  (Qabs (triple a1 a2 a3) / inject_Z (Z.of_nat (n1 * n2 * n3)))%Q.

(** ** readPOSCAR: bravais.py:2525-2562 *)
Fixpoint poscar_atoms (k : nat) (ls : list text) : res (list vec * list text) :=
  match k with
  | O => Ok ([], ls)
  | S k =>
    do (l, ls) <- next ls ;;
    do xs <- map_all to_float (firstn 3 (str_split l)) ;; do v <- set3 xs ;;
    do (rest, ls) <- poscar_atoms k ls ;;
    Ok (v :: rest, ls)
  end.
Fixpoint poscar_elements (l : list (text * Z)) (atoms : dict (list vec)) (ls : list text) : res (dict (list vec)) :=
  match l with
  | [] => Ok atoms
  | (element, number) :: l =>
    do n <- empty number ;;
    do (v, ls) <- poscar_atoms n ls ;;
    poscar_elements l (dset atoms element v) ls
  end.
Definition readPOSCAR (file : text) : res (list Q * list Q * list Q * dict (list vec)) :=
  let ls := lines file in
  do (title, ls) <- next ls ;;
  do (l, ls) <- next ls ;; do a <- to_float l ;;
  do (l, ls) <- next ls ;; do t1 <- map_all to_float (str_split l) ;;
  do (l, ls) <- next ls ;; do t2 <- map_all to_float (str_split l) ;;
  do (l, ls) <- next ls ;; do t3 <- map_all to_float (str_split l) ;;
  do (l, ls) <- next ls ;; let elements := str_split l in
  do (l, ls) <- next ls ;; do numbers <- map_all to_int (str_split l) ;;
  do (l, ls) <- next ls ;; do (l, ls) <- next ls ;;
  do atoms <- poscar_elements (combine elements numbers) [] ls ;;
  Ok (t1, t2, t3, atoms).
