(** Model of elphmod/el.py:746-768 (read_wsvecdat).

    Simplifications: as in Text.v. The process of rank 0 is modelled; others receive its results.
    A file that does not exist is [None]. A dictionary is the function that looks up its keys. *)
From Verif Require Import GridModel.
From Verif Require Export Text.
Local Open Scope nat_scope.

Definition key : Type := Z * Z * Z * Z * Z.
Definition key_eqb (x y : key) : bool :=
  let '(i, j, k, a, b) := x in let '(i', j', k', a', b') := y in
  ((i =? i') && (j =? j') && (k =? k') && (a =? a') && (b =? b'))%Z.
Definition dict : Type := key -> option (list (list Z)).
(** [d[x] = v] *)
Definition put (x : key) (v : list (list Z)) (d : dict) : dict := fun y => if key_eqb x y then Some v else d y.

(** el.py:757: [i, j, k, a, b = tuple(map(int, line.split()))] *)
Definition five (l : list Z) : res key := match l with [i; j; k; a; b] => Ok (i, j, k, a, b) | _ => Raise ValueError end.
(** el.py:759-760: [[list(map(int, next(data).split())) for _ in range(n)]] *)
Fixpoint ws_vectors (n : nat) (ls : list text) : res (list (list Z) * list text) :=
  match n with
  | O => Ok ([], ls)
  | S n =>
    do (l, ls) <- next ls ;;
    do v <- map_all to_int (str_split l) ;;
    do (vs, ls) <- ws_vectors n ls ;;
    Ok (v :: vs, ls)
  end.
(** el.py:756-760; [fuel] is not less than the number of lines, each turn consumes at least two of them. *)
Fixpoint ws_loop (fuel : nat) (ls : list text) (d : dict) : res dict :=
  match fuel, ls with
  | S fuel, line :: ls =>
    do l <- map_all to_int (str_split line) ;; do x <- five l ;;
    let '(i, j, k, a, b) := x in
    do (c, ls) <- next ls ;; do n <- to_int c ;;
    do (vs, ls) <- ws_vectors (Z.to_nat n) ls ;;
    ws_loop fuel ls (put (i, j, k, a - 1, b - 1)%Z vs d)
  | _, _ => Ok d
  end.
(** el.py:749-768: dictionary or None, and whether there is a warning *)
Definition read_wsvecdat (file : option text) : res (option dict * bool) :=
  match file with
  | None => Ok (None, true)
  | Some f =>
    do (_, ls) <- next (lines f) ;;
    do d <- ws_loop (length ls) ls (fun _ => None) ;;
    Ok (Some d, false)
  end.
