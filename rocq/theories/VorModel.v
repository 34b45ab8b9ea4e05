(** Model of elphmod/bravais.py: Wigner-Seitz (Voronoi) cells. Rational numbers
    in place of floats. *)
From Coq Require Export QArith Qabs.
From Verif Require Import Common LatModel SymModel.
Local Open Scope Q_scope.

(** ** squared_distance: bravais.py:1007-1029 *)

(** Line 1027: [{60: 1, 90: 0, 120: -1}[angle]]. *)
Definition angle_sgn (angle : Z) : res Z :=
  if (angle =? 60)%Z then Ok 1%Z else if (angle =? 90)%Z then Ok 0%Z
  else if (angle =? 120)%Z then Ok (-1)%Z else Raise KeyError.

Definition sqd (sgn : Z) (k1 k2 : Q) : Q := k1 * k1 + k2 * k2 + inject_Z sgn * k1 * k2.

Definition squared_distance (k1 k2 : Q) (angle : Z) : res Q :=
  do sgn <- angle_sgn angle ;; Ok (sqd sgn k1 k2).

(** ** to_Voronoi: bravais.py:1031-1068 *)

(** Lines 1055-1058. *)
Definition candidates (k : pt) (nk : Z) : list pt :=
  let (k1, k2) := k in
  [(k1, k2); (k1 - nk, k2); (k1, k2 - nk); (k1 - nk, k2 - nk)]%Z ++
  (if (nk <? 3)%Z then [(k1 + nk, k2); (k1, k2 + nk); (k1 + nk, k2 + nk)]%Z else []).

Fixpoint qmin (x : Q) (l : list Q) : Q :=
  match l with [] => x | y :: l => if Qlt_le_dec y x then qmin y l else qmin x l end.

Definition to_Voronoi (k : pt) (nk angle : Z) (dk1 dk2 epsilon : Q) : res (list pt) :=
  if (nk =? 0)%Z then Raise ZeroDivisionError
  else
    let images := candidates (pmod nk k) nk in
    do sgn <- angle_sgn angle ;;
    let dist (p : pt) := sqd sgn (inject_Z (fst p) - dk1) (inject_Z (snd p) - dk2) in
    match map dist images with
    | [] => Raise ValueError
    | d :: l =>
      let minimum := qmin d l in
      Ok (filter (fun p => Qle_bool (Qabs (dist p - minimum)) epsilon) images)
    end.

(** ** wigner_2d: bravais.py:1070-1107 *)

(** Tuples are compared lexicographically; here, equal points do not occur
    twice (VorProofs.v). *)
Definition pt_leb (p q : pt) : bool :=
  (fst p <? fst q)%Z || ((fst p =? fst q)%Z && (snd p <=? snd q)%Z).

Fixpoint insert_pt (x : pt * nat) (l : list (pt * nat)) : list (pt * nat) :=
  match l with
  | [] => [x]
  | y :: l => if pt_leb (fst x) (fst y) then x :: y :: l else y :: insert_pt x l
  end.

Definition sort_pts (l : list (pt * nat)) : list (pt * nat) := fold_right insert_pt [] l.

(** Points with degeneracies (lines 1093-1103); the lengths are left out.
    [zip] of nothing cannot be unpacked. *)
Definition wigner_2d (nk angle : Z) (dk1 dk2 epsilon : Q) : res (list (pt * nat)) :=
  do points <- fold_left (fun points k =>
      do points <- points ;;
      do images <- to_Voronoi k nk angle dk1 dk2 epsilon ;;
      Ok (points ++ map (fun p => (p, length images)) images)) (mesh2 nk) (Ok []) ;;
  match points with [] => Raise ValueError | _ => Ok (sort_pts points) end.
