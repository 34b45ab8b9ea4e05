(** Model of dispersion.band_order and map_dispersions: dispersion.py:447-528.
    Eigenvalues are rational numbers, eigenvectors pairs of rational numbers
    (real and imaginary part). Instead of the absolute value of overlaps, its
    square is compared, which does not change any maximum. *)
From Coq Require Export QArith Qabs.
From Verif Require Import Common.
From Coq Require Export List Arith.
Export ListNotations.
Local Open Scope Q_scope.

Definition cplx : Type := (Q * Q)%type.
(** u times the complex conjugate of v *)
Definition cmulc (u v : cplx) : cplx := (fst u * fst v + snd u * snd v, snd u * fst v - fst u * snd v).
Definition cplus (u v : cplx) : cplx := (fst u + fst v, snd u + snd v).
Definition cabs2 (u : cplx) : Q := fst u * fst u + snd u * snd u.

(** [abs(np.dot(V[m, :, a], V[n, :, b].conj())) ** 2] *)
Definition overlap2 (bands : nat) (V : nat -> nat -> nat -> cplx) (m a n b : nat) : Q :=
  cabs2 (fold_right cplus (0, 0) (map (fun r => cmulc (V m r a) (V n r b)) (seq 0 bands))).

(** [max(available, key=key)]: the first element of maximal key. Sets of small
    integers created from a range are iterated in ascending order. *)
Definition max_key (key : nat -> Q) (available : list nat) : res nat :=
  match available with
  | [] => Raise ValueError
  | j :: l => Ok (fold_left (fun b j => if Qle_bool (key j) (key b) then b else j) l j)
  end.

(** [available.remove(j)] *)
Definition remove_one (j : nat) (available : list nat) : list nat := filter (fun k => negb (k =? j)%nat) available.

(** Lines 482-488: one row, given the key of state j for band i. *)
Fixpoint greedy (key : nat -> nat -> Q) (is : list nat) (available : list nat) : res (list nat) :=
  match is with
  | [] => Ok []
  | i :: is =>
    do j <- max_key (key i) available ;;
    do row <- greedy key is (remove_one j available) ;;
    Ok (j :: row)
  end.

(** Lines 485-487: key of state j at point n for band i, if the reference point
    is m and its row [o[m]] is om. [dv = None]: infinity. *)
Definition band_key (bands : nat) (v : nat -> nat -> Q) (V : nat -> nat -> nat -> cplx) (dv : option Q)
    (m : nat) (om : list nat) (n i j : nat) : Q :=
  let a := nth i om 0%nat in
  if match dv with None => true | Some dv => negb (Qle_bool dv (Qabs (v m a - v n j))) end
  then overlap2 bands V m a n j else 0.

(** Line 494: [np.all(np.absolute(np.diff(v[n])) > eps)] *)
Definition nondegenerate (bands : nat) (v : nat -> nat -> Q) (eps : Q) (n : nat) : bool :=
  forallb (fun i => negb (Qle_bool (Qabs (v n (S i) - v n i)) eps)) (seq 0 (bands - 1)).

(** Lines 471-498. The state is the list of rows so far together with n0. *)
Definition band_step (bands : nat) (v : nat -> nat -> Q) (V : nat -> nat -> nat -> cplx) (dv : option Q) (eps : Q)
    (state : res (list (list nat) * nat)) (n : nat) : res (list (list nat) * nat) :=
  do (o, n0) <- state ;;
  do row <- greedy (band_key bands v V dv n0 (nth n0 o []) n) (seq 0 bands) (seq 0 bands) ;;
  Ok (o ++ [row], if nondegenerate bands v eps n then n else n0).

(** [sorted(range(bands), key=key)]: stable *)
Fixpoint insert_by (key : nat -> Q) (i : nat) (l : list nat) : list nat :=
  match l with
  | [] => [i]
  | j :: l => if Qle_bool (key i) (key j) then i :: j :: l else j :: insert_by key i l
  end.
Definition sort_by (key : nat -> Q) (l : list nat) : list nat := fold_right (insert_by key) [] l.

(** [v[:, o[:, i]].sum()], line 502: [v[:, index]] is a matrix whose element
    (n, m) is [v[n, o[m, i]]]. *)
Definition Qsum (l : list Q) : Q := fold_right Qplus 0 l.
Definition mean_key (points : nat) (v : nat -> nat -> Q) (o : list (list nat)) (i : nat) : Q :=
  Qsum (map (fun n => Qsum (map (fun om => v n (nth i om 0%nat)) o)) (seq 0 points)).

(** Lines 447-504. Without points, [o[n0]] raises. *)
Definition band_order (points bands : nat) (v : nat -> nat -> Q) (V : nat -> nat -> nat -> cplx)
    (by_mean : bool) (dv : option Q) (eps : Q) : res (list (list nat)) :=
  match points with
  | 0%nat => Raise IndexError
  | S _ =>
    do (o, n0) <- fold_left (band_step bands v V dv eps) (seq 1 (points - 1)) (Ok ([seq 0 bands], 0%nat)) ;;
    if by_mean then
      let perm := sort_by (mean_key points v o) (seq 0 bands) in
      Ok (map (fun om => map (fun i => nth i om 0%nat) perm) o)
    else Ok o
  end.

(** Lines 506-528 for an array of points of eigenvectors; [np.absolute] squared. *)
Definition cross_overlap2 (bands : nat) (V1 V2 : nat -> nat -> nat -> cplx) (n i j : nat) : Q :=
  cabs2 (fold_right cplus (0, 0) (map (fun r => cmulc (V1 n r i) (V2 n r j)) (seq 0 bands))).

Fixpoint all_ok {A} (l : list (res A)) : res (list A) :=
  match l with
  | [] => Ok []
  | x :: l => do x <- x ;; do l <- all_ok l ;; Ok (x :: l)
  end.

Definition map_dispersions (points bands : nat) (V1 V2 : nat -> nat -> nat -> cplx) : res (list (list nat)) :=
  all_ok (map (fun n => greedy (cross_overlap2 bands V1 V2 n) (seq 0 bands) (seq 0 bands)) (seq 0 points)).
