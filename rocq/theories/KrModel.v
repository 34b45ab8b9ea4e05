(** Model of the interpolation functions el.k2r and elel.q2r, which turn
    matrices on a mesh of wave vectors into localized models. *)
From Coq Require Import Reals.
From Verif Require Import Common LatModel VorModel Num NumC ElModel WSModel WSProofs2.
Local Open Scope Z_scope.

(** [np.fft.ifftn(f, axes=(0, 1, 2))] for one matrix element: the definition in
    the documentation of NumPy (exact arithmetic). *)
Definition ifftn (nr : vec) (f : vec -> C) (m : vec) : C :=
  nmul (RtoC (/ (IZR (vx nr) * IZR (vy nr) * IZR (vz nr))))
    (nsum (fun k => nmul (f k) (expi (2 * PI * (IZR (vx k) * IZR (vx m) / IZR (vx nr) +
      IZR (vy k) * IZR (vy m) / IZR (vy nr) + IZR (vz k) * IZR (vz m) / IZR (vz nr))))) (ws_mesh nr)).

(** The dimensions of the mesh, padded with ones (el.py:793-795, elel.py:365-367);
    the assignment of more than three raises ValueError. *)
Definition pad_mesh (shape : list Z) : res vec :=
  match shape with
  | [] => Ok (V3 1 1 1)
  | [n1] => Ok (V3 n1 1 1)
  | [n1; n2] => Ok (V3 n1 n2 1)
  | [n1; n2; n3] => Ok (V3 n1 n2 n3)
  | _ => Raise ValueError
  end.

(** misc.py:57 *)
Definition Ry : R := (13605693122994 / 1000000000000)%R.

(** Lines el.py:797-804, elel.py:369-375: from wave vectors to lattice vectors.
    [H k a b] is the element (a, b) of the matrix at mesh point [k], the indices
    of missing dimensions being zero. *)
Definition to_lattice (fft : bool) (nk : vec) (H : vec -> nat -> nat -> C) : vec -> nat -> nat -> C :=
  if fft then fun m a b => nconj (ifftn nk (fun k => nconj (H k a b)) m) else H.

(** ** k2r: el.py:770-815

    The bond lengths [len] are determined by the arguments [a] and [r]. *)
Definition k2r (m : @el C) (shape : list Z) (norb : nat) (H : vec -> nat -> nat -> C)
    (len : vec -> nat -> nat -> Q) (fft rydberg_in : bool) (nproc : nat) : res (@el C) :=
  do nk <- pad_mesh shape ;;
  let t := to_lattice fft nk H in
  do h <- short_range_model Cdivn (divide_ndegen m) nk 1 2 norb 1 len (1 # 10000000)
    (fun i j R _ _ => t R i j) nproc ;;
  let h := if Bool.eqb rydberg_in (rydberg m) then h
    else if rydberg_in then map (fun x => (fst x, fun a b => nmul (snd x a b) (RtoC Ry))) h
    else map (fun x => (fst x, fun a b => nmul (snd x a b) (RtoC (/ Ry)))) h in
  Ok {| size := norb; hop := h; flatR := match h with [] => true | _ => false end; cells := cells m; Nsc := Nsc m;
        divide_ndegen := divide_ndegen m; rydberg := rydberg m |}.

(** ** elel.q2r: elel.py:345-378

    The result is the list of lattice vectors and matrices. *)
Definition elel_q2r (shape : list Z) (norb : nat) (W : vec -> nat -> nat -> C)
    (len : vec -> nat -> nat -> Q) (fft : bool) (nproc : nat) : res (list (vec * (nat -> nat -> C))) :=
  do nq <- pad_mesh shape ;;
  let WR := to_lattice fft nq W in
  short_range_model Cdivn true nq 1 2 norb 1 len (1 # 10000000) (fun i j R _ _ => WR R i j) nproc.

(** ** elel.Model.W: elel.py:60-75 *)
Definition W_sum (e : vec -> C) (data : list (vec * (nat -> nat -> C))) (a b : nat) : C :=
  nsum (fun x => nmul (snd x a b) (e (fst x))) data.
