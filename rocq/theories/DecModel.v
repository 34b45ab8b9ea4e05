(** Model of the functions that show how quickly matrix elements decay with distance:
    Model.decay of ph.py, Model.decay_epmate and Model.decay_epmatp of elph.py, decayH of el.py.

    Real numbers in place of floats, except for the bond lengths from [wigner] (WSModel.v),
    which are rational. *)
From Coq Require Import Reals.
From Verif Require Import GeoModel PathModel Common LatModel MPIModel VorModel Num NumC WSModel PhModel.
Local Open Scope nat_scope.

(** An array of arguments, each of which may raise an exception. *)
Fixpoint all_res {A B} (f : A -> res B) (l : list A) : res (list B) :=
  match l with [] => Ok [] | x :: l => do y <- f x ;; do ys <- all_res f l ;; Ok (y :: ys) end.

(** [np.where(x > 0)], [x[n]] *)
Definition gt0 (x : R) : bool := if Rlt_dec 0 x then true else false.
Definition where_gt0 (l : list R) : list nat := filter (fun n => gt0 (nth n l 0%R)) (seq 0 (length l)).
Definition at_index {A} (l : list A) (n : nat) : res A := match nth_error l n with Some x => Ok x | None => Raise IndexError end.

(** ** Phonons

    The attributes of a model that matter here: the number of atoms, the lattice vectors
    with the force constants, and the bond lengths, one matrix for each lattice vector.
    Models created by [supercell] or [unit_cell] (ph.py:558-680, 682-762) do not have the
    attribute [l]. *)
Record dmodel := DModel {
  d_nat : nat;
  d_data : list (vec * (nat -> nat -> C));
  d_l : option (list (nat -> nat -> Q))
}.

(** ** Model.__init__: ph.py:313-318, and q2r: ph.py:1962-1968 *)
Definition dcreate (nat_ : nat) (nq : vec) (M : nat -> R) (phid : @ifc C) (len : vec -> nat -> nat -> Q)
    (divide_ndegen divide_mass : bool) (nproc : nat) : res dmodel :=
  do bound <- wigner nq (-1) 2 nat_ nat_ len (1 # 10000000) nproc ;;
  do data <- phid_model nat_ nq M phid len divide_ndegen divide_mass nproc ;;
  Ok (DModel nat_ data (Some (map (fun x i j => snd (snd x i j)) bound))).

(** ** order_atoms: ph.py:775-782

    Only the force constants are permuted. [order]: a permutation. *)
Definition dorder (order : list nat) (p : dmodel) : dmodel :=
  DModel (d_nat p) (map (fun x => (fst x, fun a b =>
    snd x (nth (a / 3) order 0 * 3 + a mod 3) (nth (b / 3) order 0 * 3 + b mod 3))) (d_data p)) (d_l p).

(** ** decay: ph.py:907-923 *)
(** [np.linalg.norm(..., ord='fro', axis=(2, 4))] *)
Definition frobenius (c : nat -> nat -> C) (i j : nat) : R :=
  sqrt (fold_right Rplus 0%R (map (fun xy => let z := c (i * 3 + fst xy) (j * 3 + snd xy) in (Re z ^ 2 + Im z ^ 2)%R)
    (list_prod (seq 0 3) (seq 0 3)))).

(** [x.flatten()] for arrays of square matrices *)
Definition flatten {A} (n : nat) (l : list (nat -> nat -> A)) : list A :=
  flat_map (fun f => flat_map (fun i => map (f i) (seq 0 n)) (seq 0 n)) l.

Definition decay (p : dmodel) : res (list (Q * R)) :=
  match d_l p with
  | None => Raise AttributeError
  | Some l =>
    let l := flatten (d_nat p) l in
    let C := flatten (d_nat p) (map (fun x => frobenius (snd x)) (d_data p)) in
    all_res (fun n => do x <- at_index l n ;; Ok (x, nth n C 0%R)) (where_gt0 C)
  end.

(** ** Electron-phonon coupling *)
(** [abs(x).max(...)]; the maximum of an empty array raises ValueError *)
Definition cabs (z : C) : R := sqrt (Re z ^ 2 + Im z ^ 2).
Definition amax (l : list C) : res R :=
  match l with [] => Raise ValueError | z :: l => Ok (fold_left (fun x z => Rmax x (cabs z)) l (cabs z)) end.

(** [np.linalg.norm(R.dot(a), axis=1)] for one lattice vector *)
Definition distance (a : r3 * r3 * r3) (v : vec) : R :=
  norm3 (cartesian a (R3 (IZR (vx v)) (IZR (vy v)) (IZR (vz v)))).

(** The last lines of decay_epmate and decay_epmatp, elph.py:724-726, 746-748, with
    [elements n]: the elements of the array that belong to lattice vector [n]. *)
Definition decay_max (a0 : R) (a : r3 * r3 * r3) (Rs : list vec) (elements : nat -> list C) : res (list (R * R)) :=
  let d := map (fun v => distance a v * a0)%R Rs in
  do g <- all_res (fun n => amax (elements n)) (seq 0 (length Rs)) ;;
  all_res (fun n => do x <- at_index d n ;; Ok (x, nth n g 0%R)) (where_gt0 g).

(** ** decay_epmate: elph.py:710-726, decay_epmatp: elph.py:728-748

    [data g x k m n]: the element of the array [Rg, x, Rk, m, n]. *)
Section Coupling.
  Context (a0 : R) (a : r3 * r3 * r3) (Rk Rg : list vec) (modes size : nat) (data : nat -> nat -> nat -> nat -> nat -> C).

  Definition decay_epmate : res (list (R * R)) :=
    decay_max a0 a Rk (fun k => flat_map (fun g => flat_map (fun x => flat_map (fun m => map (fun n => data g x k m n)
      (seq 0 size)) (seq 0 size)) (seq 0 modes)) (seq 0 (length Rg))).

  Definition decay_epmatp : res (list (R * R)) :=
    decay_max a0 a Rg (fun g => flat_map (fun x => flat_map (fun k => flat_map (fun m => map (fun n => data g x k m n)
      (seq 0 size)) (seq 0 size)) (seq 0 (length Rk))) (seq 0 modes)).
End Coupling.

(** ** decayH: el.py:1676-1692, for given lattice vectors of the crystal and Hamiltonian *)
Definition decayH (Ry : R) (a : r3 * r3 * r3) (size : nat) (data : list (vec * (nat -> nat -> C))) : res (list (R * R)) :=
  all_res (fun x => do h <- amax (flat_map (fun m => map (snd x m) (seq 0 size)) (seq 0 size)) ;;
    Ok (distance a (fst x), h / Ry)%R) data.
