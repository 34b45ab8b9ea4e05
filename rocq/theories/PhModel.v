(** Model of elphmod/ph.py: force constants, masses, sum rules. *)
From Coq Require Import Reals.
From Verif Require Import Common LatModel MPIModel VorModel Num NumC ElModel WSModel WSProofs2 KrModel.
Local Open Scope nat_scope.

(** ** asr: ph.py:1632-1644

    [phid na1 na2 m x y]: force constants between atom [na1] and atom [na2],
    mesh point [m], Cartesian directions [x] and [y]. *)
Section Asr.
  Context {F : num}.
  Definition ifc := nat -> nat -> vec -> nat -> nat -> F.

  (** [phid[na1, na2, m] = block] *)
  Definition ifc_set (phid : ifc) (na1 na2 : nat) (m : vec) (block : nat -> nat -> F) : ifc :=
    fun i j k x y => if (i =? na1) && (j =? na2) && veqb k m then block x y else phid i j k x y.

  (** The generator expression: [na2], [m1], [m2], [m3], with a condition. *)
  Definition others (nat_ : nat) (nr : vec) (na1 : nat) : list (nat * vec) :=
    filter (fun x => negb (na1 =? fst x) || negb (veqb (snd x) vzero)) (list_prod (seq 0 nat_) (ws_mesh nr)).

  Definition asr_step (nat_ : nat) (nr : vec) (phid : ifc) (na1 : nat) : ifc :=
    ifc_set phid na1 na1 vzero
      (fun x y => nopp (nsum (fun o => phid na1 (fst o) (snd o) x y) (others nat_ nr na1))).

  (** If there are atoms but no mesh points, the assignment to the mesh point
      zero raises IndexError. *)
  Definition asr (nat_ : nat) (nr : vec) (phid : ifc) : res ifc :=
    if (0 <? nat_) && negb ((0 <? vx nr)%Z && (0 <? vy nr)%Z && (0 <? vz nr)%Z) then Raise IndexError
    else Ok (fold_left (asr_step nat_ nr) (seq 0 nat_) phid).
End Asr.

(** ** zasr: ph.py:1646-1649 (in place)

    [Z na e u], real numbers. The average over no atoms is NaN; it is subtracted
    from nothing. *)
Definition zasr (nat_ : nat) (Z : nat -> nat -> nat -> R) : nat -> nat -> nat -> R :=
  fun na e u => (Z na e u - fold_right Rplus 0 (map (fun n => Z n e u) (seq 0 nat_)) / INR nat_)%R.

(** ** Masses

    Real arrays are represented by complex numbers throughout. Masses are
    functions of the index of the atom. *)

(** [group(n)]: ph.py:1015-1018 *)
Definition in_group (n a : nat) : bool := (n * 3 <=? a) && (a <? (n + 1) * 3).

(** ** divide_by_mass: ph.py:1020-1032 (in place), for one matrix *)
Definition divide_by_mass (nat_ : nat) (M : nat -> R) (dyn : nat -> nat -> C) : nat -> nat -> C :=
  fold_left (fun d na =>
    let d := fun a b => if in_group na a then nmul (d a b) (RtoC (/ sqrt (M na))) else d a b in
    fun a b => if in_group na b then nmul (d a b) (RtoC (/ sqrt (M na))) else d a b) (seq 0 nat_) dyn.

(** [phid[na, :] *= np.sqrt(M[na])], [phid[:, na] *= np.sqrt(M[na])]:
    ph.py:1001-1003, 1940-1942 *)
Definition multiply_by_mass (nat_ : nat) (M : nat -> R) (phid : @ifc C) : @ifc C :=
  fold_left (fun p na =>
    let p : @ifc C := fun i j m x y => if i =? na then nmul (p i j m x y) (RtoC (sqrt (M na))) else p i j m x y in
    fun i j m x y => if j =? na then nmul (p i j m x y) (RtoC (sqrt (M na))) else p i j m x y) (seq 0 nat_) phid.

(** ** sgnsqrt: ph.py:1783-1786 *)
Definition sign (x : R) : R := if Rlt_dec x 0 then (-1)%R else if Rlt_dec 0 x then 1%R else 0%R.
Definition sgnsqrt (w2 : R) : R := (sign w2 * sqrt (Rabs w2))%R.

(** ** q2r: ph.py:1827-1971, for given [D_full] (lines 1918-1971)

    The construction of [D_full] from irreducible q points (lines 1869-1927)
    is modelled in WedgeModel.v, [sum_rule_correction] in PhSumModel.v. Not
    modelled: writing the file [flfrc]. [D k a b]: the element (a, b)
    of the matrix at mesh point k. *)
Definition q2r_phid (nat_ : nat) (nq : vec) (M : nat -> R) (D : vec -> nat -> nat -> C) (divide_mass_in : bool)
    (apply_asr_simple : bool) : res (@ifc C) :=
  let phid : @ifc C := fun i j m x y => RtoC (Re (ifftn nq (fun k => D k (i * 3 + x) (j * 3 + y)) m)) in
  let phid := if divide_mass_in then multiply_by_mass nat_ M phid else phid in
  if apply_asr_simple then asr nat_ nq phid else Ok phid.

(** From force constants to the model, also in [Model.__init__] (299-304). *)
Definition phid_model (nat_ : nat) (nq : vec) (M : nat -> R) (phid : @ifc C) (len : vec -> nat -> nat -> Q)
    (divide_ndegen divide_mass : bool) (nproc : nat) : res (list (vec * (nat -> nat -> C))) :=
  do data <- short_range_model Cdivn divide_ndegen nq (-1) 2 nat_ 3 len (1 # 10000000) phid nproc ;;
  Ok (if divide_mass then map (fun x => (fst x, divide_by_mass nat_ M (snd x))) data else data).

Definition ph_q2r (shape : list Z) (nat_ : nat) (M : nat -> R) (D : vec -> nat -> nat -> C)
    (divide_mass_in apply_asr_simple divide_ndegen divide_mass : bool) (len : vec -> nat -> nat -> Q) (nproc : nat)
    : res (list (vec * (nat -> nat -> C))) :=
  do nq <- pad_mesh shape ;;
  do phid <- q2r_phid nat_ nq M D divide_mass_in apply_asr_simple ;;
  phid_model nat_ nq M phid len divide_ndegen divide_mass nproc.

(** ** D without long-range terms: ph.py:145-167 *)
Definition D_sum (e : vec -> C) (data : list (vec * (nat -> nat -> C))) (a b : nat) : C :=
  nsum (fun x => nmul (snd x a b) (e (fst x))) data.

(** ** Folding in Model.to_flfrc: ph.py:985-1003

    Each process adds up the force constants of a slice of lattice vectors;
    [Reduce] adds the results of all processes. *)
Definition fold_slice (nr : vec) (l : list (vec * (nat -> nat -> C))) : @ifc C :=
  fold_left (fun (phid : @ifc C) x =>
    let m := mesh_index nr (-1) (fst x) in
    fun i j k a b => if veqb k m then nadd (phid i j k a b) (snd x (i * 3 + a) (j * 3 + b)) else phid i j k a b)
    l (fun _ _ _ _ _ => n0).

(** [range( *bounds[rank:rank + 2])] for each rank. *)
Fixpoint slices {A} (bounds : list Z) (data : list A) : list (list A) :=
  match bounds with
  | lo :: bounds =>
    match bounds with
    | hi :: _ => firstn (Z.to_nat (hi - lo)) (skipn (Z.to_nat lo) data) :: slices bounds data
    | [] => []
    end
  | [] => []
  end.

Definition to_flfrc_phid (nat_ : nat) (M : nat -> R) (divide_mass : bool) (nr : vec)
    (data : list (vec * (nat -> nat -> C))) (nproc : Z) : res (@ifc C) :=
  do (sizes, bounds) <- distribute (Z.of_nat (length data)) nproc ;;
  let phid : @ifc C := fun i j k a b => nsum (fun l => fold_slice nr l i j k a b) (slices bounds data) in
  Ok (if divide_mass then multiply_by_mass nat_ M phid else phid).
