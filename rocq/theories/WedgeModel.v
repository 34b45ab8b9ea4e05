(** Model of elphmod/ph.py: dynamical matrices on the full q-point mesh from
    those at irreducible q points, with real numbers in place of floats. *)
From Coq Require Import Reals QArith.
From Verif Require Import Common LatModel SymModel GeoModel Num NumC PhModel.
Local Open Scope R_scope.

Definition cmat : Type := nat -> nat -> C.

(** ** rotation, reflection, apply: ph.py:1875-1888 *)

Definition rot_block (phi : R) (x y : nat) : R :=
  match x, y with
  | 0%nat, 0%nat => cos phi
  | 0%nat, 1%nat => - sin phi
  | 1%nat, 0%nat => sin phi
  | 1%nat, 1%nat => cos phi
  | 2%nat, 2%nat => 1
  | _, _ => 0
  end.

(** [np.kron(np.eye(n), block)] *)
Definition rotation (phi : R) (i j : nat) : R :=
  if (i / 3 =? j / 3)%nat then rot_block phi (i mod 3) (j mod 3) else 0.

(** [np.diag([-1, 1, 1] * n)] *)
Definition reflection (i j : nat) : R :=
  if (i =? j)%nat then (if (i mod 3 =? 0)%nat then -1 else 1) else 0.

(** [np.einsum('ij,jk,kl->il', U, A, U.T.conj())] for real [U]. *)
Definition apply_op (size : nat) (A : cmat) (U : nat -> nat -> R) : cmat := fun i l =>
  nsum (fun j => nsum (fun k => nmul (nmul (RtoC (U i j)) (A j k)) (nconj (RtoC (U l k)))) (seq 0 size)) (seq 0 size).

(** [np.dot(U[:2, :2], q)] *)
Definition dot_block (U : nat -> nat -> R) (q : r2) : r2 :=
  (U 0%nat 0%nat * fst q + U 0%nat 1%nat * snd q, U 1%nat 0%nat * fst q + U 1%nat 1%nat * snd q).

(** ** [D[group(n), :] *= phase[n].conj(); D[:, group(n)] *= phase[n]]:
    ph.py:1015-1018, 1919-1921 *)
Definition in_atom (n i : nat) : bool := (n * 3 <=? i)%nat && (i <? (n + 1) * 3)%nat.
Definition mul_phases (nat_ : nat) (phase : nat -> C) (D : cmat) : cmat :=
  fold_left (fun (D : cmat) n =>
    let D : cmat := fun i j => if in_atom n i then nmul (D i j) (nconj (phase n)) else D i j in
    fun i j => if in_atom n j then nmul (D i j) (phase n) else D i j) (seq 0 nat_) D.

(** Python's [int(round(x))]: ties to even. *)
Definition round_even (x : R) : Z :=
  let f := Int_part x in
  let d := x - IZR f in
  if Rlt_dec d (/ 2) then f else if Rlt_dec (/ 2) d then (f + 1)%Z else if Z.even f then f else (f + 1)%Z.

(** ** The array [D_full], [None] where [np.empty] has not been overwritten.
    Indices are counted from the end if negative. ph.py:1873, 1926-1927 *)
Definition full_mesh : Type := pt -> option cmat.
Definition index_ok (nq Q : Z) : bool := (- nq <=? Q)%Z && (Q <? nq)%Z.
Definition store (nq Q1 Q2 : Z) (D : cmat) (full : full_mesh) : res full_mesh :=
  if index_ok nq Q1 && index_ok nq Q2
  then Ok (fun k => if pt_eq_dec k (Q1 mod nq, Q2 mod nq)%Z then Some D else full k)
  else Raise IndexError.

(** ** The body of the loops: ph.py:1906-1927 *)
Definition image_q (q0 : r2) (phi : R) (reflect : bool) : r2 :=
  let q := dot_block (rotation phi) q0 in
  if reflect then dot_block reflection q else q.
Definition image_D (nat_ : nat) (r : nat -> r2) (q0 : r2) (D0 : cmat) (phi : R) (reflect : bool) : cmat :=
  let q := image_q q0 phi reflect in
  let D := apply_op (nat_ * 3) D0 (rotation phi) in
  let D := if reflect then apply_op (nat_ * 3) D reflection else D in
  mul_phases nat_ (fun n => expi (dot2 (add2 q0 (scale2 (-1) q)) (r n))) D.

Definition wedge_step (nq : Z) (nat_ : nat) (r : nat -> r2) (a1 a2 q0 : r2) (D0 : cmat)
    (full : res full_mesh) (op : R * bool) : res full_mesh :=
  do full <- full ;;
  let q := image_q q0 (fst op) (snd op) in
  let D := image_D nat_ r q0 D0 (fst op) (snd op) in
  let scale := IZR nq / (2 * PI) in
  let Q1 := round_even (dot2 q a1 * scale) in
  let Q2 := round_even (dot2 q a2 * scale) in
  do full <- store nq Q1 Q2 D full ;;
  store nq (- Q1) (- Q2) (fun i j => nconj (D i j)) full.

(** Lines 1897-1899, 1904-1905. *)
Definition wedge_ops (angle : Z) : list (R * bool) :=
  flat_map (fun phi => [(phi, false); (phi, true)])
    (if (angle =? 90)%Z then [0] else [0; 2 * PI / 3; 4 * PI / 3]).

(** ** D_full from D_irr: ph.py:1869-1927

    [r n]: [ph.r[n, :2] / ph.a[0, 0]]. [nat_ = D_irr.shape[-2] // 3]; all
    matrices are [3 nat_ x 3 nat_]. [angle]: an integer number of degrees. *)
Fixpoint wedge_loop (nq : Z) (nat_ : nat) (r : nat -> r2) (a1 a2 b1 b2 : r2) (angle : Z)
    (q_irr : list r2) (D_irr : list cmat) (full : full_mesh) : res full_mesh :=
  match q_irr with
  | [] => Ok full
  | (q1, q2) :: q_irr =>
    let q0 := add2 (scale2 q1 b1) (scale2 q2 b2) in
    match D_irr with
    | [] => Raise IndexError
    | D0 :: D_irr =>
      do full <- fold_left (wedge_step nq nat_ r a1 a2 q0 D0) (wedge_ops angle) (Ok full) ;;
      wedge_loop nq nat_ r a1 a2 b1 b2 angle q_irr D_irr full
    end
  end.

Definition wedge (nq : Z) (nat_ : nat) (r : nat -> r2) (angle : Z) (q_irr : list r2) (D_irr : list cmat)
    : res full_mesh :=
  if (nq <? 0)%Z then Raise ValueError
  else
    let (a1, a2) := translations2 (180 - IZR angle) 0 in
    let (b1, b2) := reciprocals2 a1 a2 in
    wedge_loop nq nat_ r a1 a2 b1 b2 angle q_irr D_irr (fun _ => None).

(** ** q2r with [D_irr], [q_irr] and [nq]: ph.py:1827-1971

    [memory]: what [np.empty] happens to contain. *)
Definition q2r_wedge (memory : pt -> cmat) (nq : Z) (nat_ : nat) (r : nat -> r2) (angle : Z)
    (q_irr : list r2) (D_irr : list cmat) (M : nat -> R)
    (divide_mass_in apply_asr_simple divide_ndegen divide_mass : bool) (len : vec -> nat -> nat -> Q) (nproc : nat)
    : res (list (vec * (nat -> nat -> C))) :=
  do full <- wedge nq nat_ r angle q_irr D_irr ;;
  ph_q2r [nq; nq] nat_ M
    (fun k => match full (vx k, vy k) with Some D => D | None => memory (vx k, vy k) end)
    divide_mass_in apply_asr_simple divide_ndegen divide_mass len nproc.
