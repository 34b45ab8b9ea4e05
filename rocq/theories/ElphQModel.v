(** Model of elph.q2r and elph.Model.update_short_range: Fourier transform of
    the coupling from meshes of q and k points to lattice vectors. *)
From Coq Require Import Reals.
From Verif Require Import Common LatModel VorModel Num NumC ElModel WSModel WSSpec WSProofs2 KrModel ElphModel.
Local Open Scope nat_scope.

(** Coupling on complete meshes: [g q x k m n] *)
Notation mesh_coupling := (vec -> nat -> vec -> nat -> nat -> C).

(** The attributes [dk] and [dg] with the dimensions that are examined: [dk] is
    indexed by [N], [M] and the lattice vector, [dg] by [N], [M], the atom and
    the lattice vector. [None] after [standardize]. *)
Record degeneracies := Deg {
  dk_0 : nat; dk_1 : nat; dk : nat -> nat -> nat -> nat;
  dg_0 : nat; dg_1 : nat; dg_2 : nat; dg : nat -> nat -> nat -> nat -> nat
}.

(** [g[...] /= d] or zero *)
Definition over (z : C) (d : nat) : C := if d =? 0 then n0 else Cdivn z d.

(** ** divide_degeneracy: elph.py:310-341

    First loop (321-329), then second loop (331-341). *)
Definition divide_dk (d : degeneracies) (g : @arr C) : @arr C := fun irg x irk m n =>
  let M := if 1 <? dk_1 d then m else 0 in
  let N := if 1 <? dk_0 d then n else 0 in
  over (g irg x irk m n) (dk d N M irk).
Definition divide_dg (d : degeneracies) (g : @arr C) : @arr C := fun irg x irk m n =>
  let X := if 1 <? dg_2 d then x / 3 else 0 in
  let M := if 1 <? dg_1 d then m else 0 in
  let N := if 1 <? dg_0 d then n else 0 in
  over (g irg x irk m n) (dg d N M X irg).
Definition divide_degeneracy (d : option degeneracies) (g : @arr C) : res (@arr C) :=
  match d with
  | None => Raise SystemExit
  | Some d => Ok (divide_dg d (divide_dk d g))
  end.

(** Lines 1044-1057: the Fourier transform of one element on both meshes. The elements
    are distributed among the processes and gathered (C01, C02). The transform
    along six axes is the one along three axes of the one along the others. *)
Definition to_both_lattices (nq nk : vec) (g : mesh_coupling) (x m n : nat) (G K : vec) : C :=
  nconj (ifftn nq (fun q => ifftn nk (fun k => nconj (g q x k m n)) K) G).

(** Lines 1060-1067: [wigner] for orbitals and atoms and for orbitals, the
    degeneracies transposed, with an additional dimension of size one. *)
Definition wigner_deg (nel nats : nat) (wg wk : list (vec * (nat -> nat -> nat * Q))) : degeneracies :=
  {| dk_0 := nel; dk_1 := nel;
     dk := fun N M irk => match nth_error wk irk with Some x => fst (snd x M N) | None => 0 end;
     dg_0 := 1; dg_1 := nel; dg_2 := nats;
     dg := fun N M X irg => match nth_error wg irg with Some x => fst (snd x M X) | None => 0 end |}.

(** ** q2r: elph.py:1009-1092

    [lens] is [None] without positions [r]; otherwise, it gives the distances
    between orbitals and atoms and between orbitals. The default arguments of
    [wigner] are used. The attributes [q], [gq] and [Rk0] are not touched. The
    reshaping of line 1040 has been done. *)
Definition q2r (d : option degeneracies) (divide_ndegen mass_model : bool) (mass : nat -> R) (nq_shape nk_shape : list Z)
    (g : mesh_coupling) (lens : option ((vec -> nat -> nat -> Q) * (vec -> nat -> nat -> Q))) (divide_mass : bool)
    (nproc : nat) (s : @elph C kpoint) : res (@elph C kpoint * option degeneracies) :=
  do nq <- pad_mesh nq_shape ;;
  do nk <- pad_mesh nk_shape ;;
  do (RG, RK, d) <- match lens with
    | None => Ok (Rg _ s, Rk _ s, d)
    | Some (len_g, len_k) =>
      do wg <- wigner nq 1 2 (nel _ s) (natoms _ s) len_g (1 # 10000000) nproc ;;
      do wk <- wigner nk 1 2 (nel _ s) (nel _ s) len_k (1 # 10000000) nproc ;;
      Ok (map fst wg, map fst wk, Some (wigner_deg (nel _ s) (natoms _ s) wg wk))
    end ;;
  let new : @arr C := fun irg x irk m n =>
    to_both_lattices nq nk g x m n (mesh_index nq 1 (nth irg RG vzero)) (mesh_index nk 1 (nth irk RK vzero)) in
  do new <- (if divide_ndegen then divide_degeneracy d new else Ok new) ;;
  let new : @arr C := if divide_mass && negb mass_model then fun irg x irk m n => nmul (new irg x irk m n) (RtoC (sqrt (mass (x / 3))))
    else if negb divide_mass && mass_model then fun irg x irk m n => nmul (new irg x irk m n) (RtoC (/ sqrt (mass (x / 3))))
    else new in
  Ok ({| nel := nel _ s; natoms := natoms _ s; Rg := RG; Rk := RK; data := new; caches := caches _ s; gqn := gqn _ s; Rk0 := Rk0 _ s |}, d).

(** ** update_short_range: elph.py:355-382

    [g0] is the attribute set by [sample_orig], i.e., the coupling sampled on the
    original meshes; [lr] is [g_lr], [None] without long-range terms. *)
Definition update_short_range (d : option degeneracies) (divide_ndegen mass_model : bool) (mass : nat -> R) (nq nk : list Z)
    (g0 : option mesh_coupling) (lr : option (kpoint -> nat -> C)) (nproc : nat) (s : @elph C kpoint) : res (@elph C kpoint * option degeneracies) :=
  match g0 with
  | None => Raise SystemExit
  | Some g0 =>
    do nq' <- pad_mesh nq ;;
    let g := match lr with
      | None => g0
      | Some lr => fun q x k m n => if m =? n then nsub (g0 q x k m n) (lr (mesh_point nq' q) x) else g0 q x k m n
      end in
    q2r d divide_ndegen mass_model mass nq nk g None mass_model nproc s
  end.
