(** Model of elphmod/ph.py: updates of the short-range part of a mass-spring
    model with long-range terms. *)
From Coq Require Import Reals QArith.
From Verif Require Import Common LatModel Num NumC ElModel WSModel WSSpec KrModel PhModel PhLRModel.
Local Open Scope R_scope.

Definition matrices := vec -> nat -> nat -> C.

(** The attributes of a [Model] that matter here. [polar_]: what the long-range
    terms depend on, [None] if [lr] is False. [D0]: the matrices on the original
    mesh, [None] before [sample_orig]. [len]: distances between atoms for all
    lattice vectors, as in PhModel.v. Attributes are assumed not to be read
    between a change of the charges etc. and the call of [prepare_long_range]
    that follows. *)
Record ph := Ph {
  atoms : nat;
  mass : nat -> R;
  divided : bool;
  mesh_ : list Z;
  len : vec -> nat -> nat -> Q;
  data : list (vec * (nat -> nat -> C));
  polar_ : option polar;
  D0 : option matrices
}.

(** [D]: ph.py:145-172; [D_lr]: ph.py:174-180, PhLRModel.v. Rows and columns of
    [D_lr] are numbered by atom and direction. *)
Definition long_range (p : option polar) (q : kpoint) (a b : nat) : C :=
  match p with Some p => D_lr p q (a / 3) (a mod 3) (b / 3) (b mod 3) | None => n0 end.

Definition D (s : ph) (q : kpoint) (a b : nat) : C :=
  let Dq := D_sum (phase q) (data s) a b in
  match polar_ s with Some p => nadd Dq (long_range (Some p) q a b) | None => Dq end.

(** [bravais.mesh(self.nq)] in units of [2 pi / nq], sampled as in
    [dispersion.sample] (C51). *)
Definition sample (f : kpoint -> nat -> nat -> C) (nq : vec) : matrices := fun n => f (mesh_point nq n).

(** sample_orig: ph.py:505-510 *)
Definition sample_orig (s : ph) : res ph :=
  do nq <- pad_mesh (mesh_ s) ;;
  Ok (Ph (atoms s) (mass s) (divided s) (mesh_ s) (len s) (data s) (polar_ s) (Some (sample (D s) nq))).

(** The user assigns to [Z], [Q], [eps], [L], [lr] etc. *)
Definition change (p : option polar) (s : ph) : ph :=
  Ph (atoms s) (mass s) (divided s) (mesh_ s) (len s) (data s) p (D0 s).

(** update_short_range: ph.py:512-536, without the file [flfrc]; [info] with
    [error=True] ends the program. *)
Definition update_short_range (apply_asr_simple : bool) (nproc : nat) (s : ph) : res ph :=
  match D0 s with
  | None => Raise SystemExit
  | Some D0' =>
    do nq <- pad_mesh (mesh_ s) ;;
    let D' : matrices := match polar_ s with
      | None => D0'
      | Some p => let D_lr' := sample (long_range (Some p)) nq in fun n a b => nsub (D0' n a b) (D_lr' n a b)
      end in
    do data' <- ph_q2r (mesh_ s) (atoms s) (mass s) D' (divided s) apply_asr_simple true (divided s) (len s) nproc ;;
    Ok (Ph (atoms s) (mass s) (divided s) (mesh_ s) (len s) data' (polar_ s) (D0 s))
  end.

(** A history of changes, each followed by an update. *)
Fixpoint history (nproc : nat) (ps : list (option polar)) (s : ph) : res ph :=
  match ps with
  | [] => Ok s
  | p :: ps => do s <- update_short_range false nproc (change p s) ;; history nproc ps s
  end.

(** sum_force_constants: ph.py:538-556, [C] for the lattice vector zero:
    ph.py:182-201. *)
Definition cabs (z : C) : R := sqrt (norm2 z).

Definition block_sum (d : nat -> nat -> C) (i j : nat) : R :=
  Rsum (fun x => Rsum (fun y => cabs (d (i * 3 + x)%nat (j * 3 + y)%nat)) 3) 3.

Definition home (data : list (vec * (nat -> nat -> C))) : nat -> nat -> C :=
  match find (fun x => veqb (fst x) vzero) data with Some x => snd x | None => fun _ _ => n0 end.

Definition scale_by_mass (nat_ : nat) (M : nat -> R) (cost : nat -> nat -> R) : nat -> nat -> R :=
  fold_left (fun (cost : nat -> nat -> R) na =>
    let cost := fun i j => if (i =? na)%nat then cost i j * sqrt (M na) else cost i j in
    fun i j => if (j =? na)%nat then cost i j * sqrt (M na) else cost i j) (seq 0 nat_) cost.

Definition sum_force_constants (s : ph) : res R :=
  do nq <- pad_mesh (mesh_ s) ;;
  let C_all := fun i j => fold_right Rplus 0 (map (fun x => block_sum (snd x) i j) (data s)) in
  let C_self := fun i j => if (i =? j)%nat then block_sum (home (data s)) i j else 0 in
  let cost := fun i j => C_all i j - C_self i j in
  let cost := if divided s then scale_by_mass (atoms s) (mass s) cost else cost in
  Ok (Rsum (fun i => Rsum (fun j => cost i j) (atoms s)) (atoms s) / (2 * IZR (vx nq * vy nq * vz nq))).
