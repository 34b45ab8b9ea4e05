(** Model of elphmod/elel.py: the localized model for electron-electron
    interaction. Simplifications: exact arithmetic (Num.v); all processes receive
    the data of process 0 (C04). *)
From Verif Require Import Common LatModel Num ElModel.
Local Open Scope nat_scope.

Section Elel.
  Context {F : num}.

  (** [whop] pairs the rows of [self.R] with the matrices of [self.data]. [wflat]
      tells that [self.R] is an empty array of shape (0,) instead of (0, 3). *)
  Record elel := Elel {
    wsize : nat;
    whop : list (vec * @mat F);
    wflat : bool;
    wcells : list vec
  }.

  (** elel.py:60-75: [einsum('Rab,R->ab', data, exp(1j * R.dot(q)))]; [e R] stands
      for the phase factor. *)
  Definition W (e : vec -> F) (m : elel) (a b : nat) : F :=
    nsum (fun x => nmul (snd x a b) (e (fst x))) (whop m).

  (** The scalar product of arrays of shapes (0,) and (3,) raises ValueError. *)
  Definition W_call (e : vec -> F) (m : elel) : res (@mat F) :=
    if wflat m then Raise ValueError else Ok (W e m).

  (** elel.py:77-95: [misc.vector_index] finds the first row equal to R (C09);
      [np.zeros_like(self.data[0])] raises IndexError without lattice vectors. *)
  Definition WR (m : elel) (R : vec) : res (@mat F) :=
    match find (fun x => veqb (fst x) R) (whop m) with
    | Some x => Ok (snd x)
    | None => match whop m with [] => Raise IndexError | _ => Ok (fun _ _ => n0) end
    end.

  (** elel.py:172-192: the two loops; dictionaries as in ElModel.v *)
  Definition elel_sc_step (sz : nat) (sc : supercell_info) (i : nat) (cell : vec)
      (const : res (list (vec * @mat F))) (x : vec * @mat F) : res (list (vec * @mat F)) :=
    do const <- const ;;
    do (R, r) <- to_supercell (vadd (fst x) cell) sc ;;
    let A := i * sz in
    let B := r * sz in
    let old := match dget const R with Some m => m | None => fun _ _ => n0 end in
    Ok (dset const R (fun a b =>
      if (A <=? a) && (a <? A + sz) && (B <=? b) && (b <? B + sz) then snd x (a - A) (b - B) else old a b)).

  (** elel.py:150-214; [N] is not stored, contrary to el.Model and ph.Model *)
  Definition elel_supercell (a1 a2 a3 : narg) (m : elel) : res elel :=
    do sc <- supercell a1 a2 a3 ;;
    do const <- fold_left (fun const ic => fold_left (elel_sc_step (wsize m) sc (fst ic) (snd ic)) (whop m) const)
      (combine (seq 0 (length (sc_cells sc))) (sc_cells sc)) (Ok []) ;;
    Ok {| wsize := length (sc_cells sc) * wsize m; whop := const;
          wflat := match const with [] => true | _ => false end; wcells := sc_cells sc |}.

  (** elel.py:239-247: one iteration *)
  Definition elel_std_step (sz : nat) (d : list (vec * @mat F)) (x : vec * @mat F) : list (vec * @mat F) :=
    if existsb (fun a => existsb (fun b => negb (neqb (snd x a b) n0)) (seq 0 sz)) (seq 0 sz) then
      match dget d (fst x) with
      | Some y => dset d (fst x) (fun a b => nadd (y a b) (snd x a b))
      | None => dset d (fst x) (snd x)
      end
    else d.

  (** elel.py:216-264; [small] is the test of line 231, absent if [eps = 0]. *)
  Definition elel_standardize (small : option (F -> bool)) (m : elel) : elel :=
    let h := match small with
      | Some f => map (fun x => (fst x, fun a b => if f (snd x a b) then n0 else snd x a b)) (whop m)
      | None => whop m
      end in
    let const := fold_left (elel_std_step (wsize m)) h [] in
    {| wsize := wsize m; whop := sort_hop const; wflat := match const with [] => true | _ => false end; wcells := wcells m |}.

  (** elel.py:143-146, in [__init__]: data of a file (misc.read_dat_mat, C14) are
      assigned to the points of a mesh; later ones replace earlier ones. *)
  Definition fold_mesh (nq : vec) (h : list (vec * @mat F)) : vec -> @mat F :=
    fold_left (fun WR x => fun m => if veqb m (V3 (vx (fst x) mod vx nq)%Z (vy (fst x) mod vy nq)%Z (vz (fst x) mod vz nq)%Z)
      then snd x else WR m) h (fun _ _ _ => n0).
End Elel.
