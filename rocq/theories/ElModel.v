(** Model of elphmod/el.py: the tight-binding model class. *)
From Verif Require Import Common LatModel Num.
Local Open Scope nat_scope.

Section El.
  Context {F : num}.

  (** A matrix over orbitals; only elements with indices below the size count. *)
  Definition mat := nat -> nat -> F.

  Definition mzero : mat := fun _ _ => n0.
  Definition madd (x y : mat) : mat := fun a b => nadd (x a b) (y a b).
  (** [.T.conj()] *)
  Definition mdag (x : mat) : mat := fun a b => nconj (x b a).

  (** [np.any(data[n] != 0.0)] *)
  Definition nonzero (size : nat) (m : mat) : bool :=
    existsb (fun a => existsb (fun b => negb (neqb (m a b) n0)) (seq 0 size)) (seq 0 size).

  (** The attributes of el.Model used here. [hop] pairs the rows of [self.R]
      with the matrices of [self.data]; [Nsc] is [self.N], which only models
      made by [supercell] have. [flatR] tells that [self.R] is an empty array
      of shape (0,) instead of (0, 3), as results from [np.array([])]. *)
  Record el := El {
    size : nat;
    hop : list (vec * mat);
    flatR : bool;
    cells : list vec;
    Nsc : option (vec * vec * vec);
    divide_ndegen : bool;
    rydberg : bool
  }.

  Definition set_hop (m : el) (h : list (vec * mat)) (flat : bool) : el :=
    {| size := size m; hop := h; flatR := flat; cells := cells m; Nsc := Nsc m;
       divide_ndegen := divide_ndegen m; rydberg := rydberg m |}.

  (** ** H and t: el.py:99-124, 146-164 *)

  (** [einsum('Rab,R->ab', data, exp(1j * R.dot(k)))]; [e R] stands for the
      phase factor of lattice vector R. *)
  Definition H (e : vec -> F) (m : el) (a b : nat) : F :=
    nsum (fun x => nmul (snd x a b) (e (fst x))) (hop m).

  (** The call [H(k)]: the scalar product of an array of shape (0,) with one of
      shape (3,) raises ValueError. *)
  Definition H_call (e : vec -> F) (m : el) : res mat :=
    if flatR m then Raise ValueError else Ok (H e m).

  (** Dictionaries keyed by lattice vectors, in order of insertion. *)
  Fixpoint dget (d : list (vec * mat)) (R : vec) : option mat :=
    match d with
    | [] => None
    | (Q, m) :: d => if veqb Q R then Some m else dget d R
    end.

  Fixpoint dset (d : list (vec * mat)) (R : vec) (m : mat) : list (vec * mat) :=
    match d with
    | [] => [(R, m)]
    | (Q, x) :: d => if veqb Q R then (Q, m) :: d else (Q, x) :: dset d R m
    end.

  (** [misc.vector_index] finds the first row equal to R (C09), i.e. the lookup
      of a dictionary. [np.zeros_like(self.data[0])] raises IndexError for a
      model without lattice vectors. *)
  Definition t (m : el) (R : vec) : res mat :=
    match dget (hop m) R with
    | Some x => Ok x
    | None => match hop m with [] => Raise IndexError | _ => Ok mzero end
    end.

  (** ** v: el.py:126-144 *)

  (** [einsum('Rx,Rab,R->xab', 1j * R, data, exp(1j * R.dot(k)))] for one
      direction x; [I] is the imaginary unit, [ofZ] the conversion of integers. *)
  Definition v (I : F) (ofZ : Z -> F) (e : vec -> F) (m : el) (x : vec -> Z) (a b : nat) : F :=
    nsum (fun y => nmul (nmul (nmul I (ofZ (x (fst y)))) (snd y a b)) (e (fst y))) (hop m).

  (** ** Distribution over Wigner-Seitz images: el.py:214-230, in [__init__] *)

  (** [const[R][a, b] += t] *)
  Definition dinc (d : list (vec * mat)) (R : vec) (a b : nat) (x : F) : list (vec * mat) :=
    let old := match dget d R with Some m => m | None => mzero end in
    dset d R (fun a' b' => if (a' =? a) && (b' =? b) then nadd (old a' b') x else old a' b').

  (** [supvecs[key]]: KeyError if missing; [divn x n] is [x / n] for n > 0. *)
  Definition ws_step (divn : F -> nat -> F) (supvecs : vec -> nat -> nat -> option (list vec))
      (const : res (list (vec * mat))) (x : vec * mat) (ab : nat * nat) : res (list (vec * mat)) :=
    do const <- const ;;
    match supvecs (fst x) (fst ab) (snd ab) with
    | None => Raise KeyError
    | Some [] => Raise ZeroDivisionError
    | Some l =>
      let t := divn (snd x (fst ab) (snd ab)) (length l) in
      Ok (fold_left (fun d T => dinc d (vadd (fst x) T) (fst ab) (snd ab) t) l const)
    end.

  Definition ws_distribute (divn : F -> nat -> F) (supvecs : vec -> nat -> nat -> option (list vec))
      (m : el) : res el :=
    do const <- fold_left (fun const x =>
        fold_left (fun const ab => ws_step divn supvecs const x ab)
          (list_prod (seq 0 (size m)) (seq 0 (size m))) const) (hop m) (Ok []) ;;
    Ok (set_hop m const (match const with [] => true | _ => false end)).

  (** ** standardize: el.py:510-577 *)

  (** Lines 535-536: [self.data[abs(self.data) < eps * abs(self.data).max()] = 0.0].
      [small] is the test; with [eps = 0] the line is skipped. *)
  Definition chop (small : F -> bool) (h : list (vec * mat)) : list (vec * mat) :=
    map (fun x => (fst x, fun a b => if small (snd x a b) then n0 else snd x a b)) h.

  (** [if R in const: const[R] += m] / [else: const[R] = m] *)
  Definition dadd (d : list (vec * mat)) (R : vec) (m : mat) : list (vec * mat) :=
    match dget d R with
    | Some x => dset d R (madd x m)
    | None => dset d R m
    end.

  (** One iteration of the loop of lines 543-562. *)
  Definition std_step (sz : nat) (symmetrize : bool) (d : list (vec * mat)) (x : vec * mat)
      : list (vec * mat) :=
    if nonzero sz (snd x) then
      let d := dadd d (fst x) (snd x) in
      if symmetrize then dadd d (vopp (fst x)) (mdag (snd x)) else d
    else d.

  (** Order of Python tuples. *)
  Definition vleb (u v : vec) : bool :=
    (vx u <? vx v)%Z || ((vx u =? vx v)%Z &&
      ((vy u <? vy v)%Z || ((vy u =? vy v)%Z && (vz u <=? vz v)%Z))).

  Fixpoint insert_hop (x : vec * mat) (d : list (vec * mat)) : list (vec * mat) :=
    match d with
    | [] => [x]
    | y :: d' => if vleb (fst x) (fst y) then x :: d else y :: insert_hop x d'
    end.

  (** [cells = sorted(list(const.keys()))], [[const[R] for R in cells]]: the
      items of the dictionary by key. *)
  Definition sort_hop (d : list (vec * mat)) : list (vec * mat) :=
    fold_right insert_hop [] d.

  (** [half] is the division by two of line 571. All processes receive the
      data of process 0. Without any entry, [np.array(cells)] has shape (0,). *)
  Definition standardize (half : F -> F) (small : option (F -> bool)) (symmetrize : bool)
      (m : el) : el :=
    let h := match small with Some f => chop f (hop m) | None => hop m end in
    let const := fold_left (std_step (size m) symmetrize) h [] in
    let h := sort_hop const in
    set_hop m (if symmetrize then map (fun x => (fst x, fun a b => half (snd x a b))) h else h)
      (match const with [] => true | _ => false end).

  (** ** order_orbitals: el.py:452-467 *)

  (** Fancy indexing raises IndexError for indices out of range (indices are
      modelled as natural numbers); note that [self.size] is not updated. *)
  Definition order_orbitals (order : list nat) (m : el) : res el :=
    if forallb (fun a => a <? size m) order then
      Ok (set_hop m (map (fun x => (fst x, fun a b =>
        match nth_error order a, nth_error order b with
        | Some a', Some b' => snd x a' b'
        | _, _ => n0
        end)) (hop m)) (flatR m))
    else Raise IndexError.

  (** ** shift_orbitals: el.py:469-508 *)

  (** [s] tells whether an orbital is in the slice. *)
  Definition shift_hop (s : nat -> bool) (S : vec) (h : list (vec * mat)) : list (vec * mat) :=
    map (fun x => (vsub (fst x) S, fun a b => if negb (s a) && s b then snd x a b else n0)) h ++
    map (fun x => (fst x, fun a b => if s a then (if s b then snd x a b else n0)
                                     else (if s b then n0 else snd x a b))) h ++
    map (fun x => (vadd (fst x) S, fun a b => if s a && negb (s b) then snd x a b else n0)) h.

  Definition shift_orbitals (s : nat -> bool) (S : vec) (m : el) : el :=
    standardize (fun x => x) None false (set_hop m (shift_hop s S (hop m)) (flatR m)).

  (** ** supercell: el.py:309-403 (dense branch) *)

  (** [const[R][A:A + size, B:B + size] = data] *)
  Definition set_block (sz : nat) (m : mat) (i j : nat) (data : mat) : mat :=
    fun a b =>
      if (i * sz <=? a) && (a <? i * sz + sz) && (j * sz <=? b) && (b <? j * sz + sz)
      then data (a - i * sz) (b - j * sz) else m a b.

  (** Body of the two loops, lines 350-369. *)
  Definition sc_step (sz : nat) (sc : supercell_info) (i : nat) (cell : vec)
      (const : res (list (vec * mat))) (x : vec * mat) : res (list (vec * mat)) :=
    do const <- const ;;
    do (R, r) <- to_supercell (vadd (fst x) cell) sc ;;
    let old := match dget const R with Some m => m | None => mzero end in
    Ok (dset const R (set_block sz old i r (snd x))).

  Definition sc_const (m : el) (sc : supercell_info) : res (list (vec * mat)) :=
    fold_left (fun const ic =>
        fold_left (sc_step (size m) sc (fst ic) (snd ic)) (hop m) const)
      (combine (seq 0 (length (sc_cells sc))) (sc_cells sc)) (Ok []).

  Definition el_supercell (a1 a2 a3 : narg) (m : el) : res el :=
    do sc <- supercell a1 a2 a3 ;;
    do const <- sc_const m sc ;;
    Ok {| size := length (sc_cells sc) * size m; hop := const; flatR := false; cells := sc_cells sc;
          Nsc := Some (sc_N1 sc, sc_N2 sc, sc_N3 sc);
          divide_ndegen := divide_ndegen m; rydberg := rydberg m |}.

  (** The sparse branch, lines 333-339 and 357-361: only [Hs] is filled, with
      the real parts ([re]) of all hoppings. *)
  Definition add_block (sz : nat) (m : mat) (i j : nat) (data : mat) : mat :=
    fun a b =>
      if (i * sz <=? a) && (a <? i * sz + sz) && (j * sz <=? b) && (b <? j * sz + sz)
      then nadd (m a b) (data (a - i * sz) (b - j * sz)) else m a b.

  Definition sp_step (re : F -> F) (sz : nat) (sc : supercell_info) (i : nat) (cell : vec)
      (Hs : res mat) (x : vec * mat) : res mat :=
    do Hs <- Hs ;;
    do (R, r) <- to_supercell (vadd (fst x) cell) sc ;;
    Ok (add_block sz Hs i r (fun a b => re (snd x a b))).

  Definition el_supercell_sparse (re : F -> F) (a1 a2 a3 : narg) (m : el) : res mat :=
    do sc <- supercell a1 a2 a3 ;;
    fold_left (fun Hs ic =>
        fold_left (sp_step re (size m) sc (fst ic) (snd ic)) (hop m) Hs)
      (combine (seq 0 (length (sc_cells sc))) (sc_cells sc)) (Ok mzero).

  (** ** unit_cell: el.py:405-450 *)

  (** [self.N] does not exist (AttributeError) unless the model comes from
      [supercell]; it is only looked at for nonzero blocks, here always. The
      flags take their default values ([divide_ndegen=True],
      [rydberg=False]). *)
  Definition uc_step (sz : nat) (N : vec * vec * vec) (R : vec) (m : mat)
      (const : list (vec * mat)) (ic : nat * vec) : list (vec * mat) :=
    let tt : mat := fun a b => m a (fst ic * sz + b) in
    if nonzero sz tt then
      let '(N1, N2, N3) := N in
      let R' := vadd (vadd (vadd (vscale (vx R) N1) (vscale (vy R) N2)) (vscale (vz R) N3)) (snd ic) in
      dset const R' tt
    else const.

  Definition el_unit_cell (m : el) : res el :=
    match Nsc m with
    | None => Raise AttributeError
    | Some N =>
      let sz := size m / length (cells m) in
      let const := fold_left (fun const x =>
          fold_left (uc_step sz N (fst x) (snd x))
            (combine (seq 0 (length (cells m))) (cells m)) const) (hop m) [] in
      Ok {| size := sz; hop := const; flatR := match const with [] => true | _ => false end;
            cells := [vzero]; Nsc := None;
            divide_ndegen := true; rydberg := false |}
    end.
End El.
