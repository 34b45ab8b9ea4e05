(** Model of elphmod/elph.py: the localized model for electron-phonon coupling,
    its Fourier transform with a cache that is distributed over processes
    ([g]), [gR], [standardize], [symmetrize], [asr] and [clear].

    Simplifications: exact arithmetic (Num.v). Arrays are functions of their
    indices, of which only those below the dimensions count. The attributes of
    [elph.el] and [elph.ph] that are used are numbers and functions. The arrays
    [data], [Rg] and [Rk] are the same for all processes (shared memory and
    broadcasts, C03 and C04), the cache is not. *)
From Verif Require Import Common MPIModel MiscModel LatModel Num ElModel.
Local Open Scope nat_scope.

Section Elph.
  Context {F : num}.

  (** Points in the Brillouin zone: [np.any(q != self.q)] is the negation of
      [peqb] (not-a-number is left out), [e q R] is [np.exp(1j * R.dot(q))]. *)
  Variable P : Type.
  Variable peqb : P -> P -> bool.
  Variable padd : P -> P -> P.
  Variable e : P -> vec -> F.

  (** [arr g x k a b]: lattice vector, displacement, lattice vector, orbitals *)
  Definition arr := nat -> nat -> nat -> @mat F.
  Definition slab := nat -> @mat F.

  (** [caches r] are the attributes [q] and [gq] of process [r], [None] for
      [self.q is None]; [gqn] is the second dimension of the array [gq]. *)
  Record elph := Elph {
    nel : nat;
    natoms : nat;
    Rg : list vec;
    Rk : list vec;
    data : arr;
    caches : nat -> option (P * (nat -> nat -> @mat F));
    gqn : nat;
    Rk0 : option nat
  }.
  (** [self.ph.size] *)
  Definition nph (s : elph) : nat := 3 * natoms s.

  Definition set_data (s : elph) (d : arr) : elph :=
    {| nel := nel s; natoms := natoms s; Rg := Rg s; Rk := Rk s; data := d; caches := caches s; gqn := gqn s; Rk0 := Rk0 s |}.
  Definition set_caches (s : elph) (c : nat -> option (P * (nat -> nat -> @mat F))) : elph :=
    {| nel := nel s; natoms := natoms s; Rg := Rg s; Rk := Rk s; data := data s; caches := c; gqn := gqn s; Rk0 := Rk0 s |}.

  Definition row (v : vec) : list Z := [vx v; vy v; vz v].
  (** [vector_index(self.Rk, (0, 0, 0))] *)
  Definition origin (R : list vec) : option nat := vector_index (map row R) [0; 0; 0]%Z.

  (** The object after [__init__] has read all files: elph.py:226-308 *)
  Definition create (nel natoms : nat) (Rg Rk : list vec) (d : arr) : elph :=
    {| nel := nel; natoms := natoms; Rg := Rg; Rk := Rk; data := d; caches := fun _ => None; gqn := length Rk; Rk0 := origin Rk |}.

  (** ** g: elph.py:90-196 *)

  (** [distribute(n, bounds=True, comm=comm)[1][comm.rank:comm.rank + 2]]: the
      indices [Rl], ..., [Ru - 1] of the process of rank [r] out of [nproc]. *)
  Definition my_slice (n nproc r : nat) : res (list nat) :=
    do (sizes, bounds) <- distribute (Z.of_nat n) (Z.of_nat nproc) ;;
    match nth_error bounds r, nth_error bounds (S r) with
    | Some lo, Some hi => Ok (seq (Z.to_nat lo) (Z.to_nat hi - Z.to_nat lo))
    | _, _ => Raise IndexError
    end.

  (** The slices of all processes of a communicator of [nproc] processes *)
  Fixpoint slices_from (n nproc : nat) (ranks : list nat) : res (list (list nat)) :=
    match ranks with
    | [] => Ok []
    | r :: ranks => do l <- my_slice n nproc r ;; do ls <- slices_from n nproc ranks ;; Ok (l :: ls)
    end.
  Definition slices (n nproc : nat) : res (list (list nat)) := slices_from n nproc (seq 0 nproc).

  (** Condition of line 128: the sum of the Boolean values of all processes of
      the communicator [c], a list of processes, is not zero. *)
  Definition miss (s : elph) (c : list nat) (q : P) : bool :=
    existsb (fun r => match caches s r with None => true | Some (q', _) => negb (peqb q q') end) c.

  (** Lines 134-142: einsum of the own part and sum over all processes *)
  Definition fourier_q (s : elph) (q : P) (parts : list (list nat)) (x k : nat) : @mat F := fun a b =>
    nsum (fun l => nsum (fun g => nmul (data s g x k a b) (e q (nth g (Rg s) vzero))) l) parts.

  (** Lines 144-148. With [Rk0] equal to [None], i.e. [np.newaxis], the other
      dimensions move and the shapes do not fit (ValueError) unless there are as
      many orbitals as displacements; the latter case (where the term is added
      to other elements) is left out. *)
  Definition add_long_range (s : elph) (lr : option (P -> nat -> F)) (q : P) (gq : nat -> nat -> @mat F)
      : res (nat -> nat -> @mat F) :=
    match lr with
    | None => Ok gq
    | Some f =>
      match Rk0 s with
      | None => Raise ValueError
      | Some k0 => Ok (fun x k a b => if (k =? k0) && (a =? b) then nadd (gq x k a b) (f q x) else gq x k a b)
      end
    end.

  (** Lines 128-148 *)
  Definition refresh (s : elph) (lr : option (P -> nat -> F)) (c : list nat) (q : P) : res elph :=
    if miss s c q then
      do parts <- slices (length (Rg s)) (length c) ;;
      if negb (gqn s =? length (Rk s)) then Raise ValueError else
      do gq <- add_long_range s lr q (fourier_q s q parts) ;;
      Ok (set_caches s (fun r => if existsb (Nat.eqb r) c then Some (q, gq) else caches s r))
    else Ok s.

  (** Lines 150-167: every process uses its own [gq]. *)
  Definition gq_of (s : elph) (r : nat) : nat -> nat -> @mat F :=
    match caches s r with Some (_, gq) => gq | None => fun _ _ _ _ => n0 end.
  Definition fourier_k (s : elph) (k : P) (parts : list (nat * list nat)) : slab := fun x a b =>
    nsum (fun rl => nsum (fun j => nmul (gq_of s (fst rl) x j a b) (e k (nth j (Rk s) vzero))) (snd rl)) parts.

  (** Lines 169-191: transformations into the band bases; [Uel k] and [Uph q]
      are the matrices of eigenvectors from numpy.linalg.eigh. *)
  Definition to_bands (Uel Uph : P -> @mat F) (nel nph : nat) (q k : P) (elbnd phbnd : bool) (g : slab) : slab :=
    let g := if elbnd then fun x m n => nsum (fun a => nsum (fun b =>
        nmul (nmul (nconj (Uel (padd k q) a m)) (g x a b)) (Uel k b n)) (seq 0 nel)) (seq 0 nel)
      else g in
    if phbnd then fun u a b => nsum (fun x => nmul (g x a b) (Uph q x u)) (seq 0 nph) else g.

  (** The call [g(q, k)] by all processes of the communicator [c] with
      [broadcast=True]: the new state and the result. *)
  Definition g_call (Uel Uph : P -> @mat F) (lr : option (P -> nat -> F)) (c : list nat) (q k : P) (elbnd phbnd : bool)
      (s : elph) : res (elph * slab) :=
    do s <- refresh s lr c q ;;
    do parts <- slices (length (Rk s)) (length c) ;;
    if negb (gqn s =? length (Rk s)) then Raise ValueError else
    Ok (s, to_bands Uel Uph (nel s) (nph s) q k elbnd phbnd (fourier_k s k (combine c parts))).

  (** ** gR: elph.py:205-224

      Without lattice vectors, [self.data[0, :, 0, :, :]] raises IndexError. *)
  Definition gR (s : elph) (Rq Rr : vec) : res slab :=
    match vector_index (map row (Rg s)) (row Rq), vector_index (map row (Rk s)) (row Rr) with
    | Some g, Some k => Ok (fun x => data s g x k)
    | _, _ => match Rg s, Rk s with _ :: _, _ :: _ => Ok (fun _ _ _ => n0) | _, _ => Raise IndexError end
    end.

  (** ** standardize: elph.py:553-667 *)

  (** Dictionaries keyed by pairs of lattice vectors *)
  Definition pair_eqb (R Q : vec * vec) : bool := veqb (fst R) (fst Q) && veqb (snd R) (snd Q).
  Definition dict := list ((vec * vec) * slab).
  Fixpoint pget (d : dict) (R : vec * vec) : option slab :=
    match d with [] => None | (Q, m) :: d => if pair_eqb Q R then Some m else pget d R end.
  Fixpoint pset (d : dict) (R : vec * vec) (m : slab) : dict :=
    match d with [] => [(R, m)] | (Q, x) :: d => if pair_eqb Q R then (Q, m) :: d else (Q, x) :: pset d R m end.
  (** Lines 591-594 and 600-604 *)
  Definition padd_to (d : dict) (R : vec * vec) (m : slab) : dict :=
    match pget d R with
    | Some x => pset d R (fun i a b => nadd (x i a b) (m i a b))
    | None => pset d R m
    end.

  (** [np.any(self.data[g, :, k] != 0)] *)
  Definition slab_nonzero (nph nel : nat) (m : slab) : bool := existsb (fun x => nonzero nel (m x)) (seq 0 nph).
  (** [.swapaxes(1, 2).conj()] *)
  Definition slab_adj (m : slab) : slab := fun x a b => nconj (m x b a).

  (** The items of the double loop of lines 586-587 *)
  Definition entries (s : elph) : dict :=
    flat_map (fun g => map (fun k => ((nth g (Rg s) vzero, nth k (Rk s) vzero), fun x => data s g x k))
      (seq 0 (length (Rk s)))) (seq 0 (length (Rg s))).

  Definition std_entry (nph nel : nat) (symmetrize : bool) (d : dict) (x : (vec * vec) * slab) : dict :=
    let '((G, K), m) := x in
    if slab_nonzero nph nel m then
      let d := padd_to d (G, K) m in
      if symmetrize then padd_to d (vsub G K, vopp K) (slab_adj m) else d
    else d.

  (** [sorted(set(l))] *)
  Fixpoint insert_vec (v : vec) (l : list vec) : list vec :=
    match l with
    | [] => [v]
    | w :: l' => if veqb v w then l else if vleb v w then v :: l else w :: insert_vec v l'
    end.
  Definition sorted_set (l : list vec) : list vec := fold_right insert_vec [] l.

  (** Lines 573-604; [small] is the test of line 575, skipped if [eps] is zero. *)
  Definition chop_data (small : option (F -> bool)) (d : arr) : arr :=
    match small with Some f => fun g x k a b => if f (d g x k a b) then n0 else d g x k a b | None => d end.
  Definition std_const (small : option (F -> bool)) (symmetrize : bool) (s : elph) : dict :=
    fold_left (std_entry (nph s) (nel s) symmetrize) (entries (set_data s (chop_data small (data s))))
      [((vzero, vzero), fun _ _ _ => n0)].

  (** Lines 624-627 and 642: the array for the second lattice vectors is cut to
      length, or allocated with the number of the first lattice vectors;
      assigning rows to an array of another length raises ValueError (one row
      can be assigned to any length). *)
  Definition assign_rows (rows : list vec) (len : nat) : res (list vec) :=
    if length rows =? len then Ok rows
    else match rows with [v] => Ok (repeat v len) | _ => Raise ValueError end.

  (** [half] is the division by two of line 652. *)
  Definition standardize (half : F -> F) (small : option (F -> bool)) (symmetrize : bool) (s : elph) : res elph :=
    let const := std_const small symmetrize s in
    let G := sorted_set (map (fun x => fst (fst x)) const) in
    let K := sorted_set (map (fun x => snd (fst x)) const) in
    let lenG := length G in
    let lenK := if length K <=? length (Rk s) then length K else length G in
    do RG <- assign_rows G lenG ;;
    do RK <- assign_rows K lenK ;;
    Ok {| nel := nel s; natoms := natoms s; Rg := RG; Rk := RK;
          data := fun g x k a b =>
            match nth_error G g, nth_error K k with
            | Some R, Some Q =>
              match pget const (R, Q) with
              | Some m => if symmetrize then half (m x a b) else m x a b
              | None => n0
              end
            | _, _ => n0
            end;
          caches := fun _ => None; gqn := length RK; Rk0 := origin RK |}.

  (** elph.py:669-672 *)
  Definition symmetrize (half : F -> F) (s : elph) : res elph := standardize half None true s.

  (** ** asr: elph.py:674-711

      The array is reshaped to (lattice vectors times atoms, rest): sums over the
      first dimension, for every direction [i], lattice vector and orbitals. *)
  Variable absf : F -> F.
  Variable divf : F -> F -> F.

  Definition column_sum (s : elph) (f : F -> F) (i k a b : nat) : F :=
    nsum (fun g => nsum (fun na => f (data s g (3 * na + i) k a b)) (seq 0 (natoms s))) (seq 0 (length (Rg s))).

  Definition asr (s : elph) : elph :=
    set_data s (fun g x k a b =>
      let i := x mod 3 in
      let zero := column_sum s (fun y => y) i k a b in
      let norm := column_sum s absf i k a b in
      let norm := if neqb norm n0 then n1 else norm in
      nsub (data s g x k a b) (nmul (divf (absf (data s g x k a b)) norm) zero)).

  (** ** clear: elph.py:750-761 (without [el.clear] and [ph.clear]) *)
  Definition clear (s : elph) : elph :=
    {| nel := nel s; natoms := natoms s; Rg := []; Rk := []; data := data s; caches := caches s; gqn := 0; Rk0 := Rk0 s |}.

  (** ** Histories of calls *)
  Inductive op :=
  | Coupling (c : list nat) (q k : P) (elbnd phbnd : bool)
  | Standardize (small : option (F -> bool)) (sym : bool)
  | Asr
  | Update (d : arr). (* q2r without [r], update_short_range: new values of [data], see elph.py:1073-1092 *)

  Definition step (Uel Uph : P -> @mat F) (lr : option (P -> nat -> F)) (half : F -> F) (o : op) (s : elph)
      : res (elph * option slab) :=
    match o with
    | Coupling c q k eb pb => do (s, g) <- g_call Uel Uph lr c q k eb pb s ;; Ok (s, Some g)
    | Standardize small sym => do s <- standardize half small sym s ;; Ok (s, None)
    | Asr => Ok (asr s, None)
    | Update d => Ok (set_data s d, None)
    end.
  Fixpoint run (Uel Uph : P -> @mat F) (lr : option (P -> nat -> F)) (half : F -> F) (l : list op) (s : elph) : res elph :=
    match l with
    | [] => Ok s
    | o :: l => do (s, _) <- step Uel Uph lr half o s ;; run Uel Uph lr half l s
    end.
End Elph.
