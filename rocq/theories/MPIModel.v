(** Model of elphmod/MPI.py: work distribution, communicators, shared arrays
    and the pickle buffer. *)
From Verif Require Import Common.

(** ** Work distribution *)

Local Open Scope Z_scope.

(** MPI.py:96-100. [np.empty(chunks)] rejects a negative number of chunks
    (ValueError), [size // chunks] rejects zero (ZeroDivisionError).
    [sizes[:] = size // chunks] fills the array, [sizes[:size % chunks] += 1]
    increments a leading slice. Python's [//] and [%] are [Z.div] and
    [Z.modulo] for a positive divisor. The [comm.Bcast] (MPI.py:102) hands the
    array of rank 0 to everybody: all processes return the same list. *)
Definition distribute_sizes (size chunks : Z) : res (list Z) :=
  if chunks <? 0 then Raise ValueError
  else if chunks =? 0 then Raise ZeroDivisionError
  else
    let sizes := repeat (size / chunks) (Z.to_nat chunks) in
    let m := Z.to_nat (size mod chunks) in
    Ok (map (fun s => s + 1) (firstn m sizes) ++ skipn m sizes).

(** MPI.py:105-111: [cumsum[0] = 0], then
    [cumsum[rank + 1] = cumsum[rank] + sizes[rank]]. *)
Fixpoint cumsum_from (c : Z) (sizes : list Z) : list Z :=
  c :: match sizes with [] => [] | s :: sizes => cumsum_from (c + s) sizes end.

(** MPI.py:90-117 with [bounds=True]. *)
Definition distribute (size chunks : Z) : res (list Z * list Z) :=
  do sizes <- distribute_sizes size chunks ;;
  Ok (sizes, cumsum_from 0 sizes).

Local Close Scope Z_scope.

(** ** Vector collectives, by their contract in the MPI standard

    Simplification: a process's buffer is a list of items (rows). With counts
    given and displacements omitted, mpi4py uses the exclusive prefix sums of
    the counts as displacements. A send or receive buffer that does not match
    the counts is an error. The serial stand-in (MPI.py:40-41 and 68-69)
    copies the whole array, which is the one-process case of the contract. *)

(** [comm.Scatterv((data, sizes), my_data)]: what each rank receives. *)
Fixpoint Scatterv {A} (counts : list nat) (data : list A) : res (list (list A)) :=
  match counts with
  | [] => match data with [] => Ok [] | _ => Raise ValueError end
  | c :: counts =>
    if c <=? length data then
      do rest <- Scatterv counts (skipn c data) ;;
      Ok (firstn c data :: rest)
    else Raise ValueError
  end.

(** [comm.Gatherv(my_data, (data, sizes))]: what rank 0 receives. *)
Fixpoint Gatherv {A} (counts : list nat) (parts : list (list A)) : res (list A) :=
  match counts, parts with
  | [], [] => Ok []
  | c :: counts, part :: parts =>
    if length part =? c then
      do rest <- Gatherv counts parts ;; Ok (part ++ rest)
    else Raise ValueError
  | _, _ => Raise ValueError
  end.

(** The pattern of dispersion.py:136-139, 151-153, 159-160, 426-443 and many
    other places: distribute, scatter, compute locally, gather. *)
Definition scatter_compute_gather {A B} (f : A -> B) (nproc : Z) (data : list A)
    : res (list B) :=
  do (sizes, bounds) <- distribute (Z.of_nat (length data)) nproc ;;
  let counts := map Z.to_nat sizes in
  do mine <- Scatterv counts data ;;
  Gatherv counts (map (map f) mine).

(** ** Communicators

    A communicator is the list of the world ranks of its members; a process's
    rank in it is its position in this list. *)

Definition comm := list nat.

Definition world (nproc : nat) : comm := seq 0 nproc.

(** [comm.rank] for the process of world rank [p]. *)
Definition rank_in (c : comm) (p : nat) : option nat := find_index (Nat.eqb p) c.

(** Stable insertion by key: [MPI_Comm_split] orders by key and breaks ties by
    the rank in the old group. *)
Fixpoint insert_key (key : nat -> nat) (p : nat) (c : comm) : comm :=
  match c with
  | [] => [p]
  | q :: c' => if key p <=? key q then p :: c else q :: insert_key key p c'
  end.

Definition sort_key (key : nat -> nat) (c : comm) : comm :=
  fold_right (insert_key key) [] c.

(** [comm.Split(color, key)] as seen by process [p], where [color] and [key]
    give the arguments each member passes. *)
Definition Split (c : comm) (color key : nat -> nat) (p : nat) : comm :=
  sort_key key (filter (fun q => color q =? color p) c).

(** MPI.py:119-127. [rank % size] raises for [size = 0]; a negative size (not
    modelled) is rejected by nothing here. Returns the pair (col, row) as seen
    by process [p]. The unused result of [distribute] (line 122) is dropped. *)
Definition matrix (nproc size : nat) (p : nat) : res (comm * comm) :=
  if size =? 0 then Raise ZeroDivisionError
  else
    Ok (Split (world nproc) (fun q => q mod size) (fun q => q) p,
        Split (world nproc) (fun q => q / size) (fun q => q) p).

(** MPI.py:129-185, branch with shared memory: [Split_type] colours a process
    by the node [nd p] it runs on; [images] collects processes of equal rank on
    their nodes. *)
Definition node_comm (nproc : nat) (nd : nat -> nat) (p : nat) : comm :=
  Split (world nproc) nd (fun q => q) p.

Definition node_rank (nproc : nat) (nd : nat -> nat) (p : nat) : nat :=
  match rank_in (node_comm nproc nd p) p with Some r => r | None => nproc end.

Definition images_comm (nproc : nat) (nd : nat -> nat) (p : nat) : comm :=
  Split (world nproc) (node_rank nproc nd) (fun q => q) p.

Definition images_rank (nproc : nat) (nd : nat -> nat) (p : nat) : nat :=
  match rank_in (images_comm nproc nd p) p with Some r => r | None => nproc end.

(** ** Interleaved execution of shared-memory programs

    Each process runs a list of instructions. The memory shared by the
    processes of one node is one cell per node, [mem n]; sequentially
    consistent access is assumed. [Bcast] and [Barrier] follow the MPI
    standard: the root of a broadcast may leave at once, a receiver waits for
    the message of the matching call (calls on one communicator match in
    order); nobody leaves a barrier before all members have entered it. A
    communicator is identified by its list of members. *)
Section Machine.
  Context {M : Type}.

  Inductive instr :=
    | Write (f : M -> M)       (* in-place change of the array of the own node *)
    | Bcast (c : comm)         (* c.Bcast(array), root = first member *)
    | Enter (c : comm)         (* first half of c.Barrier() *)
    | Leave (c : comm).        (* second half of c.Barrier() *)

  Definition Barrier (c : comm) : list instr := [Enter c; Leave c].

  Record state := {
    code : nat -> list instr;           (* what is left to do, per process *)
    mem : nat -> M;                     (* memory per node *)
    sent : comm -> list M;              (* broadcasts so far, per communicator *)
    received : nat -> comm -> nat;      (* how many of them a process has seen *)
    entered : nat -> comm -> nat;       (* barriers entered so far *)
  }.

  Definition set1 {A} (f : nat -> A) (p : nat) (a : A) : nat -> A :=
    fun q => if q =? p then a else f q.

  Definition comm_eqb (c d : comm) : bool :=
    if list_eq_dec Nat.eq_dec c d then true else false.

  Definition setc {A} (f : comm -> A) (c : comm) (a : A) : comm -> A :=
    fun d => if comm_eqb d c then a else f d.

  (** One step of process [p], or [None] if it has finished or must wait. *)
  Definition step (nd : nat -> nat) (s : state) (p : nat) : option state :=
    match code s p with
    | [] => None
    | Write f :: rest => Some
      {| code := set1 (code s) p rest;
         mem := set1 (mem s) (nd p) (f (mem s (nd p)));
         sent := sent s; received := received s; entered := entered s |}
    | Bcast c :: rest =>
      if match c with root :: _ => root =? p | [] => false end then Some
        {| code := set1 (code s) p rest; mem := mem s;
           sent := setc (sent s) c (sent s c ++ [mem s (nd p)]);
           received := received s; entered := entered s |}
      else
        match nth_error (sent s c) (received s p c) with
        | None => None
        | Some v => Some
          {| code := set1 (code s) p rest; mem := set1 (mem s) (nd p) v;
             sent := sent s;
             received := set1 (received s) p
               (setc (received s p) c (S (received s p c)));
             entered := entered s |}
        end
    | Enter c :: rest => Some
      {| code := set1 (code s) p rest; mem := mem s; sent := sent s;
         received := received s;
         entered := set1 (entered s) p (setc (entered s p) c (S (entered s p c))) |}
    | Leave c :: rest =>
      if forallb (fun q => entered s p c <=? entered s q c) c then Some
        {| code := set1 (code s) p rest; mem := mem s; sent := sent s;
           received := received s; entered := entered s |}
      else None
    end.

  (** Running a schedule: the list of the processes that move, in turn. A
      schedule that picks a waiting or finished process is not an execution. *)
  Fixpoint run (nd : nat -> nat) (s : state) (sched : list nat) : option state :=
    match sched with
    | [] => Some s
    | p :: sched =>
      match step nd s p with Some s => run nd s sched | None => None end
    end.

  Definition start (prog : nat -> list instr) (m : nat -> M) : state :=
    {| code := prog; mem := m; sent := fun _ => [];
       received := fun _ _ => 0; entered := fun _ _ => 0 |}.

  (** MPI.py:268-272, [SharedArray.Bcast], as executed by process [p] of
      [nproc] processes placed on nodes by [nd]. *)
  Definition bcast_prog (nproc : nat) (nd : nat -> nat) (p : nat) : list instr :=
    (if node_rank nproc nd p =? 0 then [Bcast (images_comm nproc nd p)] else [])
    ++ Barrier (world nproc).

  (** The documented usage (MPI.py:196-208): rank 0 writes [v], then
      everybody calls Bcast. *)
  Definition share_prog (nproc : nat) (nd : nat -> nat) (v : M) (p : nat)
      : list instr :=
    (if p =? 0 then [Write (fun _ => v)] else []) ++ bcast_prog nproc nd p.

  (** elph.py:937-946 and 999-1005: as above, but only the processes of one
      node wait for each other ([node.Barrier()]). *)
  Definition share_node_prog (nproc : nat) (nd : nat -> nat) (v : M) (p : nat)
      : list instr :=
    (if p =? 0 then [Write (fun _ => v)] else []) ++
    (if node_rank nproc nd p =? 0 then [Bcast (images_comm nproc nd p)] else [])
    ++ Barrier (node_comm nproc nd p).
End Machine.

(** ** Pickle buffer *)
Section Pickle.
  Context {obj byte : Type}.
  Variable pickle : obj -> list byte.            (* pickle.dump *)
  Variable unpickle : list byte -> option obj.   (* pickle.load; None = raises *)

  (** Files by name. *)
  Definition files := list (nat * list byte).

  Fixpoint lookup (fs : files) (name : nat) : option (list byte) :=
    match fs with
    | [] => None
    | (n, d) :: fs => if n =? name then Some d else lookup fs name
    end.

  Definition store (fs : files) (name : nat) (d : list byte) : files :=
    (name, d) :: filter (fun x => negb (fst x =? name)) fs.

  (** MPI.py:289-311 for all [nproc] processes: rank 0 reads, [comm.bcast]
      hands the object to everybody. [None] is Python's None (no buffer name or
      no such file); a file that cannot be unpickled raises. The result is the
      list of what the processes return. *)
  Definition buffer_get (nproc : nat) (buf : option nat) (fs : files)
      : res (list (option obj)) :=
    match buf with
    | None => Ok (repeat None nproc)
    | Some name =>
      match lookup fs name with
      | None => Ok (repeat None nproc)
      | Some d =>
        match unpickle d with
        | Some o => Ok (repeat (Some o) nproc)
        | None => Raise EOFError
        end
      end
    end.

  (** MPI.py:313-324: rank 0 opens the file for writing (truncating it), then
      the bytes are written; [after k] is the state of the files if the process
      is killed when the file has been opened and [k] bytes have reached it. *)
  Definition buffer_set_killed (buf : option nat) (o : obj) (k : nat) (fs : files)
      : files :=
    match buf with
    | None => fs
    | Some name => store fs name (firstn k (pickle o))
    end.

  Definition buffer_set (buf : option nat) (o : obj) (fs : files) : files :=
    buffer_set_killed buf o (length (pickle o)) fs.

  (** A history of completed [set] calls on arbitrary buffers. *)
  Definition buffer_sets (h : list (option nat * obj)) (fs : files) : files :=
    fold_left (fun fs x => buffer_set (fst x) (snd x) fs) h fs.
End Pickle.

(** ** Round-robin work distribution

    bravais.py:1265-1275 (a counter that is 1 for the first task) and
    elph.py:453-456 (a loop index that is 0 for the first task), both with
    [if counter % comm.size != comm.rank: continue]: the tasks process [r]
    handles, in its order. *)
Definition round_robin {A} (first nproc r : nat) (tasks : list A) : list A :=
  map snd (filter (fun x => fst x mod nproc =? r)
    (combine (seq first (length tasks)) tasks)).

(** ** Sampling the coupling: elph.py:848-849, 874-876, 911-946 *)

(** The q points process [p] works on (elph.py:848, 874):
    from [bounds[row.rank]] to [bounds[row.rank + 1]]. *)
Definition sample_mine (nproc nq p : nat) : res (list nat) :=
  do (sizes, bounds) <- distribute (Z.of_nat nq) (Z.of_nat nproc) ;;
  do (col, row) <- matrix nproc nq p ;;
  match rank_in row p with
  | None => Raise ValueError
  | Some r =>
    match nth_error bounds r, nth_error bounds (S r) with
    | Some lo, Some hi => Ok (seq (Z.to_nat lo) (Z.to_nat hi - Z.to_nat lo))
    | _, _ => Raise IndexError
    end
  end.

(** The single-node shared-memory branch (elph.py:915-928): only processes with
    [col.rank == 0] write their slice and take part in the barriers on their
    row; the others return at once. The memory holds, per q point, whether the
    coupling has been written. *)
Definition sample_shared_prog (nproc nq p : nat) : list (@instr (nat -> bool)) :=
  match matrix nproc nq p, sample_mine nproc nq p with
  | Ok (col, row), Ok mine =>
    match rank_in col p, rank_in row p with
    | Some 0, Some r =>
      concat (map (fun column =>
        (if column =? r
         then [Write (fun done q => orb (existsb (Nat.eqb q) mine) (done q))]
         else []) ++ Barrier row) (seq 0 (length row)))
    | _, _ => []
    end
  | _, _ => []
  end.
