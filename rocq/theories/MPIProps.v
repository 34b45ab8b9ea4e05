(** Properties C01-C08: work distribution, communicators, shared memory and
    the pickle buffer (elphmod/MPI.py, elphmod/elph.py: sample). *)
From Coq Require Import Permutation Sorted.
From Verif Require Import Common MPIModel MPIProofs MPISharedProofs MPIMoreProofs.

(** C01. One chunk per process; sizes add up, differ by at most one and do not
    increase; the bounds run from 0 to [size] in steps of the sizes; and every
    item belongs to exactly one slice. *)
Theorem C01_distribute_partition size chunks : (0 <= size)%Z -> (0 < chunks)%Z ->
  exists sizes bounds,
    distribute size chunks = Ok (sizes, bounds) /\
    Z.of_nat (length sizes) = chunks /\
    sumZ sizes = size /\
    (forall i j si sj, nth_error sizes i = Some si -> nth_error sizes j = Some sj ->
       i <= j -> (0 <= sj <= si)%Z /\ (si <= sj + 1)%Z) /\
    length bounds = S (length sizes) /\
    nth_error bounds 0 = Some 0%Z /\
    nth_error bounds (length sizes) = Some size /\
    (forall i si, nth_error sizes i = Some si ->
       exists lo, nth_error bounds i = Some lo /\ nth_error bounds (S i) = Some (lo + si)%Z) /\
    (forall x, (0 <= x < size)%Z -> exists! r, exists lo hi,
       nth_error bounds r = Some lo /\ nth_error bounds (S r) = Some hi /\ (lo <= x < hi)%Z).
Proof. exact (distribute_spec size chunks). Qed.
Print Assumptions C01_distribute_partition.

Example C01_example : distribute 11 4 = Ok ([3; 3; 3; 2]%Z, [0; 3; 6; 9; 11]%Z).
Proof. reflexivity. Qed.

(** C01, error branch: no chunks is a division by zero, a negative number an
    invalid array size. *)
Theorem C01_distribute_errors size chunks : (chunks <= 0)%Z ->
  distribute size chunks = Raise (if (chunks =? 0)%Z then ZeroDivisionError else ValueError).
Proof. exact (distribute_errors size chunks). Qed.
Print Assumptions C01_distribute_errors.

(** C02. Scatter, compute, gather = serial computation. *)
Theorem C02_parallel_equals_serial {A B} (f : A -> B) nproc data :
  (0 < nproc)%Z -> scatter_compute_gather f nproc data = Ok (map f data).
Proof. exact (scatter_compute_gather_serial f nproc data). Qed.
Print Assumptions C02_parallel_equals_serial.

Example C02_example : scatter_compute_gather (fun x => x * x) 5 [1; 2; 3] = Ok [1; 4; 9].
Proof. reflexivity. Qed.

(** C03. The process grid of [matrix]. *)
Theorem C03_matrix_grid nproc size p : 0 < size -> p < nproc ->
  exists col row, matrix nproc size p = Ok (col, row) /\
    (forall q, In q col <-> q < nproc /\ q mod size = p mod size) /\
    (forall q, In q row <-> q < nproc /\ q / size = p / size) /\
    (forall q, In q col -> In q row -> q = p) /\
    rank_in col p = Some (p / size) /\
    rank_in row p = Some (p mod size) /\
    StronglySorted lt col /\ StronglySorted lt row.
Proof. exact (matrix_spec nproc size p). Qed.
Print Assumptions C03_matrix_grid.

Example C03_example : matrix 7 3 4 = Ok ([1; 4], [3; 4; 5]).
Proof. reflexivity. Qed.

(** C04, the docstring's claim: comm.rank == 0 iff node.rank == images.rank == 0. *)
Theorem C04_root_of_nodes nproc nd p : p < nproc ->
  p = 0 <-> node_rank nproc nd p = 0 /\ images_rank nproc nd p = 0.
Proof. exact (root_iff nproc nd p). Qed.
Print Assumptions C04_root_of_nodes.

(** C04, safety. Whatever the placement of the processes on nodes [nd], the
    initial contents [m] of the memories and the schedule: a process that has
    passed Bcast finds the data of rank 0 in the memory of its node; and it
    cannot have passed before rank 0 has written and sent (at most the two
    halves of the barrier are left for rank 0). *)
Theorem C04_bcast_safe {M} nproc nd (v : M) m sched s p :
  Forall (fun p => p < nproc) sched -> p < nproc ->
  run nd (start (share_prog nproc nd v) m) sched = Some s ->
  code s p = [] -> mem s (nd p) = v /\ length (code s 0) <= 2.
Proof. exact (share_safe nproc nd v m sched s p). Qed.
Print Assumptions C04_bcast_safe.

(** C04, liveness: no deadlock, and no endless run: as long as somebody has not
    finished somebody can move, and no schedule is longer than the programs. *)
Theorem C04_bcast_no_deadlock {M} nproc nd (v : M) m sched s :
  Forall (fun p => p < nproc) sched -> 0 < nproc ->
  run nd (start (share_prog nproc nd v) m) sched = Some s ->
  (exists p, p < nproc /\ code s p <> []) ->
  exists p s', p < nproc /\ step nd s p = Some s'.
Proof. exact (share_no_deadlock nproc nd v m sched s). Qed.
Print Assumptions C04_bcast_no_deadlock.

Theorem C04_bcast_terminates {M} nproc nd (v : M) m sched s :
  Forall (fun p => p < nproc) sched ->
  run nd (start (share_prog nproc nd v) m) sched = Some s ->
  length sched <= sumN (map (fun p => length (share_prog nproc nd v p)) (seq 0 nproc)).
Proof. exact (share_bounded nproc nd (share_prog nproc nd v) m sched s). Qed.
Print Assumptions C04_bcast_terminates.

(** A complete run of five processes on two nodes (0, 2, 3 on one, 1, 4 on the
    other), which ends with the data everywhere. *)
Example C04_example :
  let nd p := match p with 1 | 4 => 1 | _ => 0 end in
  exists s, run nd (start (share_prog 5 nd 7) (fun _ => 0))
      [4; 3; 0; 0; 2; 1; 1; 0; 0; 4; 1; 2; 3] = Some s /\
    (forall p, p < 5 -> code s p = [] /\ mem s (nd p) = 7).
Proof.
  eexists. split; [vm_compute; reflexivity|].
  intros [|[|[|[|[|p]]]]] Hp; try lia; vm_compute; split; reflexivity.
Qed.

(** C04 for the variant in which only the processes of a node wait for each
    other (elph.sample and elph.transform). *)
Theorem C04_node_bcast_safe {M} nproc nd (v : M) m sched s p :
  Forall (fun p => p < nproc) sched -> p < nproc ->
  run nd (start (share_node_prog nproc nd v) m) sched = Some s ->
  code s p = [] -> mem s (nd p) = v /\ length (code s 0) <= 2.
Proof. exact (share_node_safe nproc nd v m sched s p). Qed.
Print Assumptions C04_node_bcast_safe.

Theorem C04_node_bcast_no_deadlock {M} nproc nd (v : M) m sched s :
  Forall (fun p => p < nproc) sched -> 0 < nproc ->
  run nd (start (share_node_prog nproc nd v) m) sched = Some s ->
  (exists p, p < nproc /\ code s p <> []) ->
  exists p s', p < nproc /\ step nd s p = Some s'.
Proof. exact (share_node_no_deadlock nproc nd v m sched s). Qed.
Print Assumptions C04_node_bcast_no_deadlock.

(** C05. After any history of completed stores, reading a buffer returns on
    every process the object stored last under its name ... *)
Theorem C05_buffer_last {obj byte} (pickle : obj -> list byte) (unpickle : list byte -> option obj) :
  (forall o, unpickle (pickle o) = Some o) ->
  forall nproc h1 h2 name o fs,
  (forall x, In x h2 -> fst x <> Some name) ->
  buffer_get unpickle nproc (Some name)
    (buffer_sets pickle (h1 ++ (Some name, o) :: h2) fs) = Ok (repeat (Some o) nproc).
Proof. exact (buffer_last pickle unpickle). Qed.
Print Assumptions C05_buffer_last.

(** ... None if there is none ... *)
Theorem C05_buffer_none {obj byte} (pickle : obj -> list byte) (unpickle : list byte -> option obj) nproc h name :
  (forall x, In x h -> fst x <> Some name) ->
  buffer_get unpickle nproc (Some name) (buffer_sets pickle h []) = Ok (repeat None nproc).
Proof. exact (buffer_none pickle unpickle nproc h name). Qed.
Print Assumptions C05_buffer_none.

(** ... and a buffer without name neither stores nor returns anything. *)
Theorem C05_buffer_unnamed {obj byte} (pickle : obj -> list byte) (unpickle : list byte -> option obj) nproc o fs :
  buffer_get unpickle nproc None fs = Ok (repeat None nproc) /\
  buffer_set pickle None o fs = fs.
Proof. exact (buffer_unnamed pickle unpickle nproc o fs). Qed.
Print Assumptions C05_buffer_unnamed.

(** A pickle that satisfies the hypothesis: a number as a byte string in unary
    with end mark. *)
Definition toy_pickle (o : nat) : list bool := repeat true o ++ [false].
Definition toy_unpickle (d : list bool) : option nat := find_index negb d.

Example C05_example :
  (forall o, toy_unpickle (toy_pickle o) = Some o) /\
  buffer_get toy_unpickle 2 (Some 0)
    (buffer_sets toy_pickle [(Some 0, 5); (Some 1, 6); (Some 0, 7); (None, 8)] [])
  = Ok [Some 7; Some 7].
Proof.
  split; [|vm_compute; reflexivity].
  unfold toy_pickle, toy_unpickle. induction o as [|o IH]; cbn; [reflexivity|].
  rewrite IH. reflexivity.
Qed.

(** C06 is false of the code: a kill right after the file has been opened loses
    both the old and the new object, and the next reader crashes. *)
Theorem C06_crash_refuted {obj byte} (pickle : obj -> list byte) (unpickle : list byte -> option obj) :
  (forall o, unpickle (pickle o) = Some o) -> unpickle [] = None ->
  forall nproc name old new fs,
  let before := buffer_set pickle (Some name) old fs in
  buffer_get unpickle nproc (Some name) before = Ok (repeat (Some old) nproc) /\
  buffer_get unpickle nproc (Some name)
    (buffer_set_killed pickle (Some name) new 0 before) = Raise EOFError.
Proof.
  exact (fun Hrt He nproc name old new fs =>
    conj (buffer_last pickle unpickle Hrt nproc [] [] name old fs (fun x H => match H with end))
         (buffer_killed pickle unpickle nproc name new _ He)).
Qed.
Print Assumptions C06_crash_refuted.

(** C06, what remains true: other buffers survive a kill at any point. *)
Theorem C06_crash_other_partial {obj byte} (pickle : obj -> list byte) (unpickle : list byte -> option obj) nproc name other o k fs :
  other <> name ->
  buffer_get unpickle nproc (Some other) (buffer_set_killed pickle (Some name) o k fs) =
  buffer_get unpickle nproc (Some other) fs.
Proof. exact (buffer_killed_other pickle unpickle nproc name other o k fs). Qed.
Print Assumptions C06_crash_other_partial.

(** C07. All processes together handle each task exactly once. *)
Theorem C07_round_robin_partition {A} first nproc (tasks : list A) : 0 < nproc ->
  Permutation (concat (map (fun r => round_robin first nproc r tasks) (seq 0 nproc))) tasks.
Proof. exact (round_robin_perm first nproc tasks). Qed.
Print Assumptions C07_round_robin_partition.

(** C07. Hence adding up the results of all processes is the serial sum, for
    any associative and commutative operation with neutral element. *)
Theorem C07_round_robin_sum {A} (op : A -> A -> A) e :
  (forall x y z, op x (op y z) = op (op x y) z) -> (forall x y, op x y = op y x) ->
  (forall x, op e x = x) ->
  forall first nproc tasks, 0 < nproc ->
  fold_right op e (map (fun r => fold_right op e (round_robin first nproc r tasks)) (seq 0 nproc)) =
  fold_right op e tasks.
Proof.
  exact (fun Ha Hc He first nproc tasks Hn =>
    eq_trans
      (eq_trans
        (f_equal (fold_right op e) (eq_sym (map_map (fun r => round_robin first nproc r tasks) (fold_right op e) (seq 0 nproc))))
        (eq_sym (fold_right_concat op e Ha He (map (fun r => round_robin first nproc r tasks) (seq 0 nproc)))))
      (fold_right_perm op e Ha Hc _ _ (round_robin_perm first nproc tasks Hn))).
Qed.
Print Assumptions C07_round_robin_sum.

Example C07_example : map (fun r => round_robin 1 3 r [10; 11; 12; 13; 14; 15; 16]) [0; 1; 2] =
  [[12; 15]; [10; 13; 16]; [11; 14]].
Proof. reflexivity. Qed.

(** C08. Without shared memory: the q points handled by the first row of the
    process grid are, in order, all q points, and all processes of one column
    work on the same ones. *)
Theorem C08_sample_complete nproc nq : 0 < nq -> 0 < nproc ->
  exists col row mine, matrix nproc nq 0 = Ok (col, row) /\
    (forall p, p < nproc -> sample_mine nproc nq p = Ok (mine p)) /\
    (forall p, p < nproc -> mine p = mine (p mod nq)) /\
    concat (map mine row) = seq 0 nq.
Proof. exact (sample_complete nproc nq). Qed.
Print Assumptions C08_sample_complete.

Example C08_example : map (sample_mine 5 2) [0; 1; 2; 3; 4] = [Ok [0]; Ok [1]; Ok [0]; Ok [1]; Ok [0]].
Proof. reflexivity. Qed.

(** C08 is false of the code with shared memory on a single node if there are
    more processes than q points: process number [nq] returns without waiting,
    in particular before anything has been written. *)
Theorem C08_sample_shared_refuted nproc nq m : 0 < nq -> nq < nproc ->
  exists sched s, run (fun _ => 0) (start (sample_shared_prog nproc nq) m) sched = Some s /\
    code s nq = [] /\ mem s 0 = m 0.
Proof.
  exact (fun Hq Hn => ex_intro _ [] (ex_intro _ _
    (conj eq_refl (conj (sample_race nproc nq Hq Hn) eq_refl)))).
Qed.
Print Assumptions C08_sample_shared_refuted.

(** C08, what holds: with at most as many processes as q points, whoever
    returns finds everything written, for every schedule. *)
Theorem C08_sample_shared_safe_partial nproc nq m sched s p :
  0 < nproc -> nproc <= nq ->
  Forall (fun p => p < nproc) sched -> p < nproc ->
  run (fun _ => 0) (start (sample_shared_prog nproc nq) m) sched = Some s ->
  code s p = [] -> forall q, q < nq -> mem s 0 q = true.
Proof. exact (sample_shared_safe nproc nq m sched s p). Qed.
Print Assumptions C08_sample_shared_safe_partial.

Example C08_example_shared :
  exists s, run (fun _ => 0) (start (sample_shared_prog 2 3) (fun _ _ => false))
    [0; 0; 1; 1; 0; 0; 1; 1; 1; 0] = Some s /\ code s 0 = [] /\ code s 1 = [].
Proof. eexists. vm_compute. repeat split; reflexivity. Qed.
