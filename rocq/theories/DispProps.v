(** Properties of the distribution of the results of dispersion: C51. *)
From Verif Require Import Common CommonProofs MPIModel MPIProofs MPISharedProofs DispModel DispProofs.

(** Energies (and eigenvectors): every process that has finished finds what rank 0
    has calculated. *)
Theorem C51_energies {M} nproc nd (v : M) m sched s p :
  Forall (fun p => p < nproc) sched -> p < nproc ->
  run nd (start (energies_prog nproc nd v) m) sched = Some s ->
  code s p = [] -> mem s (nd p) = v.
Proof. intros HF Hp Hrun Hd. apply (share_node_safe nproc nd v m sched s p HF Hp Hrun Hd). Qed.
Print Assumptions C51_energies.

(** The order of the bands: the processes on the node of rank 0, other than rank 0,
    keep the initial (arbitrary) content of the shared memory, in every execution;
    all others have the order. *)
Theorem C51_order_who {M} nproc nd (o : M) m sched s p :
  Forall (fun p => p < nproc) sched -> p < nproc ->
  run (order_cell nd) (start (order_prog nproc nd o) m) sched = Some s -> code s p = [] ->
  (p = 0 \/ nd p <> nd 0 -> mem s (order_cell nd p) = o) /\
  (p <> 0 -> nd p = nd 0 -> mem s (order_cell nd p) = m (order_cell nd p)).
Proof.
  intros HF Hp Hrun Hd. rewrite (order_result nproc nd o m sched s p HF Hp Hrun Hd). split.
  - intros [->|He]; [reflexivity|]. apply Nat.eqb_neq in He. rewrite He, Bool.andb_false_r. reflexivity.
  - intros H0 He. destruct p as [|p]; [congruence|]. rewrite He, Nat.eqb_refl. cbn [Nat.eqb negb andb order_cell]. rewrite He. reflexivity.
Qed.
Print Assumptions C51_order_who.

(** Hence the claim that all processes return the same order is wrong with shared
    memory ... *)
Theorem C51_order_refuted : exists nproc nd (o : list nat) m sched s p,
  Forall (fun p => p < nproc) sched /\ p < nproc /\
  run (order_cell nd) (start (order_prog nproc nd o) m) sched = Some s /\
  (forall q, q < nproc -> code s q = []) /\ mem s (order_cell nd 0) = o /\ mem s (order_cell nd p) <> o.
Proof.
  exists 2, (fun _ => 0), [1; 0], (fun _ => []), [0; 0; 0; 1; 1; 0]. eexists. exists 1.
  split; [repeat constructor|]. split; [lia|]. split; [vm_compute; reflexivity|]. split; [|split; [reflexivity|discriminate]].
  intros [|[|q]] Hq; try lia; reflexivity.
Qed.
Print Assumptions C51_order_refuted.

(** ... but right if memory is not shared, i.e., each process is its own node. *)
Theorem C51_order_private {M} nproc nd (o : M) m sched s p :
  (forall p q, p < nproc -> q < nproc -> nd p = nd q -> p = q) ->
  Forall (fun p => p < nproc) sched -> p < nproc ->
  run (order_cell nd) (start (order_prog nproc nd o) m) sched = Some s -> code s p = [] ->
  mem s (order_cell nd p) = o.
Proof.
  intros Hinj HF Hp Hrun Hd. apply (C51_order_who nproc nd o m sched s p HF Hp Hrun Hd).
  destruct (Nat.eq_dec p 0) as [->|H0]; [left; reflexivity|]. right. intros He. apply H0. apply Hinj; [exact Hp|lia|exact He].
Qed.
Print Assumptions C51_order_private.

Example C51_order_private_ex : exists s, run (order_cell (fun p => p)) (start (order_prog 3 (fun p => p) 7) (fun _ => 0))
  [0; 0; 0; 2; 0; 1; 1; 1; 2; 2] = Some s /\ forall p, p < 3 -> code s p = [] /\ mem s (order_cell (fun p => p) p) = 7.
Proof.
  eexists. split; [vm_compute; reflexivity|]. intros [|[|[|p]]] Hp; try lia; split; reflexivity.
Qed.

Example C51_energies_ex : exists s, run (fun p => p / 2) (start (energies_prog 4 (fun p => p / 2) 7) (fun _ => 0))
  [0; 0; 0; 1; 2; 2; 3; 3; 2; 1; 0] = Some s /\ forall p, p < 4 -> code s p = [] /\ mem s (p / 2) = 7.
Proof.
  eexists. split; [vm_compute; reflexivity|]. intros [|[|[|[|p]]]] Hp; try lia; split; reflexivity.
Qed.
