(** Model of the end of elphmod/dispersion.py:dispersion, where the results are
    handed to all processes. *)
From Verif Require Import Common MPIModel.

Section Disp.
  Context {M : Type}.

  (** dispersion.py:151-152 and 189-191, 198: the array [v], allocated by
      shared_array, is filled and reordered in place by rank 0 ([Gatherv],
      [v[point] = v[point, o[point]]]), sent to the other nodes, and the processes
      of a node wait for each other. The same applies to the array [V] of the
      eigenvectors (lines 157-160, 193-194). Simplification: each array is treated
      on its own; the memory of a node holds one of them. *)
  Definition energies_prog (nproc : nat) (nd : nat -> nat) (v : M) (p : nat) : list (@instr M) :=
    share_node_prog nproc nd v p.

  (** dispersion.py:167-168 and 171: the array [o] is allocated by shared_array in
      the same way, but then rank 0 rebinds the name [o] to a new array,
      [o = band_order(...)], so that it refers to other memory from here on.
      [cell p] is the memory process [p] refers to by [o]: a cell of its own for
      rank 0, that of the node for the others. *)
  Definition order_cell (nd : nat -> nat) (p : nat) : nat :=
    match p with 0 => 0 | _ => S (nd p) end.

  (** dispersion.py:167-171, 190, 196-198: the new array holds the order [o] from
      the start; communicators depend on the placement of the processes. *)
  Definition order_prog (nproc : nat) (nd : nat -> nat) (o : M) (p : nat) : list (@instr M) :=
    share_node_prog nproc nd o p.
End Disp.
