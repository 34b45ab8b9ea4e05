(** Model of dispersion.unfolding_weights: dispersion.py:530-596. Wave vectors
    and positions are lists of real numbers. *)
From Verif Require Import Common MPIModel Cx.
Local Open Scope C_scope.

(** [np.exp(1j * x)] *)
Definition cis (x : R) : C := (cos x, sin x).

(** [np.dot] of two vectors *)
Fixpoint rdot (u v : list R) : R :=
  match u, v with x :: u, y :: v => (x * y + rdot u v)%R | _, _ => 0%R end.

(** Lines 568-573: the default blocks; slices end with the array. *)
Definition default_blocks0 (orbs0 : nat) (ir : nat) : list nat := seq 0 orbs0.
Definition default_blocks (orbs0 orbs : nat) (ir : nat) : list nat :=
  filter (fun i => i <? orbs)%nat (seq (ir * orbs0) orbs0).

(** Lines 575 and 584-587: the weight of supercell state n for one k point; U0
    and U are the matrices of eigenvectors for this k point. *)
Definition unfold_weight (k : list R) (Rs : list (list R)) (bands0 bands : nat) (U0 U : nat -> nat -> C)
    (blocks0 blocks : nat -> list nat) (sgn : R) (n : nat) : R :=
  rsum bands0 (fun m => abs2 (csum (length Rs) (fun ir =>
    cis (sgn * rdot k (nth ir Rs [])) *
    csum (length (blocks0 ir)) (fun i =>
      conj (U0 (nth i (blocks0 ir) 0%nat) m / RtoC (sqrt (INR bands / INR bands0))) * U (nth i (blocks ir) 0%nat) n)))).

(** Lines 565-596. [np.dot] raises for blocks of different size. Every process
    treats a section of the k points; the results are gathered. *)
Definition unfolding_weights (nproc : Z) (ks : list (list R)) (Rs : list (list R)) (orbs0 bands0 orbs bands : nat)
    (U0 U : nat -> nat -> nat -> C) (blocks0 blocks : option (nat -> list nat)) (sgn : R) : res (list (nat -> R)) :=
  let blocks0 := match blocks0 with Some b => b | None => default_blocks0 orbs0 end in
  let blocks := match blocks with Some b => b | None => default_blocks orbs0 orbs end in
  if (bands0 =? 0)%nat then Raise ZeroDivisionError
  else if forallb (fun ir => length (blocks0 ir) =? length (blocks ir))%nat (seq 0 (length Rs)) || (length ks =? 0)%nat then
    scatter_compute_gather (fun ik => unfold_weight (nth ik ks []) Rs bands0 bands (U0 ik) (U ik) blocks0 blocks sgn)
      nproc (seq 0 (length ks))
  else Raise ValueError.
