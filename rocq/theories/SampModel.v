(** Model of elphmod/elph.py:816-1007: sampling the electron-phonon coupling on a mesh
    and its transformation to the band basis.

    Simplifications: floats are real (complex) numbers. Arrays are functions on
    indices; only indices in range matter. The coupling g is any function of q and k
    (evaluated together by the processes of a column, cf. C61; here only its value
    matters). q and nk have been filled up with zeros and ones to length three (lines
    859-865), eigenvectors have been reshaped accordingly. The shape of the arrays is
    given by the number of orbitals and displacements; new axes of length nel and nph
    as in lines 867-872 are not checked. Status messages are left out. *)
From Coq Require Import Reals List.
From Verif Require Import Common Cx MPIModel DiagModel.
Import ListNotations.
Local Open Scope R_scope.

(** Coupling for one q and one k: displacement (mode), left and right orbital (band). *)
Definition vertex := nat -> nat -> nat -> C.
(** Eigenvectors: component, band. *)
Definition basis := nat -> nat -> C.

(** elph.py:882, 886, 890, 894 (and 985-986): indices of k + q on the mesh. [np.round]
    and Python's [round] both round half to even. *)
Definition kq_index (n : nat) (q : R) (K : nat) : nat :=
  Z.to_nat ((Z.of_nat K + np_round (q / (2 * PI / INR n))) mod Z.of_nat n).
Definition kq (nk : pt) (q : R * R * R) (K : pt) : pt :=
  let '(n1, n2, n3) := nk in let '(q1, q2, q3) := q in let '(K1, K2, K3) := K in
  (kq_index n1 q1 K1, kq_index n2 q2 K2, kq_index n3 q3 K3).

(** elph.py:878, 886-895: [K1 * scale[0]] etc. *)
Definition k_point (nk K : pt) : R * R * R :=
  let '(n1, n2, n3) := nk in let '(K1, K2, K3) := K in
  (INR K1 * (2 * PI / INR n1), INR K2 * (2 * PI / INR n2), INR K3 * (2 * PI / INR n3)).

(** elph.py:901-902: [np.einsum('am,xab,bn->xmn', U[KQ].conj(), gqk, U[K])]. *)
Definition to_bands (nel : nat) (L R : basis) (g : vertex) : vertex :=
  fun x m n => csum nel (fun a => csum nel (fun b => (conj (L a m) * g x a b * R b n)%C)).
(** elph.py:905: [np.einsum('xab,xu->uab', gqk, u[iq])]. *)
Definition to_modes (nph : nat) (u : basis) (g : vertex) : vertex :=
  fun v a b => csum nph (fun x => (g x a b * u x v)%C).
(** elph.py:907-909: [gqk *= gqk.conj()], [gqk.real]. *)
Definition times_conj (g : vertex) : vertex := fun x a b => (g x a b * conj (g x a b))%C.
Definition real_part (g : vertex) : vertex := fun x a b => RtoC (fst (g x a b)).

(** elph.py:900-909 (and 996-1005): treatment of the coupling for one q and k. *)
Definition processed (nph nel : nat) (U : option (pt -> basis)) (u : option (nat -> basis)) (squared : bool)
    (KQ K : pt) (iq : nat) (g : vertex) : vertex :=
  let g := match U with Some U => to_bands nel (U KQ) (U K) g | None => g end in
  let g := match u with Some u => to_modes nph (u iq) g | None => g end in
  if squared then real_part (times_conj g) else g.

(** elph.py:880-911: results for one q point, as a function of the k point. *)
Definition sample_one (nph nel : nat) (nk : pt) (U : option (pt -> basis)) (u : option (nat -> basis)) (squared : bool)
    (g : R * R * R -> R * R * R -> vertex) (q : list (R * R * R)) (iq : nat) : pt -> vertex :=
  let qi := nth iq q (0, 0, 0) in
  fun K => processed nph nel U u squared (kq nk qi K) K iq (g qi (k_point nk K)).

Fixpoint each {A B} (f : A -> res B) (l : list A) : res (list B) :=
  match l with [] => Ok [] | x :: l => do y <- f x ;; do ys <- each f l ;; Ok (y :: ys) end.

(** elph.py:816-946 with communication through [Gatherv] (or, with the same result,
    through shared memory, cf. C08): the array on process 0. Its row are the
    processes that contribute, in the order of their ranks. *)
Definition sample (nproc : nat) (nph nel : nat) (nk : pt) (U : option (pt -> basis)) (u : option (nat -> basis))
    (squared : bool) (g : R * R * R -> R * R * R -> vertex) (q : list (R * R * R)) : res (list (pt -> vertex)) :=
  do (col, row) <- matrix nproc (length q) 0 ;;
  do parts <- each (fun p =>
    do mine <- sample_mine nproc (length q) p ;;
    Ok (map (sample_one nph nel nk U u squared g q) mine)) row ;;
  Ok (concat parts).

(** elph.py:948-1007: the result and the array that was passed, as it is afterwards.
    [gqk] is a view of the array unless an einsum has been done, so that line 1003
    changes it in place. [q] holds the q points as pairs. Every process changes only
    its own share of the array it holds; here that of the process responsible for
    the q point is shown. *)
Definition transform_one (nph nel nk : nat) (U : option (pt -> basis)) (u : option (nat -> basis)) (squared : bool)
    (g : nat -> pt -> vertex) (q : list (R * R)) (iq : nat) : (pt -> vertex) * (pt -> vertex) :=
  let '(q1, q2) := nth iq q (0, 0) in
  let mesh := (nk, nk, 1%nat) in
  (fun K => processed nph nel U u squared (kq mesh (q1, q2, 0) K) K iq (g iq K),
   fun K => match U, u with
     | None, None => if squared then times_conj (g iq K) else g iq K
     | _, _ => g iq K
     end).
Definition transform (nproc : Z) (nph nel nk : nat) (U : option (pt -> basis)) (u : option (nat -> basis)) (squared : bool)
    (g : nat -> pt -> vertex) (q : list (R * R)) : res (list ((pt -> vertex) * (pt -> vertex))) :=
  scatter_compute_gather (transform_one nph nel nk U u squared g q) nproc (seq 0 (length q)).
