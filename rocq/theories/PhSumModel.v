(** Model of elphmod/ph.py: sum_rule_correction (lines 1651-1781). *)
From Verif Require Import Common LatModel OField.
Local Open Scope nat_scope.
Local Open Scope k_scope.

(** ** Gram-Schmidt orthogonalization: lines 1752-1759

    Arrays of a common shape are functions on their indices, [idx]. *)
Section Gram.
  Context {K : ofield} {I : Type} (idx : list I).

  (** [(c * d).sum()] *)
  Definition dot (c d : I -> K) : K := ksum (fun i => c i * d i) idx.

  (** The inner loop; [done] holds the pairs (c[j], cc[j]). *)
  Definition gs_inner (eps : K) (done : list ((I -> K) * K)) (c : I -> K) : I -> K :=
    fold_left (fun c cj =>
      if kltb eps (snd cj) then
        let a := dot (fst cj) c / snd cj in
        fun i => c i - a * fst cj i
      else c) done c.

  Definition gs_step (eps : K) (done : list ((I -> K) * K)) (c : I -> K) : list ((I -> K) * K) :=
    let c := gs_inner eps done c in done ++ [(c, dot c c)].

  Definition gram_schmidt (eps : K) (c : list (I -> K)) : list ((I -> K) * K) := fold_left (gs_step eps) c [].
End Gram.

(** ** The constraints: lines 1713-1750

    Force constants C[n, k, x, l, y]: lattice vector n, atoms k and l,
    directions x and y. *)
Definition cidx := (nat * (nat * nat) * (nat * nat))%type.

Definition all_idx (nR nat_ : nat) : list cidx :=
  list_prod (list_prod (seq 0 nR) (list_prod (seq 0 nat_) (seq 0 3))) (list_prod (seq 0 nat_) (seq 0 3)).

Section Constraints.
  Context {K : ofield}.

  (** Lines 1717-1725, for one triple (k, x, y): every element [n, k, x, l, y]
      is incremented once. *)
  Definition acoustic (k x y : nat) : cidx -> K :=
    fun '(n, (k', x'), (l', y')) => if ((k' =? k) && (x' =? x) && (y' =? y))%nat then k1 else k0.

  (** Lines 1727-1737, for one tuple (k, x1, x2, y). [pos n l x] is the
      coordinate R[n, x] + r[l, x]. *)
  Definition rotation (pos : nat -> nat -> nat -> K) (k x1 x2 y : nat) : cidx -> K :=
    fun '(n, (k', x'), (l', y')) =>
      (if ((k' =? k) && (x' =? x1) && (y' =? y))%nat then pos n l' x2 else k0) -
      (if ((k' =? k) && (x' =? x2) && (y' =? y))%nat then pos n l' x1 else k0).

  Definition constraints (pos : nat -> nat -> nat -> K) (nat_ : nat) (asr rsr : bool) : list (cidx -> K) :=
    (if asr then flat_map (fun k => flat_map (fun x => map (fun y => acoustic k x y) (seq 0 3)) (seq 0 3)) (seq 0 nat_) else []) ++
    (if rsr then flat_map (fun k => flat_map (fun x1 => flat_map (fun x2 => map (fun y => rotation pos k x1 x2 y)
      (seq 0 3)) (seq 0 3)) (seq 0 3)) (seq 0 nat_) else []).

  (** Lines 1741-1742: [np.argmax(np.all(ph.R == -ph.R[n], axis=1))], the first
      index of -R[n], or zero if there is none. *)
  Definition minusR (R : list vec) (n : nat) : nat :=
    match find_index (fun T => veqb T (vopp (nth n R vzero))) R with Some m => m | None => 0 end.

  Definition swap_idx (R : list vec) : cidx -> cidx := fun '(n, kx, ly) => (minusR R n, ly, kx).

  (** Lines 1744-1745. *)
  Definition symmetrized (R : list vec) (c : cidx -> K) : cidx -> K := fun i => c i + c (swap_idx R i).

  (** ** sum_rule_correction: lines 1651-1781

      [sqM na] is [np.sqrt(ph.M[na])]; [eps] is 1e-15 by default. The returned
      data are also what other processes receive. *)
  Definition with_mass (sqM : nat -> K) (C : cidx -> K) : cidx -> K :=
    fun '(n, (k, x), (l, y)) => C (n, (k, x), (l, y)) * sqM k * sqM l.

  Definition without_mass (sqM : nat -> K) (C : cidx -> K) : cidx -> K :=
    fun '(n, (k, x), (l, y)) => C (n, (k, x), (l, y)) / sqM k / sqM l.

  Definition sum_rule_correction (eps : K) (R : list vec) (nat_ : nat) (pos : nat -> nat -> nat -> K)
      (sqM : nat -> K) (divide_mass asr rsr : bool) (data : cidx -> K) : cidx -> K :=
    let C := if divide_mass then with_mass sqM data else data in
    let c := map (symmetrized R) (constraints pos nat_ asr rsr) in
    let C := fst (last (gram_schmidt (all_idx (length R) nat_) eps (c ++ [C])) (C, k0)) in
    if divide_mass then without_mass sqM C else C.
End Constraints.
