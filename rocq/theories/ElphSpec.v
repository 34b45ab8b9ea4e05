(** Specification vocabulary for models of the electron-phonon coupling. *)
From Verif Require Import Common LatModel Num ElModel ElphModel.
Local Open Scope nat_scope.

Section ElphSpec.
  Context {F : num} {P : Type}.
  Implicit Types s : @elph F P.

  (** The coupling at wave vectors with phases [eq] and [ek]: the sum over all
      pairs of lattice vectors of the stored elements times the phases. *)
  Definition lattice_sum s (eq ek : vec -> F) (x a b : nat) : F :=
    nsum (fun i => nsum (fun j =>
      nmul (nmul (data P s i x j a b) (eq (nth i (Rg P s) vzero))) (ek (nth j (Rk P s) vzero)))
      (seq 0 (length (Rk P s)))) (seq 0 (length (Rg P s))).

  (** The coupling for a pair of lattice vectors: the sum of all stored elements for
      that pair (at most one unless lattice vectors are repeated), zero without *)
  Definition coefficient s (G K : vec) (x a b : nat) : F :=
    nsum (fun i => nsum (fun j =>
      if veqb (nth i (Rg P s) vzero) G && veqb (nth j (Rk P s) vzero) K then data P s i x j a b else n0)
      (seq 0 (length (Rk P s)))) (seq 0 (length (Rg P s))).

  (** The lattice sum plus the long-range part, which is diagonal in the orbitals *)
  Definition coupling_at s (e : P -> vec -> F) (lr : option (P -> nat -> F)) (q k : P) (x a b : nat) : F :=
    nadd (lattice_sum s (e q) (e k) x a b)
      (match lr with Some f => if a =? b then f q x else n0 | None => n0 end).

  (** Identity matrix *)
  Definition delta (a b : nat) : F := if a =? b then n1 else n0.

  (** Matrix elements with respect to the columns of the given matrices *)
  Definition elements (nel nph : nat) (L R Z : nat -> nat -> F) (g : nat -> nat -> nat -> F) (u m n : nat) : F :=
    nsum (fun x => nsum (fun a => nsum (fun b =>
      nmul (nmul (nmul (nconj (L a m)) (g x a b)) (R b n)) (Z x u))
      (seq 0 nel)) (seq 0 nel)) (seq 0 nph).

  (** Sum over all atoms and all displaced cells of the derivative with respect to
      displacements along direction [i]; [w na] undoes a scaling of the elements of
      atom [na]. It vanishes if a translation of the crystal has no effect. *)
  Definition translation_sum s (w : nat -> F) (i k a b : nat) : F :=
    nsum (fun g => nsum (fun na => nmul (w na) (data P s g (3 * na + i) k a b)) (seq 0 (natoms P s)))
      (seq 0 (length (Rg P s))).

  (** Calls that do not change the data other than by [standardize] *)
  Definition harmless (o : op (F := F) P) : Prop :=
    match o with Coupling _ _ _ _ _ _ => True | Standardize _ _ _ => True | _ => False end.
End ElphSpec.
