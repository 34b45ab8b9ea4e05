(** Specification of files with the extension _wsvec.dat of Wannier90. Nothing here refers to the
    function that reads them. *)
From Verif Require Import Text TextProofs.
From Verif Require Export GridSpec.
Local Open Scope nat_scope.

(** For a lattice vector and two orbitals (counted from 1), the supercell vectors *)
Definition block : Type := (Z * Z * Z * Z * Z) * list (list Z).
(** A line with lattice vector and orbitals, one with the number of vectors, one for each of them *)
Definition block_lines (b : block) (ls : list text) : Prop :=
  let '(i, j, k, m, n, vs) := b in
  exists l ws c w lvs wss, ls = l :: c :: lvs /\
    spaced ws l /\ Forall2 integer ws [i; j; k; m; n] /\ spaced [w] c /\ integer w (Z.of_nat (length vs)) /\
    Forall2 spaced wss lvs /\ Forall2 (Forall2 integer) wss vs.
(** A comment, the blocks and possibly more *)
Definition wsvec_file (bs : list block) (rest : list text) (f : text) : Prop :=
  exists top lss, f = file_of (top :: concat lss ++ rest) /\ single top /\ Forall2 block_lines bs lss /\ Forall single rest.
(** The last block for this lattice vector and these orbitals *)
Definition latest (x : Z * Z * Z * Z * Z) (vs : list (list Z)) (bs : list block) : Prop :=
  exists before after, bs = before ++ (x, vs) :: after /\ ~ In x (map fst after).
