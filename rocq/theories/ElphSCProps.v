(** Property C89: elphmod/elph.py, supercells of models for electron-phonon coupling. *)
From Verif Require Import Common CommonProofs LatModel LatSpec LatProofs Num NumProofs NumC ElModel ElSpec ElProofs2 ElphModel ElphSpec ElphProofs2 ElphSCModel ElphSCProofs.
Local Open Scope nat_scope.

(** A model with one orbital and one atom and some lattice vectors *)
Definition chain_data : @arr gauss := fun g x k a b => (Z.of_nat (1 + g + 3 * k), Z.of_nat x).
Definition ones_data : @arr gauss := fun g x k a b => (1, 0)%Z.
Definition real_part : gauss -> gauss := fun z => (fst z, 0%Z).
Definition sevens : nat -> gauss := fun _ => (7, 0)%Z.
Definition chain : @elph gauss nat :=
  create nat 1 1 [V3 0 0 0; V3 1 0 0; V3 (-1) 0 0] [V3 1 0 0; V3 0 0 0] chain_data.
Definition sc_result (x : res (list vec * @elph gauss nat)) : @elph gauss nat := match x with Ok (_, s) => s | Raise _ => chain end.

(** C89. The coupling in the supercell between orbital [a] in cell [i] and orbital [b]
    in cell [l] of the supercell displaced by [SK], for displacements in cell [j] of the
    supercell displaced by [SG], is the coupling in the crystal between the same
    orbitals and displacements, for any number of processes. *)
Theorem C89_coefficient {F : num} {P : Type} nproc a1 a2 a3 (s : @elph F P) :
  0 < nproc -> det3 (arg1 a1) (arg2 a2) (arg3 a3) <> 0%Z -> NoDup (Rg P s) -> NoDup (Rk P s) ->
  exists cells s', elph_supercell P nproc a1 a2 a3 s = Ok (cells, s') /\
    (exists sc, supercell a1 a2 a3 = Ok sc /\ cells = sc_cells sc) /\
    nel P s' = length cells * nel P s /\ natoms P s' = length cells * natoms P s /\
    NoDup (Rg P s') /\ NoDup (Rk P s') /\
    gqn P s' = length (Rk P s') /\ Rk0 P s' = origin (Rk P s') /\ (forall r, caches P s' r = None) /\
    forall SG SK j cj i c l cl x a b,
      nth_error cells j = Some cj -> nth_error cells i = Some c -> nth_error cells l = Some cl ->
      x < nph P s -> a < nel P s -> b < nel P s ->
      coefficient s' SG SK (j * nph P s + x) (i * nel P s + a) (l * nel P s + b) =
      coefficient s (vsub (vadd (comb (arg1 a1) (arg2 a2) (arg3 a3) SG) cj) c)
                    (vsub (vadd (comb (arg1 a1) (arg2 a2) (arg3 a3) SK) cl) c) x a b.
Proof.
  intros Hp Hd HG HK. destruct (supercell_spec a1 a2 a3 Hd) as (sc & Hsc & _).
  exists (sc_cells sc), (sc_elph P sc nproc s). split; [exact (elph_supercell_ok P a1 a2 a3 sc Hd Hsc nproc s)|].
  split; [exists sc; split; [exact Hsc|reflexivity]|]. split; [reflexivity|]. split; [reflexivity|].
  split; [apply sorted_set_NoDup|]. split; [apply sorted_set_NoDup|]. split; [reflexivity|]. split; [reflexivity|]. split; [reflexivity|].
  intros SG SK j cj i c l cl x a b Hj Hi Hl. exact (sc_coefficient P a1 a2 a3 sc Hd Hsc nproc Hp s SG SK j cj i c l cl x a b HG HK Hj Hi Hl).
Qed.
Print Assumptions C89_coefficient.

(** A Bloch wave of displacements with phases [e1] and a Bloch state with phases [e2]
    couple in the supercell as they do in the crystal. *)
Theorem C89_bloch {F : num} {P : Type} nproc a1 a2 a3 (s : @elph F P) cells s' (e1 e2 : vec -> F) i c a u psi :
  0 < nproc -> det3 (arg1 a1) (arg2 a2) (arg3 a3) <> 0%Z -> NoDup (Rg P s) -> NoDup (Rk P s) ->
  elph_supercell P nproc a1 a2 a3 s = Ok (cells, s') ->
  (forall Q T, e1 (vadd Q T) = nmul (e1 Q) (e1 T)) -> (forall Q T, e2 (vadd Q T) = nmul (e2 Q) (e2 T)) ->
  nth_error cells i = Some c -> a < nel P s ->
  nsum (fun jc => nsum (fun x => nsum (fun lc => nsum (fun b =>
    nmul (nmul (lattice_sum s' (fun Q => e1 (comb (arg1 a1) (arg2 a2) (arg3 a3) Q)) (fun Q => e2 (comb (arg1 a1) (arg2 a2) (arg3 a3) Q))
        (fst jc * nph P s + x) (i * nel P s + a) (fst lc * nel P s + b))
      (nmul (e1 (snd jc)) (u x))) (nmul (e2 (snd lc)) (psi b)))
    (seq 0 (nel P s))) (combine (seq 0 (length cells)) cells)) (seq 0 (nph P s))) (combine (seq 0 (length cells)) cells) =
  nmul (nmul (e1 c) (e2 c))
    (nsum (fun x => nsum (fun b => nmul (nmul (lattice_sum s e1 e2 x a b) (u x)) (psi b)) (seq 0 (nel P s))) (seq 0 (nph P s))).
Proof.
  intros Hp Hd HG HK Hs. destruct (supercell_spec a1 a2 a3 Hd) as (sc & Hsc & _).
  rewrite (elph_supercell_ok P a1 a2 a3 sc Hd Hsc nproc s) in Hs. injection Hs as <- <-.
  exact (sc_bloch_elph P a1 a2 a3 sc Hd Hsc nproc Hp s e1 e2 i c a u psi HG HK).
Qed.
Print Assumptions C89_bloch.

(** The sparse variant, without long-range part or on a single process, holds the real
    part of the coupling for q = k = 0. *)
Theorem C89_sparse_partial {F : num} {P : Type} re lr nproc a1 a2 a3 (s : @elph F P) cells s' :
  0 < nproc -> det3 (arg1 a1) (arg2 a2) (arg3 a3) <> 0%Z -> NoDup (Rg P s) -> NoDup (Rk P s) ->
  re n0 = n0 -> (forall x y : F, re (nadd x y) = nadd (re x) (re y)) ->
  elph_supercell P nproc a1 a2 a3 s = Ok (cells, s') -> lr = None \/ nproc = 1 ->
  exists gs, elph_supercell_sparse P re lr nproc a1 a2 a3 s = Ok gs /\
  forall x a b, gs x a b = nadd (re (lattice_sum s' (fun _ => n1) (fun _ => n1) x a b))
    (match lr with Some f => if a =? b then f x else n0 | None => n0 end).
Proof.
  intros Hp Hd HG HK H0 Ha Hs Hl. destruct (supercell_spec a1 a2 a3 Hd) as (sc & Hsc & _).
  rewrite (elph_supercell_ok P a1 a2 a3 sc Hd Hsc nproc s) in Hs. injection Hs as <- <-.
  exact (sparse_result P a1 a2 a3 sc Hd Hsc nproc Hp re H0 Ha s lr HG HK Hl).
Qed.
Print Assumptions C89_sparse_partial.

(** With a long-range part, the result depends on the number of processes: the
    long-range part is added once per process. *)
Theorem C89_sparse_long_range_refuted : exists (lr : nat -> gauss) g1 g2,
  elph_supercell_sparse nat real_part (Some lr) 1 (Mult 2) (Mult 1) (Mult 1) chain = Ok g1 /\
  elph_supercell_sparse nat real_part (Some lr) 2 (Mult 2) (Mult 1) (Mult 1) chain = Ok g2 /\
  g1 0 0 0 <> g2 0 0 0.
Proof.
  exists sevens. eexists _, _. split; [reflexivity|]. split; [reflexivity|]. vm_compute. discriminate.
Qed.
Print Assumptions C89_sparse_long_range_refuted.

(** In general: [nproc] times *)
Theorem C89_sparse_processes {F : num} {P : Type} re lr nproc a1 a2 a3 (s : @elph F P) cells s' :
  0 < nproc -> det3 (arg1 a1) (arg2 a2) (arg3 a3) <> 0%Z -> NoDup (Rg P s) -> NoDup (Rk P s) ->
  re n0 = n0 -> (forall x y : F, re (nadd x y) = nadd (re x) (re y)) ->
  elph_supercell P nproc a1 a2 a3 s = Ok (cells, s') ->
  exists gs, elph_supercell_sparse P re (Some lr) nproc a1 a2 a3 s = Ok gs /\
  forall x a b, gs x a b = nadd (re (lattice_sum s' (fun _ => n1) (fun _ => n1) x a b))
    (nsum (fun _ => if a =? b then lr x else n0) (seq 0 nproc)).
Proof.
  intros Hp Hd HG HK H0 Ha Hs. destruct (supercell_spec a1 a2 a3 Hd) as (sc & Hsc & _).
  rewrite (elph_supercell_ok P a1 a2 a3 sc Hd Hsc nproc s) in Hs. injection Hs as <- <-.
  exact (sparse_all P a1 a2 a3 sc Hd Hsc nproc Hp re H0 Ha s (Some lr) HG HK).
Qed.
Print Assumptions C89_sparse_processes.

(** Repeated lattice vectors, which [g] adds up, are lost. *)
Theorem C89_repeated_refuted : exists s s' : @elph gauss nat,
  (exists cells, elph_supercell nat 1 (Mult 1) (Mult 1) (Mult 1) s = Ok (cells, s')) /\
  coefficient s' vzero vzero 0 0 0 <> coefficient s vzero vzero 0 0 0.
Proof.
  set (s := create nat 1 1 [V3 0 0 0; V3 0 0 0] [V3 0 0 0] ones_data : @elph gauss nat).
  exists s, (sc_result (elph_supercell nat 1 (Mult 1) (Mult 1) (Mult 1) s)). split.
  - eexists. cbn [sc_result]. reflexivity.
  - vm_compute. discriminate.
Qed.
Print Assumptions C89_repeated_refuted.

(** Two cells on two processes *)
Example C89_example :
  0 < 2 /\ det3 (arg1 (Mult 2)) (arg2 (Mult 1)) (arg3 (Mult 1)) <> 0%Z /\ NoDup (Rg nat chain) /\ NoDup (Rk nat chain) /\
  (exists s', elph_supercell nat 2 (Mult 2) (Mult 1) (Mult 1) chain = Ok ([V3 0 0 0; V3 1 0 0], s') /\
    nel nat s' = 2 /\ Rg nat s' = [V3 (-1) 0 0; V3 0 0 0; V3 1 0 0] /\ Rk nat s' = [V3 0 0 0; V3 1 0 0] /\
    coefficient s' (V3 (-1) 0 0) vzero (1 * 3 + 2) (0 * 1 + 0) (1 * 1 + 0) = (3, 2)%Z /\
    coefficient chain (V3 (-1) 0 0) (V3 1 0 0) 2 0 0 = (3, 2)%Z) /\
  (exists gs, elph_supercell_sparse nat real_part (Some sevens) 1 (Mult 2) (Mult 1) (Mult 1) chain = Ok gs /\ gs 0 0 0 = (11, 0)%Z).
Proof.
  split; [lia|]. split; [vm_compute; discriminate|].
  split; [cbn; repeat constructor; cbn; intuition discriminate|]. split; [cbn; repeat constructor; cbn; intuition discriminate|]. split.
  - eexists. split; [reflexivity|]. repeat split; vm_compute; reflexivity.
  - eexists. split; [reflexivity|]. vm_compute. reflexivity.
Qed.
