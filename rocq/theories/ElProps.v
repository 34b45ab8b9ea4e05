(** Properties C32-C39 and C76: tight-binding models (elphmod/el.py). *)
From Coq Require Import Permutation Sorted Reals.
From Verif Require Import Common CommonProofs LatModel LatSpec Num NumProofs NumC ElModel ElSpec ElProofs ElProofs2 ElProofs3 ElProofs4.
Local Open Scope nat_scope.

(** Two orbitals, three lattice vectors, one of them repeated; Gaussian
    integers. *)
Definition mat22 (x y z w : gauss) : @mat gauss := fun a b =>
  match a, b with 0, 0 => x | 0, 1 => y | 1, 0 => z | 1, 1 => w | _, _ => n0 end.
Definition z0 : gauss := (0, 0)%Z.
Definition el_of (h : list (vec * @mat gauss)) : @el gauss :=
  {| size := 2; hop := h; flatR := false; cells := [vzero]; Nsc := None; divide_ndegen := true; rydberg := false |}.
Definition m_ex : @el gauss := el_of
  [(V3 1 0 0, mat22 (1, 2)%Z z0 (0, 1)%Z z0); (V3 0 0 0, mat22 (3, 0)%Z z0 z0 (4, 0)%Z);
   (V3 (-1) 0 0, mat22 (1, -2)%Z (0, -1)%Z z0 z0); (V3 0 0 0, mat22 (1, 0)%Z z0 z0 z0)].
Definition m_ex2 : @el gauss := el_of
  [(V3 1 0 0, mat22 (1, 2)%Z z0 (0, 1)%Z z0); (V3 0 0 0, mat22 (3, 0)%Z z0 z0 (4, 0)%Z);
   (V3 (-1) 0 0, mat22 (1, -2)%Z (0, -1)%Z z0 z0)].
Definition show (m : @el gauss) := map (fun x => (fst x, (snd x 0 0, snd x 0 1, snd x 1 0, snd x 1 1))) (hop m).

(** C32. The coefficients are unchanged (thus H(k), for any phase factors) and
    the lattice vectors strictly sorted, without new ones. *)
Theorem C32_coefficients {F : num} (m : @el F) R a b : a < size m -> b < size m ->
  hopping (hop (standardize (fun x => x) None false m)) R a b = hopping (hop m) R a b.
Proof. exact (standardize_hopping m R a b). Qed.
Print Assumptions C32_coefficients.

Theorem C32_hamiltonian {F : num} (e : vec -> F) (m : @el F) a b : a < size m -> b < size m ->
  H e (standardize (fun x => x) None false m) a b = H e m a b.
Proof. exact (standardize_H e m a b). Qed.
Print Assumptions C32_hamiltonian.

Theorem C32_sorted {F : num} half small sym (m : @el F) :
  StronglySorted vlt (map fst (hop (standardize half small sym m))).
Proof. exact (standardize_sorted half small sym m). Qed.
Print Assumptions C32_sorted.

Theorem C32_vectors {F : num} (m : @el F) R :
  In R (map fst (hop (standardize (fun x => x) None false m))) <->
  exists x, In (R, x) (hop m) /\ exists a b, a < size m /\ b < size m /\ x a b <> n0.
Proof. exact (standardize_keys' m R). Qed.
Print Assumptions C32_vectors.

(** Threshold: exactly the elements below it are dropped. *)
Theorem C32_threshold {F : num} small (m : @el F) R a b : a < size m -> b < size m ->
  hopping (hop (standardize (fun x => x) (Some small) false m)) R a b =
  nsum (fun x => if veqb (fst x) R then (if small (snd x a b) then n0 else snd x a b) else n0) (hop m).
Proof. exact (standardize_eps small m R a b). Qed.
Print Assumptions C32_threshold.

(** Symmetrization: the mean of t(R) and t(-R)^dagger, hence Hermitian; nothing
    changes if the model was Hermitian before. *)
Theorem C32_symmetrized {F : num} half (m : @el F) R a b : half n0 = n0 -> a < size m -> b < size m ->
  hopping (hop (standardize half None true m)) R a b =
  half (nadd (hopping (hop m) R a b) (nconj (hopping (hop m) (vopp R) b a))).
Proof. exact (symmetrize_hopping half m R a b). Qed.
Print Assumptions C32_symmetrized.

Theorem C32_symmetric {F : num} half (m : @el F) : half n0 = n0 -> (forall x : F, half (nconj x) = nconj (half x)) ->
  hermitian (standardize half None true m).
Proof. exact (fun H0 Hc R a b => symmetrize_hermitian half m R a b H0 Hc). Qed.
Print Assumptions C32_symmetric.

Theorem C32_symmetric_already {F : num} half (m : @el F) : (forall x : F, half (nadd x x) = x) -> hermitian m ->
  forall R a b, a < size m -> b < size m ->
  hopping (hop (standardize half None true m)) R a b = hopping (hop m) R a b.
Proof. exact (symmetrize_id half m). Qed.
Print Assumptions C32_symmetric_already.

(** Idempotence: true if no summed-up matrix vanishes... *)
Theorem C32_idempotent_partial {F : num} (m : @el F) :
  let m' := standardize (fun x => x) None false m in
  (forall R x, In (R, x) (hop m') -> exists a b, a < size m /\ b < size m /\ x a b <> n0) ->
  hop (standardize (fun x => x) None false m') = hop m'.
Proof. exact (standardize_idem m). Qed.
Print Assumptions C32_idempotent_partial.

(** ... but false in general: repeated lattice vectors may cancel and leave a
    zero matrix, which only a second call removes. *)
Theorem C32_idempotent_refuted : exists m : @el gauss,
  let m' := standardize (fun x => x) None false m in
  map fst (hop (standardize (fun x => x) None false m')) <> map fst (hop m').
Proof.
  exists (el_of [(vzero, mat22 (1, 0)%Z z0 z0 z0); (vzero, mat22 (-1, 0)%Z z0 z0 z0)]).
  vm_compute. discriminate.
Qed.
Print Assumptions C32_idempotent_refuted.

(** If all matrices vanish, H(k) raises an exception after standardize, although
    it was the zero matrix before. *)
Theorem C32_zero_model_refuted : exists m : @el gauss, forall e,
  H_call e m = Ok (H e m) /\ H_call e (standardize (fun x => x) None false m) = Raise ValueError.
Proof. exists (el_of [(vzero, mat22 z0 z0 z0 z0)]). intros e. split; reflexivity. Qed.
Print Assumptions C32_zero_model_refuted.

Example C32_example :
  show (standardize (fun x => x) None false m_ex) =
  [(V3 (-1) 0 0, ((1, -2)%Z, (0, -1)%Z, z0, z0)); (V3 0 0 0, ((4, 0)%Z, z0, z0, (4, 0)%Z));
   (V3 1 0 0, ((1, 2)%Z, z0, (0, 1)%Z, z0))] /\
  (forall R x, In (R, x) (hop (standardize (fun x => x) None false m_ex)) ->
    exists a b, a < size m_ex /\ b < size m_ex /\ x a b <> n0).
Proof.
  split; [vm_compute; reflexivity|]. intros R x Hx. cbn in Hx.
  destruct Hx as [E|[E|[E|[]]]]; injection E as <- <-; exists 0, 0; (split; [cbn; lia|]); (split; [cbn; lia|]); vm_compute; discriminate.
Qed.

Example C32_hermitian_example : hermitian m_ex.
Proof.
  intros [x y z] a b Ha Hb. cbn in Ha, Hb. unfold hopping, m_ex, el_of, vopp. cbn [hop nsum fst snd vopp vx vy vz].
  unfold veqb.
  repeat match goal with |- context [vec_eq_dec ?u ?w] => destruct (vec_eq_dec u w) as [?E|?E] end;
  repeat match goal with E : V3 _ _ _ = V3 _ _ _ |- _ => injection E as ?E ?E ?E end;
  try (exfalso; lia);
  try (exfalso; match goal with E : V3 _ _ _ <> V3 _ _ _ |- _ => apply E; f_equal; lia end);
  destruct a as [|[|a]]; try lia; destruct b as [|[|b]]; try lia; reflexivity.
Qed.

(** C33. Hopping of the supercell in terms of the hopping of the crystal. *)
Theorem C33_hopping {F : num} a1 a2 a3 (m : @el F) :
  det3 (arg1 a1) (arg2 a2) (arg3 a3) <> 0%Z -> NoDup (map fst (hop m)) ->
  exists sc m', supercell a1 a2 a3 = Ok sc /\ el_supercell a1 a2 a3 m = Ok m' /\
    cells m' = sc_cells sc /\ size m' = length (sc_cells sc) * size m /\
    Nsc m' = Some (arg1 a1, arg2 a2, arg3 a3) /\ NoDup (map fst (hop m')) /\ flatR m' = false /\
    forall Q i j c c' a b, nth_error (sc_cells sc) i = Some c -> nth_error (sc_cells sc) j = Some c' ->
      a < size m -> b < size m ->
      hopping (hop m') Q (i * size m + a) (j * size m + b) =
      hopping (hop m) (vsub (vadd (comb (arg1 a1) (arg2 a2) (arg3 a3) Q) c') c) a b.
Proof. exact (el_supercell_spec a1 a2 a3 m). Qed.
Print Assumptions C33_hopping.

(** Bloch states of the crystal are eigenstates of the supercell Hamiltonian at
    the folded wave vector, with the same Hamiltonian acting on the orbitals:
    for psi with coefficients e(c_j) psi_b, (H' psi)_(i a) = e(c_i) (H psi)_a. *)
Theorem C33_bloch {F : num} a1 a2 a3 (m m' : @el F) (e : vec -> F) i c a psi :
  det3 (arg1 a1) (arg2 a2) (arg3 a3) <> 0%Z -> NoDup (map fst (hop m)) ->
  el_supercell a1 a2 a3 m = Ok m' -> (forall Q T, e (vadd Q T) = nmul (e Q) (e T)) ->
  nth_error (cells m') i = Some c -> a < size m ->
  nsum (fun j => nsum (fun b =>
    nmul (H (fun Q => e (comb (arg1 a1) (arg2 a2) (arg3 a3) Q)) m' (i * size m + a) (j * size m + b))
         (nmul (e (nth j (cells m') vzero)) (psi b))) (seq 0 (size m))) (seq 0 (length (cells m'))) =
  nmul (e c) (nsum (fun b => nmul (H e m a b) (psi b)) (seq 0 (size m))).
Proof. exact (el_supercell_bloch a1 a2 a3 m m' e i c a psi). Qed.
Print Assumptions C33_bloch.

(** The sparse variant holds the real part of H(k = 0). *)
Theorem C33_sparse {F : num} re a1 a2 a3 (m : @el F) :
  det3 (arg1 a1) (arg2 a2) (arg3 a3) <> 0%Z -> NoDup (map fst (hop m)) ->
  re n0 = n0 -> (forall x y : F, re (nadd x y) = nadd (re x) (re y)) ->
  exists Hs m', el_supercell_sparse re a1 a2 a3 m = Ok Hs /\ el_supercell a1 a2 a3 m = Ok m' /\
  forall i j c c' a b, nth_error (cells m') i = Some c -> nth_error (cells m') j = Some c' ->
    a < size m -> b < size m ->
    Hs (i * size m + a) (j * size m + b) = re (H (fun _ => n1) m' (i * size m + a) (j * size m + b)).
Proof. exact (sparse_spec re a1 a2 a3 m). Qed.
Print Assumptions C33_sparse.

(** Repeated lattice vectors, which are legal otherwise, are lost. *)
Theorem C33_repeated_refuted : exists (m m' : @el gauss), el_supercell (Mult 1) (Mult 1) (Mult 1) m = Ok m' /\
  hopping (hop m') vzero 0 0 <> hopping (hop m) vzero 0 0.
Proof.
  exists m_ex, (get_ok m_ex (el_supercell (Mult 1) (Mult 1) (Mult 1) m_ex)).
  split; [apply ok_get; vm_compute; reflexivity|]. vm_compute. discriminate.
Qed.
Print Assumptions C33_repeated_refuted.

Example C33_example :
  det3 (arg1 (Vect (V3 1 1 0))) (arg2 (Vect (V3 (-1) 1 0))) (arg3 (Mult 1)) <> 0%Z /\
  NoDup (map fst (hop m_ex2)) /\
  exists m', el_supercell (Vect (V3 1 1 0)) (Vect (V3 (-1) 1 0)) (Mult 1) m_ex2 = Ok m' /\
    cells m' = [V3 0 0 0; V3 0 1 0] /\ size m' = 4 /\ hopping (hop m') (V3 0 (-1) 0) 0 2 = (1, 2)%Z.
Proof.
  split; [vm_compute; discriminate|]. split.
  { cbn. repeat constructor; cbn; intuition discriminate. }
  exists (get_ok m_ex (el_supercell (Vect (V3 1 1 0)) (Vect (V3 (-1) 1 0)) (Mult 1) m_ex2)).
  split; [apply ok_get; vm_compute; reflexivity|].
  split; [vm_compute; reflexivity|]. split; vm_compute; reflexivity.
Qed.

(** C34. unit_cell after supercell: the original hopping, displaced by the first
    cell in the list (in general not the origin)... *)
Theorem C34_displaced {F : num} a1 a2 a3 (m m' : @el F) c0 :
  det3 (arg1 a1) (arg2 a2) (arg3 a3) <> 0%Z -> NoDup (map fst (hop m)) ->
  el_supercell a1 a2 a3 m = Ok m' -> nth_error (cells m') 0 = Some c0 ->
  exists m'', el_unit_cell m' = Ok m'' /\ size m'' = size m /\ cells m'' = [vzero] /\
  forall R a b, a < size m -> b < size m ->
    hopping (hop m'') R a b = hopping (hop m) (vsub R c0) a b.
Proof. exact (el_unit_cell_spec a1 a2 a3 m m' c0). Qed.
Print Assumptions C34_displaced.

(** ... so the round trip is exact iff no cell precedes the origin, ... *)
Theorem C34_round_trip_partial {F : num} a1 a2 a3 (m m' : @el F) :
  det3 (arg1 a1) (arg2 a2) (arg3 a3) <> 0%Z -> NoDup (map fst (hop m)) ->
  el_supercell a1 a2 a3 m = Ok m' -> (forall c, In c (cells m') -> ~ vlt c vzero) ->
  exists m'', el_unit_cell m' = Ok m'' /\ size m'' = size m /\
  forall R a b, a < size m -> b < size m ->
    hopping (hop m'') R a b = hopping (hop m) R a b.
Proof. exact (el_round_trip a1 a2 a3 m m'). Qed.
Print Assumptions C34_round_trip_partial.

(** ... e.g. for positive multiples of the lattice vectors. *)
Theorem C34_diagonal {F : num} n1 n2 n3 (m : @el F) : (0 < n1)%Z -> (0 < n2)%Z -> (0 < n3)%Z ->
  NoDup (map fst (hop m)) ->
  exists m' m'', el_supercell (Mult n1) (Mult n2) (Mult n3) m = Ok m' /\ el_unit_cell m' = Ok m'' /\
  size m'' = size m /\
  forall R a b, a < size m -> b < size m -> hopping (hop m'') R a b = hopping (hop m) R a b.
Proof. exact (el_round_trip_diagonal n1 n2 n3 m). Qed.
Print Assumptions C34_diagonal.

Theorem C34_round_trip_refuted : exists (m m' m'' : @el gauss),
  NoDup (map fst (hop m)) /\
  el_supercell (Vect (V3 1 0 0)) (Vect (V3 (-3) 2 0)) (Mult 1) m = Ok m' /\ el_unit_cell m' = Ok m'' /\
  hopping (hop m'') vzero 0 0 <> hopping (hop m) vzero 0 0.
Proof.
  set (m' := get_ok m_ex (el_supercell (Vect (V3 1 0 0)) (Vect (V3 (-3) 2 0)) (Mult 1) m_ex2)).
  exists m_ex2, m', (get_ok m_ex (el_unit_cell m')). split.
  { cbn. repeat constructor; cbn; intuition discriminate. }
  split; [apply ok_get; vm_compute; reflexivity|]. split; [apply ok_get; vm_compute; reflexivity|].
  vm_compute. discriminate.
Qed.
Print Assumptions C34_round_trip_refuted.

(** C35. Relabelling of orbitals. *)
Theorem C35_order {F : num} order (m : @el F) : Forall (fun a => a < size m) order ->
  exists m', order_orbitals order m = Ok m' /\ map fst (hop m') = map fst (hop m) /\
  (forall R a b a' b', nth_error order a = Some a' -> nth_error order b = Some b' ->
    hopping (hop m') R a b = hopping (hop m) R a' b') /\
  (forall e a b a' b', nth_error order a = Some a' -> nth_error order b = Some b' ->
    H e m' a b = H e m a' b') /\
  size m' = size m /\ flatR m' = flatR m.
Proof. exact (order_Ok order m). Qed.
Print Assumptions C35_order.

Theorem C35_back {F : num} order (m : @el F) : Permutation order (seq 0 (size m)) ->
  exists inv m1 m2, Permutation inv (seq 0 (size m)) /\
  order_orbitals order m = Ok m1 /\ order_orbitals inv m1 = Ok m2 /\
  map fst (hop m2) = map fst (hop m) /\
  forall R a b, a < size m -> b < size m -> hopping (hop m2) R a b = hopping (hop m) R a b.
Proof. exact (order_back order m). Qed.
Print Assumptions C35_back.

Theorem C35_error {F : num} order (m : @el F) a : In a order -> size m <= a ->
  order_orbitals order m = Raise IndexError.
Proof. exact (order_error order m a). Qed.
Print Assumptions C35_error.

Example C35_example : exists m', order_orbitals [1; 0] m_ex2 = Ok m' /\
  Permutation [1; 0] (seq 0 (size m_ex2)) /\ hopping (hop m') (V3 1 0 0) 0 1 = (0, 1)%Z.
Proof. eexists. split; [reflexivity|]. split; [apply perm_swap|reflexivity]. Qed.

(** C36. Moving orbitals to another cell multiplies matrix elements with phase
    factors ([e] stands for exp(i k.R))... *)
Theorem C36_phase {F : num} (e : vec -> F) s S (m : @el F) a b :
  (forall Q T, e (vadd Q T) = nmul (e Q) (e T)) -> a < size m -> b < size m ->
  H e (shift_orbitals s S m) a b = nmul (shift_phase e s S a b) (H e m a b).
Proof. exact (shift_H e s S m a b). Qed.
Print Assumptions C36_phase.

(** ... i.e. displaces the hopping, ... *)
Theorem C36_hopping {F : num} s S (m : @el F) R a b : a < size m -> b < size m ->
  hopping (hop (shift_orbitals s S m)) R a b =
  hopping (hop m) (if s a then (if s b then R else vsub R S) else (if s b then vadd R S else R)) a b.
Proof. exact (shift_hopping s S m R a b). Qed.
Print Assumptions C36_hopping.

(** ... can be undone and preserves Hermiticity. *)
Theorem C36_back {F : num} s S (m : @el F) R a b : a < size m -> b < size m ->
  hopping (hop (shift_orbitals s (vopp S) (shift_orbitals s S m))) R a b = hopping (hop m) R a b.
Proof. exact (shift_back s S m R a b). Qed.
Print Assumptions C36_back.

Theorem C36_hermitian {F : num} s S (m : @el F) : hermitian m -> hermitian (shift_orbitals s S m).
Proof. exact (shift_hermitian s S m). Qed.
Print Assumptions C36_hermitian.

(** The phase factors of a wave vector k satisfy the hypothesis. *)
Theorem C36_phase_factors k u w : phase k (vadd u w) = nmul (phase k u) (phase k w).
Proof. exact (phase_add k u w). Qed.
Print Assumptions C36_phase_factors.

Example C36_example :
  show (shift_orbitals (fun a => a =? 1) (V3 0 1 0) m_ex2) =
  [(V3 (-1) (-1) 0, (z0, (0, -1)%Z, z0, z0)); (V3 (-1) 0 0, ((1, -2)%Z, z0, z0, z0));
   (V3 0 0 0, ((3, 0)%Z, z0, z0, (4, 0)%Z)); (V3 1 0 0, ((1, 2)%Z, z0, z0, z0));
   (V3 1 1 0, (z0, z0, (0, 1)%Z, z0))].
Proof. vm_compute. reflexivity. Qed.

(** C37. H(k) is periodic with the reciprocal lattice, and Hermitian if the
    hopping is. *)
Theorem C37_periodic (m : @el C) k g a b : H (phase (kadd k (krec g))) m a b = H (phase k) m a b.
Proof. exact (H_periodic m k g a b). Qed.
Print Assumptions C37_periodic.

Theorem C37_hermitian (m : @el C) k a b : hermitian m -> a < size m -> b < size m ->
  H (phase k) m b a = nconj (H (phase k) m a b).
Proof. exact (fun Hm Ha Hb => H_hermitian (phase k) m a b (phase_conj k) (fun R => Hm R a b Ha Hb)). Qed.
Print Assumptions C37_hermitian.

Theorem C37_hermitian_generic {F : num} (e : vec -> F) (m : @el F) a b : (forall R, nconj (e R) = e (vopp R)) ->
  hermitian m -> a < size m -> b < size m -> H e m b a = nconj (H e m a b).
Proof. exact (fun He Hm Ha Hb => H_hermitian e m a b He (fun R => Hm R a b Ha Hb)). Qed.
Print Assumptions C37_hermitian_generic.

(** C38. The three components of v(k) are the partial derivatives of H(k). *)
Theorem C38_gradient (m : @el C) k1 k2 k3 a b :
  (derivable_pt_lim (fun s => Re (H (phase (K3 s k2 k3)) m a b)) k1 (Re (v Ci ofZ (phase (K3 k1 k2 k3)) m vx a b)) /\
   derivable_pt_lim (fun s => Im (H (phase (K3 s k2 k3)) m a b)) k1 (Im (v Ci ofZ (phase (K3 k1 k2 k3)) m vx a b))) /\
  (derivable_pt_lim (fun s => Re (H (phase (K3 k1 s k3)) m a b)) k2 (Re (v Ci ofZ (phase (K3 k1 k2 k3)) m vy a b)) /\
   derivable_pt_lim (fun s => Im (H (phase (K3 k1 s k3)) m a b)) k2 (Im (v Ci ofZ (phase (K3 k1 k2 k3)) m vy a b))) /\
  (derivable_pt_lim (fun s => Re (H (phase (K3 k1 k2 s)) m a b)) k3 (Re (v Ci ofZ (phase (K3 k1 k2 k3)) m vz a b)) /\
   derivable_pt_lim (fun s => Im (H (phase (K3 k1 k2 s)) m a b)) k3 (Im (v Ci ofZ (phase (K3 k1 k2 k3)) m vz a b))).
Proof. exact (v_gradient m k1 k2 k3 a b). Qed.
Print Assumptions C38_gradient.

(** The velocity operator is Hermitian, too. *)
Theorem C38_hermitian (m : @el C) k x a b : (forall Q, x (vopp Q) = (- x Q)%Z) -> hermitian m -> a < size m -> b < size m ->
  v Ci ofZ (phase k) m x b a = nconj (v Ci ofZ (phase k) m x a b).
Proof. exact (v_hermitian m k x a b). Qed.
Print Assumptions C38_hermitian.

(** C39. t(R): the first matrix stored for R, or zero... *)
Theorem C39_lookup {F : num} (m : @el F) R x : t m R = Ok x ->
  (exists n, nth_error (hop m) n = Some (R, x) /\ forall n' y, n' < n -> nth_error (hop m) n' <> Some (R, y)) \/
  ((forall y, ~ In (R, y) (hop m)) /\ forall a b, x a b = n0).
Proof. exact (t_first m R x). Qed.
Print Assumptions C39_lookup.

(** ... which is the coefficient of exp(i k.R) in H(k) for models without
    repeated lattice vectors and at least one lattice vector. *)
Theorem C39_coefficient_partial {F : num} (m : @el F) R : NoDup (map fst (hop m)) -> hop m <> [] ->
  exists x, t m R = Ok x /\ forall a b, x a b = hopping (hop m) R a b.
Proof. exact (t_spec m R). Qed.
Print Assumptions C39_coefficient_partial.

Theorem C39_hamiltonian {F : num} (e : vec -> F) (m : @el F) a b K : NoDup K -> (forall x, In x (hop m) -> In (fst x) K) ->
  H e m a b = nsum (fun R => nmul (hopping (hop m) R a b) (e R)) K.
Proof. exact (H_hopping e m a b K). Qed.
Print Assumptions C39_hamiltonian.

Theorem C39_empty_refuted : exists m : @el gauss, forall R, t m R = Raise IndexError.
Proof. exists (el_of []). reflexivity. Qed.
Print Assumptions C39_empty_refuted.

Theorem C39_repeated_refuted : exists (m : @el gauss) x, t m vzero = Ok x /\ x 0 0 <> hopping (hop m) vzero 0 0.
Proof. exists m_ex. eexists. split; [reflexivity|]. vm_compute. discriminate. Qed.
Print Assumptions C39_repeated_refuted.

Example C39_example : NoDup (map fst (hop m_ex2)) /\ hop m_ex2 <> [].
Proof. split; [cbn; repeat constructor; cbn; intuition discriminate|discriminate]. Qed.

(** C76. Distributing hoppings over equivalent Wigner-Seitz images leaves H(k)
    unchanged wherever the images are in phase, e.g. on the original k mesh. *)
Theorem C76_mesh {F : num} (e : vec -> F) divn supvecs (m : @el F) a b :
  (forall n x, n <> 0 -> ntimes n (divn x n) = x) ->
  (forall Q T, e (vadd Q T) = nmul (e Q) (e T)) ->
  (forall R x a b, In (R, x) (hop m) -> a < size m -> b < size m ->
    exists T l, supvecs R a b = Some (T :: l) /\ forall T', In T' (T :: l) -> e T' = n1) ->
  a < size m -> b < size m ->
  exists m', ws_distribute divn supvecs m = Ok m' /\ H e m' a b = H e m a b.
Proof. exact (ws_mesh e divn supvecs m a b). Qed.
Print Assumptions C76_mesh.

(** At an arbitrary k point: the average over the images. *)
Theorem C76_average {F : num} (e : vec -> F) divn supvecs (m : @el F) a b :
  (forall R x a b, In (R, x) (hop m) -> a < size m -> b < size m -> exists T l, supvecs R a b = Some (T :: l)) ->
  a < size m -> b < size m ->
  exists m', ws_distribute divn supvecs m = Ok m' /\ NoDup (map fst (hop m')) /\
    H e m' a b = nsum (fun x => match supvecs (fst x) a b with
      | Some l => nsum (fun T => nmul (divn (snd x a b) (length l)) (e (vadd (fst x) T))) l
      | None => n0 end) (hop m).
Proof. exact (ws_H e divn supvecs m a b). Qed.
Print Assumptions C76_average.

Theorem C76_missing_key {F : num} divn (m : @el F) R x l : hop m = (R, x) :: l -> 0 < size m ->
  ws_distribute divn (fun _ _ _ => None) m = Raise KeyError.
Proof. exact (ws_missing divn m R x l). Qed.
Print Assumptions C76_missing_key.

(** Even hoppings, two images each. *)
Example C76_example :
  let divn (x : gauss) n := match n with 2 => (fst x / 2, snd x / 2)%Z | _ => x end in
  let m := el_of [(V3 1 0 0, mat22 (2, 4)%Z z0 z0 z0)] in
  exists m', ws_distribute divn (fun _ _ _ => Some [V3 0 0 0; V3 (-2) 0 0]) m = Ok m' /\
  show m' = [(V3 1 0 0, ((1, 2)%Z, z0, z0, z0)); (V3 (-1) 0 0, ((1, 2)%Z, z0, z0, z0))].
Proof.
  intros divn m. exists (get_ok m (ws_distribute divn (fun _ _ _ => Some [V3 0 0 0; V3 (-2) 0 0]) m)).
  split; [apply ok_get; vm_compute; reflexivity|vm_compute; reflexivity].
Qed.
