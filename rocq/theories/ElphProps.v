(** Properties C61-C63: elphmod/elph.py. *)
From Coq Require Import Sorted Reals Lra.
From Verif Require Import Common CommonProofs LatModel LatSpec Num NumProofs NumC ElModel ElSpec ElphModel ElphSpec ElphProofs ElphProofs2 ElphProofs3.
Local Open Scope nat_scope.

(** Two points of the Brillouin zone of a chain, zero and pi *)
Definition chain_phase (q : nat) (R : vec) : gauss := if (q =? 0) || Z.even (vx R) then (1, 0)%Z else (-1, 0)%Z.
Definition some_data : @arr gauss := fun g x k a b => (Z.of_nat (1 + g + 2 * x + 5 * k), 0)%Z.
Definition toy : @elph gauss nat := create nat 1 1 [V3 0 0 0; V3 1 0 0] [V3 1 0 0; V3 0 0 0] some_data.
Definition call (c : list nat) (q k : nat) (s : @elph gauss nat) : res (elph nat * slab) :=
  g_call nat Nat.eqb Nat.add chain_phase (fun _ => delta) (fun _ => delta) None c q k false false s.
Definition result (x : res (@elph gauss nat * @slab gauss)) : option (list gauss) :=
  match x with Ok (_, g) => Some (map (fun u => g u 0 0) [0; 1; 2]) | Raise _ => None end.

(** C61. For every history of calls of [g] (with any points and communicators)
    and [standardize], the coupling returned is the lattice sum of the present data
    plus the long-range part, in the requested basis. *)
Theorem C61_history {F : num} {P : Type} (peqb : P -> P -> bool) (padd : P -> P -> P) (e : P -> vec -> F) Uel Uph lr half absf divf nel0 natoms0 Rg0 Rk0 d0 ops s c q k elbnd phbnd :
  (forall p p', peqb p p' = true <-> p = p') -> (forall p, e p vzero = n1) ->
  Forall harmless ops -> run P peqb padd e absf divf Uel Uph lr half ops (create P nel0 natoms0 Rg0 Rk0 d0) = Ok s ->
  c <> [] -> (lr = None \/ In vzero (Rk P s)) ->
  exists s' g, g_call P peqb padd e Uel Uph lr c q k elbnd phbnd s = Ok (s', g) /\
  forall u m n, u < nph P s -> m < nel P s -> n < nel P s ->
    g u m n = elements (nel P s) (nph P s) (if elbnd then Uel (padd k q) else delta) (if elbnd then Uel k else delta)
      (if phbnd then Uph q else delta) (coupling_at s e lr q k) u m n.
Proof. intros H1 H2. exact (history peqb H1 padd e H2 Uel Uph lr half absf divf nel0 natoms0 Rg0 Rk0 d0 ops s c q k elbnd phbnd). Qed.
Print Assumptions C61_history.

(** Looking up the coupling for a pair of lattice vectors (first phonons, then electrons)
    gives the stored matrices if both vectors are found (distinct vectors assumed) and zeros
    otherwise. *)
Theorem C61_lookup {F : num} {P : Type} (s : @elph F P) Rq Rr :
  (forall i j, NoDup (Rg P s) -> NoDup (Rk P s) -> nth_error (Rg P s) i = Some Rq -> nth_error (Rk P s) j = Some Rr ->
    exists g, gR P s Rq Rr = Ok g /\ forall x a b, g x a b = data P s i x j a b) /\
  (~ In Rq (Rg P s) \/ ~ In Rr (Rk P s) -> Rg P s <> [] -> Rk P s <> [] -> exists g, gR P s Rq Rr = Ok g /\ forall x a b, g x a b = n0).
Proof.
  assert (I : forall u v, row u = row v -> u = v) by (intros [] [] E; unfold row in E; cbn in E; congruence).
  assert (S : forall l v i, NoDup l -> nth_error l i = Some v -> MiscModel.vector_index (map row l) (row v) = Some i).
  { intros l v i N H. apply MiscProofs.vector_index_Some. rewrite nth_error_map, H. split; [reflexivity|]. intros j Hj E. rewrite nth_error_map in E.
    destruct (nth_error l j) as [w|] eqn:Ew; [|discriminate]. cbn [option_map] in E. assert (w = v) as -> by (apply I; congruence).
    assert (i = j); [|lia]. apply (proj1 (NoDup_nth_error l) N); [apply nth_error_Some; congruence|congruence]. }
  assert (X : forall l v, ~ In v l -> MiscModel.vector_index (map row l) (row v) = None).
  { intros l v H. apply MiscProofs.vector_index_None. rewrite in_map_iff. intros (w & E & Hw). apply I in E. subst w. exact (H Hw). }
  unfold gR. split.
  - intros i j Ng Nk Hi Hj. rewrite (S _ _ _ Ng Hi), (S _ _ _ Nk Hj). eexists. split; [reflexivity|]. reflexivity.
  - intros H Hg Hk. destruct (Rg P s) as [|g0 G] eqn:EG; [congruence|]. destruct (Rk P s) as [|k0 K] eqn:EK; [congruence|]. rewrite <- EG, <- EK in *.
    destruct H as [H|H].
    + rewrite (X _ _ H). eexists. split; [reflexivity|]. reflexivity.
    + rewrite (X _ _ H). destruct (MiscModel.vector_index _ _); eexists; (split; [reflexivity|]); reflexivity.
Qed.
Print Assumptions C61_lookup.

Example C61_lookup_example : NoDup (Rg nat toy) /\ NoDup (Rk nat toy) /\
  match gR nat toy (V3 1 0 0) (V3 0 0 0) with Ok g => g 2 0 0 = (11, 0)%Z | Raise _ => False end /\
  match gR nat toy (V3 1 0 0) (V3 2 0 0) with Ok g => g 2 0 0 = (0, 0)%Z | Raise _ => False end.
Proof. repeat split; repeat constructor; cbn; try reflexivity; intuition discriminate. Qed.

(** Calls by different groups of processes, with different points in their caches *)
Example C61_example :
  let hist := [Coupling nat [0; 1; 2] 1 0 false false; Coupling nat [1] 0 1 false false; Standardize nat None false] in
  Forall harmless hist /\
  (exists s, run nat Nat.eqb Nat.add chain_phase (fun z => z) (fun z _ => z) (fun _ => delta) (fun _ => delta) None (fun z => z) hist toy = Ok s /\
    Rk nat s = [V3 0 0 0; V3 1 0 0] /\ result (call [0; 2] 1 0 s) = Some [(-2, 0); (-2, 0); (-2, 0)]%Z) /\
  (exists s g, call [0; 1; 2] 1 0 toy = Ok (s, g) /\ result (call [1] 0 1 s) = Some [(10, 0); (10, 0); (10, 0)]%Z).
Proof.
  split; [repeat constructor|]. split.
  - eexists. split; [vm_compute; reflexivity|]. split; reflexivity.
  - eexists _, _. split; [vm_compute; reflexivity|]. reflexivity.
Qed.

(** The same in whatever state the caches are, if one of the calling processes has
    used another point before. *)
Theorem C61_other_point {F : num} {P : Type} (peqb : P -> P -> bool) (padd : P -> P -> P) (e : P -> vec -> F) Uel Uph lr s c q k elbnd phbnd r q' gq :
  (forall p p', peqb p p' = true <-> p = p') -> (forall p, e p vzero = n1) ->
  c <> [] -> gqn P s = length (Rk P s) -> Rk0 P s = origin (Rk P s) -> (lr = None \/ In vzero (Rk P s)) ->
  In r c -> caches P s r = Some (q', gq) -> q' <> q ->
  exists s' g, g_call P peqb padd e Uel Uph lr c q k elbnd phbnd s = Ok (s', g) /\
  forall u m n, u < nph P s -> m < nel P s -> n < nel P s ->
    g u m n = elements (nel P s) (nph P s) (if elbnd then Uel (padd k q) else delta) (if elbnd then Uel k else delta)
      (if phbnd then Uph q else delta) (coupling_at s e lr q k) u m n.
Proof. intros H1 H2 Hc W1 W2. exact (other_point peqb H1 padd e H2 Uel Uph lr s c q k elbnd phbnd r q' gq Hc (conj W1 W2)). Qed.
Print Assumptions C61_other_point.

Example C61_other_point_example : exists s g, call [0; 1] 1 0 toy = Ok (s, g) /\ (exists gq, caches nat s 1 = Some (1, gq)) /\
  result (call [1; 2] 0 0 (asr nat (fun z => z) (fun z _ => z) s)) <> None.
Proof. eexists _, _. split; [vm_compute; reflexivity|]. split; [eexists; reflexivity|vm_compute; discriminate]. Qed.

(** Not after [asr], [q2r] (without new lattice vectors) or [update_short_range]:
    at the point of the last call, the coupling from before is returned, whatever
    the new data are. *)
Theorem C61_stale_refuted {F : num} {P : Type} (peqb : P -> P -> bool) (padd : P -> P -> P) (e : P -> vec -> F) Uel Uph lr nel natoms Rg Rk d0 s1 g c q k k' elbnd phbnd elbnd' phbnd' d :
  (forall p p', peqb p p' = true <-> p = p') -> (forall p, e p vzero = n1) -> c <> [] -> (lr = None \/ In vzero Rk) ->
  let s := create P nel natoms Rg Rk d0 in
  g_call P peqb padd e Uel Uph lr c q k elbnd phbnd s = Ok (s1, g) ->
  exists s2 g', g_call P peqb padd e Uel Uph lr c q k' elbnd' phbnd' (set_data P s1 d) = Ok (s2, g') /\
  forall u m n, u < nph P s -> m < nel -> n < nel ->
    g' u m n = elements nel (nph P s) (if elbnd' then Uel (padd k' q) else delta) (if elbnd' then Uel k' else delta)
      (if phbnd' then Uph q else delta) (coupling_at s e lr q k') u m n.
Proof.
  intros H1 H2 Hc Hs s E. exact (stale peqb H1 padd e H2 Uel Uph lr s s1 g c q k k' elbnd phbnd elbnd' phbnd' d Hc (create_sound e lr nel natoms Rg Rk d0) Hs E).
Qed.
Print Assumptions C61_stale_refuted.

(** Replacing all elements by zero has no effect on the coupling returned. *)
Example C61_stale_example : exists s g, call [0] 1 0 toy = Ok (s, g) /\
  result (call [0] 1 0 (set_data nat s (fun _ _ _ _ _ => @n0 gauss))) = Some [(-2, 0); (-2, 0); (-2, 0)]%Z /\
  result (call [0] 1 0 (create nat 1 1 (Rg nat s) (Rk nat s) (fun _ _ _ _ _ => @n0 gauss))) = Some [(0, 0); (0, 0); (0, 0)]%Z.
Proof. eexists _, _. split; [vm_compute; reflexivity|]. split; reflexivity. Qed.

(** ... in particular after [asr]: a model of a single atom, whose only coupling
    element is removed by the sum rule. *)
Theorem C61_asr_refuted :
  let point_eqb := fun p p' : unit => true in
  let e := fun (_ : unit) (_ : vec) => @n1 C in
  let g := g_call unit point_eqb (fun p _ => p) e (fun _ => delta) (fun _ => delta) None [0] tt tt false false in
  let s := create unit 1 1 [vzero] [vzero] (fun _ _ _ _ _ => @n1 C) in
  exists s1 g1 s2 g2 s3 g3,
    g s = Ok (s1, g1) /\
    g (asr unit absC divC s1) = Ok (s2, g2) /\ g2 0 0 0 = RtoC 1 /\
    g (create unit 1 1 [vzero] [vzero] (data unit (asr unit absC divC s1))) = Ok (s3, g3) /\ g3 0 0 0 = RtoC 0.
Proof.
  assert (U : forall p p' : unit, true = true <-> p = p') by (intros [] []; tauto). intros pe e g s. pose (s' := create unit 1 1 [vzero] [vzero] (data unit (asr unit absC divC s))).
  destruct (g_call_ok pe U (fun p _ => p) e (fun _ => eq_refl) (fun _ => delta) (fun _ => delta) None [0] tt tt false false s) as (s1 & g1 & E1 & M1 & _); [discriminate|split; reflexivity|left; reflexivity|left; intros r _; exact Logic.I|].
  destruct (stale pe U (fun p _ => p) e (fun _ => eq_refl) (fun _ => delta) (fun _ => delta) None s s1 g1 [0] tt tt tt false false false false (data unit (asr unit absC divC s1))) as (s2 & g2 & E2 & G2); [discriminate|apply create_sound|left; reflexivity|exact E1|].
  assert (D : data unit (asr unit absC divC s1) = data unit (asr unit absC divC s)).
  { destruct M1 as (_ & M2 & M3 & _ & M5 & _). cbn [asr set_data data]. unfold column_sum. rewrite M5, M2, M3. reflexivity. }
  destruct (g_call_ok pe U (fun p _ => p) e (fun _ => eq_refl) (fun _ => delta) (fun _ => delta) None [0] tt tt false false s') as (s3 & g3 & E3 & _ & _ & _ & G3); [discriminate|split; reflexivity|left; reflexivity|left; intros r _; exact Logic.I|].
  assert (OneRow : forall (f : nat -> nat -> nat -> C), elements 1 3 delta delta delta f 0 0 0 = f 0 0 0).
  { intros f. unfold elements, delta. cbn [seq nsum Nat.eqb]. assert (Cn : nconj (@n1 C) = n1) by apply conj_1. rewrite Cn. destruct (f 0 0 0), (f 1 0 0), (f 2 0 0). cbn. apply f_equal2; ring. }
  exists s1, g1, s2, g2, s3, g3. split; [exact E1|]. split; [exact E2|]. split.
  - rewrite G2 by (cbn; lia). unfold band_coupling. cbn [nel s create]. change (nph unit s) with 3. rewrite OneRow. unfold coupling_at, lattice_sum, RtoC. cbn. apply f_equal2; lra.
  - rewrite D. split; [exact E3|]. rewrite G3 by (cbn; lia). cbn [nel s' create]. change (nph unit s') with 3. rewrite OneRow.
    pose proof (asr_sum s 0 0 0 0 ltac:(lia)) as T. unfold translation_sum in T. cbn [asr set_data Rg natoms s create length seq nsum] in T. unfold coupling_at, lattice_sum. cbn [s' create Rg Rk data length seq nsum nth].
    change (3 * 0 + 0) with 0 in T. set (y := data unit (asr unit absC divC s) 0 0 0 0 0) in *. change (data unit (set_data unit s _) 0 0 0 0 0) with y in T. destruct y as [y1 y2]. unfold e, RtoC. cbn in T |- *. injection T as T1 T2. apply f_equal2; lra.
Qed.
Print Assumptions C61_asr_refuted.

(** C62. Standardization does not change the coupling at any point. *)
Theorem C62_same_coupling {F : num} {P : Type} (e : P -> vec -> F) lr half (s s' : @elph F P) q k x a b :
  standardize P half None false s = Ok s' -> x < nph P s -> a < nel P s -> b < nel P s ->
  coupling_at s' e lr q k x a b = coupling_at s e lr q k x a b.
Proof. exact (coupling_standardize e lr half s s' q k x a b). Qed.
Print Assumptions C62_same_coupling.

(** Its lattice vectors are sorted, free of duplicates and contain the origin. *)
Theorem C62_lattice_vectors {F : num} {P : Type} half small sym (s s' : @elph F P) :
  standardize P half small sym s = Ok s' ->
  StronglySorted vlt (Rg P s') /\ StronglySorted vlt (Rk P s') /\ In vzero (Rg P s') /\ In vzero (Rk P s') /\
  (sym = false -> forall R, (In R (Rg P s') -> R = vzero \/ In R (Rg P s)) /\ (In R (Rk P s') -> R = vzero \/ In R (Rk P s))).
Proof. exact (standardize_lists half small sym s s'). Qed.
Print Assumptions C62_lattice_vectors.

(** Small elements are dropped if a threshold is given. *)
Theorem C62_threshold {F : num} {P : Type} half (small : F -> bool) (s s' : @elph F P) e1 e2 x a b :
  standardize P half (Some small) false s = Ok s' -> x < nph P s -> a < nel P s -> b < nel P s ->
  lattice_sum s' e1 e2 x a b =
  lattice_sum (set_data P s (fun g x k a b => if small (data P s g x k a b) then n0 else data P s g x k a b)) e1 e2 x a b.
Proof. exact (standardize_keeps half (Some small) s s' e1 e2 x a b). Qed.
Print Assumptions C62_threshold.

(** Symmetrization yields the mean of the coupling and its adjoint, so that
    g(q, k) = g(-q, k + q)^dagger. *)
Theorem C62_symmetrized (s s' : @elph C kpoint) q k x a b :
  symmetrize kpoint (fun z => nmul (RtoC (/ 2)) z) s = Ok s' -> x < nph kpoint s -> a < nel kpoint s -> b < nel kpoint s ->
  let g := fun s q k => lattice_sum s (phase q) (phase k) x in
  g s' q k a b = nmul (RtoC (/ 2)) (nadd (g s q k a b) (nconj (g s (kopp q) (kadd k q) b a))) /\
  g s' q k a b = nconj (g s' (kopp q) (kadd k q) b a).
Proof.
  intros H Hx Ha Hb g.
  assert (PE : forall q R, phase (kopp q) R = phase q (vopp R)) by (intros; apply phase_kopp).
  assert (PA : forall k q R, phase (kadd k q) R = nmul (phase q R) (phase k R)).
  { intros. unfold phase. rewrite <- expi_add. f_equal. unfold kdot, kadd. cbn. ring. }
  assert (Ext : forall (t : @elph C kpoint) e1 e2 f1 f2 x a b, (forall R, e1 R = f1 R) -> (forall R, e2 R = f2 R) -> lattice_sum t e1 e2 x a b = lattice_sum t f1 f2 x a b).
  { intros t e1 e2 f1 f2 x0 a0 b0 H1 H2. unfold lattice_sum. apply nsum_ext. intros i _. apply nsum_ext. intros j _. rewrite H1, H2. reflexivity. }
  assert (M : forall q k a b, a < nel kpoint s -> b < nel kpoint s -> g s' q k a b = nmul (RtoC (/ 2)) (nadd (g s q k a b) (nconj (g s (kopp q) (kadd k q) b a)))).
  { intros q' k' a' b' Ha' Hb'. unfold g. etransitivity; [apply (standardize_symmetric _ (RtoC (/ 2)) None s s' (phase q') (phase k') x a' b' (fun _ => eq_refl) (phase_add q') (phase_conj q') (phase_conj k') H Hx Ha' Hb')|].
    apply f_equal. apply f_equal2; [destruct s; reflexivity|]. apply f_equal.
    transitivity (lattice_sum s (fun R => phase q' (vopp R)) (fun R => nmul (phase q' R) (phase k' R)) x b' a'); [destruct s; reflexivity|].
    apply Ext; intros R; symmetry; [apply PE|apply PA]. }
  split; [apply M; assumption|]. rewrite (M (kopp q) (kadd k q) b a Hb Ha), (M q k a b Ha Hb), n_conj_mul, n_conj_add, n_conj_conj.
  assert (R2 : nconj (RtoC (/ 2)) = RtoC (/ 2)) by (unfold RtoC; cbn; apply f_equal2; lra). rewrite R2. f_equal.
  assert (B : g s (kopp (kopp q)) (kadd (kadd k q) (kopp q)) a b = g s q k a b).
  { unfold g. apply Ext; intros R; unfold phase; f_equal; unfold kdot, kadd, kopp; cbn; ring. }
  rewrite B. destruct (g s q k a b), (nconj (g s (kopp q) (kadd k q) b a)). cbn. apply f_equal2; ring.
Qed.
Print Assumptions C62_symmetrized.

(** It succeeds if the second lattice vectors include the origin and, in case of
    symmetrization, those in opposite direction. *)
Theorem C62_succeeds_partial {F : num} {P : Type} half small sym (s : @elph F P) :
  In vzero (Rk P s) -> (sym = true -> forall R, In R (Rk P s) -> In (vopp R) (Rk P s)) ->
  exists s', standardize P half small sym s = Ok s'.
Proof. exact (standardize_success half small sym s). Qed.
Print Assumptions C62_succeeds_partial.

(** Lattice vectors appear several times, one of the elements is zero. *)
Example C62_example :
  let s := create unit 1 1 [V3 1 0 0; V3 0 0 0; V3 1 0 0] [V3 0 0 0; V3 2 0 0]
    (fun g x k a b => (if k =? 1 then (0, 0)%Z else (Z.of_nat (g + x), 3)%Z) : gauss) in
  exists s', standardize unit (fun z => z) None false s = Ok s' /\ Rg unit s' = [V3 0 0 0; V3 1 0 0] /\ Rk unit s' = [V3 0 0 0] /\
  data unit s' 0 1 0 0 0 = (2, 3)%Z /\ data unit s' 1 1 0 0 0 = (4, 6)%Z.
Proof. eexists. split; [vm_compute; reflexivity|]. repeat split. Qed.
Example C62_symmetrized_example :
  let s := create kpoint 1 1 [V3 1 0 0] [V3 (-1) 0 0; V3 0 0 0; V3 1 0 0] (fun g x k a b => RtoC 1) : @elph C kpoint in
  exists s', symmetrize kpoint (fun z => nmul (RtoC (/ 2)) z) s = Ok s'.
Proof. intros s. apply C62_succeeds_partial; [right; left; reflexivity|]. intros _ R HR. cbn in HR |- *. destruct HR as [<-|[<-|[<-|[]]]]; cbn; auto. Qed.

(** Otherwise, an array is allocated with the wrong length. *)
Theorem C62_fails_refuted {F : num} {P : Type} half small sym (s : @elph F P) :
  standardize P half small sym s = Raise ValueError <->
  length (Rk P s) < length (new_Rk s small sym) /\ length (new_Rg s small sym) <> length (new_Rk s small sym).
Proof. exact (standardize_failure half small sym s). Qed.
Print Assumptions C62_fails_refuted.

(** E.g., if the lattice vectors do not include the origin or their negatives *)
Example C62_fails_example :
  standardize unit (fun z => z) None false (create unit 1 1 [V3 0 0 0] [V3 1 0 0] (fun _ _ _ _ _ => @n1 gauss)) = Raise ValueError /\
  symmetrize unit (fun z => z) (create unit 1 1 [V3 0 0 0] [V3 0 0 0; V3 1 0 0] (fun _ _ _ _ _ => @n1 gauss)) = Raise ValueError /\
  (exists s', symmetrize unit (fun z => z) (create unit 1 1 [V3 0 0 0] [V3 0 0 0; V3 1 0 0; V3 (-1) 0 0] (fun _ _ _ _ _ => @n1 gauss)) = Ok s').
Proof. split; [vm_compute; reflexivity|]. split; [vm_compute; reflexivity|]. eexists. vm_compute. reflexivity. Qed.

(** C63. After [asr], the sum over all atoms and displaced cells of the stored
    elements vanishes for every direction, lattice vector and pair of orbitals. *)
Theorem C63_sum_rule {P : Type} (s : @elph C P) i k a b : i < 3 ->
  translation_sum (asr P absC divC s) (fun _ => n1) i k a b = n0.
Proof. exact (asr_sum s i k a b). Qed.
Print Assumptions C63_sum_rule.

(** So does the sum over all atoms of the coupling at q = 0 for any k. *)
Theorem C63_gamma {P : Type} (s : @elph C P) k i a b : i < 3 ->
  nsum (fun na => lattice_sum (asr P absC divC s) (phase (K3 0 0 0)) (phase k) (3 * na + i) a b) (seq 0 (natoms P s)) = n0.
Proof.
  intros Hi. apply asr_gamma; [exact Hi|]. intros R. unfold phase, kdot. cbn. replace (IZR (vx R) * 0 + IZR (vy R) * 0 + IZR (vz R) * 0)%R with 0%R by ring. exact expi_0.
Qed.
Print Assumptions C63_gamma.

(** Elements that are zero remain zero; sums that vanish already are left alone. *)
Theorem C63_least_change {P : Type} (s : @elph C P) g na i k a b : i < 3 ->
  (data P s g (3 * na + i) k a b = n0 -> data P (asr P absC divC s) g (3 * na + i) k a b = n0) /\
  (translation_sum s (fun _ => n1) i k a b = n0 -> data P (asr P absC divC s) g (3 * na + i) k a b = data P s g (3 * na + i) k a b).
Proof. intros Hi. split; [exact (asr_zeros s g (3 * na + i) k a b)|exact (asr_keeps s g na i k a b Hi)]. Qed.
Print Assumptions C63_least_change.

(** Two atoms: the sum of 3 and -1 is distributed in proportion. *)
Lemma absC_R (x : R) : (0 <= x)%R -> absC (RtoC x) = RtoC x /\ absC (RtoC (- x)) = RtoC x.
Proof.
  intros H. unfold absC, RtoC, Re, Im. cbn [fst snd]. split; apply f_equal2; try reflexivity.
  - replace (x * x + 0 * 0)%R with (x * x)%R by ring. apply sqrt_square, H.
  - replace (- x * - x + 0 * 0)%R with (x * x)%R by ring. apply sqrt_square, H.
Qed.
Definition two_atoms (u v : R) : @elph C unit := create unit 1 2 [vzero] [vzero] (fun g x k a b => if x =? 0 then RtoC u else if x =? 3 then RtoC (- v) else RtoC 0).
Lemma two_atoms_asr u v : (0 <= u)%R -> (0 <= v)%R -> (0 < u + v)%R ->
  data unit (asr unit absC divC (two_atoms u v)) 0 0 0 0 0 = RtoC (u - u / (u + v) * (u - v)) /\
  data unit (asr unit absC divC (two_atoms u v)) 0 3 0 0 0 = RtoC (- v - v / (u + v) * (u - v)).
Proof.
  intros Hu Hv Hw. destruct (absC_R u Hu) as [Au _]. destruct (absC_R v Hv) as [_ Av]. cbn [asr set_data data two_atoms create]. unfold column_sum. change (0 mod 3) with 0. change (3 mod 3) with 0.
  cbn [two_atoms create Rg natoms data length seq nsum]. change (3 * 0 + 0) with 0. change (3 * 1 + 0) with 3. cbn [Nat.eqb]. rewrite Au, Av.
  set (n := nadd (nadd (RtoC u) (nadd (RtoC v) n0)) n0). assert (En : n = RtoC (u + v)) by (unfold n, RtoC; cbn; apply f_equal2; ring). rewrite En.
  assert (N : neqb (RtoC (u + v)) n0 = false) by (apply not_true_iff_false; intros E; apply n_eqb in E; injection E; lra). rewrite N.
  unfold divC, RtoC, Re. cbn. split; apply f_equal2; field; lra.
Qed.
Example C63_example :
  data unit (asr unit absC divC (two_atoms 3 1)) 0 0 0 0 0 = RtoC (3 / 2) /\ data unit (asr unit absC divC (two_atoms 3 1)) 0 3 0 0 0 = RtoC (- (3 / 2)).
Proof. destruct (two_atoms_asr 3 1) as [-> ->]; [lra|lra|lra|]. split; f_equal; lra. Qed.

(** The coupling to rigid translations, however, is the sum of the elements without
    the division by the square roots of the masses ([divide_mass], the default). For
    different masses, it does not vanish after [asr], even if it vanished before:
    masses 1 and 4, square roots 1 and 2. *)
Theorem C63_masses_refuted : exists (s : @elph C unit) (root : nat -> C),
  (forall na, exists r, (0 < r)%R /\ root na = RtoC r) /\
  translation_sum s root 0 0 0 0 = n0 /\ translation_sum (asr unit absC divC s) root 0 0 0 0 <> n0.
Proof.
  exists (two_atoms 1 (1 / 2)), (fun na => if na =? 0 then RtoC 1 else RtoC 2). split; [|split].
  - intros na. destruct (na =? 0); [exists 1%R|exists 2%R]; split; try reflexivity; lra.
  - unfold translation_sum, RtoC. cbn. apply f_equal2; lra.
  - destruct (two_atoms_asr 1 (1 / 2)) as [E1 E2]; [lra|lra|lra|]. unfold translation_sum. change (Rg unit (asr unit absC divC (two_atoms 1 (1 / 2)))) with [vzero]. change (natoms unit (asr unit absC divC (two_atoms 1 (1 / 2)))) with 2. cbn [length seq nsum].
    change (3 * 0 + 0) with 0. change (3 * 1 + 0) with 3. rewrite E1, E2. cbn [Nat.eqb]. unfold RtoC. cbn. intros H. injection H. lra.
Qed.
Print Assumptions C63_masses_refuted.
