(** Proofs about ElphSCModel.v. *)
From Coq Require Import Permutation Sorted.
From Verif Require Import Common CommonProofs MPIModel MPIProofs MPIMoreProofs LatModel LatSpec LatProofs Num NumProofs ElModel ElSpec ElProofs ElProofs2
  ElphModel ElphSpec ElphProofs ElphProofs2 ElphSCModel.
Local Open Scope nat_scope.

Lemma in_slice_iff n i x : in_slice n i x = true <-> i * n <= x < i * n + n.
Proof. unfold in_slice. rewrite andb_true_iff, Nat.leb_le, Nat.ltb_lt. reflexivity. Qed.
Lemma in_slice_inj n i j x : in_slice n i x = true -> in_slice n j x = true -> i = j.
Proof. rewrite !in_slice_iff. intros H1 H2. assert (0 < n) by lia. nia. Qed.
Lemma in_slice_at n i j x : x < n -> in_slice n i (j * n + x) = (i =? j).
Proof.
  intros H. destruct (Nat.eqb_spec i j) as [->|Hn].
  - apply in_slice_iff. lia.
  - destruct (in_slice n i (j * n + x)) eqn:E; [|reflexivity]. apply in_slice_iff in E. exfalso. apply Hn. nia.
Qed.

Section ElphSC.
  Context {F : num} (P : Type).
  Add Ring F_ring_sc : (n_ring F).
  Local Open Scope num_scope.
  Implicit Types (s : @elph F P) (d : @dict F).

  (** ** Assignments *)
  Definition tgt : Type := (vec * nat) * (vec * nat) * @slab F.
  Definition asn : Type := nat * tgt.
  Definition a_i (o : asn) : nat := fst o.
  Definition a_G (o : asn) : vec * nat := fst (fst (snd o)).
  Definition a_K (o : asn) : vec * nat := snd (fst (snd o)).
  Definition a_y (o : asn) : @slab F := snd (snd o).
  Definition a_R (o : asn) : vec * vec := (fst (a_G o), fst (a_K o)).
  Definition a_key (o : asn) : nat * (vec * nat) * (vec * nat) := (a_i o, a_G o, a_K o).

  Definition pval d R x a b : F := match pget d R with Some m => m x a b | None => n0 end.

  Section Sizes.
    Variables np ne : nat.
    Definition step1 d (o : asn) : @dict F := assign_cube np ne (a_i o) d (snd o).
    Definition in_cube (o : asn) x a b : bool := in_slice np (snd (a_G o)) x && in_slice ne (a_i o) a && in_slice ne (snd (a_K o)) b.
    Definition a_val (o : asn) x a b : F :=
      if in_cube o x a b then a_y o (x - snd (a_G o) * np)%nat (a - a_i o * ne)%nat (b - snd (a_K o) * ne)%nat else n0.

    Lemma pget_pset d R (m : slab) Q : pget (pset d R m) Q = if pair_eqb R Q then Some m else pget d Q.
    Proof using Type.
      clear. induction d as [|[T x] d IH]; cbn [pset pget].
      - reflexivity.
      - destruct (pair_eqb T R) eqn:E.
        + apply pair_eqb_eq in E. subst T. cbn [pget]. destruct (pair_eqb R Q); reflexivity.
        + cbn [pget]. destruct (pair_eqb T Q) eqn:E2; [|exact IH].
          apply pair_eqb_eq in E2. subst T. destruct (pair_eqb R Q) eqn:E3; [|reflexivity].
          apply pair_eqb_eq in E3. subst R. rewrite pair_eqb_refl in E. discriminate.
    Qed.

    Lemma pval_step d o R x a b : pval (step1 d o) R x a b =
      if pair_eqb (a_R o) R && in_cube o x a b then a_val o x a b else pval d R x a b.
    Proof using Type.
      unfold step1, assign_cube, pval. destruct o as [i [[G K] y]]. cbn [snd]. rewrite pget_pset.
      change (a_R (i, (G, K, y))) with (fst G, fst K).
      destruct (pair_eqb (fst G, fst K) R) eqn:E; cbn [andb]; [|reflexivity].
      apply pair_eqb_eq in E. subst R. unfold set_cube, a_val, in_cube, a_G, a_K, a_i, a_y. cbn [fst snd].
      destruct (in_slice np (snd G) x && in_slice ne i a && in_slice ne (snd K) b); [reflexivity|].
      destruct (pget d (fst G, fst K)); reflexivity.
    Qed.

    Lemma cube_inj o o' x a b : in_cube o x a b = true -> in_cube o' x a b = true -> a_R o = a_R o' -> a_key o = a_key o'.
    Proof using Type.
      unfold in_cube. rewrite !andb_true_iff. intros [[H1 H2] H3] [[H1' H2'] H3'] HR.
      pose proof (in_slice_inj _ _ _ _ H1 H1'). pose proof (in_slice_inj _ _ _ _ H2 H2'). pose proof (in_slice_inj _ _ _ _ H3 H3').
      unfold a_R in HR. injection HR as HG HK. unfold a_key.
      destruct (a_G o), (a_G o'), (a_K o), (a_K o'). cbn [fst snd] in *. congruence.
    Qed.

    Lemma assigns_val l : forall d, NoDup (map a_key l) ->
      (forall o, In o l -> forall x a b, in_cube o x a b = true -> pval d (a_R o) x a b = n0) ->
      forall R x a b, pval (fold_left step1 l d) R x a b =
        pval d R x a b + nsum (fun o => if pair_eqb (a_R o) R then a_val o x a b else n0) l.
    Proof using Type.
      induction l as [|o l IH]; intros d Hnd Hz R x a b; cbn [fold_left nsum]; [ring|].
      cbn [map] in Hnd. inversion Hnd as [|? ? Hn Hnd']; subst. rewrite IH.
      - rewrite pval_step. destruct (pair_eqb (a_R o) R) eqn:E; cbn [andb]; [|ring].
        apply pair_eqb_eq in E. subst R. destruct (in_cube o x a b) eqn:E2.
        + rewrite (Hz o (or_introl eq_refl) x a b E2). ring.
        + unfold a_val. rewrite E2. ring.
      - exact Hnd'.
      - intros o' Ho' x' a' b' Hc. rewrite pval_step. destruct (pair_eqb (a_R o) (a_R o')) eqn:E; cbn [andb].
        + apply pair_eqb_eq in E. destruct (in_cube o x' a' b') eqn:E2.
          * exfalso. apply Hn. rewrite (cube_inj o o' x' a' b' E2 Hc E). apply in_map, Ho'.
          * apply Hz; [right; exact Ho'|exact Hc].
        + apply Hz; [right; exact Ho'|exact Hc].
    Qed.

    Lemma pget_Some d R (m : slab) : pget d R = Some m -> In R (pkeys d).
    Proof using Type.
      clear. induction d as [|[Q y] d IH]; cbn; [discriminate|]. destruct (pair_eqb Q R) eqn:E; [|auto].
      apply pair_eqb_eq in E. auto.
    Qed.
    Lemma pkeys_step d o R : In R (pkeys (step1 d o)) <-> R = a_R o \/ In R (pkeys d).
    Proof using Type.
      unfold step1, assign_cube. destruct o as [i [[G K] y]]. cbn [snd]. change (a_R (i, (G, K, y))) with (fst G, fst K).
      rewrite pkeys_pset. destruct (pget d (fst G, fst K)) eqn:E.
      - split; [auto|]. intros [->|H]; [|exact H].
        apply (pget_Some _ _ _ E).
      - rewrite in_app_iff. cbn [In]. intuition congruence.
    Qed.
    Lemma pkeys_steps l : forall d R, In R (pkeys (fold_left step1 l d)) <-> In R (map a_R l) \/ In R (pkeys d).
    Proof using Type.
      induction l as [|o l IH]; intros d R; cbn [fold_left map In]; [tauto|].
      rewrite IH, pkeys_step. intuition congruence.
    Qed.
  End Sizes.

  (** ** The loops *)
  Section Loop.
    Variables (a1 a2 a3 : narg) (sc : supercell_info).
    Let N1 := arg1 a1. Let N2 := arg2 a2. Let N3 := arg3 a3.
    Hypothesis Hd : det3 N1 N2 N3 <> 0%Z.
    Hypothesis Hsc : LatModel.supercell a1 a2 a3 = Ok sc.

    Definition place (c v : vec) : vec * nat := match to_supercell (vadd v c) sc with Ok x => x | Raise _ => (vzero, 0) end.

    Lemma place_spec c v : exists Q j c', place c v = (Q, j) /\ nth_error (sc_cells sc) j = Some c' /\
      vadd (comb N1 N2 N3 Q) c' = vadd v c.
    Proof.
      destruct (to_supercell_spec a1 a2 a3 sc (vadd v c) Hd Hsc) as (Q & j & c' & Ht & Hj & HR).
      exists Q, j, c'. split; [unfold place; rewrite Ht; reflexivity|]. split; [exact Hj|]. symmetry. exact HR.
    Qed.
    Lemma place_unique c v Q j c' : nth_error (sc_cells sc) j = Some c' -> vadd (comb N1 N2 N3 Q) c' = vadd v c -> place c v = (Q, j).
    Proof. intros Hj HR. unfold place. rewrite (to_supercell_unique a1 a2 a3 sc (vadd v c) Q j c' Hd Hsc Hj); [reflexivity|]. symmetry. exact HR. Qed.
    Lemma place_inj c v w : place c v = place c w -> v = w.
    Proof.
      intros H. destruct (place_spec c v) as (Q & j & c' & Hp & Hj & HR). destruct (place_spec c w) as (Q' & j' & c'' & Hp' & Hj' & HR').
      rewrite Hp, Hp' in H. injection H as -> ->. assert (c' = c'') by congruence. subst c''. rewrite HR in HR'.
      destruct v, w, c. unfold vadd in HR'. cbn in HR'. injection HR' as ? ? ?. f_equal; lia.
    Qed.

    Lemma map_vectors_ok c R : map_vectors sc c R = Ok (map (place c) R).
    Proof.
      induction R as [|v R IH]; cbn [map_vectors map]; [reflexivity|].
      destruct (to_supercell_spec a1 a2 a3 sc (vadd v c) Hd Hsc) as (Q & j & c' & Ht & _). rewrite Ht. cbn [bind]. rewrite IH. cbn [bind].
      assert (Hpl : place c v = (Q, j)) by (unfold place; rewrite Ht; reflexivity). rewrite Hpl. reflexivity.
    Qed.

    (** All assignments for one cell *)
    Definition cell_ops s (ic : nat * vec) : list asn :=
      flat_map (fun g => map (fun k => (fst ic, (place (snd ic) (nth g (Rg P s) vzero), place (snd ic) (nth k (Rk P s) vzero), fun x => data P s g x k)))
        (seq 0 (length (Rk P s)))) (seq 0 (length (Rg P s))).

    Lemma targets_ops s ic : map (fun t => (fst ic, t)) (targets P s (map (place (snd ic)) (Rg P s)) (map (place (snd ic)) (Rk P s))) = cell_ops s ic.
    Proof.
      unfold targets, cell_ops. rewrite !flat_map_concat_map, concat_map, map_map. f_equal.
      apply map_ext_in. intros g Hg. apply in_seq in Hg. rewrite map_map. apply map_ext_in. intros k Hk. apply in_seq in Hk.
      rewrite (nth_indep (map (place (snd ic)) (Rg P s)) (vzero, 0) (place (snd ic) vzero)) by (rewrite map_length; lia). rewrite map_nth.
      rewrite (nth_indep (map (place (snd ic)) (Rk P s)) (vzero, 0) (place (snd ic) vzero)) by (rewrite map_length; lia). rewrite map_nth. reflexivity.
    Qed.

    Lemma fold_cell s (ic : nat * vec) (l : list tgt) d : fold_left (assign_cube (nph P s) (nel P s) (fst ic)) l d =
      fold_left (step1 (nph P s) (nel P s)) (map (fun t => (fst ic, t)) l) d.
    Proof using Type. clear. revert d. induction l as [|t l IH]; intros d; cbn [fold_left map]; [reflexivity|]. rewrite IH. reflexivity. Qed.

    Lemma map_cells_ok s l : forall d, map_cells P sc s l d = Ok (fold_left (step1 (nph P s) (nel P s)) (flat_map (cell_ops s) l) d).
    Proof.
      induction l as [|ic l IH]; intros d; cbn [map_cells flat_map]; [reflexivity|].
      unfold map_cell. rewrite !map_vectors_ok. cbn [bind]. rewrite fold_cell, targets_ops, IH, fold_left_app. reflexivity.
    Qed.

    Lemma cell_ops_keys s ic : map a_key (cell_ops s ic) =
      flat_map (fun v => map (fun w => (fst ic, place (snd ic) v, place (snd ic) w)) (Rk P s)) (Rg P s).
    Proof using Type.
      unfold cell_ops. rewrite !flat_map_concat_map, concat_map, map_map.
      assert (forall (h : vec -> list (nat * (vec * nat) * (vec * nat))) l, map h l = map (fun g => h (nth g l vzero)) (seq 0 (length l))) as HG.
      { clear. intros h l. rewrite <- (map_map (fun g => nth g l vzero) h). f_equal. clear h.
        induction l as [|v l IH]; [reflexivity|]. cbn [length seq map nth]. f_equal. rewrite <- seq_shift, map_map. exact IH. }
      rewrite HG. f_equal. apply map_ext. intros g. rewrite map_map.
      assert (forall (h : vec -> nat * (vec * nat) * (vec * nat)) l, map h l = map (fun g => h (nth g l vzero)) (seq 0 (length l))) as HK.
      { clear. intros h l. rewrite <- (map_map (fun g => nth g l vzero) h). f_equal. clear h.
        induction l as [|v l IH]; [reflexivity|]. cbn [length seq map nth]. f_equal. rewrite <- seq_shift, map_map. exact IH. }
      rewrite HK. reflexivity.
    Qed.

    Lemma NoDup_cell_ops s : NoDup (Rg P s) -> NoDup (Rk P s) -> forall l, NoDup (map fst l) -> NoDup (map a_key (flat_map (cell_ops s) l)).
    Proof.
      intros HG HK l Hl. rewrite flat_map_concat_map, concat_map, map_map.
      rewrite (map_ext _ (fun ic => flat_map (fun v => map (fun w => (fst ic, place (snd ic) v, place (snd ic) w)) (Rk P s)) (Rg P s))) by (apply cell_ops_keys).
      rewrite <- flat_map_concat_map. induction l as [|ic l IH]; cbn [flat_map]; [constructor|].
      cbn [map] in Hl. inversion Hl as [|? ? Hn Hl']; subst. apply NoDup_app'.
      - clear - HG HK Hd Hsc. induction HG as [|v R Hv HG IH]; cbn [flat_map]; [constructor|]. apply NoDup_app'.
        + apply NoDup_map_inj; [|exact HK]. intros w w' E. injection E as E. apply (place_inj (snd ic)), E.
        + exact IH.
        + intros z Hz Hz'. apply in_map_iff in Hz. destruct Hz as (w & <- & _). apply in_flat_map in Hz'. destruct Hz' as (v' & Hv' & Hz').
          apply in_map_iff in Hz'. destruct Hz' as (w' & E & _). injection E as E _. apply place_inj in E. subst v'. contradiction.
      - apply IH, Hl'.
      - intros z Hz Hz'. apply in_flat_map in Hz. destruct Hz as (v & _ & Hz). apply in_map_iff in Hz. destruct Hz as (w & <- & _).
        apply in_flat_map in Hz'. destruct Hz' as (ic' & Hic' & Hz'). apply in_flat_map in Hz'. destruct Hz' as (v' & _ & Hz').
        apply in_map_iff in Hz'. destruct Hz' as (w' & E & _). injection E as E _ _. apply Hn. rewrite <- E. apply in_map, Hic'.
    Qed.

    Lemma all_processes_ok {A} (f : nat -> A) ranks : all_processes (fun r => Ok (f r)) ranks = Ok (map f ranks).
    Proof using Type. clear. induction ranks as [|r l IH]; cbn [all_processes map bind]; [reflexivity|]. rewrite IH. reflexivity. Qed.
    Lemma all_processes_ext {A} (f g : nat -> res A) ranks : (forall r, f r = g r) -> all_processes f ranks = all_processes g ranks.
    Proof using Type. clear. intros H. induction ranks as [|r l IH]; cbn [all_processes]; [reflexivity|]. rewrite H, IH. reflexivity. Qed.

    Variable nproc : nat.
    Hypothesis Hp : 0 < nproc.

    Definition part s r : @dict F := fold_left (step1 (nph P s) (nel P s)) (flat_map (cell_ops s) (own_cells nproc r sc)) [].
    Definition parts s : list dict := map (part s) (seq 0 nproc).
    Lemma parts_ok s : all_processes (fun r => map_cells P sc s (own_cells nproc r sc) []) (seq 0 nproc) = Ok (parts s).
    Proof. rewrite (all_processes_ext _ (fun r => Ok (part s r))); [apply all_processes_ok|]. intros r. apply map_cells_ok. Qed.

    Lemma own_perm : Permutation (concat (map (fun r => own_cells nproc r sc) (seq 0 nproc))) (enum (sc_cells sc)).
    Proof. apply (round_robin_perm 0 nproc (enum (sc_cells sc))), Hp. Qed.

    Lemma own_NoDup r : NoDup (map fst (own_cells nproc r sc)).
    Proof.
      assert (H : forall r l (t : list (nat * vec)), NoDup (map fst t) -> NoDup (map fst (map snd (filter (fun x : nat * (nat * vec) => fst x mod nproc =? r) (combine l t))))).
      { clear. intros r l. induction l as [|n l IH]; intros [|x t] Ht; cbn [combine filter map]; try constructor.
        cbn [map] in Ht. inversion Ht as [|? ? Hn Ht']; subst.
        destruct (fst (n, x) mod nproc =? r); [|apply IH, Ht']. cbn [map snd]. constructor; [|apply IH, Ht'].
        intros Hc. apply Hn. apply in_map_iff in Hc. destruct Hc as (z & Hz & Hc). rewrite <- Hz. apply in_map.
        apply in_map_iff in Hc. destruct Hc as ([u v] & <- & Hc). apply filter_In in Hc. destruct Hc as [Hc _]. apply in_combine_r in Hc. exact Hc. }
      apply H. fold (enum (sc_cells sc)). rewrite enum_fst. apply seq_NoDup.
    Qed.

    (** The sum of the contributions of all processes *)
    Definition total s R x a b : F := nsum (fun const => pval const R x a b) (parts s).
    Definition all_ops s : list asn := flat_map (cell_ops s) (enum (sc_cells sc)).

    Lemma total_ops s : NoDup (Rg P s) -> NoDup (Rk P s) -> forall R x a b,
      total s R x a b = nsum (fun o => if pair_eqb (a_R o) R then a_val (nph P s) (nel P s) o x a b else n0) (all_ops s).
    Proof.
      intros HG HK R x a b. unfold total, parts. rewrite nsum_map.
      rewrite (nsum_ext _ (fun r => nsum (fun ic => nsum (fun o => if pair_eqb (a_R o) R then a_val (nph P s) (nel P s) o x a b else n0) (cell_ops s ic)) (own_cells nproc r sc))).
      - rewrite <- (nsum_map (fun l => nsum _ l) (fun r => own_cells nproc r sc)), nsum_concat. unfold all_ops. rewrite nsum_flat_map. apply nsum_perm, own_perm.
      - intros r _. unfold part. rewrite assigns_val.
        + rewrite nsum_flat_map. unfold pval. cbn [pget]. ring.
        + apply NoDup_cell_ops; [exact HG|exact HK|apply own_NoDup].
        + reflexivity.
    Qed.

    Lemma parts_keys s R : (exists const, In const (parts s) /\ In R (pkeys const)) <-> In R (map a_R (all_ops s)).
    Proof.
      unfold parts, all_ops. split.
      - intros (const & Hc & HR). apply in_map_iff in Hc. destruct Hc as (r & <- & Hr). unfold part in HR. apply pkeys_steps in HR.
        destruct HR as [HR|[]]. apply in_map_iff in HR. destruct HR as (o & <- & Ho). apply in_map.
        apply in_flat_map in Ho. destruct Ho as (ic & Hic & Ho). apply in_flat_map. exists ic. split; [|exact Ho].
        apply (Permutation_in _ own_perm). apply in_concat. exists (own_cells nproc r sc). split; [|exact Hic]. apply (in_map (fun r => own_cells nproc r sc)), Hr.
      - intros HR. apply in_map_iff in HR. destruct HR as (o & <- & Ho). apply in_flat_map in Ho. destruct Ho as (ic & Hic & Ho).
        apply (Permutation_in _ (Permutation_sym own_perm)) in Hic. apply in_concat in Hic. destruct Hic as (l & Hl & Hic).
        apply in_map_iff in Hl. destruct Hl as (r & <- & Hr). exists (part s r). split; [apply (in_map (part s)), Hr|].
        unfold part. apply pkeys_steps. left. apply in_map. apply in_flat_map. exists ic. tauto.
    Qed.

    Definition sc_Rg s : list vec := sorted_set (flat_map (map (fun x => fst (fst x))) (parts s)).
    Definition sc_Rk s : list vec := sorted_set (flat_map (map (fun x => snd (fst x))) (parts s)).
    Definition sc_elph s : @elph F P :=
      {| nel := length (sc_cells sc) * nel P s; natoms := length (sc_cells sc) * natoms P s; Rg := sc_Rg s; Rk := sc_Rk s;
         data := fun g x k a b =>
           match nth_error (sc_Rg s) g, nth_error (sc_Rk s) k with Some R, Some Q => total s (R, Q) x a b | _, _ => n0 end;
         caches := fun _ => None; gqn := length (sc_Rk s); Rk0 := origin (sc_Rk s) |}.

    Lemma elph_supercell_ok s : elph_supercell P nproc a1 a2 a3 s = Ok (sc_cells sc, sc_elph s).
    Proof. unfold elph_supercell. rewrite Hsc. cbn [bind]. rewrite parts_ok. cbn [bind]. reflexivity. Qed.

    Lemma in_sc_Rg s o : In o (all_ops s) -> In (fst (a_R o)) (sc_Rg s) /\ In (snd (a_R o)) (sc_Rk s).
    Proof.
      intros Ho. assert (HR : In (a_R o) (map a_R (all_ops s))) by (apply in_map, Ho). apply parts_keys in HR. destruct HR as (const & Hc & HR).
      unfold pkeys in HR. apply in_map_iff in HR. destruct HR as (z & Hz & HR). rewrite <- Hz.
      split; apply in_sorted_set; apply in_flat_map; exists const; (split; [exact Hc|]);
        [apply (in_map (fun x : (vec * vec) * slab => fst (fst x)) const z HR)|apply (in_map (fun x : (vec * vec) * slab => snd (fst x)) const z HR)].
    Qed.

    (** Sums over the pairs of lattice vectors of the result *)
    Lemma sc_pairs s (f : vec -> vec -> F -> F) x a b :
      nsum (fun i => nsum (fun j => f (nth i (sc_Rg s) vzero) (nth j (sc_Rk s) vzero) (data P (sc_elph s) i x j a b)) (seq 0 (length (sc_Rk s)))) (seq 0 (length (sc_Rg s))) =
      nsum (fun R => nsum (fun Q => f R Q (total s (R, Q) x a b)) (sc_Rk s)) (sc_Rg s).
    Proof.
      rewrite <- (nsum_nth (fun R => nsum (fun Q => f R Q (total s (R, Q) x a b)) (sc_Rk s)) (sc_Rg s) vzero). apply nsum_ext. intros i Hi. apply in_seq in Hi.
      rewrite <- (nsum_nth (fun Q => f (nth i (sc_Rg s) vzero) Q (total s (nth i (sc_Rg s) vzero, Q) x a b)) (sc_Rk s) vzero). apply nsum_ext. intros j Hj. apply in_seq in Hj.
      f_equal. unfold sc_elph. cbn [data]. rewrite (nth_error_nth' (sc_Rg s) vzero) by lia. rewrite (nth_error_nth' (sc_Rk s) vzero) by lia. reflexivity.
    Qed.

    Lemma pairs_ops s : NoDup (Rg P s) -> NoDup (Rk P s) -> forall (f : vec -> vec -> F) x a b,
      nsum (fun R => nsum (fun Q => total s (R, Q) x a b * f R Q) (sc_Rk s)) (sc_Rg s) =
      nsum (fun o => a_val (nph P s) (nel P s) o x a b * f (fst (a_R o)) (snd (a_R o))) (all_ops s).
    Proof.
      intros HG HK f x a b.
      rewrite (nsum_ext _ (fun R => nsum (fun o => nsum (fun Q => (if pair_eqb (a_R o) (R, Q) then a_val (nph P s) (nel P s) o x a b else n0) * f R Q) (sc_Rk s)) (all_ops s))).
      2: { intros R _. rewrite nsum_swap. apply nsum_ext. intros Q _. rewrite total_ops by assumption. rewrite <- nsum_mul_r. reflexivity. }
      rewrite nsum_swap. apply nsum_ext. intros o Ho. destruct (in_sc_Rg s o Ho) as [H1 H2].
      rewrite (nsum_single _ _ (fst (a_R o))); [|apply sorted_set_NoDup|exact H1|].
      - rewrite (nsum_single _ _ (snd (a_R o))); [|apply sorted_set_NoDup|exact H2|].
        + rewrite <- surjective_pairing, pair_eqb_refl. reflexivity.
        + intros Q _ Hn. destruct (pair_eqb (a_R o) (fst (a_R o), Q)) eqn:E; [|ring]. apply pair_eqb_eq in E. exfalso. apply Hn. rewrite E. reflexivity.
      - intros R _ Hn. apply nsum_zero. intros Q _. destruct (pair_eqb (a_R o) (R, Q)) eqn:E; [|ring]. apply pair_eqb_eq in E. exfalso. apply Hn. rewrite E. reflexivity.
    Qed.

    (** Only one cell contributes to the row of orbitals. *)
    Lemma ops_row s i c x j a l b (f : vec -> vec -> F) : nth_error (sc_cells sc) i = Some c -> x < nph P s -> a < nel P s -> b < nel P s ->
      nsum (fun o => a_val (nph P s) (nel P s) o (j * nph P s + x)%nat (i * nel P s + a)%nat (l * nel P s + b)%nat * f (fst (a_R o)) (snd (a_R o))) (all_ops s) =
      nsum (fun g => nsum (fun k =>
        let G := place c (nth g (Rg P s) vzero) in let K := place c (nth k (Rk P s) vzero) in
        if (snd G =? j) && (snd K =? l) then data P s g x k a b * f (fst G) (fst K) else n0) (seq 0 (length (Rk P s)))) (seq 0 (length (Rg P s))).
    Proof.
      intros Hi Hx Ha Hb. unfold all_ops. rewrite nsum_flat_map. rewrite (nsum_single _ _ (i, c)); [|apply NoDup_enum|apply in_enum, Hi|].
      - unfold cell_ops. rewrite nsum_flat_map. apply nsum_ext. intros g _. rewrite nsum_map. apply nsum_ext. intros k _. cbv zeta.
        unfold a_val, in_cube, a_G, a_K, a_i, a_y, a_R, a_G, a_K. cbn [fst snd]. rewrite !in_slice_at by assumption. rewrite Nat.eqb_refl.
        destruct (Nat.eqb_spec (snd (place c (nth g (Rg P s) vzero))) j) as [->|]; cbn [andb]; [|ring].
        destruct (Nat.eqb_spec (snd (place c (nth k (Rk P s) vzero))) l) as [->|]; cbn [andb]; [|ring].
        do 2 f_equal; lia.
      - intros [i' c'] Hin Hne. apply in_enum in Hin. unfold cell_ops. rewrite nsum_flat_map. apply nsum_zero. intros g _. rewrite nsum_map. apply nsum_zero. intros k _.
        unfold a_val, in_cube, a_i. cbn [fst snd]. rewrite (in_slice_at (nel P s) i' i a Ha).
        destruct (Nat.eqb_spec i' i) as [->|]; [exfalso; apply Hne; congruence|]. rewrite andb_false_r. cbn [andb]. ring.
    Qed.

    Lemma sc_coefficient s SG SK j cj i c l cl x a b : NoDup (Rg P s) -> NoDup (Rk P s) ->
      nth_error (sc_cells sc) j = Some cj -> nth_error (sc_cells sc) i = Some c -> nth_error (sc_cells sc) l = Some cl ->
      x < nph P s -> a < nel P s -> b < nel P s ->
      coefficient (sc_elph s) SG SK (j * nph P s + x) (i * nel P s + a) (l * nel P s + b) =
      coefficient s (vsub (vadd (comb N1 N2 N3 SG) cj) c) (vsub (vadd (comb N1 N2 N3 SK) cl) c) x a b.
    Proof.
      intros HG HK Hj Hi Hl Hx Ha Hb. unfold coefficient. cbn [Rg Rk sc_elph].
      rewrite (sc_pairs s (fun R Q y => if veqb R SG && veqb Q SK then y else n0)).
      rewrite (nsum_ext _ (fun R => nsum (fun Q => total s (R, Q) (j * nph P s + x)%nat (i * nel P s + a)%nat (l * nel P s + b)%nat * (if veqb R SG && veqb Q SK then n1 else n0)) (sc_Rk s))).
      2: { intros R _. apply nsum_ext. intros Q _. destruct (veqb R SG && veqb Q SK); ring. }
      rewrite (pairs_ops s HG HK (fun R Q => if veqb R SG && veqb Q SK then n1 else n0)).
      rewrite (ops_row s i c x j a l b (fun R Q => if veqb R SG && veqb Q SK then n1 else n0)) by assumption.
      apply nsum_ext. intros g _. apply nsum_ext. intros k _. cbv zeta.
      assert (HE : forall v Q q cq, nth_error (sc_cells sc) q = Some cq ->
        ((snd (place c v) =? q) && veqb (fst (place c v)) Q)%bool = veqb v (vsub (vadd (comb N1 N2 N3 Q) cq) c)).
      { intros v Q q cq Hq. destruct (veqb v (vsub (vadd (comb N1 N2 N3 Q) cq) c)) eqn:E.
        - apply veqb_eq in E. rewrite (place_unique c v Q q cq Hq) by (rewrite E; vring). cbn [fst snd]. rewrite Nat.eqb_refl, veqb_refl. reflexivity.
        - destruct (place_spec c v) as (Q' & q' & c' & Hp' & Hq' & HR). rewrite Hp'. cbn [fst snd].
          destruct (Nat.eqb_spec q' q) as [->|]; cbn [andb]; [|reflexivity]. destruct (veqb Q' Q) eqn:E2; [|reflexivity]. apply veqb_eq in E2. subst Q'.
          assert (c' = cq) by congruence. subst c'. rewrite HR in E. replace (vsub (vadd v c) c) with v in E by vring. rewrite veqb_refl in E. discriminate. }
      rewrite <- (HE _ SG j cj Hj), <- (HE _ SK l cl Hl).
      destruct (snd (place c (nth g (Rg P s) vzero)) =? j), (snd (place c (nth k (Rk P s) vzero)) =? l), (veqb (fst (place c (nth g (Rg P s) vzero))) SG), (veqb (fst (place c (nth k (Rk P s) vzero))) SK); cbn [andb]; ring.
    Qed.

    Lemma sc_lattice_sum s (e1 e2 : vec -> F) i c j l x a b : NoDup (Rg P s) -> NoDup (Rk P s) ->
      nth_error (sc_cells sc) i = Some c -> x < nph P s -> a < nel P s -> b < nel P s ->
      lattice_sum (sc_elph s) e1 e2 (j * nph P s + x) (i * nel P s + a) (l * nel P s + b) =
      nsum (fun g => nsum (fun k =>
        let G := place c (nth g (Rg P s) vzero) in let K := place c (nth k (Rk P s) vzero) in
        if (snd G =? j) && (snd K =? l) then data P s g x k a b * (e1 (fst G) * e2 (fst K)) else n0) (seq 0 (length (Rk P s)))) (seq 0 (length (Rg P s))).
    Proof.
      intros HG HK Hi Hx Ha Hb. unfold lattice_sum. cbn [Rg Rk sc_elph].
      rewrite (sc_pairs s (fun R Q y => y * e1 R * e2 Q)).
      rewrite (nsum_ext _ (fun R => nsum (fun Q => total s (R, Q) (j * nph P s + x)%nat (i * nel P s + a)%nat (l * nel P s + b)%nat * (e1 R * e2 Q)) (sc_Rk s))).
      2: { intros R _. apply nsum_ext. intros Q _. ring. }
      rewrite (pairs_ops s HG HK (fun R Q => e1 R * e2 Q)). apply (ops_row s i c x j a l b (fun R Q => e1 R * e2 Q)); assumption.
    Qed.

    Lemma sc_bloch_elph s (e1 e2 : vec -> F) i c a (u psi : nat -> F) : NoDup (Rg P s) -> NoDup (Rk P s) ->
      (forall Q T, e1 (vadd Q T) = e1 Q * e1 T) -> (forall Q T, e2 (vadd Q T) = e2 Q * e2 T) ->
      nth_error (sc_cells sc) i = Some c -> a < nel P s ->
      nsum (fun jc => nsum (fun x => nsum (fun lc => nsum (fun b =>
        lattice_sum (sc_elph s) (fun Q => e1 (comb N1 N2 N3 Q)) (fun Q => e2 (comb N1 N2 N3 Q)) (fst jc * nph P s + x) (i * nel P s + a) (fst lc * nel P s + b) *
        (e1 (snd jc) * u x) * (e2 (snd lc) * psi b)) (seq 0 (nel P s))) (enum (sc_cells sc))) (seq 0 (nph P s))) (enum (sc_cells sc)) =
      e1 c * e2 c * nsum (fun x => nsum (fun b => lattice_sum s e1 e2 x a b * u x * psi b) (seq 0 (nel P s))) (seq 0 (nph P s)).
    Proof.
      intros HG HK He1 He2 Hi Ha. rewrite nsum_swap. rewrite <- nsum_mul_l. apply nsum_ext. intros x Hx. apply in_seq in Hx.
      rewrite (nsum_ext _ (fun jc => nsum (fun b => nsum (fun lc =>
        lattice_sum (sc_elph s) (fun Q => e1 (comb N1 N2 N3 Q)) (fun Q => e2 (comb N1 N2 N3 Q)) (fst jc * nph P s + x)%nat (i * nel P s + a)%nat (fst lc * nel P s + b)%nat *
        (e1 (snd jc) * u x) * (e2 (snd lc) * psi b)) (enum (sc_cells sc))) (seq 0 (nel P s)))) by (intros jc _; apply nsum_swap).
      rewrite nsum_swap. rewrite <- nsum_mul_l. apply nsum_ext. intros b Hb. apply in_seq in Hb.
      rewrite (nsum_ext _ (fun jc => nsum (fun lc => nsum (fun g => nsum (fun k =>
        let G := place c (nth g (Rg P s) vzero) in let K := place c (nth k (Rk P s) vzero) in
        if (snd G =? fst jc) && (snd K =? fst lc) then data P s g x k a b * (e1 (comb N1 N2 N3 (fst G)) * e2 (comb N1 N2 N3 (fst K))) * (e1 (snd jc) * e2 (snd lc)) * (u x * psi b) else n0)
        (seq 0 (length (Rk P s)))) (seq 0 (length (Rg P s)))) (enum (sc_cells sc)))).
      2: { intros jc _. apply nsum_ext. intros lc _.
        rewrite (sc_lattice_sum s (fun Q => e1 (comb N1 N2 N3 Q)) (fun Q => e2 (comb N1 N2 N3 Q)) i c (fst jc) (fst lc) x a b) by (assumption || lia).
        match goal with |- ?L * ?A * ?B = _ => transitivity (L * (A * B)); [ring|] end.
        rewrite <- nsum_mul_r. apply nsum_ext. intros g _. rewrite <- nsum_mul_r. apply nsum_ext. intros k _. cbv zeta.
        destruct ((snd (place c (nth g (Rg P s) vzero)) =? fst jc) && (snd (place c (nth k (Rk P s) vzero)) =? fst lc))%bool; ring. }
      rewrite (nsum_ext _ (fun jc => nsum (fun g => nsum (fun lc => nsum (fun k =>
        let G := place c (nth g (Rg P s) vzero) in let K := place c (nth k (Rk P s) vzero) in
        if (snd G =? fst jc) && (snd K =? fst lc) then data P s g x k a b * (e1 (comb N1 N2 N3 (fst G)) * e2 (comb N1 N2 N3 (fst K))) * (e1 (snd jc) * e2 (snd lc)) * (u x * psi b) else n0)
        (seq 0 (length (Rk P s)))) (enum (sc_cells sc))) (seq 0 (length (Rg P s))))) by (intros jc _; apply nsum_swap).
      rewrite nsum_swap. unfold lattice_sum.
      match goal with |- _ = e1 c * e2 c * (?S * u x * psi b) => transitivity (S * (e1 c * e2 c * (u x * psi b))); [|ring] end.
      rewrite <- nsum_mul_r. apply nsum_ext. intros g _.
      rewrite (nsum_ext _ (fun jc => nsum (fun k => nsum (fun lc =>
        let G := place c (nth g (Rg P s) vzero) in let K := place c (nth k (Rk P s) vzero) in
        if (snd G =? fst jc) && (snd K =? fst lc) then data P s g x k a b * (e1 (comb N1 N2 N3 (fst G)) * e2 (comb N1 N2 N3 (fst K))) * (e1 (snd jc) * e2 (snd lc)) * (u x * psi b) else n0)
        (enum (sc_cells sc))) (seq 0 (length (Rk P s))))) by (intros jc _; apply nsum_swap).
      rewrite nsum_swap. rewrite <- nsum_mul_r. apply nsum_ext. intros k _. cbv zeta.
      destruct (place_spec c (nth g (Rg P s) vzero)) as (Q & j & cj & Hpj & Hj & HQ). destruct (place_spec c (nth k (Rk P s) vzero)) as (T & l & cl & Hpl & Hl & HT).
      rewrite Hpj, Hpl. cbn [fst snd].
      rewrite (nsum_single _ _ (j, cj)); [|apply NoDup_enum|apply in_enum, Hj|].
      - rewrite (nsum_single _ _ (l, cl)); [|apply NoDup_enum|apply in_enum, Hl|].
        + cbn [fst snd]. rewrite !Nat.eqb_refl. cbn [andb].
          transitivity (data P s g x k a b * (e1 (vadd (comb N1 N2 N3 Q) cj) * e2 (vadd (comb N1 N2 N3 T) cl)) * (u x * psi b)); [rewrite He1, He2; ring|].
          rewrite HQ, HT, He1, He2. ring.
        + intros [l' cl'] Hin Hne. apply in_enum in Hin. cbn [fst snd]. destruct (Nat.eqb_spec l l') as [<-|]; [exfalso; apply Hne; congruence|]. rewrite andb_false_r. reflexivity.
      - intros [j' cj'] Hin Hne. apply in_enum in Hin. apply nsum_zero. intros [l' cl'] _. cbn [fst snd].
        destruct (Nat.eqb_spec j j') as [<-|]; [exfalso; apply Hne; congruence|]. reflexivity.
    Qed.

    (** ** Sparse variant *)
    Section Sparse.
      Variable re : F -> F.
      Hypothesis re0 : re n0 = n0.
      Hypothesis re_add : forall x y, re (x + y) = re x + re y.
      Lemma re_sum {A} (f : A -> F) (l : list A) : re (nsum f l) = nsum (fun x => re (f x)) l.
      Proof using re0 re_add. induction l as [|x l IH]; cbn [nsum]; [exact re0|]. rewrite re_add, IH. reflexivity. Qed.

      Definition add1 s (gs : @slab F) (o : asn) : @slab F := add_cube re (nph P s) (nel P s) (a_i o) gs (snd o).
      Lemma add_fold s (ic : nat * vec) (l : list tgt) gs : fold_left (add_cube re (nph P s) (nel P s) (fst ic)) l gs = fold_left (add1 s) (map (fun t => (fst ic, t)) l) gs.
      Proof using Type. revert gs. induction l as [|t l IH]; intros gs; cbn [fold_left map]; [reflexivity|]. rewrite IH. reflexivity. Qed.
      Lemma adds_val s l : forall gs x a b, fold_left (add1 s) l gs x a b = gs x a b + nsum (fun o => re (a_val (nph P s) (nel P s) o x a b)) l.
      Proof using re0.
        induction l as [|o l IH]; intros gs x a b; cbn [fold_left nsum]; [ring|]. rewrite IH.
        unfold add1 at 1. destruct o as [i [[G K] y]]. unfold add_cube, a_val, in_cube, a_G, a_K, a_i, a_y. cbn [fst snd].
        destruct (in_slice (nph P s) (snd G) x && in_slice (nel P s) i a && in_slice (nel P s) (snd K) b); [ring|]. rewrite re0. ring.
      Qed.
      Lemma add_cells_ok s l : forall gs, add_cells P re sc s l gs = Ok (fold_left (add1 s) (flat_map (cell_ops s) l) gs).
      Proof using Hd Hsc.
        induction l as [|ic l IH]; intros gs; cbn [add_cells flat_map]; [reflexivity|].
        unfold add_cell. rewrite !map_vectors_ok. cbn [bind]. rewrite add_fold, targets_ops, IH, fold_left_app. reflexivity.
      Qed.

      Lemma sc_sparse s lr : exists gs, elph_supercell_sparse P re lr nproc a1 a2 a3 s = Ok gs /\ forall x a b,
        gs x a b = nsum (fun _ => match lr with Some f => if a =? b then f x else n0 | None => n0 end) (seq 0 nproc) +
          nsum (fun o => re (a_val (nph P s) (nel P s) o x a b)) (all_ops s).
      Proof using Hd Hsc Hp re0.
        unfold elph_supercell_sparse. rewrite Hsc. cbn [bind].
        set (start := fun (x a b : nat) => match lr with Some f => if a =? b then f x else n0 | None => n0 end).
        rewrite (all_processes_ext _ (fun r => Ok (fold_left (add1 s) (flat_map (cell_ops s) (own_cells nproc r sc)) start))) by (intros r; apply add_cells_ok).
        rewrite all_processes_ok. cbn [bind]. eexists. split; [reflexivity|]. intros x a b. cbv beta. rewrite nsum_map.
        rewrite (nsum_ext _ (fun r => start x a b + nsum (fun ic => nsum (fun o => re (a_val (nph P s) (nel P s) o x a b)) (cell_ops s ic)) (own_cells nproc r sc))).
        2: { intros r _. rewrite adds_val, nsum_flat_map. reflexivity. }
        rewrite nsum_add. f_equal. unfold all_ops. rewrite nsum_flat_map.
        rewrite <- (nsum_map (fun l => nsum _ l) (fun r => own_cells nproc r sc)), nsum_concat. apply nsum_perm, own_perm.
      Qed.

      Lemma sparse_dense s x a b : NoDup (Rg P s) -> NoDup (Rk P s) ->
        re (lattice_sum (sc_elph s) (fun _ => n1) (fun _ => n1) x a b) = nsum (fun o => re (a_val (nph P s) (nel P s) o x a b)) (all_ops s).
      Proof using Hd Hsc Hp re0 re_add.
        intros HG HK. unfold lattice_sum. cbn [Rg Rk sc_elph]. rewrite (sc_pairs s (fun _ _ y => y * n1 * n1)).
        rewrite (nsum_ext _ (fun R => nsum (fun Q => total s (R, Q) x a b * n1) (sc_Rk s))).
        2: { intros R _. apply nsum_ext. intros Q _. ring. }
        rewrite (pairs_ops s HG HK (fun _ _ => n1)), re_sum. apply nsum_ext. intros o _. f_equal. ring.
      Qed.

      Lemma sparse_all s lr : NoDup (Rg P s) -> NoDup (Rk P s) -> exists gs, elph_supercell_sparse P re lr nproc a1 a2 a3 s = Ok gs /\
        forall x a b, gs x a b = re (lattice_sum (sc_elph s) (fun _ => n1) (fun _ => n1) x a b) +
          nsum (fun _ => match lr with Some f => if a =? b then f x else n0 | None => n0 end) (seq 0 nproc).
      Proof using Hd Hsc Hp re0 re_add.
        intros HG HK. destruct (sc_sparse s lr) as (gs & Hg & Hv). exists gs. split; [exact Hg|]. intros x a b.
        rewrite Hv, sparse_dense by assumption. ring.
      Qed.
      Lemma sparse_result s lr : NoDup (Rg P s) -> NoDup (Rk P s) -> lr = None \/ nproc = 1 -> exists gs, elph_supercell_sparse P re lr nproc a1 a2 a3 s = Ok gs /\
        forall x a b, gs x a b = re (lattice_sum (sc_elph s) (fun _ => n1) (fun _ => n1) x a b) +
          match lr with Some f => if a =? b then f x else n0 | None => n0 end.
      Proof using Hd Hsc Hp re0 re_add.
        intros HG HK Hl. destruct (sparse_all s lr HG HK) as (gs & Hg & Hv). exists gs. split; [exact Hg|]. intros x a b. rewrite Hv. f_equal.
        destruct Hl as [->| ->]; [apply nsum_0|]. cbn [seq nsum]. ring.
      Qed.
    End Sparse.
  End Loop.
End ElphSC.
