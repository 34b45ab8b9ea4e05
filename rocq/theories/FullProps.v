(** C90: bands on a uniform mesh (dispersion_full, dispersion_full_nosym). *)
From Verif Require Import Common LatModel LatProofs SymModel SymSpec SymProofs BandModel BandSpec BandProofs FullModel FullSpec FullProofs FullProofs2 FullProofs3.
From Coq Require Import Permutation Lia.
Local Open Scope Z_scope.

(** The irreducible points form the triangle shown in the documentation. *)
Theorem C90_wedge : forall nk angle, allowed_angle angle -> 0 < nk ->
  exists irr, irreducibles nk angle = Ok irr /\ forall q, In q irr <-> wedge angle nk q.
Proof. exact irreducibles_wedge. Qed.
Print Assumptions C90_wedge.

Example C90_wedge_ex : match irreducibles 12 60, irreducibles 12 120, irreducibles 12 90 with
  | Ok a, Ok b, Ok c => pt_mem (4, 4) a && pt_mem (0, 6) a && pt_mem (4, 8) b && pt_mem (0, 6) b && pt_mem (6, 6) c && negb (pt_mem (5, 5) a)
  | _, _, _ => false end = true.
Proof. vm_compute. reflexivity. Qed.

(** Every point of the triangle is on exactly one of the side paths that start
    from the main path, and the paths have no gaps. *)
Theorem C90_paths : forall nk angle q, allowed_angle angle -> 0 < nk -> wedge angle nk q ->
  (exists! n, main_path angle nk n /\ side_path angle nk n q) /\
  (fst q > 0 -> forall n, main_path angle nk n -> side_path angle nk n q ->
     side_path angle nk n (fst q - 1, snd q - if angle =? 120 then 1 else 0)) /\
  (fst q = 0 -> snd q > 0 -> main_path angle nk (0, snd q - 1)).
Proof.
  intros nk angle q Ha Hn W. split; [|split].
  - destruct (irreducibles_wedge nk angle Ha Hn) as (irr & EI & _). destruct (side_exists nk angle irr Ha EI q W) as (n & M & S). exists n. split; [split; assumption|].
    intros n' [M' S']. exact (side_unique nk angle irr Ha EI n n' q M M' S S').
  - intros H n [Wn Zn] (_ & t & E). destruct q as [c d], n as [a b]. cbn [fst snd] in *. subst a. injection E as -> ->.
    split; [|exists (t - 1); cbn [fst snd]; f_equal; destruct (angle =? 120); lia].
    destruct Ha as [->|[->| ->]]; cbn in *; lia.
  - intros H0 H. destruct q as [c d]. cbn [fst snd] in *. subst c. split; [|reflexivity]. destruct Ha as [->|[->| ->]]; cbn in *; lia.
Qed.
Print Assumptions C90_paths.

Example C90_paths_ex : wedge 120 12 (3, 7) /\ main_path 120 12 (0, 4) /\ side_path 120 12 (0, 4) (3, 7).
Proof. repeat split; cbn; try lia. exists 3. reflexivity. Qed.

(** An element of a list of points. *)
Fixpoint ptpos (x : pt) (l : list pt) : nat := match l with [] => 0%nat | y :: l => if pt_eq_dec x y then 0%nat else S (ptpos x l) end.

Lemma ptpos_nth l i : NoDup l -> (i < length l)%nat -> ptpos (nth i l (0, 0)) l = i.
Proof.
  revert i. induction l as [|x l IH]; intros i ND Hi; [cbn in Hi; lia|]. apply NoDup_cons_iff in ND as [N ND]. destruct i as [|i]; cbn [nth ptpos].
  - destruct (pt_eq_dec x x); [reflexivity|contradiction].
  - cbn [length] in Hi. destruct (pt_eq_dec (nth i l (0, 0)) x) as [<-|]; [exfalso; apply N, nth_In; lia|]. rewrite IH by (assumption || lia). reflexivity.
Qed.

(** There are values at all points of the mesh, namely those at the irreducible
    point equivalent to it, in an order given by [o_mesh] for eigenvalues and
    eigenvectors alike. In particular, no element stays uninitialized. *)
Theorem C90_mesh : forall nk angle bands ev evec vectors order by_mean dv eps, allowed_angle angle -> 0 < nk ->
  exists f, dispersion_full nk angle bands ev evec vectors order by_mean dv eps = Ok f /\
  exists om : pt -> list nat, forall k, in_mesh nk k -> exists r, wedge angle nk r /\ equivalent angle nk r k /\
    (order = true -> o_mesh f k = Some (om r) /\ Permutation (om r) (seq 0 bands)) /\
    (exists w, v_mesh f k = Some w /\ forall i, (i < bands)%nat -> w i = ev r (if order then nth i (om r) 0%nat else i)) /\
    (vectors = true -> exists W, V_mesh f k = Some W /\ forall a i, (i < bands)%nat -> W a i = evec r a (if order then nth i (om r) 0%nat else i)).
Proof.
  intros nk angle bands ev evec vectors order by_mean dv eps Ha Hn. destruct (irreducibles_wedge nk angle Ha Hn) as (irr & EI & HI).
  destruct (order_paths_perm nk angle irr Ha Hn EI bands ev evec vectors by_mean dv eps) as (st & EO & HO). set (k := sorted_points nk irr) in *.
  set (om := fun q => match ar_o st (ptpos q k) with Some o => o | None => [] end).
  assert (OM : forall m, (m < length k)%nat -> Permutation (om (point k m)) (seq 0 bands) /\
    row_is vectors (Arrays (fun _ => None) (fun n => ev (point k n)) (fun n => evec (point k n))) st m (om (point k m))).
  { intros m Hm. destruct (HO m Hm) as (o & P & R). unfold om. rewrite (ptpos_nth k m (k_NoDup nk irr) Hm : ptpos (point k m) k = m).
    rewrite (proj1 R). split; assumption. }
  destruct (dispersion_full_gen nk angle bands ev evec vectors order by_mean dv eps Ha Hn om) as (f & E & HF).
  { intros _ irr' EI'. rewrite EI in EI'. injection EI' as <-. exists st. split; [exact EO|]. intros m Hm. apply OM, Hm. }
  exists f. split; [exact E|]. exists om. intros K HK. destruct (HF K HK) as (r & W & Er & H1 & H2 & H3). exists r. split; [exact W|]. split; [exact Er|].
  split; [|split].
  - intros Ho. split; [apply H3, Ho|]. destruct (wedge_point nk angle irr Ha Hn EI r W) as (n & Hl & <-). apply OM, Hl.
  - eexists. split; [exact H1|]. intros i Hi. destruct order; reflexivity.
  - intros Hv. eexists. split; [exact (H2 Hv)|]. intros a i Hi. destruct order; reflexivity.
Qed.
Print Assumptions C90_mesh.

(** Symmetric eigenvalues are those at the respective point. *)
Theorem C90_symmetric : forall nk angle bands ev evec vectors order by_mean dv eps f, allowed_angle angle -> 0 < nk ->
  (forall k k' i, in_mesh nk k -> in_mesh nk k' -> equivalent angle nk k k' -> (i < bands)%nat -> ev k i = ev k' i) ->
  dispersion_full nk angle bands ev evec vectors order by_mean dv eps = Ok f ->
  forall k, in_mesh nk k -> exists w, v_mesh f k = Some w /\
    if order then exists o, o_mesh f k = Some o /\ Permutation o (seq 0 bands) /\ forall i, (i < bands)%nat -> w i = ev k (nth i o 0%nat)
    else forall i, (i < bands)%nat -> w i = ev k i.
Proof.
  intros nk angle bands ev evec vectors order by_mean dv eps f Ha Hn S E k Hk.
  destruct (C90_mesh nk angle bands ev evec vectors order by_mean dv eps Ha Hn) as (f' & E' & om & H). rewrite E in E'. injection E' as <-.
  destruct (H k Hk) as (r & W & Er & HO & (w & Ew & Hw) & _). exists w. split; [exact Ew|].
  assert (Mr : in_mesh nk r) by (apply wedge_iff in W; tauto). destruct order.
  - destruct (HO eq_refl) as [O P]. exists (om r). split; [exact O|]. split; [exact P|]. intros i Hi. rewrite Hw by exact Hi. apply S; [assumption..|].
    apply (perm_in bands _ P). apply nth_In. rewrite (perm_len bands _ P). exact Hi.
  - intros i Hi. rewrite Hw by exact Hi. apply S; assumption.
Qed.
Print Assumptions C90_symmetric.

(** Equivalent points have the same data. *)
Theorem C90_equal : forall nk angle bands ev evec order by_mean dv eps f, allowed_angle angle -> 0 < nk ->
  dispersion_full nk angle bands ev evec true order by_mean dv eps = Ok f ->
  forall k k', in_mesh nk k -> in_mesh nk k' -> equivalent angle nk k k' ->
    (order = true -> o_mesh f k = o_mesh f k') /\
    exists w w' W W', v_mesh f k = Some w /\ v_mesh f k' = Some w' /\ V_mesh f k = Some W /\ V_mesh f k' = Some W' /\
      forall a i, (i < bands)%nat -> w i = w' i /\ W a i = W' a i.
Proof.
  intros nk angle bands ev evec order by_mean dv eps f Ha Hn E k k' Hk Hk' EQ.
  destruct (C90_mesh nk angle bands ev evec true order by_mean dv eps Ha Hn) as (f' & E' & om & H). rewrite E in E'. injection E' as <-.
  destruct (H k Hk) as (r & W & Er & HO & (w & Ew & Hw) & HV). destruct (H k' Hk') as (r' & W' & Er' & HO' & (w' & Ew' & Hw') & HV').
  assert (r = r') by (apply (wedge_unique nk angle Ha Hn k' r r'); [assumption..|eapply equivalent_trans; eassumption|assumption]). subst r'.
  split; [intros Ho; destruct (HO Ho) as [-> _], (HO' Ho) as [-> _]; reflexivity|].
  destruct (HV eq_refl) as (X & EX & HX), (HV' eq_refl) as (X' & EX' & HX'). exists w, w', X, X'. repeat (split; [assumption|]).
  intros a i Hi. rewrite Hw, Hw', HX, HX' by exact Hi. split; reflexivity.
Qed.
Print Assumptions C90_equal.

(** If states can be labelled such that along the main path and along all side
    paths, the state with the largest overlap with the one at the last point
    without degeneracies is the one with the same label, these labels are found,
    up to a common renumbering (by mean). *)
Theorem C90_disentangles : forall nk angle bands ev evec vectors by_mean dv eps (b : pt -> list nat), allowed_angle angle -> 0 < nk ->
  (forall q, wedge angle nk q -> Permutation (b q) (seq 0 bands)) -> b (0, 0) = seq 0 bands ->
  (forall p q i, last_resolved (main_path angle nk) (resolved_at bands ev eps) p q -> (i < bands)%nat -> continues bands ev evec dv b p q i) ->
  (forall n p q i, main_path angle nk n -> last_resolved (side_path angle nk n) (resolved_at bands ev eps) p q -> (i < bands)%nat ->
     continues bands ev evec dv b p q i) ->
  exists f perm, dispersion_full nk angle bands ev evec vectors true by_mean dv eps = Ok f /\
    Permutation perm (seq 0 bands) /\ (by_mean = false -> perm = seq 0 bands) /\
    forall k r, in_mesh nk k -> wedge angle nk r -> equivalent angle nk r k ->
      o_mesh f k = Some (map (fun i => nth i (b r) 0%nat) perm).
Proof.
  intros nk angle bands ev evec vectors by_mean dv eps b Ha Hn Pb B0 Cm Cs. destruct (irreducibles_wedge nk angle Ha Hn) as (irr & EI & HI).
  destruct (order_paths_follows nk angle irr Ha Hn EI bands ev evec vectors by_mean dv eps b Pb B0 Cm Cs) as (st & perm & EO & Pp & Hp & R).
  destruct (dispersion_full_gen nk angle bands ev evec vectors true by_mean dv eps Ha Hn (fun q => take (b q) perm)) as (f & E & HF).
  { intros _ irr' EI'. rewrite EI in EI'. injection EI' as <-. exists st. split; [exact EO|]. exact R. }
  exists f, perm. split; [exact E|]. split; [exact Pp|]. split; [exact Hp|]. intros K r HK W Er.
  destruct (HF K HK) as (r' & W' & Er' & _ & _ & H3). rewrite (H3 eq_refl), (wedge_unique nk angle Ha Hn K r r' HK W W' Er Er'). reflexivity.
Qed.
Print Assumptions C90_disentangles.

(** Bands that cross between (0, 1) and both (1, 1) and (0, 2) on a 4 x 4 mesh. *)
Definition ex_swap (q : pt) : bool := pt_mem q [(1, 1); (0, 2)].
Definition ex_b (q : pt) : list nat := if ex_swap q then [1; 0]%nat else [0; 1]%nat.
Definition ex_ev (q : pt) (i : nat) : Q := inject_Z (Z.of_nat i).
Definition ex_evec (q : pt) (r i : nat) : cplx := if Bool.eqb (ex_swap q) (r =? i)%nat then (0, 0)%Q else (0, 1)%Q.

Example C90_disentangles_ex : (forall q, Permutation (ex_b q) (seq 0 2)) /\ ex_b (0, 0) = seq 0 2 /\
  (forall p q i, (i < 2)%nat -> continues 2 ex_ev ex_evec None ex_b p q i) /\
  exists f, dispersion_full 4 60 2 ex_ev ex_evec true true false None (1 # 100) = Ok f /\
    o_mesh f (1, 2) = Some [1; 0]%nat /\ o_mesh f (3, 0) = Some [0; 1]%nat /\ equivalent 60 4 (1, 1) (1, 2).
Proof.
  split; [intros q; unfold ex_b; destruct (ex_swap q); [apply perm_swap|reflexivity]|]. split; [reflexivity|]. split.
  - intros p q i Hi. unfold continues, ex_b, ex_evec. destruct (ex_swap p), (ex_swap q), i as [|[|i]]; try lia;
      (split; [exact Logic.I|]); intros [|[|j]] Hj N; cbn [nth] in N; try lia; vm_compute; reflexivity.
  - eexists. split; [vm_compute; reflexivity|]. split; [reflexivity|]. split; [reflexivity|].
    apply equivalent_iff; [left; reflexivity|lia|]. exists (M2 1 0 (-1) (-1)). split; [vm_compute; tauto|reflexivity].
Qed.

(** Without use of symmetries, the same order is applied to the eigenvalues and
    eigenvectors at the point itself. *)
Theorem C90_nosym : forall nk angle bands ev evec vectors by_mean dv eps, allowed_angle angle -> 0 < nk ->
  exists f g, dispersion_full nk angle bands ev evec vectors true by_mean dv eps = Ok f /\
    dispersion_full_nosym nk angle bands ev evec vectors true by_mean dv eps = Ok g /\
  forall k, in_mesh nk k -> exists o w, o_mesh g k = Some o /\ Permutation o (seq 0 bands) /\ v_mesh g k = Some w /\
    (forall i, w i = ev k (nth i o 0%nat)) /\
    (vectors = true -> exists W, V_mesh g k = Some W /\ forall a i, W a i = evec k a (nth i o 0%nat)) /\
    (vectors = false -> o_mesh f k = Some o /\
      ((forall k k' i, in_mesh nk k -> in_mesh nk k' -> equivalent angle nk k k' -> (i < bands)%nat -> ev k i = ev k' i) ->
        exists w', v_mesh f k = Some w' /\ forall i, (i < bands)%nat -> w i = w' i)).
Proof.
  intros nk angle bands ev evec vectors by_mean dv eps Ha Hn.
  destruct (C90_mesh nk angle bands ev evec vectors true by_mean dv eps Ha Hn) as (f & E & _).
  destruct (C90_mesh nk angle bands ev evec false true by_mean dv eps Ha Hn) as (f' & E' & om & H).
  exists f. eexists. split; [exact E|]. split; [unfold dispersion_full_nosym; rewrite E'; reflexivity|].
  intros k Hk. destruct (H k Hk) as (r & W & Er & HO & (w & Ew & Hw) & _). destruct (HO eq_refl) as [O P]. cbn [o_mesh v_mesh V_mesh]. rewrite O.
  exists (om r). eexists. split; [reflexivity|]. split; [exact P|]. split; [reflexivity|]. split; [intros; reflexivity|]. split.
  - intros ->. eexists. split; [reflexivity|]. intros; reflexivity.
  - intros ->. rewrite E in E'. injection E' as <-. split; [exact O|]. intros S. exists w. split; [exact Ew|].
    intros i Hi. rewrite Hw by exact Hi. symmetry. assert (Mr : in_mesh nk r) by (apply wedge_iff in W; tauto). apply S; [assumption..|].
    apply (perm_in bands _ P), nth_In. rewrite (perm_len bands _ P). exact Hi.
Qed.
Print Assumptions C90_nosym.

Example C90_nosym_ex : exists g, dispersion_full_nosym 4 60 2 (fun q i => inject_Z (fst q + 10 * Z.of_nat i)) ex_evec false true false None (1 # 100) = Ok g /\
  match v_mesh g (1, 2) with Some w => (w 0%nat, w 1%nat) = (11 # 1, 1 # 1)%Q | None => False end.
Proof. eexists. split; [vm_compute; reflexivity|]. vm_compute. reflexivity. Qed.
