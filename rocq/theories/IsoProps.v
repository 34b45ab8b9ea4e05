(** C113: lines of constant energy. *)
From Coq Require Import QArith Qround Lia Lqa Permutation.
From Verif Require Import Common CommonProofs SymModel VorModel LinModel LinSpec LinProofs IsoModel IsoSpec IsoProofs IsoCover IsoJoin.
Local Open Scope Q_scope.

(** The linearly interpolated energy at a point in units of the reciprocal lattice vectors *)
Definition energy_is argsort (energies : list (list Q)) (x : Q * Q) (E : Q) : Prop :=
  let N := inject_Z (Z.of_nat (length energies)) in exists e, interpolant2 argsort 60 None energies (N * fst x) (N * snd x) = Ok e /\ e == E.

(** Sets may be iterated over in any order. *)
Definition any_order (order0 : list triangle -> list triangle) (order : list vertex -> list segment -> list segment) : Prop :=
  (forall l, Permutation (order0 l) l) /\ forall c l, Permutation (order c l) l.

Lemma square_ok N energies : (0 < N)%nat -> square N energies -> rectangular energies /\ shape1 energies = Z.of_nat N /\ length energies = N.
Proof.
  intros HN [L F]. destruct energies as [|r rows]; [cbn in L; lia|]. pose proof (Forall_inv F) as Lr. cbn [hd]. split.
  - split; [discriminate|]. cbn [hd]. split; [intros ->; cbn in Lr; lia|]. rewrite Lr. exact F.
  - split; [unfold shape1; cbn [hd]; rewrite Lr; reflexivity|exact L].
Qed.

Lemma setup argsort order0 order size N energies : (0 < N)%nat -> square N energies ->
  exists s, all_triangles argsort energies = Ok s /\ isoline argsort order0 order size energies = Ok (FS (Z.of_nat N) (order0 s) order size) /\ rectangular energies /\
    Forall (sound energies (Z.of_nat N)) s /\ forall K n, interior (Z.of_nat N) K -> In n [-1; 0; 1; 2; 3; 4]%Z -> has (Z.of_nat N) s K n.
Proof.
  intros HN SQ. destruct (square_ok N energies HN SQ) as (R & S1 & L).
  destruct (all_triangles_ok argsort energies R (Z.of_nat N) ltac:(lia) (eq_sym S1)) as (s & E & SS & H). exists s. split; [exact E|]. split; [unfold isoline; rewrite E; cbn [bind]; rewrite S1; reflexivity|]. auto.
Qed.

Lemma arrays_dec E : forall triangles, (exists t p, In t triangles /\ In (Array p) (cut E t)) \/ (forall t p, In t triangles -> ~ In (Array p) (cut E t)).
Proof.
  assert (D : forall l, (exists p, In (Array p) l) \/ (forall p, ~ In (Array p) l)).
  { induction l as [|e l [[p I]|H]]; [right; intros p []|left; exists p; right; exact I|]. destruct e as [p q|p|p]; [right; intros p' [X|X]; [discriminate|exact (H p' X)]..|left; exists p; left; reflexivity]. }
  induction triangles as [|t l [(t' & p & I & A)|H]]; [right; intros t p []|left; exists t', p; split; [right; exact I|exact A]|].
  destruct (D (cut E t)) as [[p A]|NA]; [left; exists t, p; split; [left; reflexivity|exact A]|right]. intros t' p [<-|I]; [apply NA|apply H, I].
Qed.

Lemma energy_f argsort N energies x E : rectangular energies -> length energies = N -> (energy_is argsort energies x E <-> f_ energies (inject_Z (Z.of_nat N) * fst x, inject_Z (Z.of_nat N) * snd x) == E).
Proof.
  intros R L. unfold energy_is. rewrite L. rewrite interpolant2_ok by (assumption || exact I || (left; reflexivity)). split; [intros (e & Ee & H); injection Ee as <-; exact H|intros H; eexists; split; [reflexivity|exact H]].
Qed.

Lemma inside_scaled N x : (0 < N)%Z -> (inside (inject_Z N) (inject_Z N * fst x, inject_Z N * snd x) <-> in_zone x).
Proof.
  intros HN. rewrite zone_inside. assert (P : 0 < inject_Z N) by (change 0 with (inject_Z 0); rewrite <- Zlt_Qlt; exact HN). set (n := inject_Z N) in *. unfold inside. cbn [fst snd].
  assert (G : forall y, - n <= n * y <= n <-> - (1) <= y <= 1) by (intros y; split; intros [A B]; split; nra).
  setoid_replace (2 * (n * fst x) + n * snd x) with (n * (2 * fst x + snd x)) by ring. setoid_replace (n * fst x + 2 * (n * snd x)) with (n * (fst x + 2 * snd x)) by ring. setoid_replace (n * fst x - n * snd x) with (n * (fst x - snd x)) by ring. rewrite !G. reflexivity.
Qed.

Section Runs.
  Variables (argsort : list Q -> list nat) (N : nat) (energies : list (list Q)).
  Hypotheses (HN : (0 < N)%nat) (SQ : square N energies).

  (** The function can always be constructed. For every energy, it returns contours with
      at least two points each, or it raises a TypeError. *)
  Theorem C113_total order0 order size E : (0 < size)%nat -> any_order order0 order -> exists f, isoline argsort order0 order size energies = Ok f /\
    (f E = Raise TypeError \/ exists contours, f E = Ok contours /\ forall c, In c contours -> (2 <= length c)%nat).
  Proof.
    intros Hs [O1 O2]. destruct (setup argsort order0 order size N energies HN SQ) as (s & _ & EI & _). eexists. split; [exact EI|]. destruct (arrays_dec E (order0 s)) as [A|NA]; [left; apply FS_error; assumption|right].
    destruct (FS_ok (Z.of_nat N) (order0 s) order size E Hs O2 NA) as (J & EJ & L & _). eexists. split; [exact EJ|]. intros c I. apply in_map_iff in I as (c0 & <- & I). rewrite map_length. rewrite Forall_forall in L. apply L, I.
  Qed.

  (** All points on the straight lines of the contours are in the first Brillouin zone and
      have the given (linearly interpolated) energy. *)
  Theorem C113_drawn order0 order size f E contours : (0 < size)%nat -> any_order order0 order -> isoline argsort order0 order size energies = Ok f -> f E = Ok contours ->
    forall x, drawn contours x -> in_zone x /\ energy_is argsort energies x E.
  Proof.
    intros Hs [O1 O2] EF EC x D. destruct (setup argsort order0 order size N energies HN SQ) as (s & _ & EI & R & SS & _). rewrite EI in EF. injection EF as <-.
    destruct (arrays_dec E (order0 s)) as [A|NA]; [rewrite (FS_error _ _ _ _ _ Hs A) in EC; discriminate|]. destruct (FS_ok (Z.of_nat N) (order0 s) order size E Hs O2 NA) as (J & EJ & _ & _ & A & B). rewrite EJ in EC. injection EC as <-.
    apply (FS_drawn (Z.of_nat N) (order0 s) E J ltac:(lia) A B) in D as (t & p & q & It & I & X). apply (Permutation_in _ (O1 s)) in It. rewrite Forall_forall in SS. destruct (SS t It) as [G _].
    destruct (cut_line (f_ energies) (f_ext energies) _ E t p q _ G I X) as [F1 F2]. split; [apply (inside_scaled (Z.of_nat N)); [lia|exact F2]|]. apply (energy_f argsort N); [exact R|apply SQ|exact F1].
  Qed.

  (** Contours are as long as possible: no point of a later contour is at the end of an
      earlier one. *)
  Theorem C113_maximal order0 order size f E contours : (0 < size)%nat -> any_order order0 order -> isoline argsort order0 order size energies = Ok f -> f E = Ok contours ->
    forall l1 c l2 c' v, contours = l1 ++ c :: l2 -> In c' l2 -> In v c' ->
      ~ (fst v == fst (hd (0, 0) c) /\ snd v == snd (hd (0, 0) c)) /\ ~ (fst v == fst (last c (0, 0)) /\ snd v == snd (last c (0, 0))).
  Proof.
    intros Hs [O1 O2] EF EC l1 c l2 c' v E1 Ic Iv. destruct (setup argsort order0 order size N energies HN SQ) as (s & _ & EI & R & SS & _). rewrite EI in EF. injection EF as <-.
    destruct (arrays_dec E (order0 s)) as [A|NA]; [rewrite (FS_error _ _ _ _ _ Hs A) in EC; discriminate|]. destruct (FS_ok (Z.of_nat N) (order0 s) order size E Hs O2 NA) as (J & EJ & L & M & _). rewrite EJ in EC. injection EC as EC.
    rewrite <- EC in E1. apply map_eq_app in E1 as (J1 & J2 & -> & <- & E2). destruct J2 as [|c0 J2]; [discriminate|]. cbn [map] in E2. injection E2 as <- <-. apply in_map_iff in Ic as (c1 & <- & Ic). apply in_map_iff in Iv as (v0 & <- & Iv).
    destruct (M J1 c0 J2 eq_refl c1 v0 Ic Iv) as [M1 M2]. assert (Lc : c0 <> []) by (rewrite Forall_forall in L; specialize (L c0 ltac:(apply in_or_app; right; left; reflexivity)); destruct c0; [cbn in L; lia|discriminate]).
    assert (NZ : ~ inject_Z (Z.of_nat N) == 0) by (apply inj_nz; lia).
    assert (C : forall a b, a / inject_Z (Z.of_nat N) == b / inject_Z (Z.of_nat N) -> a == b). { intros a b H. setoid_replace a with (a / inject_Z (Z.of_nat N) * inject_Z (Z.of_nat N)) by (field; exact NZ). rewrite H. field. exact NZ. }
    assert (HD : hd (0, 0) (map (scale (Z.of_nat N)) c0) = scale (Z.of_nat N) (hd (0, 0) c0)) by (destruct c0; [contradiction|reflexivity]).
    assert (LS : last (map (scale (Z.of_nat N)) c0) (0, 0) = scale (Z.of_nat N) (last c0 (0, 0))). { destruct (exists_last Lc) as (l & a & ->). rewrite map_app. cbn [map]. rewrite !last_last. reflexivity. }
    rewrite HD, LS. unfold scale. cbn [fst snd]. split; intros [X Y]; [apply M1|apply M2]; split; apply C; assumption.
  Qed.

  (** The points drawn do not depend on the number of processes or the order of sets. *)
  Theorem C113_independent order0 order size order0' order' size' f f' E contours : (0 < size)%nat -> (0 < size')%nat -> any_order order0 order -> any_order order0' order' ->
    isoline argsort order0 order size energies = Ok f -> isoline argsort order0' order' size' energies = Ok f' -> f E = Ok contours ->
    exists contours', f' E = Ok contours' /\ forall x, drawn contours x <-> drawn contours' x.
  Proof.
    intros Hs Hs' [O1 O2] [O1' O2'] EF EF' EC. destruct (setup argsort order0 order size N energies HN SQ) as (s & Es & EI & _). destruct (setup argsort order0' order' size' N energies HN SQ) as (s' & Es' & EI' & _). rewrite Es in Es'. injection Es' as <-.
    rewrite EI in EF. injection EF as <-. rewrite EI' in EF'. injection EF' as <-.
    destruct (arrays_dec E (order0 s)) as [A|NA]; [rewrite (FS_error _ _ _ _ _ Hs A) in EC; discriminate|].
    assert (T : forall t, In t (order0' s) <-> In t (order0 s)) by (intros t; split; intros I; [apply (Permutation_in _ (Permutation_sym (O1 s))), (Permutation_in _ (O1' s)), I|apply (Permutation_in _ (Permutation_sym (O1' s))), (Permutation_in _ (O1 s)), I]).
    assert (NA' : forall t p, In t (order0' s) -> ~ In (Array p) (cut E t)) by (intros t p It; apply NA, T, It).
    destruct (FS_ok (Z.of_nat N) (order0 s) order size E Hs O2 NA) as (J & EJ & _ & _ & A & B). destruct (FS_ok (Z.of_nat N) (order0' s) order' size' E Hs' O2' NA') as (J' & EJ' & _ & _ & A' & B').
    rewrite EJ in EC. injection EC as <-. eexists. split; [exact EJ'|]. intros x. rewrite (FS_drawn (Z.of_nat N) (order0 s) E J ltac:(lia) A B), (FS_drawn (Z.of_nat N) (order0' s) E J' ltac:(lia) A' B').
    split; intros (t & p & q & It & H); exists t, p, q; (split; [apply T, It|exact H]).
  Qed.

  (** If the number of mesh points in each direction is a multiple of three and neither the
      energy at any mesh point nor halfway between neighbors equals the given one, the
      contours are exactly the points of the Brillouin zone with this energy. *)
  Theorem C113_complete_partial order0 order size E m : (0 < size)%nat -> any_order order0 order -> (N = 3 * m)%nat ->
    (forall i j, ~ value2 energies i j == E) -> (forall i j i' j', neighbors i j i' j' -> ~ (value2 energies i j + value2 energies i' j') / 2 == E) ->
    exists f contours, isoline argsort order0 order size energies = Ok f /\ f E = Ok contours /\ forall x, drawn contours x <-> in_zone x /\ energy_is argsort energies x E.
  Proof.
    intros Hs AO E3 G1 G2. destruct (setup argsort order0 order size N energies HN SQ) as (s & Es & EI & R & SS & HAS). exists (FS (Z.of_nat N) (order0 s) order size).
    pose proof AO as [O1 O2]. assert (GE : generic energies E). { split; [exact G1|]. intros i j i' j' H C. apply (G2 i j i' j' H). rewrite C. field. }
    rewrite Forall_forall in SS. assert (NA : forall t p, In t (order0 s) -> ~ In (Array p) (cut E t)).
    { intros t p It I. apply (Permutation_in _ (O1 s)) in It. destruct (SS t It) as [G V]. destruct (cut_generic (f_ energies) _ E t G (V E GE) _ I) as (p' & q' & X). discriminate. }
    destruct (FS_ok (Z.of_nat N) (order0 s) order size E Hs O2 NA) as (J & EJ & _ & _ & A & B). eexists. split; [exact EI|]. split; [exact EJ|]. intros x. split; [apply (C113_drawn order0 order size _ E _ Hs AO EI EJ)|].
    intros [Z1 EX]. apply (FS_drawn (Z.of_nat N) (order0 s) E J ltac:(lia) A B). apply (energy_f argsort N) in EX; [|exact R|apply SQ]. apply (inside_scaled (Z.of_nat N)) in Z1; [|lia]. set (y := (inject_Z (Z.of_nat N) * fst x, inject_Z (Z.of_nat N) * snd x)) in *.
    assert (EN : Z.of_nat N = (3 * Z.of_nat m)%Z) by lia. rewrite EN in *.
    destruct (covered (Z.of_nat m) ltac:(lia) y Z1) as (K & n & HI & Hn & HH).
    - intros i j V. apply (G1 i j). rewrite <- EX, (f_ext energies _ _ V). destruct (interpolant2_int argsort 60 None energies i j ltac:(left; reflexivity) R I) as (e & Ee & H). rewrite interpolant2_ok in Ee by (assumption || exact I || (left; reflexivity)). injection Ee as <-. symmetry. exact H.
    - rewrite <- EN in *. destruct (HAS K n HI Hn) as (t & It & W). destruct (SS t It) as [G V]. destruct (cut_complete (f_ energies) (f_ext energies) _ E t y G (V E GE) (W y HH) EX) as (p & q & C & X).
      exists t, p, q. split; [apply (Permutation_in _ (Permutation_sym (O1 s))), It|]. split; [rewrite C; left; reflexivity|exact X].
  Qed.
End Runs.
Print Assumptions C113_total.
Print Assumptions C113_drawn.
Print Assumptions C113_maximal.
Print Assumptions C113_independent.
Print Assumptions C113_complete_partial.

(** A mesh of three by three points and a level that meets the hypotheses *)
Definition bump : list (list Q) := [[0; 2; 2]; [2; 3; 1]; [2; 1; 3]].
Example C113_example : square 3 bump /\ (forall i j, ~ value2 bump i j == 1 # 3) /\ (forall i j i' j', neighbors i j i' j' -> ~ (value2 bump i j + value2 bump i' j') / 2 == 1 # 3) /\
  match isoline (fun l => seq 0 (length l)) (fun l => l) (fun _ l => l) 2 bump with Ok f => match f (1 # 3) with Ok contours => map (@length _) contours = [7%nat] | Raise _ => False end | Raise _ => False end.
Proof.
  assert (V : forall i j, In (value2 bump i j) [0; 1; 2; 3]).
  { intros i j. unfold value2, value1. match goal with |- In (nth ?b (nth ?a _ _) _) _ => generalize b; generalize a end. intros [|[|[|a]]] [|[|[|b]]]; cbn; try tauto; repeat match goal with |- context [match ?x with O => _ | S _ => _ end] => destruct x; cbn; try tauto end. }
  split; [split; [reflexivity|repeat constructor]|]. split; [intros i j H; destruct (V i j) as [X|[X|[X|[X|[]]]]]; rewrite <- X in H; discriminate|]. split.
  - intros i j i' j' _ H. destruct (V i j) as [X|[X|[X|[X|[]]]]], (V i' j') as [Y|[Y|[Y|[Y|[]]]]]; rewrite <- X, <- Y in H; discriminate.
  - vm_compute. reflexivity.
Qed.

(** Without the restriction on the mesh, contours are incomplete: for two by two points, the
    triangles do not cover the corners of the Brillouin zone. *)
Definition corner2 : list (list Q) := [[0; 0]; [0; 1]].
Theorem C113_corner_refuted : exists argsort f contours x, isoline argsort (fun l => l) (fun _ l => l) 1 corner2 = Ok f /\ f (1 # 3) = Ok contours /\
  (forall i j, ~ value2 corner2 i j == 1 # 3) /\ (forall i j i' j', neighbors i j i' j' -> ~ (value2 corner2 i j + value2 corner2 i' j') / 2 == 1 # 3) /\
  in_zone x /\ energy_is argsort corner2 x (1 # 3) /\ ~ drawn contours x.
Proof.
  exists (fun l => seq 0 (length l)). exists (FS 2 (match all_triangles (fun l => seq 0 (length l)) corner2 with Ok s => s | Raise _ => [] end) (fun _ l => l) 1). eexists. exists (1 # 3, 1 # 3).
  split. { unfold isoline. assert (T : exists s, all_triangles (fun l => seq 0 (length l)) corner2 = Ok s) by (eexists; vm_compute; reflexivity). destruct T as (s & ->). reflexivity. }
  split; [vm_compute; reflexivity|].
  assert (V : forall i j, In (value2 corner2 i j) [0; 1]).
  { intros i j. unfold value2, value1. match goal with |- In (nth ?b (nth ?a _ _) _) _ => generalize b; generalize a end. intros [|[|[|a]]] [|[|[|b]]]; cbn; try tauto; repeat match goal with |- context [match ?x with O => _ | S _ => _ end] => destruct x; cbn; try tauto end. }
  split; [intros i j H; destruct (V i j) as [X|[X|[]]]; rewrite <- X in H; discriminate|]. split; [intros i j i' j' _ H; destruct (V i j) as [X|[X|[]]], (V i' j') as [Y|[Y|[]]]; rewrite <- X, <- Y in H; discriminate|].
  split; [apply zone_inside; unfold inside; cbn [fst snd]; lra|]. split; [eexists; split; [vm_compute; reflexivity|reflexivity]|].
  intros (c & p & q & Ic & Il & u & Hu & X & Y).
  repeat (destruct Ic as [<-|Ic]; [cbn [links In] in Il; repeat (destruct Il as [Il|Il]; [injection Il as <- <-; cbn [fst snd] in X, Y; lra|]); destruct Il|]). destruct Ic.
Qed.
Print Assumptions C113_corner_refuted.

(** If the level equals the two lower energies of a triangle, there is an error. *)
Theorem C113_edge_refuted : forall order0 order size, (0 < size)%nat -> any_order order0 order ->
  exists argsort f, isoline argsort order0 order size corner2 = Ok f /\ f 0 = Raise TypeError.
Proof.
  intros order0 order size Hs [O1 O2]. exists (fun l => seq 0 (length l)). unfold isoline. assert (T : exists s t p, all_triangles (fun l => seq 0 (length l)) corner2 = Ok s /\ In t s /\ In (Array p) (cut 0 t)).
  { eexists _, _, _. split; [vm_compute; reflexivity|]. split; [left; reflexivity|]. vm_compute. right. left. reflexivity. }
  destruct T as (s & t & p & Es & It & Ip). rewrite Es. cbn [bind]. eexists. split; [reflexivity|]. apply FS_error; [exact Hs|]. exists t, p. split; [apply (Permutation_in _ (Permutation_sym (O1 s))), It|exact Ip].
Qed.
Print Assumptions C113_edge_refuted.
