(** C92: coupling from meshes of wave vectors. *)
From Coq Require Import Reals Lra Lia.
From Verif Require Import Common CommonProofs LatModel LatProofs VorModel Num NumProofs NumC ElModel WSModel WSSpec WSProofs WSProofs2 KrModel KrProofs
  ElphModel ElphSpec ElphProofs ElphProofs2 ElphProofs3 ElphQModel ElphQProofs.
Local Open Scope nat_scope.

Add Ring Cring5 : (@n_ring C).

Definition positive (n : vec) : Prop := (0 < vx n /\ 0 < vy n /\ 0 < vz n)%Z.

(** The factor between given and stored coupling: the first argument tells if the
    given, the second if the stored coupling is divided by square roots of masses. *)
Definition unit_of_mass (given stored : bool) (M : R) : R :=
  match given, stored with true, false => sqrt M | false, true => / sqrt M | _, _ => 1%R end.

Definition q2r_data (d : degeneracies) (mm dm : bool) (mass : nat -> R) (nq nk : vec) (g : mesh_coupling) (RG RK : list vec) : @arr C := fun irg x irk m n =>
  nmul (divide_dg d (divide_dk d (fun irg x irk m n =>
    to_both_lattices nq nk g x m n (mesh_index nq 1 (nth irg RG vzero)) (mesh_index nk 1 (nth irk RK vzero)))) irg x irk m n) (RtoC (unit_of_mass dm mm (mass (x / 3)))).

Lemma q2r_eq d mm mass nqs nks nq nk g lens dm nproc (s : @elph C kpoint) RG RK d' :
  pad_mesh nqs = Ok nq -> pad_mesh nks = Ok nk ->
  match lens with
  | None => Ok (Rg _ s, Rk _ s, d)
  | Some (len_g, len_k) =>
    do wg <- wigner nq 1 2 (nel _ s) (natoms _ s) len_g (1 # 10000000) nproc ;;
    do wk <- wigner nk 1 2 (nel _ s) (nel _ s) len_k (1 # 10000000) nproc ;;
    Ok (map fst wg, map fst wk, Some (wigner_deg (nel _ s) (natoms _ s) wg wk))
  end = Ok (RG, RK, Some d') ->
  exists s', q2r d true mm mass nqs nks g lens dm nproc s = Ok (s', Some d') /\ nel _ s' = nel _ s /\ natoms _ s' = natoms _ s /\ Rg _ s' = RG /\ Rk _ s' = RK /\
    (forall i x j m n, data _ s' i x j m n = q2r_data d' mm dm mass nq nk g RG RK i x j m n) /\
    caches _ s' = caches _ s /\ gqn _ s' = gqn _ s /\ Rk0 _ s' = Rk0 _ s.
Proof.
  intros Eq Ek E. unfold q2r. rewrite Eq, Ek. cbn [bind]. rewrite E. cbn [bind divide_degeneracy]. eexists. split; [reflexivity|].
  cbn [nel natoms Rg Rk data caches gqn Rk0]. repeat (split; [reflexivity|]). split; [|auto]. intros i x j m n. unfold q2r_data.
  destruct dm, mm; cbn [andb negb unit_of_mass]; try reflexivity; change (RtoC 1) with (@n1 C); ring.
Qed.

Lemma wigner_total nr nb1 nb2 len nproc : positive nr -> 0 < nproc -> exists w, wigner nr 1 2 nb1 nb2 len (1 # 10000000) nproc = Ok w.
Proof. intros H Hp. destruct (wigner_spec nr 1 2 nb1 nb2 len (1 # 10000000) H (or_introl eq_refl) eq_refl eq_refl nproc Hp) as (w & E & _). eauto. Qed.

Lemma q2r_values d mm mass nqs nks nq nk g len_g len_k dm nproc (s : @elph C kpoint) :
  pad_mesh nqs = Ok nq -> pad_mesh nks = Ok nk -> positive nq -> positive nk -> 0 < nproc ->
  exists wg wk s', wigner nq 1 2 (nel _ s) (natoms _ s) len_g (1 # 10000000) nproc = Ok wg /\ wigner nk 1 2 (nel _ s) (nel _ s) len_k (1 # 10000000) nproc = Ok wk /\
    let d' := wigner_deg (nel _ s) (natoms _ s) wg wk in
    q2r d true mm mass nqs nks g (Some (len_g, len_k)) dm nproc s = Ok (s', Some d') /\ nel _ s' = nel _ s /\ natoms _ s' = natoms _ s /\
    Rg _ s' = map fst wg /\ Rk _ s' = map fst wk /\ (forall i x j m n, data _ s' i x j m n = q2r_data d' mm dm mass nq nk g (map fst wg) (map fst wk) i x j m n) /\
    caches _ s' = caches _ s /\ gqn _ s' = gqn _ s /\ Rk0 _ s' = Rk0 _ s.
Proof.
  intros Eq Ek Hq Hk Hp. destruct (wigner_total nq (nel _ s) (natoms _ s) len_g nproc Hq Hp) as (wg & Eg). destruct (wigner_total nk (nel _ s) (nel _ s) len_k nproc Hk Hp) as (wk & Ewk).
  destruct (q2r_eq d mm mass nqs nks nq nk g (Some (len_g, len_k)) dm nproc s (map fst wg) (map fst wk) (wigner_deg (nel _ s) (natoms _ s) wg wk) Eq Ek) as (s' & E & R).
  { rewrite Eg, Ewk. reflexivity. }
  exists wg, wk, s'. auto.
Qed.

Lemma lattice_sum_data nq nk g nproc wg wk len_g len_k mm dm mass (s : @elph C kpoint) q k x m n :
  positive nq -> positive nk -> 0 < nproc ->
  wigner nq 1 2 (nel _ s) (natoms _ s) len_g (1 # 10000000) nproc = Ok wg -> wigner nk 1 2 (nel _ s) (nel _ s) len_k (1 # 10000000) nproc = Ok wk ->
  Rg _ s = map fst wg -> Rk _ s = map fst wk ->
  (forall i x j m n, data _ s i x j m n = q2r_data (wigner_deg (nel _ s) (natoms _ s) wg wk) mm dm mass nq nk g (map fst wg) (map fst wk) i x j m n) ->
  on_mesh nq q -> on_mesh nk k -> x < nph _ s -> m < nel _ s -> n < nel _ s ->
  lattice_sum s (phase (mesh_point nq q)) (phase (mesh_point nk k)) x m n = nmul (RtoC (unit_of_mass dm mm (mass (x / 3)))) (g q x k m n).
Proof.
  intros Hq Hk Hp Eg Ek ERg ERk ED Mq Mk Hx Hm Hn.
  rewrite <- (q2r_sum nq nk g (nel _ s) (natoms _ s) wg wk len_g len_k nproc x m n q k _ Hq Hk Hp Eg Ek Mq Mk Hx Hm Hn).
  unfold lattice_sum. rewrite ERg, ERk. apply nsum_ext. intros i _. apply nsum_ext. intros j _. rewrite ED. reflexivity.
Qed.

(** With positions of the orbitals, the resulting model reproduces the given
    coupling at all points of both meshes, in the units of the model, for any
    distances and number of processes. *)
Theorem C92_reproduces : forall d mm mass nqs nks nq nk g len_g len_k dm nproc (s : @elph C kpoint),
  pad_mesh nqs = Ok nq -> pad_mesh nks = Ok nk -> positive nq -> positive nk -> 0 < nproc ->
  exists s' d', q2r d true mm mass nqs nks g (Some (len_g, len_k)) dm nproc s = Ok (s', Some d') /\ nel _ s' = nel _ s /\ natoms _ s' = natoms _ s /\
  forall q k x m n, on_mesh nq q -> on_mesh nk k -> x < nph _ s -> m < nel _ s -> n < nel _ s ->
    lattice_sum s' (phase (mesh_point nq q)) (phase (mesh_point nk k)) x m n = nmul (RtoC (unit_of_mass dm mm (mass (x / 3)))) (g q x k m n).
Proof.
  intros d mm mass nqs nks nq nk g len_g len_k dm nproc s Eq Ek Hq Hk Hp.
  destruct (q2r_values d mm mass nqs nks nq nk g len_g len_k dm nproc s Eq Ek Hq Hk Hp) as (wg & wk & s' & Eg & Ewk & E & N1 & N2 & ERg & ERk & ED & _).
  exists s', (wigner_deg (nel _ s) (natoms _ s) wg wk). split; [exact E|]. split; [exact N1|]. split; [exact N2|]. intros q k x m n Mq Mk Hx Hm Hn.
  apply (lattice_sum_data nq nk g nproc wg wk len_g len_k mm dm mass s' q k x m n); unfold nph; rewrite ?N1, ?N2; assumption.
Qed.
Print Assumptions C92_reproduces.

(** Without positions, the Wigner-Seitz cells of a previous call are used, with
    the same result. *)
Theorem C92_again : forall d mm mass nqs nks nq nk g g' len_g len_k dm dm' nproc (s s' : @elph C kpoint) d',
  pad_mesh nqs = Ok nq -> pad_mesh nks = Ok nk -> positive nq -> positive nk -> 0 < nproc ->
  q2r d true mm mass nqs nks g (Some (len_g, len_k)) dm nproc s = Ok (s', d') ->
  exists s'', q2r d' true mm mass nqs nks g' None dm' nproc s' = Ok (s'', d') /\ Rg _ s'' = Rg _ s' /\ Rk _ s'' = Rk _ s' /\
  (forall q k x m n, on_mesh nq q -> on_mesh nk k -> x < nph _ s -> m < nel _ s -> n < nel _ s ->
    lattice_sum s'' (phase (mesh_point nq q)) (phase (mesh_point nk k)) x m n = nmul (RtoC (unit_of_mass dm' mm (mass (x / 3)))) (g' q x k m n)) /\
  ((forall q k x m n, on_mesh nq q -> on_mesh nk k -> x < nph _ s -> m < nel _ s -> n < nel _ s ->
      g' q x k m n = lattice_sum s' (phase (mesh_point nq q)) (phase (mesh_point nk k)) x m n) -> dm' = mm ->
    forall i x j m n, x < nph _ s -> m < nel _ s -> n < nel _ s -> data _ s'' i x j m n = data _ s' i x j m n).
Proof.
  intros d mm mass nqs nks nq nk g g' len_g len_k dm dm' nproc s s' d' Eq Ek Hq Hk Hp E0.
  destruct (q2r_values d mm mass nqs nks nq nk g len_g len_k dm nproc s Eq Ek Hq Hk Hp) as (wg & wk & s1 & Eg & Ewk & E & N1 & N2 & ERg & ERk & ED & _).
  rewrite E in E0. injection E0 as <- <-.
  destruct (q2r_eq (Some (wigner_deg (nel _ s) (natoms _ s) wg wk)) mm mass nqs nks nq nk g' None dm' nproc s1 (Rg _ s1) (Rk _ s1) (wigner_deg (nel _ s) (natoms _ s) wg wk) Eq Ek eq_refl)
    as (s2 & E2 & M1 & M2 & MRg & MRk & MD & _).
  exists s2. split; [exact E2|]. split; [exact MRg|]. split; [exact MRk|].
  assert (K1 : nel _ s2 = nel _ s) by congruence. assert (K2 : natoms _ s2 = natoms _ s) by congruence. rewrite ERg, ERk in MD. split.
  - intros q k x m n Mq Mk Hx Hm Hn.
    apply (lattice_sum_data nq nk g' nproc wg wk len_g len_k mm dm' mass s2 q k x m n); unfold nph; rewrite ?K1, ?K2; try assumption; congruence.
  - intros Hg -> i x j m n Hx Hm Hn. rewrite MD, ED. unfold q2r_data.
    assert (C1 : unit_of_mass mm mm (mass (x / 3)) = 1%R) by (destruct mm; reflexivity). rewrite C1.
    assert (T : forall G K, to_both_lattices nq nk g' x m n G K = nmul (to_both_lattices nq nk g x m n G K) (RtoC (unit_of_mass dm mm (mass (x / 3))))).
    { intros G K. unfold to_both_lattices, ifftn. rewrite !n_conj_mul, !n_conj_sum.
      rewrite <- (nsum_mul_l (nconj _)), <- (nsum_mul_l (nconj _)), <- nsum_mul_r. apply nsum_ext. intros q Hqm. apply in_ws_mesh in Hqm.
      rewrite !n_conj_mul, !n_conj_sum.
      match goal with |- nmul ?a (nmul (nmul ?b ?s1) ?p) = nmul (nmul ?a (nmul (nmul ?b ?s2) ?p)) ?f => replace s1 with (nmul s2 f); [ring|] end.
      rewrite <- nsum_mul_r. apply nsum_ext. intros k Hkm. apply in_ws_mesh in Hkm. rewrite !n_conj_mul, !n_conj_conj.
      rewrite Hg by assumption.
      rewrite (lattice_sum_data nq nk g nproc wg wk len_g len_k mm dm mass s1 q k x m n); unfold nph; rewrite ?N1, ?N2; try assumption. ring. }
    change (RtoC 1) with (@n1 C). unfold divide_dg, divide_dk. cbn beta. rewrite T. rewrite !(over_mul (over _ _)), !(over_mul (to_both_lattices _ _ _ _ _ _ _ _)), (over_mul (nmul _ _)). ring.
Qed.
Print Assumptions C92_again.

(** The usual sequence of calls: an empty model is filled with the coupling on
    meshes and standardized. Then, any group of processes obtains the given
    coupling at the points of the meshes. *)
Theorem C92_workflow : forall (peqb : kpoint -> kpoint -> bool) Uel Uph half d mm mass nqs nks nq nk g len_g len_k dm nproc (s : @elph C kpoint) c q k,
  (forall p p', peqb p p' = true <-> p = p') ->
  pad_mesh nqs = Ok nq -> pad_mesh nks = Ok nk -> positive nq -> positive nk -> 0 < nproc -> 0 < nel _ s -> c <> [] ->
  (forall R m n, 0 <= len_k R m n)%Q -> (len_k vzero 0%nat 0%nat == 0)%Q -> on_mesh nq q -> on_mesh nk k ->
  exists s1 d' s2 s3 v, q2r d true mm mass nqs nks g (Some (len_g, len_k)) dm nproc s = Ok (s1, d') /\
    standardize kpoint half None false s1 = Ok s2 /\
    g_call kpoint peqb kadd phase Uel Uph None c (mesh_point nq q) (mesh_point nk k) false false s2 = Ok (s3, v) /\
    forall x m n, x < nph _ s -> m < nel _ s -> n < nel _ s -> v x m n = nmul (RtoC (unit_of_mass dm mm (mass (x / 3)))) (g q x k m n).
Proof.
  intros peqb Uel Uph half d mm mass nqs nks nq nk g len_g len_k dm nproc s c q k PE Eq Ek Hq Hk Hp He Hc HL HZ Mq Mk.
  destruct (q2r_values d mm mass nqs nks nq nk g len_g len_k dm nproc s Eq Ek Hq Hk Hp) as (wg & wk & s1 & Eg & Ewk & E & N1 & N2 & ERg & ERk & ED & _).
  assert (Z : In vzero (Rk _ s1)).
  { rewrite ERk. destruct (wigner_spec nk 1 2 (nel _ s) (nel _ s) len_k (1 # 10000000) Hk (or_introl eq_refl) eq_refl eq_refl nproc Hp) as (w & Ew & _ & HI & _).
    rewrite Ewk in Ew. injection Ew as <-. apply HI. exists 0, 0. split; [exact He|]. split; [exact He|]. split.
    - destruct Hk as (? & ? & ?). unfold searched, vzero. cbn [vx vy vz]. lia.
    - intros R' _ _. rewrite HZ. apply (Qlt_le_trans _ (0 + (1 # 10000000))); [reflexivity|]. apply Qplus_le_compat; [apply HL|apply Qle_refl]. }
  destruct (standardize_success half None false s1 Z ltac:(discriminate)) as (s2 & E2).
  pose proof (standardize_sound phase None half s1 s2 None false E2) as [W V].
  pose proof (standardize_Ok half None false s1 s2 E2) as (_ & _ & O1 & O2 & _).
  assert (P0 : forall p, phase p vzero = n1).
  { intros p. unfold phase, kdot, vzero. cbn [vx vy vz]. replace (0 * kx p + 0 * ky p + 0 * kz p)%R with 0%R by ring. apply expi_0. }
  destruct (g_call_ok peqb PE kadd phase P0 Uel Uph None c (mesh_point nq q) (mesh_point nk k) false false s2 Hc W (or_introl eq_refl) (or_introl (fun r _ => V r)))
    as (s3 & v & E3 & _ & _ & _ & G).
  exists s1, (Some (wigner_deg (nel _ s) (natoms _ s) wg wk)), s2, s3, v. split; [exact E|]. split; [exact E2|]. split; [exact E3|]. intros x m n Hx Hm Hn.
  assert (K1 : nel _ s2 = nel _ s) by congruence. assert (K2 : natoms _ s2 = natoms _ s) by congruence.
  rewrite G by (unfold nph; rewrite ?K1, ?K2; assumption).
  assert (EL : elements (nel _ s2) (nph _ s2) delta delta delta (coupling_at s2 phase None (mesh_point nq q) (mesh_point nk k)) x m n = coupling_at s2 phase None (mesh_point nq q) (mesh_point nk k) x m n).
  { rewrite <- (bands_elements kadd Uel Uph (nel _ s2) (nph _ s2) (mesh_point nq q) (mesh_point nk k) false false); [reflexivity|unfold nph; rewrite ?K1, ?K2; assumption..]. }
  rewrite EL, (coupling_standardize phase None half s1 s2); [|exact E2|unfold nph; rewrite ?N1, ?N2; assumption..].
  unfold coupling_at. rewrite (lattice_sum_data nq nk g nproc wg wk len_g len_k mm dm mass s1 q k x m n); unfold nph; rewrite ?N1, ?N2; try assumption. ring.
Qed.
Print Assumptions C92_workflow.

(** When long-range terms are added, changed or removed, the short-range part is
    updated such that the coupling at the points of the original meshes stays
    the same. *)
Theorem C92_update : forall d mm mass nqs nks nq nk g g0 len_g len_k dm nproc (s s' : @elph C kpoint) d' lr,
  pad_mesh nqs = Ok nq -> pad_mesh nks = Ok nk -> positive nq -> positive nk -> 0 < nproc ->
  q2r d true mm mass nqs nks g (Some (len_g, len_k)) dm nproc s = Ok (s', d') ->
  exists s'', update_short_range d' true mm mass nqs nks (Some g0) lr nproc s' = Ok (s'', d') /\
  forall q k x m n, on_mesh nq q -> on_mesh nk k -> x < nph _ s -> m < nel _ s -> n < nel _ s ->
    coupling_at s'' phase lr (mesh_point nq q) (mesh_point nk k) x m n = g0 q x k m n.
Proof.
  intros d mm mass nqs nks nq nk g g0 len_g len_k dm nproc s s' d' lr Eq Ek Hq Hk Hp E. unfold update_short_range. rewrite Eq. cbn [bind].
  destruct (C92_again d mm mass nqs nks nq nk g
    (match lr with None => g0 | Some lr => fun q x k m n => if m =? n then nsub (g0 q x k m n) (lr (mesh_point nq q) x) else g0 q x k m n end)
    len_g len_k dm mm nproc s s' d' Eq Ek Hq Hk Hp E) as (s2 & E2 & _ & _ & G & _).
  exists s2. split; [exact E2|]. intros q k x m n Mq Mk Hx Hm Hn. unfold coupling_at. rewrite G by assumption.
  replace (unit_of_mass mm mm (mass (x / 3))) with 1%R by (destruct mm; reflexivity). change (RtoC 1) with (@n1 C). destruct lr as [f|]; [|ring]. destruct (m =? n); ring.
Qed.
Print Assumptions C92_update.

(** Without standardization, the coupling cannot be calculated after a change of
    the number of lattice vectors, as the array for the Fourier transform is not
    allocated again. *)
Theorem C92_resized_refuted : forall peqb padd e Uel Uph d mm mass nqs nks g lens dm nproc (s s' : @elph C kpoint) d' c q k elbnd phbnd,
  q2r d true mm mass nqs nks g lens dm nproc s = Ok (s', d') -> length (Rk _ s') <> gqn _ s -> c <> [] ->
  g_call kpoint peqb padd e Uel Uph None c q k elbnd phbnd s' = Raise ValueError.
Proof.
  intros peqb padd e Uel Uph d mm mass nqs nks g lens dm nproc s s' d' c q k elbnd phbnd E Hn Hc.
  assert (G : gqn _ s' = gqn _ s).
  { unfold q2r in E. destruct (pad_mesh nqs) as [nq|]; [|discriminate]. destruct (pad_mesh nks) as [nk|]; [|discriminate]. cbn [bind] in E.
    match type of E with bind ?x _ = _ => destruct x as [[[RG RK] d1]|]; [|discriminate] end. cbn [bind] in E.
    match type of E with bind ?x _ = _ => destruct x as [dat|]; [|discriminate] end. cbn [bind] in E. injection E as <- _. reflexivity. }
  assert (NE : (gqn _ s' =? length (Rk _ s')) = false) by (apply Nat.eqb_neq; congruence).
  assert (SL : forall n, exists ls, slices n (length c) = Ok ls) by (intros n; destruct (my_slices n (length c)) as (ls & El & _); [destruct c; [congruence|cbn; lia]|eauto]).
  unfold g_call, refresh. destruct (miss _ _ _ _ _).
  - destruct (SL (length (Rg _ s'))) as (ls & ->). cbn [bind]. rewrite NE. reflexivity.
  - cbn [bind]. destruct (SL (length (Rk _ s'))) as (ls & ->). cbn [bind]. rewrite NE. reflexivity.
Qed.
Print Assumptions C92_resized_refuted.

(** After standardization, positions must be given. *)
Theorem C92_standardized : forall mm mass nqs nks nq nk g dm nproc (s : @elph C kpoint), pad_mesh nqs = Ok nq -> pad_mesh nks = Ok nk ->
  q2r None true mm mass nqs nks g None dm nproc s = Raise SystemExit.
Proof. intros mm mass nqs nks nq nk g dm nproc s Eq Ek. unfold q2r. rewrite Eq, Ek. reflexivity. Qed.
Print Assumptions C92_standardized.

(** A chain with two q points and one k point, one orbital and one atom: three
    lattice vectors for q, one for k. *)
Definition line_len (R : vec) (i j : nat) : Q := Qabs (inject_Z (vx R)) + Qabs (inject_Z (vy R)) + Qabs (inject_Z (vz R)).
Definition empty_model : @elph C kpoint := create kpoint 1 1 [] [] (fun _ _ _ _ _ => n0).

Example C92_example : pad_mesh [2]%Z = Ok (V3 2 1 1) /\ pad_mesh [1]%Z = Ok (V3 1 1 1) /\ positive (V3 2 1 1) /\ positive (V3 1 1 1) /\
  on_mesh (V3 2 1 1) (V3 1 0 0) /\ on_mesh (V3 1 1 1) vzero /\ (line_len vzero 0 0 == 0)%Q /\ (forall R m n, 0 <= line_len R m n)%Q /\
  exists s' d', q2r None true true (fun _ => 4%R) [2]%Z [1]%Z (fun q x k m n => RtoC (IZR (vx q) + INR x)) (Some (line_len, line_len)) false 2 empty_model = Ok (s', Some d') /\
    lattice_sum s' (phase (mesh_point (V3 2 1 1) (V3 1 0 0))) (phase (mesh_point (V3 1 1 1) vzero)) 2 0 0 = RtoC (3 / 2) /\
    length (Rk _ s') = 1 /\ gqn _ empty_model = 0.
Proof.
  assert (P1 : positive (V3 2 1 1)) by (unfold positive; cbn; lia). assert (P2 : positive (V3 1 1 1)) by (unfold positive; cbn; lia).
  assert (M1 : on_mesh (V3 2 1 1) (V3 1 0 0)) by (unfold on_mesh; cbn; lia). assert (M2 : on_mesh (V3 1 1 1) vzero) by (unfold on_mesh; cbn; lia).
  split; [reflexivity|]. split; [reflexivity|]. split; [exact P1|]. split; [exact P2|]. split; [exact M1|]. split; [exact M2|]. split; [reflexivity|]. split.
  { intros R m n. unfold line_len. assert (forall x, 0 <= Qabs x)%Q by apply Qabs_nonneg. apply (Qle_trans _ (0 + 0 + 0)); [discriminate|]. repeat apply Qplus_le_compat; apply H. }
  set (g := fun (q : vec) (x : nat) (_ : vec) (_ _ : nat) => RtoC (IZR (vx q) + INR x) : C).
  destruct (q2r_values None true (fun _ => 4%R) [2]%Z [1]%Z (V3 2 1 1) (V3 1 1 1) g line_len line_len false 2 empty_model eq_refl eq_refl P1 P2 ltac:(lia))
    as (wg & wk & s' & Eg & Ewk & E & N1 & N2 & ERg & ERk & ED & _).
  exists s', (wigner_deg (nel _ empty_model) (natoms _ empty_model) wg wk). split; [exact E|]. split; [|split; [|reflexivity]].
  - destruct (C92_reproduces None true (fun _ => 4%R) [2]%Z [1]%Z (V3 2 1 1) (V3 1 1 1) g line_len line_len false 2 empty_model eq_refl eq_refl P1 P2 ltac:(lia)) as (s1 & d1 & E1 & _ & _ & G).
    rewrite E in E1. injection E1 as <- _. rewrite G by (try assumption; cbn; lia). unfold g. cbn [unit_of_mass vx]. replace 4%R with (2 * 2)%R by ring. rewrite sqrt_square by lra.
    cbn. apply f_equal2; lra.
  - rewrite ERk, map_length. assert (W : wigner (V3 1 1 1) 1 2 1 1 line_len (1 # 10000000) 2 = Ok wk) by exact Ewk.
    assert (L : match wigner (V3 1 1 1) 1 2 1 1 line_len (1 # 10000000) 2 with Ok w => length w = 1 | Raise _ => False end) by (vm_compute; reflexivity).
    rewrite W in L. exact L.
Qed.

(** Without division by degeneracies upon construction, the data still has to be divided. *)
Theorem C92_undivided d mm mass nqs nks nq nk g len_g len_k dm nproc (s : @elph C kpoint) :
  pad_mesh nqs = Ok nq -> pad_mesh nks = Ok nk -> positive nq -> positive nk -> 0 < nproc ->
  exists s' s'' d', q2r d true mm mass nqs nks g (Some (len_g, len_k)) dm nproc s = Ok (s', Some d') /\
    q2r d false mm mass nqs nks g (Some (len_g, len_k)) dm nproc s = Ok (s'', Some d') /\ Rg _ s'' = Rg _ s' /\ Rk _ s'' = Rk _ s' /\
    forall i x j m n, x < nph _ s -> m < nel _ s -> n < nel _ s -> i < length (Rg _ s') -> j < length (Rk _ s') ->
      data _ s' i x j m n = over (over (data _ s'' i x j m n) (dk d' n m j)) (dg d' 0 m (x / 3) i).
Proof.
  intros Eq Ek Hq Hk Hp. destruct (q2r_values d mm mass nqs nks nq nk g len_g len_k dm nproc s Eq Ek Hq Hk Hp) as (wg & wk & s' & Eg & Ewk & E & N1 & N2 & ERg & ERk & ED & _).
  assert (E2 : exists s'', q2r d false mm mass nqs nks g (Some (len_g, len_k)) dm nproc s = Ok (s'', Some (wigner_deg (nel _ s) (natoms _ s) wg wk)) /\ Rg _ s'' = map fst wg /\ Rk _ s'' = map fst wk /\
    forall i x j m n, data _ s'' i x j m n = nmul (to_both_lattices nq nk g x m n (mesh_index nq 1 (nth i (map fst wg) vzero)) (mesh_index nk 1 (nth j (map fst wk) vzero))) (RtoC (unit_of_mass dm mm (mass (x / 3))))).
  { unfold q2r. rewrite Eq, Ek. cbn [bind]. rewrite Eg, Ewk. cbn [bind]. eexists. split; [reflexivity|]. cbn [Rg Rk data]. split; [reflexivity|]. split; [reflexivity|]. intros i x j m n.
    destruct dm, mm; cbn [andb negb unit_of_mass]; try reflexivity; change (RtoC 1) with (@n1 C); ring. }
  destruct E2 as (s'' & E2 & G2 & K2 & D2). exists s', s'', (wigner_deg (nel _ s) (natoms _ s) wg wk). split; [exact E|]. split; [exact E2|]. rewrite ERg, ERk. split; [exact G2|]. split; [exact K2|].
  intros i x j m n Hx Hm Hn _ _. rewrite ED, D2. unfold q2r_data, divide_dg, divide_dk. cbn [dk_0 dk_1 dg_0 dg_1 dg_2 wigner_deg].
  assert (A : (if 1 <? nel _ s then m else 0) = m) by (destruct (Nat.ltb_spec 1 (nel _ s)); [reflexivity|lia]). assert (B : (if 1 <? nel _ s then n else 0) = n) by (destruct (Nat.ltb_spec 1 (nel _ s)); [reflexivity|lia]).
  assert (X : (if 1 <? natoms _ s then x / 3 else 0) = x / 3). { destruct (Nat.ltb_spec 1 (natoms _ s)) as [|L]; [reflexivity|]. unfold nph in Hx. symmetry. apply Nat.div_small. lia. }
  rewrite A, B, X. change (1 <? 1) with false. cbn match. generalize (dk (wigner_deg (nel _ s) (natoms _ s) wg wk) n m j) (dg (wigner_deg (nel _ s) (natoms _ s) wg wk) 0 m (x / 3) i). intros a b.
  unfold over. match goal with |- context [to_both_lattices ?a ?b ?c ?d ?e ?f ?g ?h] => generalize (to_both_lattices a b c d e f g h) end. intros z.
  unfold Cdivn. destruct (a =? 0), (b =? 0); ring.
Qed.
Print Assumptions C92_undivided.
