(** C101: updates of the short-range part of a mass-spring model. *)
From Coq Require Import Reals Lra Lia FunctionalExtensionality.
From Verif Require Import Common CommonProofs LatModel LatProofs VorModel Num NumProofs NumC ElModel WSModel WSSpec WSProofs WSProofs2 KrModel KrProofs
  PhModel PhProofs PhProofs2 PhLRModel PhLRProofs PhUpdModel PhUpdProofs.
Local Open Scope nat_scope.

Add Ring Cring7 : (@n_ring C).

(** A mass-spring model with real force constants and positive masses, and a mesh
    of [nq] points. *)
Definition proper (s : ph) (nq : vec) : Prop :=
  pad_mesh (mesh_ s) = Ok nq /\ (0 < vx nq /\ 0 < vy nq /\ 0 < vz nq)%Z /\ 0 < atoms s /\ (forall na, (0 < mass s na)%R) /\
  (forall x a b, In x (data s) -> nconj (snd x a b) = snd x a b).

(** How the long-range terms differ between the equivalent points q and q - G. *)
Definition difference (p : option polar) (q G : kpoint) (a b : nat) : C :=
  nsub (long_range p q a b) (long_range p (NumC.kadd q (NumC.kopp G)) a b).

Lemma history_last nproc ps : forall p s s', history nproc (ps ++ [p]) s = Ok s' ->
  exists s0, history nproc ps s = Ok s0 /\ update_short_range false nproc (change p s0) = Ok s'.
Proof.
  induction ps as [|p0 ps IH]; intros p s s'; cbn [app history].
  - destruct (update_short_range false nproc (change p s)) as [x|] eqn:E; cbn [bind]; [|discriminate]. intros [= <-]. exists s. auto.
  - destruct (update_short_range false nproc (change p0 s)) as [x|] eqn:E; cbn [bind]; [|discriminate]. apply IH.
Qed.

Lemma history_app nproc ps : forall qs s, history nproc (ps ++ qs) s = (do s' <- history nproc ps s ;; history nproc qs s').
Proof.
  induction ps as [|p ps IH]; intros qs s; cbn [app history bind]; [reflexivity|].
  destruct (update_short_range false nproc (change p s)) as [x|]; cbn [bind]; [apply IH|reflexivity].
Qed.

Section History.
  Variables (s : ph) (nq : vec) (nproc : nat).
  Hypothesis H : proper s nq.
  Hypothesis Hp : 0 < nproc.

  Let s0 := Ph (atoms s) (mass s) (divided s) (mesh_ s) (len s) (data s) (polar_ s) (Some (sample (D s) nq)).

  Lemma after_sample : sample_orig s = Ok s0.
  Proof. apply sample_orig_ok. apply H. Qed.

  (** All histories lead to states that agree but for the data. *)
  Lemma history_ok ps : exists s', history nproc ps s0 = Ok s' /\
    atoms s' = atoms s /\ mass s' = mass s /\ divided s' = divided s /\ mesh_ s' = mesh_ s /\ len s' = len s /\ D0 s' = Some (sample (D s) nq).
  Proof.
    induction ps as [|p ps IH] using rev_ind.
    - exists s0. cbn [history]. repeat split; reflexivity.
    - destruct IH as (s1 & E & A1 & A2 & A3 & A4 & A5 & A6). rewrite history_app, E. cbn [bind history].
      destruct H as (Hs & Hm & Ho & HM & _).
      destruct (update_ok s nq nproc Hs Hm Ho Hp HM (sample (D s) nq) p) as (s2 & E2 & B1 & B2 & B3 & B4 & B5 & B6 & B7 & _).
      exists s2. replace (update_short_range false nproc (change p s1)) with (Ok s2); [cbn [bind]; auto 10|].
      rewrite <- E2, (update_data false nproc (change p s1) (data s)). unfold change. cbn [atoms mass divided mesh_ len polar_ D0]. rewrite A1, A2, A3, A4, A5, A6. reflexivity.
  Qed.
End History.

(** C101. After [sample_orig], the charges, quadrupoles, dielectric constant, range
    separation etc. may be changed as often as one likes. Whenever the short-range
    part has been updated, the dynamical matrix on the original mesh is the
    original one, up to half the change of the difference of the long-range terms
    at equivalent points... *)
Theorem C101_preserved_partial : forall s nq nproc ps p, proper s nq -> 0 < nproc ->
  exists s0 s', sample_orig s = Ok s0 /\ history nproc (ps ++ [p]) s0 = Ok s' /\ polar_ s' = p /\
  forall n a b, on_mesh nq n -> a < atoms s * 3 -> b < atoms s * 3 ->
    let q := mesh_point nq n in
    let G := krec (V3 (if vx n =? 0 then 0 else 1) (if vy n =? 0 then 0 else 1) (if vz n =? 0 then 0 else 1))%Z in
    D s' q a b = nadd (D s q a b) (nmul (RtoC (/ 2)) (nsub (difference p q G a b) (difference (polar_ s) q G a b))).
Proof.
  intros s nq nproc ps p H Hp. pose proof H as (Hs & Hm & Ho & HM & Hr).
  destruct (history_ok s nq nproc H Hp ps) as (s1 & E & A1 & A2 & A3 & A4 & A5 & A6).
  destruct (update_ok s nq nproc Hs Hm Ho Hp HM (sample (D s) nq) p) as (s2 & E2 & _ & _ & _ & _ & _ & B6 & _ & G).
  eexists. exists s2. split; [apply (after_sample s nq H)|]. split; [|split; [exact B6|]].
  - rewrite history_app, E. cbn [bind history]. replace (update_short_range false nproc (change p s1)) with (Ok s2); [reflexivity|].
    rewrite <- E2, (update_data false nproc (change p s1) (data s)). unfold change. cbn [atoms mass divided mesh_ len polar_ D0]. rewrite A1, A2, A3, A4, A5, A6. reflexivity.
  - intros n a b Hn Ha Hb q G0. unfold q. rewrite G by assumption. rewrite (sample_symmetric s nq n a b Hm Hn Hr). unfold mismatch, difference.
    change (krec (wrap n)) with G0. fold half. ring.
Qed.
Print Assumptions C101_preserved_partial.

(** ... which is none if the long-range terms are periodic, as they are when all
    relevant reciprocal lattice vectors are considered... *)
Theorem C101_periodic : forall s nq nproc ps p, proper s nq -> 0 < nproc ->
  (forall q g a b, long_range p (NumC.kadd q (krec g)) a b = long_range p q a b) ->
  (forall q g a b, long_range (polar_ s) (NumC.kadd q (krec g)) a b = long_range (polar_ s) q a b) ->
  exists s0 s', sample_orig s = Ok s0 /\ history nproc (ps ++ [p]) s0 = Ok s' /\
  forall n a b, on_mesh nq n -> a < atoms s * 3 -> b < atoms s * 3 -> D s' (mesh_point nq n) a b = D s (mesh_point nq n) a b.
Proof.
  intros s nq nproc ps p H Hp P1 P2. destruct (C101_preserved_partial s nq nproc ps p H Hp) as (s0 & s' & E1 & E2 & _ & G).
  exists s0, s'. split; [exact E1|]. split; [exact E2|]. intros n a b Hn Ha Hb. rewrite G by assumption. cbv zeta.
  assert (Q : forall q g, NumC.kadd q (NumC.kopp (krec g)) = NumC.kadd q (krec (vopp g))).
  { intros q g. unfold NumC.kadd, NumC.kopp, krec, vopp. cbn [kx ky kz vx vy vz]. rewrite !opp_IZR. f_equal; ring. }
  unfold difference. rewrite !Q, P1, P2. ring.
Qed.
Print Assumptions C101_periodic.

(** ... and in any case at the centre of the Brillouin zone. *)
Theorem C101_gamma : forall s nq nproc ps p, proper s nq -> 0 < nproc ->
  exists s0 s', sample_orig s = Ok s0 /\ history nproc (ps ++ [p]) s0 = Ok s' /\
  forall a b, a < atoms s * 3 -> b < atoms s * 3 -> D s' (K3 0 0 0) a b = D s (K3 0 0 0) a b.
Proof.
  intros s nq nproc ps p H Hp. destruct (C101_preserved_partial s nq nproc ps p H Hp) as (s0 & s' & E1 & E2 & _ & G).
  exists s0, s'. split; [exact E1|]. split; [exact E2|]. intros a b Ha Hb. destruct H as (_ & Hm & _).
  assert (Z : mesh_point nq vzero = K3 0 0 0) by (unfold mesh_point, vzero; cbn [vx vy vz]; unfold Rdiv; f_equal; ring).
  specialize (G vzero a b ltac:(unfold on_mesh, vzero; cbn [vx vy vz]; lia) Ha Hb). rewrite Z in G. rewrite G. cbv zeta. cbn [vx vy vz vzero Z.eqb].
  assert (Z' : NumC.kadd (K3 0 0 0) (NumC.kopp (krec (V3 0 0 0))) = K3 0 0 0) by (unfold NumC.kadd, NumC.kopp, krec; cbn [kx ky kz vx vy vz]; f_equal; ring).
  unfold difference. rewrite Z'. ring.
Qed.
Print Assumptions C101_gamma.

(** Only the last change matters. *)
Theorem C101_history : forall s nq nproc ps p, proper s nq -> 0 < nproc ->
  exists s0 s', sample_orig s = Ok s0 /\ history nproc (ps ++ [p]) s0 = Ok s' /\ history nproc [p] s0 = Ok s'.
Proof.
  intros s nq nproc ps p H Hp.
  destruct (history_ok s nq nproc H Hp ps) as (s1 & E & A1 & A2 & A3 & A4 & A5 & A6).
  destruct (history_ok s nq nproc H Hp [p]) as (s2 & E2 & _). cbn [history] in E2.
  eexists. exists s2. split; [apply (after_sample s nq H)|]. split; [|exact E2].
  rewrite history_app, E. cbn [bind history]. rewrite <- E2, (update_data false nproc (change p s1) (data s)).
  unfold change. cbn [atoms mass divided mesh_ len data polar_ D0]. rewrite A1, A2, A3, A4, A5, A6. reflexivity.
Qed.
Print Assumptions C101_history.

(** The original matrices must have been sampled before. *)
Theorem C101_order : forall s asr nproc, D0 s = None -> update_short_range asr nproc s = Raise SystemExit.
Proof. intros s asr nproc E. unfold update_short_range. rewrite E. reflexivity. Qed.
Print Assumptions C101_order.

(** With the simple acoustic sum rule, the updated model gives no force for rigid
    translations, including the long-range terms. *)
Theorem C101_acoustic : forall s nq nproc D0', proper s nq -> 0 < nproc -> D0 s = Some D0' ->
  (forall p, polar_ s = Some p -> nat_ p = atoms s /\ M_ p = mass s /\ divide_mass p = divided s) ->
  exists s', update_short_range true nproc s = Ok s' /\
  forall i x y, i < atoms s -> x < 3 -> y < 3 ->
    nsum (fun j => nmul (D s' (K3 0 0 0) (i * 3 + x) (j * 3 + y)) (RtoC (if divided s then sqrt (mass s j) else 1%R))) (seq 0 (atoms s)) = n0.
Proof.
  intros s nq nproc D0' (Hs & Hm & Ho & HM & _) Hp E0 HP. unfold update_short_range. rewrite E0, Hs. cbn [bind].
  set (D' := match polar_ s with Some p => _ | None => D0' end). unfold ph_q2r. rewrite Hs. cbn [bind]. unfold q2r_phid.
  set (phid := if divided s then _ else _). destruct (asr_sum (atoms s) nq phid Hm) as (q & Eq & _). rewrite Eq. cbn [bind].
  destruct (asr_translation (atoms s) nq (mass s) phid q (len s) (divided s) nproc Hm Hp Ho HM Eq) as (d & Ed & G). rewrite Ed. cbn [bind].
  eexists. split; [reflexivity|]. intros i x y Hi Hx Hy.
  rewrite (nsum_ext _ (fun j => nadd (nmul (D_sum (fun _ => n1) d (i * 3 + x) (j * 3 + y)) (RtoC (if divided s then sqrt (mass s j) else 1%R)))
    (nmul (long_range (polar_ s) (K3 0 0 0) (i * 3 + x) (j * 3 + y)) (RtoC (if divided s then sqrt (mass s j) else 1%R))))).
  - rewrite nsum_add, G by assumption. destruct (polar_ s) as [p|]; cbn [long_range].
    + destruct (HP p eq_refl) as (N & EM & Ed'). 
      rewrite (nsum_ext _ (fun j => nmul (D_lr p (K3 0 0 0) i x j y) (RtoC (if divide_mass p then sqrt (M_ p j) else 1%R)))).
      2: { intros j _. destruct (div3 i x Hx) as [-> ->], (div3 j y Hy) as [-> ->]. rewrite EM, Ed'. reflexivity. }
      rewrite <- N. pose proof (D_lr_acoustic p ltac:(rewrite EM; exact HM) i x y ltac:(rewrite N; exact Hi)) as A. unfold PhLRProofs.mass in A. rewrite A. ring.
    + rewrite (nsum_ext _ (fun _ => n0)) by (intros; ring). rewrite nsum_0. ring.
  - intros j _. rewrite D_eq. cbn [data polar_]. replace (D_sum (phase (K3 0 0 0)) d (i * 3 + x) (j * 3 + y)) with (D_sum (fun _ => n1) d (i * 3 + x) (j * 3 + y)); [ring|].
    unfold D_sum. apply nsum_ext. intros z _. f_equal. unfold phase, kdot. cbn [kx ky kz]. replace (_ + _ + _)%R with 0%R by ring. symmetry. apply expi_0.
Qed.
Print Assumptions C101_acoustic.

(** The exact preservation is refuted: a cubic crystal of one atom (lattice
    constant 1) with charge 1 and so smooth a range separation ([alpha] = 0.01)
    that only G = 0 is considered. *)
Definition unit_matrix (i j : nat) : R := if i =? j then 1%R else 0%R.
Definition cubic : polar := Polar 1 unit_matrix unit_matrix (fun _ _ => 0%R) (8 * PI) (4 * / 100 * (2 * PI) ^ 2) 14 (V3 1 1 1) false None true
  (fun _ _ => 0%R) (fun _ => unit_matrix) None (fun _ => 1%R) false.
Definition crystal : ph := Ph 1 (fun _ => 1%R) false [3]%Z (fun _ _ _ => 1%Q) [(vzero, fun a b => if a =? b then n1 else n0)] None None.

Lemma crystal_proper : proper crystal (V3 3 1 1).
Proof.
  split; [reflexivity|]. split; [cbn; lia|]. split; [cbn; lia|]. split; [intros; cbn; lra|].
  intros x a b [<-|[]]. cbn [snd]. destruct (a =? b); cbn; apply f_equal2; ring.
Qed.

Lemma filter_of_map {A B} (f : B -> bool) (g : A -> B) l : filter f (map g l) = map g (filter (fun x => f (g x)) l).
Proof. induction l as [|x l IH]; cbn; [reflexivity|]. rewrite IH. destruct (f (g x)); reflexivity. Qed.

Lemma quadratic_cubic K : quadratic cubic K = (K 0%nat ^ 2 + K 1%nat ^ 2 + K 2%nat ^ 2)%R.
Proof. unfold quadratic, sum3, cubic, unit_matrix. cbn [lr2d eps_ Nat.eqb]. ring. Qed.

Lemma Gs_cubic : Gs cubic = [Gvec cubic vzero].
Proof.
  unfold Gs. rewrite filter_of_map.
  rewrite (filter_ext _ (fun m => veqb m vzero)); [reflexivity|]. intros m. rewrite quadratic_cubic.
  unfold Gvec. cbn [b_ scale G_max cubic]. unfold unit_matrix. cbn [Nat.eqb].
  pose proof PI_RGT_0 as HPI. assert (T : (0 < (2 * PI) ^ 2)%R) by (apply pow_lt; lra).
  destruct (Rlt_dec _ _) as [L|L].
  - symmetry. apply veqb_eq. assert (S : (IZR (vx m) ^ 2 + IZR (vy m) ^ 2 + IZR (vz m) ^ 2 < 1)%R).
    { apply (Rmult_lt_reg_l ((2 * PI) ^ 2)); [exact T|]. eapply Rle_lt_trans; [|eapply Rlt_le_trans; [exact L|]]; [right; ring|].
      nra. }
    assert (Q : forall z, (IZR z ^ 2 = IZR (z * z))%R) by (intros; rewrite mult_IZR; ring). rewrite !Q in S. rewrite <- !plus_IZR in S. apply lt_IZR in S.
    apply vec_ext; cbn [vzero vx vy vz]; nia.
  - symmetry. destruct (veqb m vzero) eqn:E; [|reflexivity]. apply veqb_eq in E. subst m. exfalso. apply L. cbn [vzero vx vy vz].
    apply Rle_lt_trans with 0%R; [right; ring|]. nra.
Qed.

Lemma cubic_xx x : (/ 100 < x ^ 2)%R -> long_range (Some cubic) (K3 x 0 0) 0 0 = RtoC (8 * PI * exp (- x ^ 2 / (4 * / 100 * (2 * PI) ^ 2))).
Proof.
  intros Hx. cbn [long_range]. change (0 / 3) with 0. change (0 mod 3) with 0.
  assert (KG : shift cubic (K3 0 0 0) (Gvec cubic vzero) = fun _ => 0%R).
  { apply functional_extensionality. intros i. unfold shift, Gvec. cbn [kx ky kz vzero vx vy vz]. ring. }
  assert (KX : shift cubic (K3 x 0 0) (Gvec cubic vzero) = fun i => if i =? 0 then x else 0%R).
  { apply functional_extensionality. intros i. unfold shift, Gvec. cbn [kx ky kz vzero vx vy vz b_ cubic]. unfold unit_matrix. rewrite Nat.eqb_sym. destruct (i =? 0); ring. }
  assert (E0 : Ks cubic (K3 0 0 0) tol = []).
  { unfold Ks. rewrite Gs_cubic. cbn [map filter]. rewrite KG, quadratic_cubic. destruct (Rlt_dec _ _) as [L|L]; [|reflexivity]. exfalso. unfold tol in L. lra. }
  assert (E1 : Ks cubic (K3 x 0 0) tol = [fun i => if i =? 0 then x else 0%R]).
  { unfold Ks. rewrite Gs_cubic. cbn [map filter]. rewrite KX, quadratic_cubic. destruct (Rlt_dec _ _) as [L|L]; [reflexivity|]. exfalso. apply L. cbn [Nat.eqb]. unfold tol. lra. }
  unfold D_lr, D0_lr. cbn [Nat.eqb divide_mass cubic nat_ seq]. unfold generate_long_range. rewrite E0, E1. cbn [lr2d cubic map app].
  unfold einsum_lr, nsum. cbn [fold_right fst snd map]. unfold factor. cbn [lr2d cubic prefactor scale]. rewrite quadratic_cubic. cbn [Nat.eqb].
  unfold vector, expKr, sum3, z_, q_. cbn [quad cubic lr2d len_L pos_ Z_ divide_mass]. unfold unit_matrix. cbn [Nat.eqb].
  replace (- (x * 0 + 0 * 0 + 0 * 0))%R with 0%R by ring. rewrite expi_0.
  replace (x ^ 2 + 0 ^ 2 + 0 ^ 2)%R with (x ^ 2)%R by ring.
  assert (x <> 0)%R by (intros ->; lra).
  cbn. apply f_equal2; [field|field]; assumption || idtac.
Qed.

Theorem C101_preserved_refuted : exists s nq p, proper s nq /\ forall nproc, 0 < nproc ->
  exists s0 s' n a b, sample_orig s = Ok s0 /\ history nproc [p] s0 = Ok s' /\ on_mesh nq n /\ a < atoms s * 3 /\ b < atoms s * 3 /\
    D s' (mesh_point nq n) a b <> D s (mesh_point nq n) a b.
Proof.
  exists crystal, (V3 3 1 1), (Some cubic). split; [exact crystal_proper|]. intros nproc Hp.
  destruct (C101_preserved_partial crystal (V3 3 1 1) nproc [] (Some cubic) crystal_proper Hp) as (s0 & s' & E1 & E2 & _ & G).
  exists s0, s', (V3 1 0 0), 0, 0. split; [exact E1|]. split; [exact E2|].
  assert (Hn : on_mesh (V3 3 1 1) (V3 1 0 0)) by (unfold on_mesh; cbn; lia). split; [exact Hn|]. split; [cbn; lia|]. split; [cbn; lia|].
  rewrite (G _ 0 0 Hn ltac:(cbn; lia) ltac:(cbn; lia)). cbv zeta. cbn [vx vy vz Z.eqb].
  pose proof PI_RGT_0 as HPI.
  assert (X1 : mesh_point (V3 3 1 1) (V3 1 0 0) = K3 (2 * PI / 3) 0 0) by (unfold mesh_point; cbn [vx vy vz]; f_equal; field).
  assert (X2 : NumC.kadd (K3 (2 * PI / 3) 0 0) (NumC.kopp (krec (V3 1 0 0))) = K3 (- (4 * PI / 3)) 0 0)
    by (unfold NumC.kadd, NumC.kopp, krec; cbn [kx ky kz vx vy vz]; f_equal; field).
  change (Z.eqb 1 0) with false. change (Z.eqb 0 0) with true. cbv iota. unfold difference. rewrite X1, X2. cbn [polar_ crystal]. change (long_range None) with (fun (q : kpoint) (a b : nat) => @n0 C). cbv beta.
  assert (P2 : (1 <= PI ^ 2)%R) by (pose proof PI2_1 as P; unfold PI2 in P; nra).
  rewrite !cubic_xx by nra. 
  set (u := (- (2 * PI / 3) ^ 2 / (4 * / 100 * (2 * PI) ^ 2))%R). set (v := (- (- (4 * PI / 3)) ^ 2 / (4 * / 100 * (2 * PI) ^ 2))%R).
  intros E. apply (f_equal fst) in E. cbn in E.
  assert (L : (v < u)%R).
  { assert (PI <> 0)%R by lra. replace u with (- (25 / 9))%R by (unfold u; field; assumption). replace v with (- (100 / 9))%R by (unfold v; field; assumption). lra. }
  apply exp_increasing in L. assert ((exp u - exp v) * PI = 0)%R by lra. nra.
Qed.
Print Assumptions C101_preserved_refuted.

(** The cost function for range separation: the sum of the absolute values of all
    undivided force constants between different atoms or different cells, per
    pair and mesh point. *)
Definition pair_sum (n : nat) (phi : list (vec * (nat -> nat -> C))) : R :=
  fold_right Rplus 0%R (map (fun x => fold_right Rplus 0%R (map (fun ab =>
    let '(a, b) := ab in if vec_eq_dec (fst x) (V3 0 0 0) then if Nat.eq_dec (a / 3) (b / 3) then 0%R else sqrt (Re (snd x a b) ^ 2 + Im (snd x a b) ^ 2)
    else sqrt (Re (snd x a b) ^ 2 + Im (snd x a b) ^ 2))%R (list_prod (seq 0 (n * 3)) (seq 0 (n * 3))))) phi).

Definition Lsum {A} (f : A -> R) (l : list A) : R := fold_right Rplus 0%R (map f l).

Lemma Rsum_L f n : Rsum f n = Lsum f (seq 0 n).
Proof. reflexivity. Qed.

Lemma Lsum_app {A} (f : A -> R) l l' : Lsum f (l ++ l') = (Lsum f l + Lsum f l')%R.
Proof. unfold Lsum. induction l as [|x l IH]; cbn [app map fold_right]; lra. Qed.

Lemma Lsum_ext {A} (f g : A -> R) l : (forall x, In x l -> f x = g x) -> Lsum f l = Lsum g l.
Proof. unfold Lsum. induction l as [|x l IH]; intros H; cbn [map fold_right]; [reflexivity|]. rewrite H, IH; [reflexivity| |left; reflexivity]. intros; apply H; right; assumption. Qed.

Lemma Lsum_add {A} (f g : A -> R) l : Lsum (fun x => f x + g x)%R l = (Lsum f l + Lsum g l)%R.
Proof. unfold Lsum. induction l as [|x l IH]; cbn [map fold_right]; lra. Qed.

Lemma Lsum_mul {A} (f : A -> R) c l : Lsum (fun x => c * f x)%R l = (c * Lsum f l)%R.
Proof. unfold Lsum. induction l as [|x l IH]; cbn [map fold_right]; lra. Qed.

Lemma Lsum_0 {A} (l : list A) : Lsum (fun _ => 0%R) l = 0%R.
Proof. unfold Lsum. induction l as [|x l IH]; cbn [map fold_right]; lra. Qed.

Lemma Lsum_swap {A B} (f : A -> B -> R) l l' : Lsum (fun x => Lsum (f x) l') l = Lsum (fun y => Lsum (fun x => f x y) l) l'.
Proof.
  induction l as [|x l IH]; cbn [map fold_right].
  - symmetry. apply (Lsum_0 l').
  - change (Lsum (fun x0 => Lsum (f x0) l') (x :: l)) with (Lsum (f x) l' + Lsum (fun x0 => Lsum (f x0) l') l)%R. rewrite IH, <- Lsum_add. reflexivity.
Qed.

Lemma Lsum_prod {A B} (f : A -> B -> R) l l' : Lsum (fun ab => f (fst ab) (snd ab)) (list_prod l l') = Lsum (fun a => Lsum (f a) l') l.
Proof.
  induction l as [|x l IH]; [reflexivity|]. cbn [list_prod]. rewrite Lsum_app, IH. unfold Lsum at 1. rewrite map_map. reflexivity.
Qed.

Lemma seq_blocks n : seq 0 (n * 3) = flat_map (fun i => [i * 3; i * 3 + 1; i * 3 + 2]) (seq 0 n).
Proof.
  induction n as [|n IH]; [reflexivity|]. rewrite seq_S, flat_map_app, <- IH. cbn [Nat.add flat_map app]. replace (S n * 3) with (n * 3 + 3) by lia.
  rewrite seq_app. f_equal. cbn [seq Nat.add]. repeat (f_equal; try lia).
Qed.

Lemma Lsum_blocks (f : nat -> R) n : Lsum f (seq 0 (n * 3)) = Lsum (fun i => Rsum (fun x => f (i * 3 + x)) 3) (seq 0 n).
Proof.
  rewrite seq_blocks. induction (seq 0 n) as [|i l IH]; [reflexivity|]. cbn [flat_map]. rewrite Lsum_app, IH. 
  unfold Lsum, Rsum. cbn [map fold_right seq]. rewrite Nat.add_0_r. lra.
Qed.

Lemma scale_by_mass_spec n M cost i j : i < n -> j < n -> scale_by_mass n M cost i j = (cost i j * sqrt (M i) * sqrt (M j))%R.
Proof.
  intros Hi Hj. unfold scale_by_mass.
  assert (G : forall l c, NoDup l -> fold_left (fun (cost : nat -> nat -> R) na =>
    let cost := fun i j => if i =? na then (cost i j * sqrt (M na))%R else cost i j in
    fun i j => if j =? na then (cost i j * sqrt (M na))%R else cost i j) l c i j =
    (c i j * (if existsb (Nat.eqb i) l then sqrt (M i) else 1) * (if existsb (Nat.eqb j) l then sqrt (M j) else 1))%R).
  { induction l as [|na l IH]; intros c Hnd; cbn [fold_left existsb]; [ring|]. inversion Hnd as [|? ? N1 N2]; subst. rewrite (IH _ N2). cbv zeta.
    assert (Hno : forall k, existsb (Nat.eqb k) l = true -> k <> na).
    { intros k E ->. apply existsb_exists in E as (y & Hy & E). apply Nat.eqb_eq in E. subst. contradiction. }
    destruct (existsb (Nat.eqb i) l) eqn:Ei, (existsb (Nat.eqb j) l) eqn:Ej;
      try (apply Hno in Ei); try (apply Hno in Ej);
      destruct (Nat.eqb_spec i na) as [E1|E1], (Nat.eqb_spec j na) as [E2|E2]; cbn [orb]; try contradiction; rewrite ?E1, ?E2; ring. }
  rewrite G by apply seq_NoDup. rewrite !existsb_seq by assumption. ring.
Qed.

Lemma cabs_scale (z : C) c : (0 <= c)%R -> cabs (nmul z (RtoC c)) = (c * cabs z)%R.
Proof.
  intros Hc. unfold cabs, norm2. destruct z as [x y]. cbn. replace (_ + _)%R with (c ^ 2 * (x * (x * 1) + y * (y * 1)))%R by ring.
  rewrite sqrt_mult_alt by (apply pow2_ge_0). rewrite sqrt_pow2 by exact Hc. reflexivity.
Qed.

Theorem C101_cost : forall s nq phi, pad_mesh (mesh_ s) = Ok nq -> (forall na, (0 < mass s na)%R) -> NoDup (map fst phi) ->
  data s = (if divided s then map (fun x => (fst x, divide_by_mass (atoms s) (mass s) (snd x))) phi else phi) ->
  sum_force_constants s = Ok (pair_sum (atoms s) phi / (2 * IZR (vx nq * vy nq * vz nq)))%R.
Proof.
  intros s nq phi Hs HM Hnd Hd. unfold sum_force_constants. rewrite Hs. cbn [bind]. do 2 f_equal.
  set (n := atoms s).
  (* without masses *)
  assert (B : forall d i j, i < n -> j < n -> block_sum (divide_by_mass n (mass s) d) i j = (/ sqrt (mass s i) * / sqrt (mass s j) * block_sum d i j)%R).
  { intros d i j Hi Hj. unfold block_sum. rewrite !Rsum_L, <- Lsum_mul. apply Lsum_ext. intros x Hx. apply in_seq in Hx.
    rewrite !Rsum_L, <- Lsum_mul. apply Lsum_ext. intros y Hy. apply in_seq in Hy.
    rewrite divide_by_mass_spec by lia. destruct (div3 i x ltac:(lia)) as [-> _], (div3 j y ltac:(lia)) as [-> _].
    pose proof (Rinv_0_lt_compat _ (sqrt_lt_R0 _ (HM i))). pose proof (Rinv_0_lt_compat _ (sqrt_lt_R0 _ (HM j))).
    rewrite <- cabs_scale by nra. reflexivity. }
  set (cost0 := fun i j => (Lsum (fun x => block_sum (snd x) i j) phi - (if i =? j then block_sum (home phi) i j else 0))%R).
  transitivity (Lsum (fun i => Lsum (cost0 i) (seq 0 n)) (seq 0 n)).
  - unfold Rsum. apply Lsum_ext. intros i Hi. apply Lsum_ext. intros j Hj. apply in_seq in Hi, Hj. rewrite Hd. destruct (divided s); [|reflexivity].
    rewrite scale_by_mass_spec by (unfold n in *; lia). unfold cost0. rewrite map_map. cbn [snd]. fold n.
    change (fold_right Rplus 0%R (map ?f phi)) with (Lsum f phi).
    rewrite (Lsum_ext (fun x => block_sum (divide_by_mass n (mass s) (snd x)) i j) (fun x => / sqrt (mass s i) * / sqrt (mass s j) * block_sum (snd x) i j)%R) by (intros; apply B; lia).
    rewrite Lsum_mul.
    assert (Hh : forall d, block_sum (home (map (fun x => (fst x, divide_by_mass n (mass s) (snd x))) d)) i j = (/ sqrt (mass s i) * / sqrt (mass s j) * block_sum (home d) i j)%R).
    { intros d. unfold home. induction d as [|x d IH]; cbn [map find fst snd].
      - unfold block_sum, cabs, norm2, Rsum. cbn. replace (0 * (0 * 1) + 0 * (0 * 1))%R with 0%R by ring. rewrite sqrt_0. ring.
      - destruct (veqb (fst x) vzero); [cbn [snd]; apply B; lia|apply IH]. }
    rewrite Hh. pose proof (sqrt_lt_R0 _ (HM i)). pose proof (sqrt_lt_R0 _ (HM j)). destruct (i =? j); field; lra.
  - unfold pair_sum. change (fold_right Rplus 0%R (map ?f phi)) with (Lsum f phi).
    rewrite (Lsum_ext _ (fun x => Lsum (fun i => Lsum (fun j => (if veqb (fst x) vzero && (i =? j) then 0 else block_sum (snd x) i j)%R) (seq 0 n)) (seq 0 n))).
    + rewrite (Lsum_swap _ phi). apply Lsum_ext. intros i _. rewrite (Lsum_swap _ phi). apply Lsum_ext. intros j _. unfold cost0.
      rewrite (Lsum_ext (fun x => if veqb (fst x) vzero && (i =? j) then 0%R else block_sum (snd x) i j)
        (fun x => block_sum (snd x) i j + (-1) * (if veqb (fst x) vzero && (i =? j) then block_sum (snd x) i j else 0))%R) by (intros; destruct (_ && _); ring).
      rewrite Lsum_add, Lsum_mul.
      replace (Lsum (fun x => if veqb (fst x) vzero && (i =? j) then block_sum (snd x) i j else 0%R) phi) with (if i =? j then block_sum (home phi) i j else 0%R); [ring|].
      destruct (i =? j); [|rewrite (Lsum_ext _ (fun _ => 0%R)) by (intros; rewrite Bool.andb_false_r; reflexivity); symmetry; apply Lsum_0].
      clear - Hnd. induction phi as [|x phi IH]; [unfold home, block_sum, cabs, norm2, Rsum, Lsum; cbn; replace (0 * (0 * 1) + 0 * (0 * 1))%R with 0%R by ring; rewrite sqrt_0; ring|].
      cbn [map] in Hnd. inversion Hnd as [|? ? N1 N2]; subst. specialize (IH N2). unfold Lsum in IH |- *. cbn [map fold_right]. unfold home. cbn [find].
      destruct (veqb (fst x) vzero) eqn:Ex; cbn [andb].
      * apply veqb_eq in Ex. replace (fold_right _ _ _) with 0%R; [ring|]. symmetry. change (fold_right Rplus 0%R (map ?f phi)) with (Lsum f phi).
        rewrite (Lsum_ext _ (fun _ => 0%R)); [apply Lsum_0|]. intros y Hy. destruct (veqb (fst y) vzero) eqn:Ey; [|reflexivity]. apply veqb_eq in Ey. exfalso. apply N1. exact (eq_ind (fst y) (fun v => In v (map fst phi)) (in_map fst phi y Hy) (fst x) (eq_trans Ey (eq_sym Ex))).
      * unfold home in IH. rewrite <- IH. ring.
    + intros x _. 
      change (fold_right Rplus 0%R (map ?f (list_prod ?l ?l'))) with (Lsum f (list_prod l l')).
      set (h := fun a b => if vec_eq_dec (fst x) (V3 0 0 0) then if Nat.eq_dec (a / 3) (b / 3) then 0%R else cabs (snd x a b) else cabs (snd x a b)).
      rewrite (Lsum_ext _ (fun ab => h (fst ab) (snd ab))) by (intros [a b] _; reflexivity).
      rewrite Lsum_prod, Lsum_blocks. apply Lsum_ext. intros i _.
      transitivity (Rsum (fun u => Lsum (fun j => Rsum (fun w => h (i * 3 + u) (j * 3 + w)) 3) (seq 0 n)) 3).
      { unfold Rsum. apply Lsum_ext. intros u _. apply Lsum_blocks. }
      unfold Rsum at 1. change (fold_right Rplus 0%R (map ?f (seq 0 3))) with (Lsum f (seq 0 3)). rewrite Lsum_swap. apply Lsum_ext. intros j _.
      unfold h, veqb. change vzero with (V3 0 0 0).
      assert (H3 : forall u w, In u (seq 0 3) -> In w (seq 0 3) -> (i * 3 + u) / 3 = i /\ (j * 3 + w) / 3 = j).
      { intros u w Hu Hw. apply in_seq in Hu, Hw. split; [apply (div3 i u)|apply (div3 j w)]; lia. }
      destruct (vec_eq_dec (fst x) (V3 0 0 0)) as [Ex|Ex]; cbn [andb]; [|reflexivity].
      destruct (Nat.eqb_spec i j) as [Ej|Ej].
      * rewrite (Lsum_ext _ (fun _ => 0%R)); [apply Lsum_0|]. intros u Hu. unfold Rsum. change (fold_right Rplus 0%R (map ?f (seq 0 3))) with (Lsum f (seq 0 3)).
        rewrite (Lsum_ext _ (fun _ => 0%R)); [apply Lsum_0|]. intros w Hw. destruct (H3 u w Hu Hw) as [-> ->]. destruct (Nat.eq_dec i j); [reflexivity|contradiction].
      * unfold block_sum, Rsum. apply Lsum_ext. intros u Hu. apply Lsum_ext. intros w Hw. destruct (H3 u w Hu Hw) as [-> ->]. destruct (Nat.eq_dec i j); [contradiction|reflexivity].
Qed.
Print Assumptions C101_cost.

Example C101_example : exists s0 s', sample_orig crystal = Ok s0 /\ history 2 [Some cubic; None] s0 = Ok s' /\
  D s' (mesh_point (V3 3 1 1) (V3 1 0 0)) 0 0 = n1.
Proof.
  destruct (C101_periodic crystal (V3 3 1 1) 2 [Some cubic] None crystal_proper ltac:(lia) ltac:(reflexivity) ltac:(reflexivity)) as (s0 & s' & E1 & E2 & G).
  exists s0, s'. split; [exact E1|]. split; [exact E2|]. rewrite G by (unfold on_mesh; cbn; lia).
  unfold D, D_sum, nsum. cbn [data polar_ crystal map fold_right fst snd Nat.eqb]. unfold phase, kdot, vzero. cbn [vx vy vz].
  replace (_ + _ + _)%R with 0%R by ring. rewrite expi_0. ring.
Qed.

Example C101_cost_example : exists x, sum_force_constants crystal = Ok x.
Proof.
  eexists. apply (C101_cost crystal (V3 3 1 1) (data crystal)); [reflexivity|intros; cbn; lra| |reflexivity].
  cbn. constructor; [intros []|constructor].
Qed.

Example C101_acoustic_example : exists s0 s', sample_orig crystal = Ok s0 /\ update_short_range true 2 (change (Some cubic) s0) = Ok s' /\
  D s' (K3 0 0 0) 0 0 = n0.
Proof.
  eexists. destruct (C101_acoustic (change (Some cubic) (Ph 1 (fun _ => 1%R) false [3]%Z (fun _ _ _ => 1%Q) (data crystal) None (Some (sample (D crystal) (V3 3 1 1)))))
    (V3 3 1 1) 2 (sample (D crystal) (V3 3 1 1)) crystal_proper ltac:(lia) eq_refl) as (s' & E & G).
  - intros p [= <-]. auto.
  - exists s'. split; [reflexivity|]. split; [exact E|]. specialize (G 0 0 0 ltac:(cbn; lia) ltac:(lia) ltac:(lia)). cbn [divided change atoms seq nsum map fold_right] in G.
    unfold nsum in G. cbn [map fold_right Nat.mul Nat.add] in G. rewrite <- G, RtoC_1. ring.
Qed.
