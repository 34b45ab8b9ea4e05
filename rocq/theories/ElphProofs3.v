(** Proofs about ElphModel.v: histories of calls and the acoustic sum rule. *)
From Coq Require Import Reals Lra.
From Verif Require Import Common CommonProofs MPIModel MPIProofs MiscModel MiscProofs LatModel LatSpec LatProofs Num NumProofs NumC ElModel ElSpec ElProofs ElphModel ElphSpec ElphProofs ElphProofs2.
Local Open Scope nat_scope.

Section History.
  Context {F : num} {P : Type}.
  Add Ring F_ring9 : (n_ring F).
  Variable peqb : P -> P -> bool.
  Hypothesis peqb_spec : forall p q, peqb p q = true <-> p = q.
  Variable padd : P -> P -> P.
  Variable e : P -> vec -> F.
  Hypothesis e_zero : forall p, e p vzero = n1.
  Variables Uel Uph : P -> @mat F.
  Variable lr : option (P -> nat -> F).
  Variable half : F -> F.
  Variables (absf : F -> F) (divf : F -> F -> F).
  Notation elph := (@elph F P).
  Notation run := (run P peqb padd e absf divf Uel Uph lr half).
  Notation g_call := (g_call P peqb padd e Uel Uph lr).
  Implicit Types s : elph.

  Definition sound s : Prop := well_formed s /\ forall r, valid e s lr r.

  Lemma same_valid s s' r : same_model s s' -> caches P s' r = caches P s r -> valid e s lr r -> valid e s' lr r.
  Proof using Type.
    clear. intros (_ & _ & M3 & _ & M5 & _ & M7) E V. unfold valid in *. rewrite E. destruct (caches P s r) as [[q gq]|]; [|exact Logic.I]. intros. rewrite V. unfold gq_spec. rewrite M5, M3, M7. reflexivity.
  Qed.

  Lemma refresh_sound s s' c q : sound s -> refresh P peqb e s lr c q = Ok s' -> sound s' /\ same_model s s'.
  Proof using peqb_spec e_zero padd.
    intros [W V] H. destruct (miss P peqb s c q) eqn:M; [|unfold refresh in H; rewrite M in H; injection H as <-; split; [split; assumption|repeat split]].
    assert (Hc : c <> []) by (intros ->; discriminate). assert (Hs : served s lr).
    { unfold served. destruct lr as [f|]; [|left; reflexivity]. right. destruct W as [W1 W2]. destruct (in_dec vec_eq_dec vzero (Rk P s)) as [I|I]; [exact I|]. exfalso.
      unfold refresh in H. rewrite M in H. destruct (slices _ _); [|discriminate]. cbn [bind] in H. rewrite W1, Nat.eqb_refl in H. cbn [negb] in H. unfold add_long_range in H.
      destruct (Rk0 P s) as [k0|] eqn:E; [|discriminate]. symmetry in W2. apply origin_spec in W2 as [E0 L]. apply I. rewrite <- E0. apply nth_In, L. }
    destruct (refresh_ok peqb peqb_spec padd e e_zero s lr c q Hc W Hs (or_introl (fun r _ => V r))) as (s1 & E & SM & C1 & C2). rewrite E in H. injection H as <-.
    split; [|exact SM]. split.
    - destruct SM as (_ & _ & _ & M4 & _ & M6 & M7), W as [W1 W2]. unfold well_formed. rewrite M4, M6, M7. auto.
    - intros r. destruct (in_dec Nat.eq_dec r c) as [I|I]; [|exact (same_valid s s1 r SM (C2 r I) (V r))]. destruct (C1 r I) as (gq & Er & G). unfold valid. rewrite Er. intros. rewrite G.
      destruct SM as (_ & _ & M3 & _ & M5 & _ & M7). unfold gq_spec. rewrite M5, M3, M7. reflexivity.
  Qed.

  Lemma g_call_sound s s' g c q k eb pb : sound s -> g_call c q k eb pb s = Ok (s', g) -> sound s' /\ same_model s s'.
  Proof using peqb_spec e_zero padd.
    intros S H. unfold g_call in H. destruct (refresh P peqb e s lr c q) as [s1|] eqn:E; [|discriminate]. cbn [bind] in H. apply refresh_sound in E as [S1 M]; [|exact S].
    destruct (slices _ _) as [ls|]; [|discriminate]. cbn [bind] in H. destruct (negb _); [discriminate|]. injection H as <- _. auto.
  Qed.

  Lemma create_sound nel natoms Rg Rk d : sound (create P nel natoms Rg Rk d).
  Proof using Type. clear. split; [split; reflexivity|]. intros r. exact Logic.I. Qed.

  Lemma standardize_sound s s' small sym : standardize P half small sym s = Ok s' -> sound s'.
  Proof using Type. clear. intros H. apply standardize_Ok in H as (_ & _ & _ & _ & C & W1 & W2 & _). split; [split; assumption|]. intros r. unfold valid. rewrite C. exact Logic.I. Qed.

  Lemma run_sound ops : Forall harmless ops -> forall s s', sound s -> run ops s = Ok s' -> sound s'.
  Proof using peqb_spec e_zero padd.
    induction 1 as [|o ops Ho _ IH]; intros s s' S H; [injection H as <-; exact S|]. cbn [run] in H. destruct o as [c q k eb pb|small sym| |d]; [| |contradiction|contradiction]; cbn [step] in H.
    - destruct (g_call c q k eb pb s) as [[s1 g]|] eqn:E; [|discriminate]. cbn [bind] in H. apply (IH s1); [|exact H]. apply (g_call_sound s s1 g c q k eb pb S E).
    - destruct (standardize P half small sym s) as [s1|] eqn:E; [|discriminate]. cbn [bind] in H. apply (IH s1); [|exact H]. exact (standardize_sound s s1 small sym E).
  Qed.

  Definition band_coupling s (eb pb : bool) (q k : P) : nat -> nat -> nat -> F :=
    elements (nel P s) (nph P s) (if eb then Uel (padd k q) else delta) (if eb then Uel k else delta) (if pb then Uph q else delta) (coupling_at s e lr q k).

  Lemma history nel0 natoms0 Rg0 Rk0 d0 ops s c q k eb pb : Forall harmless ops -> run ops (create P nel0 natoms0 Rg0 Rk0 d0) = Ok s ->
    c <> [] -> (lr = None \/ In vzero (Rk P s)) ->
    exists s' g, g_call c q k eb pb s = Ok (s', g) /\
    forall u m n, u < nph P s -> m < nel P s -> n < nel P s -> g u m n = band_coupling s eb pb q k u m n.
  Proof using peqb_spec e_zero.
    intros H R Hc Hs. pose proof (run_sound ops H _ _ (create_sound nel0 natoms0 Rg0 Rk0 d0) R) as [W V].
    destruct (g_call_ok peqb peqb_spec padd e e_zero Uel Uph lr c q k eb pb s Hc W Hs (or_introl (fun r _ => V r))) as (s' & g & E & _ & _ & _ & G). eauto.
  Qed.

  (** What is returned after the data have been replaced *)
  Lemma stale s s1 g c q k k' eb pb eb' pb' d : c <> [] -> sound s -> (lr = None \/ In vzero (Rk P s)) ->
    g_call c q k eb pb s = Ok (s1, g) ->
    exists s2 g', g_call c q k' eb' pb' (set_data P s1 d) = Ok (s2, g') /\
    forall u m n, u < nph P s -> m < nel P s -> n < nel P s -> g' u m n = band_coupling s eb' pb' q k' u m n.
  Proof using peqb_spec e_zero.
    intros Hc [W V] Hs H. destruct (g_call_ok peqb peqb_spec padd e e_zero Uel Uph lr c q k eb pb s Hc W Hs (or_introl (fun r _ => V r))) as (s1' & g0 & E & SM & C1 & _ & _). rewrite H in E. injection E as <- <-.
    assert (M : miss P peqb s1 c q = false).
    { unfold miss. destruct (existsb _ c) eqn:X; [|reflexivity]. apply existsb_exists in X as (r & Ir & X). destruct (C1 r Ir) as (_ & gq & Er). rewrite Er in X.
      assert (T : peqb q q = true) by (apply peqb_spec; reflexivity). rewrite T in X. discriminate. }
    destruct SM as (M1 & M2 & M3 & M4 & M5 & M6 & M7).
    assert (W' : well_formed s1) by (unfold well_formed; rewrite M4, M6, M7; exact W).
    assert (Hs' : served s1 lr) by (unfold served; rewrite M4; exact Hs).
    destruct (g_call_ok peqb peqb_spec padd e e_zero Uel Uph lr c q k' eb' pb' s1 Hc W' Hs' (or_introl (fun r I => proj1 (C1 r I)))) as (s2 & g2 & E2 & _ & _ & _ & G2).
    unfold g_call in E2 |- *. unfold refresh in *. change (miss P peqb (set_data P s1 d) c q) with (miss P peqb s1 c q). rewrite M in *. cbn [bind] in *.
    change (Rk P (set_data P s1 d)) with (Rk P s1). change (gqn P (set_data P s1 d)) with (gqn P s1). destruct (slices (length (Rk P s1)) (length c)) as [ls|]; [|discriminate]. cbn [bind] in *. destruct (negb (gqn P s1 =? length (Rk P s1))); [discriminate|].
    injection E2 as _ E2. eexists _, _. split; [reflexivity|]. intros u m n Hu Hm Hn. rewrite <- E2 in G2.
    etransitivity; [apply G2; unfold nph in *; rewrite ?M1, ?M2; assumption|]. unfold band_coupling, nph. rewrite M1, M2. apply elements_ext. intros x a b. unfold coupling_at, lattice_sum. rewrite M3, M4, M5. reflexivity.
  Qed.

  (** A change of the point always triggers a new calculation. *)
  Lemma other_point s c q k eb pb r q' gq : c <> [] -> well_formed s -> (lr = None \/ In vzero (Rk P s)) ->
    In r c -> caches P s r = Some (q', gq) -> q' <> q ->
    exists s' g, g_call c q k eb pb s = Ok (s', g) /\
    forall u m n, u < nph P s -> m < nel P s -> n < nel P s -> g u m n = band_coupling s eb pb q k u m n.
  Proof using peqb_spec e_zero.
    intros Hc W Hs I E N. assert (M : miss P peqb s c q = true).
    { apply existsb_exists. exists r. split; [exact I|]. rewrite E. destruct (peqb q q') eqn:X; [apply peqb_spec in X; congruence|reflexivity]. }
    destruct (g_call_ok peqb peqb_spec padd e e_zero Uel Uph lr c q k eb pb s Hc W Hs (or_intror M)) as (s' & g & E' & _ & _ & _ & G). eauto.
  Qed.

  (** The same coupling before and after standardization *)
  Lemma coupling_standardize s s' q k x a b : standardize P half None false s = Ok s' -> x < nph P s -> a < nel P s -> b < nel P s ->
    coupling_at s' e lr q k x a b = coupling_at s e lr q k x a b.
  Proof using Type. clear. intros H Hx Ha Hb. unfold coupling_at. rewrite (standardize_keeps half None s s' (e q) (e k) x a b H Hx Ha Hb). reflexivity. Qed.
End History.

(** ** Acoustic sum rule *)
Section Sum.
  Local Open Scope num_scope.
  Add Ring C_ring9 : (n_ring C).

  (** [abs(z)], and the quotient of real numbers *)
  Definition absC (z : C) : C := RtoC (sqrt (Re z * Re z + Im z * Im z)).
  Definition divC (z w : C) : C := nmul z (RtoC (/ Re w)).

  Lemma absC_zero z : Re (absC z) = 0%R -> z = n0.
  Proof.
    unfold absC, Re, Im, RtoC. cbn. intros H. apply sqrt_eq_0 in H; [|nra]. destruct z as [a b]. cbn in *. assert (a = 0%R) by nra. assert (b = 0%R) by nra. subst. reflexivity.
  Qed.
  Lemma absC_nonneg z : (0 <= Re (absC z))%R.
  Proof. apply sqrt_pos. Qed.

  Lemma nsum_abs {A} (v : A -> C) l : nsum (fun p => absC (v p)) l = RtoC (fold_right Rplus 0%R (map (fun p => Re (absC (v p))) l)).
  Proof. induction l as [|p l IH]; [reflexivity|]. cbn [nsum map fold_right]. rewrite IH. unfold absC, RtoC, Re. cbn. apply f_equal2; ring. Qed.
  Lemma sum_abs_nonneg {A} (v : A -> C) l : (0 <= fold_right Rplus 0 (map (fun p => Re (absC (v p))) l))%R.
  Proof. induction l as [|p l IH]; [cbn; lra|]. cbn [map fold_right]. pose proof (absC_nonneg (v p)). lra. Qed.
  Lemma sum_abs_zero {A} (v : A -> C) l : fold_right Rplus 0%R (map (fun p => Re (absC (v p))) l) = 0%R -> forall p, In p l -> v p = n0.
  Proof.
    induction l as [|p l IH]; [intros _ p []|]. cbn [map fold_right]. intros H q Hq. pose proof (absC_nonneg (v p)). pose proof (sum_abs_nonneg v l).
    destruct Hq as [<-|Hq]; [apply absC_zero; lra|apply IH; [lra|exact Hq]].
  Qed.

  Lemma asr_list {A} (v : A -> C) l : let norm := nsum (fun p => absC (v p)) l in
    nsum (fun p => v p - divC (absC (v p)) (if neqb norm n0 then n1 else norm) * nsum v l) l = n0.
  Proof.
    intros norm. unfold norm. rewrite nsum_abs. set (r := fold_right Rplus 0%R (map (fun p => Re (absC (v p))) l)).
    destruct (neqb (RtoC r) n0) eqn:E.
    - apply n_eqb in E. assert (r = 0%R) by (injection E; auto). pose proof (sum_abs_zero v l H) as Z. assert (S : nsum v l = n0) by (apply nsum_zero; exact Z). rewrite S.
      apply nsum_zero. intros p Hp. rewrite (Z p Hp). ring.
    - assert (r <> 0%R) by (intros H; rewrite H in E; apply not_true_iff_false in E; apply E, n_eqb; reflexivity).
      rewrite (nsum_ext _ (fun p => v p + (- (RtoC (/ r) * nsum v l)) * absC (v p))) by (intros p _; unfold divC; change (Re (RtoC r)) with r; ring).
      rewrite nsum_add, nsum_mul_l, nsum_abs. fold r. assert (I : RtoC (/ r) * RtoC r = n1) by (unfold RtoC; cbn; apply f_equal2; [field; exact H|ring]).
      transitivity (nsum v l - (RtoC (/ r) * RtoC r) * nsum v l); [ring|]. rewrite I. ring.
  Qed.

  Context {P : Type}.
  Implicit Types s : @elph C P.

  Definition sites s : list (nat * nat) := list_prod (seq 0 (length (Rg P s))) (seq 0 (natoms P s)).
  Lemma column_list s f i k a b : column_sum P s f i k a b = nsum (fun p => f (data P s (fst p) (3 * snd p + i)%nat k a b)) (sites s).
  Proof. unfold column_sum, sites. rewrite nsum_list_prod. reflexivity. Qed.
  Lemma translation_list s w i k a b : translation_sum s w i k a b = nsum (fun p => w (snd p) * data P s (fst p) (3 * snd p + i)%nat k a b) (sites s).
  Proof. unfold translation_sum, sites. rewrite (nsum_list_prod (fun g na => w na * data P s g (3 * na + i)%nat k a b)). reflexivity. Qed.

  Lemma mod3 na i : i < 3 -> (3 * na + i)%nat mod 3 = i.
  Proof. clear. intros H. rewrite Nat.add_comm, Nat.mul_comm, Nat.mod_add by lia. apply Nat.mod_small, H. Qed.

  Lemma asr_sum s i k a b : i < 3 -> translation_sum (asr P absC divC s) (fun _ => n1) i k a b = n0.
  Proof.
    intros Hi. rewrite translation_list. change (sites (asr P absC divC s)) with (sites s).
    etransitivity; [|exact (asr_list (fun p => data P s (fst p) (3 * snd p + i)%nat k a b) (sites s))].
    apply nsum_ext. intros [g na] _. cbn [fst snd asr set_data data]. rewrite mod3 by exact Hi. rewrite !column_list. cbn [fst snd]. ring.
  Qed.

  Lemma asr_zeros s g x k a b : data P s g x k a b = n0 -> data P (asr P absC divC s) g x k a b = n0.
  Proof. intros H. cbn [asr set_data data]. rewrite H. assert (Z : absC n0 = n0) by (unfold absC, RtoC, Re, Im; cbn; rewrite Rmult_0_l, Rplus_0_l, sqrt_0; reflexivity). rewrite Z. unfold divC. ring. Qed.

  Lemma asr_keeps s g na i k a b : i < 3 -> translation_sum s (fun _ => n1) i k a b = n0 -> data P (asr P absC divC s) g (3 * na + i)%nat k a b = data P s g (3 * na + i)%nat k a b.
  Proof.
    intros Hi H. cbn [asr set_data data]. rewrite mod3 by exact Hi. assert (Z : column_sum P s (fun y => y) i k a b = n0).
    { rewrite <- H, column_list, translation_list. apply nsum_ext. intros p _. ring. }
    rewrite Z. ring.
  Qed.

  (** Sum over all atoms of the coupling at q = 0 *)
  Lemma asr_gamma s (e1 e2 : vec -> C) i a b : i < 3 -> (forall R, e1 R = n1) ->
    nsum (fun na => lattice_sum (asr P absC divC s) e1 e2 (3 * na + i)%nat a b) (seq 0 (natoms P s)) = n0.
  Proof.
    intros Hi H1. unfold lattice_sum. rewrite nsum_swap. change (Rg P (asr P absC divC s)) with (Rg P s). change (Rk P (asr P absC divC s)) with (Rk P s).
    rewrite (nsum_ext _ (fun g => nsum (fun k => nsum (fun na => data P (asr P absC divC s) g (3 * na + i)%nat k a b * e2 (nth k (Rk P s) vzero)) (seq 0 (natoms P s))) (seq 0 (length (Rk P s))))).
    - rewrite nsum_swap. apply nsum_zero. intros k _. pose proof (asr_sum s i k a b Hi) as T. unfold translation_sum in T. change (Rg P (asr P absC divC s)) with (Rg P s) in T. change (natoms P (asr P absC divC s)) with (natoms P s) in T.
      rewrite (nsum_ext _ (fun g => nsum (fun na => n1 * data P (asr P absC divC s) g (3 * na + i)%nat k a b) (seq 0 (natoms P s)) * e2 (nth k (Rk P s) vzero))).
      + rewrite nsum_mul_r, T. ring.
      + intros g _. rewrite <- nsum_mul_r. apply nsum_ext. intros na _. ring.
    - intros g _. rewrite nsum_swap. apply nsum_ext. intros k _. apply nsum_ext. intros na _. rewrite H1. ring.
  Qed.
End Sum.
