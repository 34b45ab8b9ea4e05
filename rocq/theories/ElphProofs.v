(** Proofs about ElphModel.v: the Fourier transform and its cache. *)
From Coq Require Import Permutation Sorted.
From Verif Require Import Common CommonProofs MPIModel MPIProofs MiscModel MiscProofs LatModel LatSpec LatProofs Num NumProofs ElModel ElSpec ElProofs ElphModel ElphSpec.
Local Open Scope nat_scope.

(** ** Slices of a distribution *)
Lemma my_slices n p : 0 < p -> exists ls, slices n p = Ok ls /\ length ls = p /\ concat ls = seq 0 n.
Proof.
  intros Hp. destruct (distribute_spec (Z.of_nat n) (Z.of_nat p) ltac:(lia) ltac:(lia)) as (sizes & bounds & E & Hl & _ & Hb & _ & H0 & Hn & Hs & _).
  assert (Hl' : length sizes = p) by lia.
  assert (G : forall m r lo, r + m = p -> nth_error bounds r = Some lo -> (0 <= lo)%Z ->
    exists ls, slices_from n p (seq r m) = Ok ls /\ length ls = m /\ concat ls = seq (Z.to_nat lo) (n - Z.to_nat lo) /\ (lo <= Z.of_nat n)%Z).
  { induction m as [|m IH]; intros r lo Hr Hlo Pos.
    - exists []. rewrite Nat.add_0_r in Hr. rewrite Hr, <- Hl', Hn in Hlo. injection Hlo as <-. split; [reflexivity|]. split; [reflexivity|].
      split; [|lia]. rewrite Nat2Z.id, Nat.sub_diag. reflexivity.
    - destruct (nth_error sizes r) as [si|] eqn:Es; [|apply nth_error_None in Es; lia].
      destruct (Hs r si Es) as (lo' & Elo & Ehi). rewrite Hlo in Elo. injection Elo as <-.
      destruct (Hb r r si si Es Es ltac:(lia)) as [Hsi _].
      destruct (IH (S r) (lo + si)%Z ltac:(lia) Ehi ltac:(lia)) as (ls & El & Ll & C & Hle).
      exists (seq (Z.to_nat lo) (Z.to_nat (lo + si) - Z.to_nat lo) :: ls). cbn [seq slices_from]. unfold my_slice at 1. rewrite E. cbn [bind]. rewrite Hlo, Ehi. cbn [bind]. rewrite El. cbn [bind].
      split; [reflexivity|]. split; [cbn [length]; lia|]. split; [|lia]. cbn [concat]. rewrite C.
      replace (n - Z.to_nat lo) with ((Z.to_nat (lo + si) - Z.to_nat lo) + (n - Z.to_nat (lo + si))) by lia. rewrite seq_app. f_equal. f_equal. lia. }
  destruct (G p 0 0%Z ltac:(lia) H0 ltac:(lia)) as (ls & El & Ll & C & _). exists ls. split; [exact El|]. split; [exact Ll|].
  rewrite C. cbn [Z.to_nat]. rewrite Nat.sub_0_r. reflexivity.
Qed.

Lemma slices_pos n p ls : slices n p = Ok ls -> 0 < p \/ ls = [].
Proof. unfold slices. destruct p; [|left; lia]. cbn. intros H. injection H as <-. right. reflexivity. Qed.

Lemma origin_spec R k : origin R = Some k -> nth k R vzero = vzero /\ k < length R.
Proof.
  unfold origin. intros H. apply vector_index_Some in H as [H _]. rewrite nth_error_map in H.
  destruct (nth_error R k) as [v|] eqn:E; [|discriminate]. cbn in H. injection H as H1 H2 H3.
  rewrite (nth_error_nth _ _ _ E). split; [destruct v; unfold vzero; cbn in *; congruence|]. apply nth_error_Some. congruence.
Qed.
Lemma origin_none R : origin R = None -> ~ In vzero R.
Proof. unfold origin. intros H I. apply vector_index_None in H. apply H. apply (in_map row) in I. exact I. Qed.
Lemma origin_in R : In vzero R -> exists k, origin R = Some k /\ k < length R /\ nth k R vzero = vzero.
Proof. intros I. destruct (origin R) as [k|] eqn:E; [|exfalso; exact (origin_none R E I)]. exists k. destruct (origin_spec R k E). auto. Qed.

Section Cache.
  Context {F : num} {P : Type}.
  Add Ring F_ring7 : (n_ring F).
  Local Open Scope num_scope.
  Variable peqb : P -> P -> bool.
  Hypothesis peqb_spec : forall p q, peqb p q = true <-> p = q.
  Variable padd : P -> P -> P.
  Variable e : P -> vec -> F.
  Hypothesis e_zero : forall p, e p vzero = n1.
  Notation elph := (@elph F P).
  Implicit Types s : elph.

  Lemma nsum_concat {A} (f : A -> F) ls : nsum (fun l => nsum f l) ls = nsum f (concat ls).
  Proof using Type. clear. induction ls as [|l ls IH]; [reflexivity|]. cbn [concat nsum]. rewrite nsum_app, IH. reflexivity. Qed.

  Lemma nsum_nth {A} (f : A -> F) l d : nsum (fun i => f (nth i l d)) (seq 0 (length l)) = nsum f l.
  Proof using Type.
    clear. induction l as [|x l IH]; [reflexivity|]. cbn [length seq nsum nth]. f_equal. rewrite <- seq_shift, nsum_map. exact IH.
  Qed.

  (** The content of a valid cache *)
  Definition gq_spec s (lr : option (P -> nat -> F)) (q : P) (x k a b : nat) : F :=
    nsum (fun g => data P s g x k a b * e q (nth g (Rg P s) vzero)) (seq 0 (length (Rg P s))) +
    match lr, Rk0 P s with Some f, Some k0 => if (k =? k0) && (a =? b) then f q x else n0 | _, _ => n0 end.
  Definition valid s lr (r : nat) : Prop :=
    match caches P s r with
    | None => True
    | Some (q, gq) => forall x k a b, gq x k a b = gq_spec s lr q x k a b
    end.
  Definition well_formed s : Prop := gqn P s = length (Rk P s) /\ Rk0 P s = origin (Rk P s).
  Definition served s (lr : option (P -> nat -> F)) : Prop := lr = None \/ In vzero (Rk P s).

  Lemma miss_false s c q r : miss P peqb s c q = false -> In r c -> exists gq, caches P s r = Some (q, gq).
  Proof using peqb_spec.
    unfold miss. intros H I. destruct (caches P s r) as [[q' gq]|] eqn:E.
    - exists gq. f_equal. f_equal. symmetry. apply peqb_spec. destruct (peqb q q') eqn:E'; [reflexivity|]. exfalso.
      assert (T : existsb (fun r => match caches P s r with Some (q', _) => negb (peqb q q') | None => true end) c = true); [|congruence].
      apply existsb_exists. exists r. rewrite E, E'. auto.
    - exfalso. assert (T : existsb (fun r => match caches P s r with Some (q', _) => negb (peqb q q') | None => true end) c = true); [|congruence].
      apply existsb_exists. exists r. rewrite E. auto.
  Qed.

  Lemma existsb_in r c : existsb (Nat.eqb r) c = true <-> In r c.
  Proof using Type. clear. rewrite existsb_exists. split; [intros (y & Hy & E); apply Nat.eqb_eq in E; subst; exact Hy|intros H; exists r; split; [exact H|apply Nat.eqb_refl]]. Qed.

  Definition same_model s s' : Prop :=
    nel P s' = nel P s /\ natoms P s' = natoms P s /\ Rg P s' = Rg P s /\ Rk P s' = Rk P s /\ data P s' = data P s /\ gqn P s' = gqn P s /\ Rk0 P s' = Rk0 P s.

  (** After [refresh], the caches of all processes in the communicator are those of [q] and valid if they
      were valid or if there was a miss. *)
  Lemma refresh_ok s lr c q : c <> [] -> well_formed s -> served s lr -> ((forall r, In r c -> valid s lr r) \/ miss P peqb s c q = true) ->
    exists s', refresh P peqb e s lr c q = Ok s' /\ same_model s s' /\
    (forall r, In r c -> exists gq, caches P s' r = Some (q, gq) /\ forall x k a b, gq x k a b = gq_spec s lr q x k a b) /\
    (forall r, ~ In r c -> caches P s' r = caches P s r).
  Proof using peqb_spec e_zero padd.
    intros Hc [W1 W2] Hs V. unfold refresh. destruct (miss P peqb s c q) eqn:M.
    - destruct (my_slices (length (Rg P s)) (length c)) as (ls & E & Ll & C); [destruct c; [congruence|cbn; lia]|]. rewrite E. cbn [bind]. rewrite W1, Nat.eqb_refl. cbn [negb].
      assert (A : exists gq, add_long_range P s lr q (fourier_q P e s q ls) = Ok gq /\ forall x k a b, gq x k a b = gq_spec s lr q x k a b).
      { assert (FQ : forall x k a b, fourier_q P e s q ls x k a b = nsum (fun g => data P s g x k a b * e q (nth g (Rg P s) vzero)) (seq 0 (length (Rg P s)))).
        { intros. unfold fourier_q. rewrite nsum_concat, C. reflexivity. }
        unfold add_long_range. destruct lr as [f|].
        - destruct Hs as [Hs|Hs]; [discriminate|]. destruct (origin_in _ Hs) as (k0 & E0 & _). rewrite W2, E0. eexists. split; [reflexivity|].
          intros x k a b. unfold gq_spec. cbn beta. rewrite W2, E0, FQ. destruct ((k =? k0) && (a =? b)); ring.
        - eexists. split; [reflexivity|]. intros. rewrite FQ. unfold gq_spec. destruct (Rk0 P s); ring. }
      destruct A as (gq & -> & G). cbn [bind]. eexists. split; [reflexivity|]. split; [repeat split|]. cbn [set_caches caches]. split.
      + intros r I. apply existsb_in in I. rewrite I. exists gq. auto.
      + intros r NI. destruct (existsb (Nat.eqb r) c) eqn:Er; [apply existsb_in in Er; contradiction|reflexivity].
    - exists s. split; [reflexivity|]. split; [repeat split|]. split; [|auto]. intros r I. destruct (miss_false s c q r M I) as (gq & Er). exists gq. split; [exact Er|].
      destruct V as [V|V]; [|discriminate]. specialize (V r I). unfold valid in V. rewrite Er in V. exact V.
  Qed.

  Lemma combine_sum (f : nat -> nat -> F) (h : nat -> F) c ls : length ls = length c -> (forall r j, In r c -> f r j = h j) ->
    nsum (fun rl => nsum (f (fst rl)) (snd rl)) (combine c ls) = nsum h (concat ls).
  Proof using Type.
    clear. revert ls. induction c as [|r c IH]; intros [|l ls] L H; try discriminate; [reflexivity|]. cbn [combine nsum concat fst snd]. rewrite nsum_app. f_equal.
    - apply nsum_ext. intros j _. apply H. left. reflexivity.
    - apply IH; [cbn in L; lia|]. intros r' j I. apply H. right. exact I.
  Qed.

  Lemma delta_sum (f : nat -> F) n m : m < n -> nsum (fun a => f a * delta a m) (seq 0 n) = f m.
  Proof using Type.
    clear. intros H. rewrite (nsum_single (fun a => f a * delta a m) (seq 0 n) m); [|apply seq_NoDup|apply in_seq; lia|].
    - unfold delta. rewrite Nat.eqb_refl. ring.
    - intros a _ N. unfold delta. apply Nat.eqb_neq in N. rewrite N. ring.
  Qed.

  Lemma conj_1 : nconj n1 = @n1 F.
  Proof using Type.
    clear. pose proof (n_conj_mul F n1 (nconj n1)) as H. rewrite n_conj_conj in H.
    replace (n1 * nconj n1) with (nconj (@n1 F)) in H by ring. rewrite n_conj_conj in H. etransitivity; [|symmetry; exact H]. ring.
  Qed.

  Lemma delta_conj_sum (f : nat -> F) n m : m < n -> nsum (fun a => nconj (delta a m) * f a) (seq 0 n) = f m.
  Proof using Type.
    clear. intros H. rewrite <- (delta_sum f n m H). apply nsum_ext. intros a _. unfold delta. destruct (a =? m); rewrite ?conj_1, ?n_conj_0; ring.
  Qed.

  Lemma bands_elements (Uel Uph : P -> @mat F) nel nph q k elbnd phbnd (g : slab) u m n : u < nph -> m < nel -> n < nel ->
    to_bands P padd Uel Uph nel nph q k elbnd phbnd g u m n =
    elements nel nph (if elbnd then Uel (padd k q) else delta) (if elbnd then Uel k else delta) (if phbnd then Uph q else delta) g u m n.
  Proof using Type.
    clear. intros Hu Hm Hn. set (L := if elbnd then Uel (padd k q) else delta). set (R := if elbnd then Uel k else delta). set (Z := if phbnd then Uph q else delta).
    set (g' := fun x => nsum (fun a => nsum (fun b => nconj (L a m) * g x a b * R b n) (seq 0 nel)) (seq 0 nel)).
    assert (E1 : elements nel nph L R Z g u m n = nsum (fun x => g' x * Z x u) (seq 0 nph)).
    { unfold elements. apply nsum_ext. intros x _. unfold g'. rewrite <- nsum_mul_r. apply nsum_ext. intros a _. rewrite <- nsum_mul_r. reflexivity. }
    assert (E2 : forall x, g' x = (if elbnd then fun x m n => nsum (fun a => nsum (fun b => nconj (Uel (padd k q) a m) * g x a b * Uel k b n) (seq 0 nel)) (seq 0 nel) else g) x m n).
    { intros x. unfold g', L, R. destruct elbnd; [reflexivity|]. rewrite (nsum_ext _ (fun a => nconj (delta a m) * g x a n)); [apply (delta_conj_sum (fun a => g x a n)), Hm|].
      intros a _. rewrite (delta_sum (fun b => nconj (delta a m) * g x a b)) by exact Hn. reflexivity. }
    etransitivity; [|symmetry; exact E1]. clear E1. unfold to_bands, Z. destruct phbnd.
    - apply nsum_ext. intros x _. rewrite E2. reflexivity.
    - rewrite (delta_sum g') by exact Hu. rewrite E2. reflexivity.
  Qed.

  Lemma elements_ext nel nph (L R Z : @mat F) (g g' : @slab F) u m n : (forall x a b, g x a b = g' x a b) -> elements nel nph L R Z g u m n = elements nel nph L R Z g' u m n.
  Proof using Type. clear. intros H. unfold elements. apply nsum_ext. intros x _. apply nsum_ext. intros a _. apply nsum_ext. intros b _. rewrite H. reflexivity. Qed.

  Lemma gq_to_coupling s lr q k x a b : served s lr -> Rk0 P s = origin (Rk P s) ->
    nsum (fun j => gq_spec s lr q x j a b * e k (nth j (Rk P s) vzero)) (seq 0 (length (Rk P s))) = coupling_at s e lr q k x a b.
  Proof using e_zero.
    clear peqb peqb_spec padd. intros Hs W2. unfold gq_spec, coupling_at, lattice_sum.
    rewrite (nsum_ext _ (fun j => nsum (fun g => data P s g x j a b * e q (nth g (Rg P s) vzero) * e k (nth j (Rk P s) vzero)) (seq 0 (length (Rg P s))) +
      (match lr, Rk0 P s with Some f, Some k0 => if (j =? k0) && (a =? b) then f q x else n0 | _, _ => n0 end) * e k (nth j (Rk P s) vzero))).
    2:{ intros j _. rewrite nsum_mul_r. ring. }
    rewrite nsum_add, nsum_swap. f_equal. destruct lr as [f|].
    - destruct Hs as [Hs|Hs]; [discriminate|]. destruct (origin_in _ Hs) as (k0 & E0 & L0 & Z0). rewrite W2, E0.
      rewrite (nsum_single _ (seq 0 (length (Rk P s))) k0); [|apply seq_NoDup|apply in_seq; lia|].
      + rewrite Nat.eqb_refl, Z0, e_zero. cbn [andb]. destruct (a =? b); ring.
      + intros j _ N. apply Nat.eqb_neq in N. rewrite N. cbn [andb]. ring.
    - apply nsum_zero. intros j _. destruct (Rk0 P s); ring.
  Qed.

  Lemma g_call_ok Uel Uph lr c q k eb pb s : c <> [] -> well_formed s -> served s lr ->
    ((forall r, In r c -> valid s lr r) \/ miss P peqb s c q = true) ->
    exists s' g, g_call P peqb padd e Uel Uph lr c q k eb pb s = Ok (s', g) /\ same_model s s' /\
    (forall r, In r c -> valid s' lr r /\ exists gq, caches P s' r = Some (q, gq)) /\ (forall r, ~ In r c -> caches P s' r = caches P s r) /\
    forall u m n, u < nph P s -> m < nel P s -> n < nel P s ->
      g u m n = elements (nel P s) (nph P s) (if eb then Uel (padd k q) else delta) (if eb then Uel k else delta) (if pb then Uph q else delta) (coupling_at s e lr q k) u m n.
  Proof using peqb_spec e_zero padd.
    intros Hc W Hs V. destruct (refresh_ok s lr c q Hc W Hs V) as (s' & E & M & C1 & C2). unfold g_call. rewrite E. cbn [bind]. clear E.
    destruct M as (M1 & M2 & M3 & M4 & M5 & M6 & M7). destruct (my_slices (length (Rk P s')) (length c)) as (ls & E & Ll & C); [destruct c; [congruence|cbn; lia]|]. rewrite E. cbn [bind].
    destruct W as [W1 W2]. rewrite M6, W1, M4, Nat.eqb_refl. cbn [negb]. eexists _, _. split; [reflexivity|]. split; [repeat split; assumption|].
    assert (G : forall x k a b lr q, gq_spec s' lr q x k a b = gq_spec s lr q x k a b) by (intros; unfold gq_spec; rewrite M5, M3, M7; reflexivity). split; [|split; [exact C2|]].
    - intros r I. destruct (C1 r I) as (gq & Er & Hr). split; [|eauto]. unfold valid. rewrite Er. intros. rewrite G. apply Hr.
    - intros u m n Hu Hm Hn. assert (NP : nph P s' = nph P s) by (unfold nph; rewrite M2; reflexivity). rewrite M1, NP. rewrite bands_elements by assumption. apply elements_ext. intros x a b. unfold fourier_k.
      rewrite <- (gq_to_coupling s lr q k x a b Hs W2), M4.
      rewrite (combine_sum (fun r j => gq_of P s' r x j a b * e k (nth j (Rk P s) vzero)) (fun j => gq_spec s lr q x j a b * e k (nth j (Rk P s) vzero))); [|exact Ll|].
      + rewrite C, M4. reflexivity.
      + intros r j I. destruct (C1 r I) as (gq & Er & Hr). unfold gq_of. rewrite Er, Hr. reflexivity.
  Qed.
End Cache.
