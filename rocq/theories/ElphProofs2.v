(** Proofs about ElphModel.v: standardize and histories of calls. *)
From Coq Require Import Permutation Sorted.
From Verif Require Import Common CommonProofs MPIModel MPIProofs MiscModel MiscProofs LatModel LatSpec LatProofs Num NumProofs ElModel ElSpec ElProofs ElphModel ElphSpec ElphProofs.
Local Open Scope nat_scope.

(** ** Sorted sets of lattice vectors *)
Lemma in_insert_vec v w l : In v (insert_vec w l) <-> v = w \/ In v l.
Proof.
  induction l as [|u l IH]; cbn [insert_vec]; [cbn; intuition congruence|]. destruct (veqb w u) eqn:E.
  - apply veqb_eq in E. subst. cbn. intuition congruence.
  - destruct (vleb w u); cbn; [intuition congruence|]. rewrite IH. intuition congruence.
Qed.
Lemma in_sorted_set v l : In v (sorted_set l) <-> In v l.
Proof. induction l as [|w l IH]; [reflexivity|]. cbn [sorted_set fold_right]. rewrite in_insert_vec. fold (sorted_set l). rewrite IH. cbn. intuition congruence. Qed.

Lemma insert_vec_sorted w l : StronglySorted vlt l -> StronglySorted vlt (insert_vec w l).
Proof.
  induction l as [|u l IH]; intros H; cbn [insert_vec]; [repeat constructor|]. inversion H as [|? ? Hl Hu]; subst. destruct (veqb w u) eqn:E; [exact H|]. destruct (vleb w u) eqn:L.
  - apply vleb_true in L as [L| ->]; [|rewrite veqb_refl in E; discriminate]. constructor; [exact H|]. constructor; [exact L|]. revert Hu. apply Forall_impl. intros v. apply vlt_trans. exact L.
  - apply vleb_false in L. constructor; [apply IH, Hl|]. apply Forall_forall. intros v Hv. apply in_insert_vec in Hv as [->|Hv]; [exact L|]. rewrite Forall_forall in Hu. apply Hu, Hv.
Qed.
Lemma sorted_set_sorted l : StronglySorted vlt (sorted_set l).
Proof. induction l as [|w l IH]; [constructor|]. apply insert_vec_sorted, IH. Qed.
Lemma sorted_set_NoDup l : NoDup (sorted_set l).
Proof. apply sorted_NoDup, sorted_set_sorted. Qed.
Lemma sorted_set_length l K : (forall v, In v l -> In v K) -> length (sorted_set l) <= length K.
Proof. intros H. apply NoDup_incl_length; [apply sorted_set_NoDup|]. intros v Hv. apply H, in_sorted_set, Hv. Qed.

Section Std.
  Context {F : num} {P : Type}.
  Add Ring F_ring8 : (n_ring F).
  Local Open Scope num_scope.
  Notation elph := (@elph F P).
  Notation dict := (@dict F).
  Notation slab := (@slab F).
  Implicit Types (s : elph) (d : dict).

  Lemma pair_eqb_eq R Q : pair_eqb R Q = true <-> R = Q.
  Proof. unfold pair_eqb. rewrite andb_true_iff, !veqb_eq. destruct R, Q. cbn. split; [intros [-> ->]; reflexivity|intros H; injection H; auto]. Qed.
  Lemma pair_eqb_refl R : pair_eqb R R = true.
  Proof. apply pair_eqb_eq. reflexivity. Qed.

  Definition pkeys d : list (vec * vec) := map fst d.

  Lemma pget_None d R : pget d R = None <-> ~ In R (pkeys d).
  Proof.
    induction d as [|[Q x] d IH]; cbn; [tauto|]. destruct (pair_eqb Q R) eqn:E.
    - apply pair_eqb_eq in E. split; [discriminate|]. intros H. exfalso. auto.
    - rewrite IH. split; [|tauto]. intros H [H'|H']; [|contradiction]. subst Q. rewrite pair_eqb_refl in E. discriminate.
  Qed.
  Lemma pkeys_pset d R (m : slab) : pkeys (pset d R m) = if pget d R then pkeys d else pkeys d ++ [R].
  Proof.
    induction d as [|[Q x] d IH]; cbn; [reflexivity|]. destruct (pair_eqb Q R) eqn:E; [reflexivity|]. cbn. fold (pkeys (pset d R m)). rewrite IH. destruct (pget d R); reflexivity.
  Qed.
  Lemma pkeys_padd d R (m : slab) Q : In Q (pkeys (padd_to d R m)) <-> Q = R \/ In Q (pkeys d).
  Proof.
    unfold padd_to. destruct (pget d R) eqn:E; rewrite pkeys_pset, E.
    - assert (I : In R (pkeys d)); [|intuition congruence]. revert E. clear. induction d as [|[S x] d IH]; cbn; [discriminate|].
      destruct (pair_eqb S R) eqn:E; [apply pair_eqb_eq in E; auto|]. intros H. right. apply IH, H.
    - rewrite in_app_iff. cbn. intuition.
  Qed.
  Lemma NoDup_padd d R (m : slab) : NoDup (pkeys d) -> NoDup (pkeys (padd_to d R m)).
  Proof.
    intros H. unfold padd_to. destruct (pget d R) eqn:E; rewrite pkeys_pset, E; [exact H|]. apply pget_None in E.
    apply NoDup_app'; [exact H|repeat constructor; intros []|]. intros x Hx [<-|[]]. contradiction.
  Qed.

  (** ** Linear functionals *)
  Definition PG (g : vec * vec -> slab -> F) d : F := nsum (fun x => g (fst x) (snd x)) d.
  Definition padditive (g : vec * vec -> slab -> F) : Prop := forall R (x y : slab), g R (fun i a b => x i a b + y i a b) = g R x + g R y.
  Definition plocal (nph nel : nat) (g : vec * vec -> slab -> F) : Prop :=
    forall R (x : slab), (forall i a b, i < nph -> a < nel -> b < nel -> x i a b = n0) -> g R x = n0.

  Lemma PG_padd g d R (m : slab) : padditive g -> PG g (padd_to d R m) = PG g d + g R m.
  Proof.
    intros Hg. unfold padd_to. destruct (pget d R) as [x|] eqn:E.
    - assert (G : forall y, PG g (pset d R y) = PG g d - g R x + g R y).
      { intros y. revert E. unfold PG. induction d as [|[Q z] d IH]; cbn; [discriminate|]. destruct (pair_eqb Q R) eqn:EQ; cbn.
        - apply pair_eqb_eq in EQ. subst Q. intros H. injection H as ->. ring.
        - intros H. rewrite IH by exact H. ring. }
      rewrite G, Hg. ring.
    - revert E. unfold PG. induction d as [|[Q z] d IH]; cbn; [intros _; ring|]. destruct (pair_eqb Q R) eqn:EQ; cbn; [discriminate|]. intros H. rewrite IH by exact H. ring.
  Qed.

  Lemma slab_nonzero_false nph nel (m : slab) : slab_nonzero nph nel m = false -> forall i a b, i < nph -> a < nel -> b < nel -> m i a b = n0.
  Proof.
    unfold slab_nonzero. intros H i a b Hi Ha Hb. destruct (nonzero nel (m i)) eqn:E; [|apply (proj1 (nonzero_false _ _) E); assumption].
    exfalso. assert (T : existsb (fun x => nonzero nel (m x)) (seq 0 nph) = true); [|congruence]. apply existsb_exists. exists i. split; [apply in_seq; lia|exact E].
  Qed.

  Definition adjoint_key (R : vec * vec) : vec * vec := (vsub (fst R) (snd R), vopp (snd R)).

  Lemma std_sum g nph nel (sym : bool) h : padditive g -> plocal nph nel g -> forall d,
    PG g (fold_left (std_entry nph nel sym) h d) =
    PG g d + PG g h + (if sym then PG (fun R m => g (adjoint_key R) (slab_adj m)) h else n0).
  Proof.
    intros Ha Hl. induction h as [|[[G K] m] h IH]; intros d; cbn [fold_left].
    - assert (Z : forall g, PG g [] = n0) by reflexivity. rewrite !Z. destruct sym; ring.
    - rewrite IH. change (PG g (((G, K), m) :: h)) with (g (G, K) m + PG g h).
      change (PG (fun R m => g (adjoint_key R) (slab_adj m)) (((G, K), m) :: h)) with (g (vsub G K, vopp K) (slab_adj m) + PG (fun R m => g (adjoint_key R) (slab_adj m)) h).
      unfold std_entry. destruct (slab_nonzero nph nel m) eqn:E.
      + destruct sym; rewrite !PG_padd by exact Ha; ring.
      + pose proof (slab_nonzero_false nph nel m E) as Z. rewrite (Hl (G, K) m) by exact Z.
        rewrite (Hl (vsub G K, vopp K) (slab_adj m)) by (intros i a b Hi Hb Hc; unfold slab_adj; rewrite Z by assumption; apply n_conj_0). destruct sym; ring.
  Qed.

  Lemma std_keys nph nel (sym : bool) h Q : forall d, In Q (pkeys (fold_left (std_entry nph nel sym) h d)) ->
    In Q (pkeys d) \/ exists x, In x h /\ (Q = fst x \/ sym = true /\ Q = adjoint_key (fst x)).
  Proof.
    induction h as [|[[G K] m] h IH]; intros d H; cbn [fold_left] in H; [left; exact H|]. apply IH in H as [H|(x & Hx & H)]; [|right; exists x; split; [right; exact Hx|exact H]].
    unfold std_entry in H. destruct (slab_nonzero nph nel m); [|left; exact H]. destruct sym.
    - apply pkeys_padd in H as [H|H]; [right; exists ((G, K), m); split; [left; reflexivity|right; split; [reflexivity|exact H]]|].
      apply pkeys_padd in H as [H|H]; [right; exists ((G, K), m); split; [left; reflexivity|left; exact H]|left; exact H].
    - apply pkeys_padd in H as [H|H]; [right; exists ((G, K), m); split; [left; reflexivity|left; exact H]|left; exact H].
  Qed.
  Lemma std_keeps nph nel (sym : bool) h Q : forall d, In Q (pkeys d) -> In Q (pkeys (fold_left (std_entry nph nel sym) h d)).
  Proof.
    induction h as [|[[G K] m] h IH]; intros d H; cbn [fold_left]; [exact H|]. apply IH. unfold std_entry. destruct (slab_nonzero nph nel m); [|exact H].
    destruct sym; repeat (apply pkeys_padd; right); exact H.
  Qed.
  Lemma std_NoDup nph nel (sym : bool) h : forall d, NoDup (pkeys d) -> NoDup (pkeys (fold_left (std_entry nph nel sym) h d)).
  Proof.
    induction h as [|[[G K] m] h IH]; intros d H; cbn [fold_left]; [exact H|]. apply IH. unfold std_entry. destruct (slab_nonzero nph nel m); [|exact H].
    destruct sym; repeat apply NoDup_padd; exact H.
  Qed.

  (** ** The sum over the new lattice vectors *)
  Lemma sum_over_keys (h : vec * vec -> slab -> F) (Pl : list (vec * vec)) : NoDup Pl -> forall d, NoDup (pkeys d) -> (forall R, In R (pkeys d) -> In R Pl) ->
    nsum (fun R => match pget d R with Some m => h R m | None => n0 end) Pl = PG h d.
  Proof.
    intros NP. induction d as [|[Q m] d IH]; intros ND Sub; [apply nsum_0|]. cbn [pkeys map fst] in ND. apply NoDup_cons_iff in ND as [NI ND].
    rewrite (nsum_ext _ (fun R => (if pair_eqb Q R then h R m else n0) + match pget d R with Some m => h R m | None => n0 end)).
    - rewrite nsum_add. change (PG h ((Q, m) :: d)) with (h Q m + PG h d). rewrite IH; [|exact ND|intros R HR; apply Sub; right; exact HR]. f_equal.
      rewrite (nsum_single _ Pl Q); [rewrite pair_eqb_refl; reflexivity|exact NP|apply Sub; left; reflexivity|].
      intros R _ NR. destruct (pair_eqb Q R) eqn:E; [apply pair_eqb_eq in E; congruence|reflexivity].
    - intros R _. cbn [pget]. destruct (pair_eqb Q R) eqn:E; [|ring]. apply pair_eqb_eq in E. subst R. apply pget_None in NI. rewrite NI. ring.
  Qed.

  Lemma nsum_list_prod {A B} (f : A -> B -> F) l l' : nsum (fun x => nsum (f x) l') l = nsum (fun xy => f (fst xy) (snd xy)) (list_prod l l').
  Proof. induction l as [|x l IH]; [reflexivity|]. cbn [list_prod nsum]. rewrite nsum_app, nsum_map, IH. reflexivity. Qed.

  Lemma NoDup_prod {A B} (l : list A) (l' : list B) : NoDup l -> NoDup l' -> NoDup (list_prod l l').
  Proof.
    intros H H'. induction H as [|x l NI H IH]; [constructor|]. cbn [list_prod]. apply NoDup_app'.
    - apply FinFun.Injective_map_NoDup; [|exact H']. intros a b E. injection E. auto.
    - exact IH.
    - intros [a b] Hin Hin'. apply in_map_iff in Hin as (y & E & _). injection E as <- <-. apply in_prod_iff in Hin' as [HH _]. contradiction.
  Qed.

  Lemma lattice_entries s (e1 e2 : vec -> F) x a b :
    lattice_sum s e1 e2 x a b = PG (fun R m => m x a b * e1 (fst R) * e2 (snd R)) (entries P s).
  Proof.
    unfold lattice_sum, PG, entries. rewrite nsum_flat_map. apply nsum_ext. intros i _. rewrite nsum_map. apply nsum_ext. intros j _. reflexivity.
  Qed.

  Definition chopped s (small : option (F -> bool)) : elph := set_data P s (chop_data small (data P s)).

  (** Keys of the dictionary *)
  Lemma const_keys s small sym Q : In Q (pkeys (std_const P small sym s)) -> Q = (vzero, vzero) \/
    exists R, In (fst R) (Rg P s) /\ In (snd R) (Rk P s) /\ (Q = R \/ sym = true /\ Q = adjoint_key R).
  Proof.
    unfold std_const. intros H. apply std_keys in H as [[H|[]]|(x & Hx & H)]; [left; symmetry; exact H|]. right. exists (fst x). unfold entries in Hx.
    apply in_flat_map in Hx as (i & Hi & Hx). apply in_map_iff in Hx as (j & <- & Hj). cbn [fst snd] in *. apply in_seq in Hi, Hj. cbn [set_data Rg Rk] in *.
    split; [apply nth_In; lia|]. split; [apply nth_In; lia|exact H].
  Qed.
  Lemma const_zero s small sym : In (vzero, vzero) (pkeys (std_const P small sym s)).
  Proof. apply std_keeps. left. reflexivity. Qed.
  Lemma const_NoDup s small sym : NoDup (pkeys (std_const P small sym s)).
  Proof. apply std_NoDup. repeat constructor. intros []. Qed.

  Definition new_Rg s small sym : list vec := sorted_set (map (fun x => fst (fst x)) (std_const P small sym s)).
  Definition new_Rk s small sym : list vec := sorted_set (map (fun x => snd (fst x)) (std_const P small sym s)).

  Lemma in_new_Rg s small sym R : In R (pkeys (std_const P small sym s)) -> In (fst R) (new_Rg s small sym) /\ In (snd R) (new_Rk s small sym).
  Proof.
    unfold new_Rg, new_Rk, pkeys. rewrite !in_sorted_set. intros H. apply in_map_iff in H as (x & <- & Hx). split; apply in_map_iff; exists x; auto.
  Qed.

  Lemma assign_same (rows : list vec) : assign_rows rows (length rows) = Ok rows.
  Proof. unfold assign_rows. rewrite Nat.eqb_refl. reflexivity. Qed.

  Lemma assign_ok (rows RK : list vec) n : assign_rows rows n = Ok RK -> In vzero rows -> (length rows = n /\ RK = rows) \/ (rows = [vzero] /\ RK = repeat vzero n).
  Proof.
    unfold assign_rows. destruct (Nat.eqb_spec (length rows) n) as [E|E].
    - intros H. injection H as <-. auto.
    - destruct rows as [|v [|w rows]]; try discriminate. intros H [->|[]]. injection H as <-. auto.
  Qed.

  Lemma in_zero_new s small sym : In vzero (new_Rg s small sym) /\ In vzero (new_Rk s small sym).
  Proof. exact (in_new_Rg s small sym (vzero, vzero) (const_zero s small sym)). Qed.

  (** Whenever it succeeds, the new lattice vectors are those of the dictionary. *)
  Lemma standardize_Ok half small sym s s' : standardize P half small sym s = Ok s' ->
    Rg P s' = new_Rg s small sym /\ Rk P s' = new_Rk s small sym /\ nel P s' = nel P s /\ natoms P s' = natoms P s /\
    (forall r, caches P s' r = None) /\ gqn P s' = length (Rk P s') /\ Rk0 P s' = origin (Rk P s') /\
    forall i j x a b, i < length (Rg P s') -> j < length (Rk P s') -> data P s' i x j a b =
      match pget (std_const P small sym s) (nth i (Rg P s') vzero, nth j (Rk P s') vzero) with
      | Some m => if sym then half (m x a b) else m x a b | None => n0 end.
  Proof.
    unfold standardize. fold (new_Rg s small sym) (new_Rk s small sym). rewrite assign_same. cbn [bind]. destruct (assign_rows (new_Rk s small sym) _) as [RK|] eqn:E; [|discriminate]. cbn [bind].
    intros H. injection H as <-. cbn [Rg Rk nel natoms caches gqn Rk0 data].
    assert (EK : RK = new_Rk s small sym).
    { destruct (assign_ok _ _ _ E (proj2 (in_zero_new s small sym))) as [[_ ->]|[E1 ->]]; [reflexivity|]. rewrite E1 in *. cbn [length] in *.
      revert E. destruct (Nat.leb_spec 1 (length (Rk P s))) as [L|L]; [reflexivity|]. intros _.
      (* without second lattice vectors, there are no entries and only the origin remains *)
      assert (LG : length (new_Rg s small sym) <= 1); [|pose proof (proj1 (in_zero_new s small sym)) as IZ; destruct (new_Rg s small sym) as [|v [|w l]]; [contradiction|reflexivity|cbn in LG; lia]].
      apply (sorted_set_length _ [vzero]). intros v Hv. apply in_map_iff in Hv as (x & <- & Hx). apply (in_map fst) in Hx. apply const_keys in Hx as [->|(R & _ & I & _)]; [left; reflexivity|].
      destruct (Rk P s); [contradiction|cbn in L; lia]. }
    subst RK. repeat split; try reflexivity. intros i j x a b Hi Hj. rewrite (nth_error_nth' _ vzero Hi), (nth_error_nth' _ vzero Hj). reflexivity.
  Qed.

  Lemma standardize_sum half small sym s s' (e1 e2 : vec -> F) x a b : standardize P half small sym s = Ok s' ->
    lattice_sum s' e1 e2 x a b = PG (fun R m => (if sym then half (m x a b) else m x a b) * e1 (fst R) * e2 (snd R)) (std_const P small sym s).
  Proof.
    intros H. apply standardize_Ok in H as (EG & EK & _ & _ & _ & _ & _ & D). unfold lattice_sum.
    rewrite <- (sum_over_keys _ (list_prod (Rg P s') (Rk P s'))).
    - rewrite (nsum_ext _ (fun i => nsum (fun j => (fun G K => match pget (std_const P small sym s) (G, K) with
          | Some m => (if sym then half (m x a b) else m x a b) * e1 G * e2 K | None => n0 end) (nth i (Rg P s') vzero) (nth j (Rk P s') vzero)) (seq 0 (length (Rk P s'))))).
      + rewrite (nsum_nth (fun G => nsum (fun j => (fun G K => match pget (std_const P small sym s) (G, K) with
          | Some m => (if sym then half (m x a b) else m x a b) * e1 G * e2 K | None => n0 end) G (nth j (Rk P s') vzero)) (seq 0 (length (Rk P s')))) (Rg P s') vzero).
        rewrite (nsum_ext _ (fun G => nsum (fun K => match pget (std_const P small sym s) (G, K) with
          | Some m => (if sym then half (m x a b) else m x a b) * e1 G * e2 K | None => n0 end) (Rk P s'))) by (intros G _; apply (nsum_nth (fun K => match pget (std_const P small sym s) (G, K) with
          | Some m => (if sym then half (m x a b) else m x a b) * e1 G * e2 K | None => n0 end))).
        rewrite nsum_list_prod. apply nsum_ext. intros [G K] _. cbn [fst snd]. reflexivity.
      + intros i Hi. apply nsum_ext. intros j Hj. apply in_seq in Hi, Hj. rewrite D by lia. cbn beta. destruct (pget _ _); ring.
    - apply NoDup_prod; rewrite ?EG, ?EK; apply sorted_set_NoDup.
    - apply const_NoDup.
    - intros [G K] HR. apply in_new_Rg in HR as [HG HK]. apply in_prod; rewrite ?EG, ?EK; assumption.
  Qed.

  Lemma entry_functional nph nel (e1 e2 : vec -> F) x a b : x < nph -> a < nel -> b < nel ->
    padditive (fun R m => m x a b * e1 (fst R) * e2 (snd R)) /\ plocal nph nel (fun R m => m x a b * e1 (fst R) * e2 (snd R)).
  Proof. intros Hx Ha Hb. split; [intros R y z; ring|]. intros R y Z. rewrite Z by assumption. ring. Qed.

  Lemma standardize_keeps half small s s' (e1 e2 : vec -> F) x a b : standardize P half small false s = Ok s' -> x < nph P s -> a < nel P s -> b < nel P s ->
    lattice_sum s' e1 e2 x a b = lattice_sum (chopped s small) e1 e2 x a b.
  Proof.
    intros H Hx Ha Hb. etransitivity; [exact (standardize_sum _ _ _ _ _ _ _ _ _ _ H)|]. rewrite lattice_entries. destruct (entry_functional (nph P s) (nel P s) e1 e2 x a b Hx Ha Hb) as [A L].
    etransitivity; [exact (std_sum _ (nph P s) (nel P s) false (entries P (chopped s small)) A L [((vzero, vzero), fun _ _ _ => n0)])|].
    unfold PG at 1. cbn [nsum fst snd]. ring.
  Qed.

  Lemma standardize_symmetric half h small s s' (e1 e2 : vec -> F) x a b : (forall y, half y = h * y) ->
    (forall u v, e1 (vadd u v) = e1 u * e1 v) -> (forall v, nconj (e1 v) = e1 (vopp v)) -> (forall v, nconj (e2 v) = e2 (vopp v)) ->
    standardize P half small true s = Ok s' -> x < nph P s -> a < nel P s -> b < nel P s ->
    lattice_sum s' e1 e2 x a b =
    h * (lattice_sum (chopped s small) e1 e2 x a b + nconj (lattice_sum (chopped s small) (fun R => e1 (vopp R)) (fun R => e1 R * e2 R) x b a)).
  Proof.
    intros Hh Add C1 C2 H Hx Ha Hb. rewrite (standardize_sum _ _ _ _ _ _ _ _ _ _ H). rewrite !lattice_entries.
    destruct (entry_functional (nph P s) (nel P s) e1 e2 x a b Hx Ha Hb) as [A L].
    etransitivity; [apply (nsum_ext _ (fun y => h * (snd y x a b * e1 (fst (fst y)) * e2 (snd (fst y))))); intros [[G K] y] _; cbn [fst snd]; rewrite Hh; ring|]. rewrite nsum_mul_l. f_equal.
    pose proof (std_sum _ _ _ true (entries P (chopped s small)) A L [((vzero, vzero), fun _ _ _ => n0)]) as E. unfold PG in E at 1. cbv beta in E.
    etransitivity; [exact E|]. clear E. unfold PG at 1. cbn [nsum fst snd]. unfold PG. rewrite n_conj_sum.
    rewrite (nsum_ext (fun y => slab_adj (snd y) x a b * e1 (fst (adjoint_key (fst y))) * e2 (snd (adjoint_key (fst y))))
      (fun y => nconj (snd y x b a * e1 (vopp (fst (fst y))) * (e1 (snd (fst y)) * e2 (snd (fst y)))))).
    - ring.
    - intros [[G K] m] _. cbn [fst snd adjoint_key]. unfold slab_adj. rewrite !n_conj_mul, !C1, C2, !vopp_opp.
      replace (vsub G K) with (vadd G (vopp K)) by (unfold vsub, vadd, vopp; cbn; f_equal; lia). rewrite Add. ring.
  Qed.

  (** ** Success *)
  Lemma standardize_success half small sym s : In vzero (Rk P s) -> (sym = true -> forall R, In R (Rk P s) -> In (vopp R) (Rk P s)) ->
    exists s', standardize P half small sym s = Ok s'.
  Proof.
    intros HZ Hsym. unfold standardize. fold (new_Rg s small sym) (new_Rk s small sym). rewrite assign_same. cbn [bind].
    assert (L : length (new_Rk s small sym) <= length (Rk P s)).
    { apply sorted_set_length. intros v Hv. apply in_map_iff in Hv as (x & <- & Hx). apply (in_map fst) in Hx. apply const_keys in Hx as [->|(R & _ & I & [->|[S ->]])]; [exact HZ|exact I|].
      cbn [adjoint_key snd]. apply Hsym; assumption. }
    apply Nat.leb_le in L. rewrite L, assign_same. cbn [bind]. eauto.
  Qed.

  Lemma standardize_failure half small sym s : standardize P half small sym s = Raise ValueError <->
    length (Rk P s) < length (new_Rk s small sym) /\ length (new_Rg s small sym) <> length (new_Rk s small sym).
  Proof.
    unfold standardize. fold (new_Rg s small sym) (new_Rk s small sym). rewrite assign_same. cbn [bind]. destruct (Nat.leb_spec (length (new_Rk s small sym)) (length (Rk P s))) as [L|L].
    - rewrite assign_same. cbn [bind]. split; [discriminate|lia].
    - unfold assign_rows. destruct (Nat.eqb_spec (length (new_Rk s small sym)) (length (new_Rg s small sym))) as [E|E]; cbn [bind].
      + split; [discriminate|]. intros [_ H]. congruence.
      + destruct (new_Rk s small sym) as [|v [|w l]] eqn:K.
        * split; [intros _; split; [exact L|cbn in *; lia]|reflexivity].
        * cbn [bind]. split; [discriminate|]. intros _. exfalso. cbn [length] in *.
          assert (LG : length (new_Rg s small sym) <= 1).
          { apply (sorted_set_length _ [vzero]). intros u Hu. apply in_map_iff in Hu as (x & <- & Hx). apply (in_map fst) in Hx. apply const_keys in Hx as [->|(R & _ & I & _)]; [left; reflexivity|].
            destruct (Rk P s); [contradiction|cbn in L; lia]. }
          pose proof (proj1 (in_zero_new s small sym)). destruct (new_Rg s small sym); [contradiction|cbn in *; lia].
        * split; [intros _; split; [exact L|congruence]|reflexivity].
  Qed.

  Lemma standardize_lists half small sym s s' : standardize P half small sym s = Ok s' ->
    StronglySorted vlt (Rg P s') /\ StronglySorted vlt (Rk P s') /\ In vzero (Rg P s') /\ In vzero (Rk P s') /\
    (sym = false -> forall R, (In R (Rg P s') -> R = vzero \/ In R (Rg P s)) /\ (In R (Rk P s') -> R = vzero \/ In R (Rk P s))).
  Proof.
    intros H. apply standardize_Ok in H as (EG & EK & _). rewrite EG, EK. split; [apply sorted_set_sorted|]. split; [apply sorted_set_sorted|]. split; [apply in_zero_new|]. split; [apply in_zero_new|].
    intros ->. intros R. split; intros I; apply in_sorted_set, in_map_iff in I as (x & <- & Hx); apply (in_map fst) in Hx; apply const_keys in Hx as [E|(Q & I1 & I2 & [E|[E _]])]; rewrite ?E; try discriminate; auto.
  Qed.
End Std.
