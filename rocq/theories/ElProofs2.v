(** Proofs about the supercell functions of ElModel.v. *)
From Coq Require Import Permutation.
From Verif Require Import Common CommonProofs LatModel LatSpec LatProofs Num NumProofs ElModel ElSpec ElProofs.
Local Open Scope nat_scope.

Section ElSupercell.
  Context {F : num}.
  Add Ring F_ring3 : (n_ring F).
  Notation mat := (@mat F).
  Notation el := (@el F).
  Implicit Types (d h : list (vec * mat)) (m : el).

  Definition op : Type := (nat * vec) * (vec * mat).

  Lemma fold_left_flat {A B C} (f : A -> B * C -> A) (l : list B) (k : list C) a :
    fold_left f (flat_map (fun b => map (fun c => (b, c)) k) l) a =
    fold_left (fun a b => fold_left (fun a c => f a (b, c)) k a) l a.
  Proof.
    revert a. induction l as [|b l IH]; intros a; cbn; [reflexivity|].
    rewrite fold_left_app, IH. f_equal. clear. revert a. induction k as [|c k IH]; intros a; cbn; [reflexivity|].
    apply IH.
  Qed.

  Definition enum (cs : list vec) : list (nat * vec) := combine (seq 0 (length cs)) cs.
  Definition ops (cs : list vec) h : list op := flat_map (fun ic => map (fun x => (ic, x)) h) (enum cs).

  Lemma in_enum cs i c : In (i, c) (enum cs) <-> nth_error cs i = Some c.
  Proof.
    unfold enum. assert (H : forall k, In (i, c) (combine (seq k (length cs)) cs) <-> k <= i /\ nth_error cs (i - k) = Some c).
    { induction cs as [|x cs IH]; intros k; cbn.
      - split; [intros []|]. intros [_ H]. destruct (i - k); discriminate.
      - rewrite IH. split.
        + intros [H|[H1 H2]].
          * injection H as -> ->. rewrite Nat.sub_diag. auto.
          * split; [lia|]. replace (i - k) with (Datatypes.S (i - Datatypes.S k)) by lia. exact H2.
        + intros [H1 H2]. destruct (Nat.eq_dec k i) as [->|Hne].
          * rewrite Nat.sub_diag in H2. injection H2 as ->. auto.
          * right. split; [lia|]. replace (i - k) with (Datatypes.S (i - Datatypes.S k)) in H2 by lia. exact H2. }
    rewrite H, Nat.sub_0_r. split; [tauto|]. intros H'. split; [lia|exact H'].
  Qed.

  Lemma enum_fst cs : map fst (enum cs) = seq 0 (length cs).
  Proof.
    unfold enum. generalize 0. induction cs as [|x cs IH]; intros k; cbn; [reflexivity|]. rewrite IH. reflexivity.
  Qed.

  Lemma NoDup_enum cs : NoDup (enum cs).
  Proof. apply (NoDup_map_inv fst). rewrite enum_fst. apply seq_NoDup. Qed.

  (** ** Blocks *)
  Definition in_block sz i j a b : bool :=
    ((i * sz <=? a) && (a <? i * sz + sz) && (j * sz <=? b) && (b <? j * sz + sz))%nat.

  Definition blk sz i j (x : mat) : mat := fun a b =>
    if in_block sz i j a b then x (a - i * sz)%nat (b - j * sz)%nat else n0.

  Lemma in_block_iff sz i j a b : in_block sz i j a b = true <->
    (i * sz <= a < i * sz + sz /\ j * sz <= b < j * sz + sz)%nat.
  Proof. unfold in_block. rewrite !andb_true_iff, !Nat.leb_le, !Nat.ltb_lt. tauto. Qed.

  Lemma in_block_inj sz i j i' j' a b : in_block sz i j a b = true -> in_block sz i' j' a b = true -> i = i' /\ j = j'.
  Proof. rewrite !in_block_iff. nia. Qed.

  Lemma in_block_at sz i j i' j' a b : a < sz -> b < sz ->
    in_block sz i' j' (i * sz + a) (j * sz + b) = (i' =? i)%nat && (j' =? j)%nat.
  Proof.
    intros Ha Hb. destruct (in_block sz i' j' (i * sz + a) (j * sz + b)) eqn:E.
    - assert (E' : in_block sz i j (i * sz + a) (j * sz + b) = true) by (apply in_block_iff; lia).
      destruct (in_block_inj _ _ _ _ _ _ _ E E') as [-> ->]. rewrite !Nat.eqb_refl. reflexivity.
    - destruct (Nat.eqb_spec i' i) as [->|]; [|reflexivity]. destruct (Nat.eqb_spec j' j) as [->|]; [|reflexivity].
      assert (E' : in_block sz i j (i * sz + a) (j * sz + b) = true) by (apply in_block_iff; lia). congruence.
  Qed.

  Lemma blk_at sz i j i' j' (x : mat) a b : a < sz -> b < sz ->
    blk sz i' j' x (i * sz + a)%nat (j * sz + b)%nat = if (i' =? i)%nat && (j' =? j)%nat then x a b else n0.
  Proof.
    intros Ha Hb. unfold blk. rewrite in_block_at by assumption.
    destruct (Nat.eqb_spec i' i) as [->|]; [|reflexivity]. destruct (Nat.eqb_spec j' j) as [->|]; [|reflexivity].
    cbn [andb]. f_equal; lia.
  Qed.

  Local Open Scope num_scope.

  Definition val d R a b : F := match dget d R with Some x => x a b | None => n0 end.
  Definition old d R : mat := match dget d R with Some x => x | None => mzero end.

  (** An operation with its target. *)
  Record asg := Asg { g_S : vec; g_i : nat; g_j : nat; g_x : mat }.

  Definition assign sz d (o : asg) : list (vec * mat) :=
    dset d (g_S o) (set_block sz (old d (g_S o)) (g_i o) (g_j o) (g_x o)).

  Definition gkey (o : asg) := (g_S o, g_i o, g_j o).

  Definition ext (g : vec -> mat -> F) : Prop := forall R x y, (forall a b, x a b = y a b) -> g R x = g R y.

  Lemma additive_zero g : additive g -> ext g -> forall R, g R mzero = n0.
  Proof.
    intros Ha He R. assert (H := Ha R mzero mzero).
    rewrite (He R (madd mzero mzero) mzero) in H; [|intros; unfold madd, mzero; ring].
    transitivity (g R mzero + g R mzero - g R mzero); [ring|]. rewrite <- H. ring.
  Qed.

  Lemma Gsum_old g d R y : additive g -> ext g -> Gsum g (dset d R y) = Gsum g d - g R (old d R) + g R y.
  Proof.
    intros Ha He. unfold old. destruct (dget d R) eqn:E.
    - apply Gsum_dset, E.
    - rewrite Gsum_dset_new by exact E. rewrite additive_zero by assumption. ring.
  Qed.

  Lemma assign_G g sz d o : additive g -> ext g ->
    (forall a b, in_block sz (g_i o) (g_j o) a b = true -> val d (g_S o) a b = n0) ->
    Gsum g (assign sz d o) = Gsum g d + g (g_S o) (blk sz (g_i o) (g_j o) (g_x o)).
  Proof.
    intros Ha He Hz. unfold assign. rewrite Gsum_old by assumption.
    rewrite (He _ (set_block _ _ _ _ _) (madd (old d (g_S o)) (blk sz (g_i o) (g_j o) (g_x o)))).
    - rewrite Ha. ring.
    - intros a b. unfold set_block, madd, blk. specialize (Hz a b). fold (in_block sz (g_i o) (g_j o) a b).
      destruct (in_block sz (g_i o) (g_j o) a b).
      + unfold val in Hz. unfold old. destruct (dget d (g_S o)); [rewrite Hz by reflexivity; ring|]. unfold mzero. ring.
      + ring.
  Qed.

  Lemma val_assign sz d o R a b : val (assign sz d o) R a b =
    if veqb (g_S o) R && in_block sz (g_i o) (g_j o) a b then g_x o (a - g_i o * sz)%nat (b - g_j o * sz)%nat
    else val d R a b.
  Proof.
    unfold val, assign. rewrite dget_dset. destruct (veqb (g_S o) R) eqn:E; cbn [andb]; [|reflexivity].
    apply veqb_eq in E. subst R. unfold set_block. fold (in_block sz (g_i o) (g_j o) a b).
    destruct (in_block sz (g_i o) (g_j o) a b); [reflexivity|]. unfold old. destruct (dget d (g_S o)); reflexivity.
  Qed.

  Lemma assigns_G g sz : additive g -> ext g -> forall l d, NoDup (map gkey l) ->
    (forall o, In o l -> forall a b, in_block sz (g_i o) (g_j o) a b = true -> val d (g_S o) a b = n0) ->
    Gsum g (fold_left (assign sz) l d) = Gsum g d + nsum (fun o => g (g_S o) (blk sz (g_i o) (g_j o) (g_x o))) l.
  Proof.
    intros Ha He. induction l as [|o l IH]; intros d Hnd Hz; cbn [fold_left nsum]; [ring|].
    cbn [map] in Hnd. inversion Hnd as [|? ? Hn Hnd']; subst. rewrite IH.
    - rewrite assign_G; [ring|assumption|assumption|]. apply Hz. left. reflexivity.
    - exact Hnd'.
    - intros o' Ho' a b Hb. rewrite val_assign. destruct (veqb (g_S o) (g_S o')) eqn:E; cbn [andb].
      + apply veqb_eq in E. destruct (in_block sz (g_i o) (g_j o) a b) eqn:E2.
        * exfalso. apply Hn. destruct (in_block_inj _ _ _ _ _ _ _ E2 Hb) as [Ei Ej].
          replace (gkey o) with (gkey o'); [apply in_map, Ho'|]. unfold gkey. congruence.
        * apply Hz; [right; exact Ho'|exact Hb].
      + apply Hz; [right; exact Ho'|exact Hb].
  Qed.

  Lemma NoDup_assigns sz l : forall d, NoDup (keys d) -> NoDup (keys (fold_left (assign sz) l d)).
  Proof.
    induction l as [|o l IH]; intros d Hd; cbn [fold_left]; [exact Hd|]. apply IH, NoDup_dset, Hd.
  Qed.

  (** ** The loops of supercell *)
  Section Loop.
    Variables (a1 a2 a3 : narg) (sc : supercell_info).
    Let N1 := arg1 a1. Let N2 := arg2 a2. Let N3 := arg3 a3.
    Hypothesis Hd : det3 N1 N2 N3 <> 0%Z.
    Hypothesis Hsc : supercell a1 a2 a3 = Ok sc.

    Definition to_asg (o : op) : asg :=
      match to_supercell (vadd (fst (snd o)) (snd (fst o))) sc with
      | Ok (Q, j) => Asg Q (fst (fst o)) j (snd (snd o))
      | Raise _ => Asg vzero 0 0 mzero
      end.

    Lemma to_asg_spec i c R x : nth_error (sc_cells sc) i = Some c ->
      exists Q j c', to_asg ((i, c), (R, x)) = Asg Q i j x /\ nth_error (sc_cells sc) j = Some c' /\
        R = vsub (vadd (comb N1 N2 N3 Q) c') c.
    Proof.
      intros Hi. destruct (to_supercell_spec a1 a2 a3 sc (vadd R c) Hd Hsc) as (Q & j & c' & Ht & Hj & HR).
      exists Q, j, c'. split; [unfold to_asg; cbn [fst snd]; rewrite Ht; reflexivity|]. split; [exact Hj|].
      fold N1 N2 N3 in HR. rewrite <- HR. vring.
    Qed.

    Lemma sc_const_assigns m : sc_const m sc =
      Ok (fold_left (assign (size m)) (map to_asg (ops (sc_cells sc) (hop m))) []).
    Proof.
      unfold sc_const. fold (enum (sc_cells sc)). fold (ops (sc_cells sc) (hop m)).
      transitivity (fold_left (fun const o => sc_step (size m) sc (fst (fst o)) (snd (fst o)) const (snd o))
        (ops (sc_cells sc) (hop m)) (Ok [])).
      { unfold ops. rewrite (fold_left_flat (fun const (o : op) => sc_step (size m) sc (fst (fst o)) (snd (fst o)) const (snd o))).
        reflexivity. }
      assert (Hin : forall o, In o (ops (sc_cells sc) (hop m)) -> nth_error (sc_cells sc) (fst (fst o)) = Some (snd (fst o))).
      { intros o Ho. unfold ops in Ho. apply in_flat_map in Ho. destruct Ho as ([i c] & Hic & Ho).
        apply in_map_iff in Ho. destruct Ho as (x & <- & _). cbn [fst snd]. apply in_enum, Hic. }
      generalize (@nil (vec * mat)). revert Hin. generalize (ops (sc_cells sc) (hop m)) as l. induction l as [|[[i c] [R x]] l IH]; intros Hin d;
        cbn [fold_left map]; [reflexivity|].
      destruct (to_supercell_spec a1 a2 a3 sc (vadd R c) Hd Hsc) as (Q & j & c' & Ht & Hj & HR).
      assert (E1 : sc_step (size m) sc i c (Ok d) (R, x) = Ok (assign (size m) d (to_asg ((i, c), (R, x))))).
      { unfold sc_step, to_asg. cbn [bind fst snd]. rewrite Ht. cbn [bind]. reflexivity. }
      cbn [fst snd]. rewrite E1. apply IH. intros o Ho. apply Hin. right; exact Ho.
    Qed.

    Lemma NoDup_ops h : NoDup (keys h) -> NoDup (map gkey (map to_asg (ops (sc_cells sc) h))).
    Proof.
      intros Hnd.
      apply (NoDup_map_inv (fun k => (snd (fst k), vsub (vadd (comb N1 N2 N3 (fst (fst k))) (nth (snd k) (sc_cells sc) vzero))
                                                       (nth (snd (fst k)) (sc_cells sc) vzero)))).
      rewrite !map_map.
      rewrite (map_ext_in _ (fun o : op => (fst (fst o), fst (snd o)))).
      - unfold ops. rewrite flat_map_concat_map, concat_map, map_map.
        rewrite (map_ext _ (fun ic : nat * vec => map (fun R => (fst ic, R)) (keys h))).
        2: { intros ic. rewrite map_map. unfold keys. rewrite map_map. reflexivity. }
        rewrite <- (map_map fst (fun i => map (fun R => (i, R)) (keys h))), enum_fst, <- flat_map_concat_map.
        apply (NoDup_flat_map _ fst).
        + intros i y Hy. apply in_map_iff in Hy. destruct Hy as (R & <- & _). reflexivity.
        + intros i. apply NoDup_map_inj; [|exact Hnd]. intros R R' HR. congruence.
        + apply seq_NoDup.
      - intros [[i c] [R x]] Ho. unfold ops in Ho. apply in_flat_map in Ho. destruct Ho as ([i' c'] & Hic & Ho).
        apply in_map_iff in Ho. destruct Ho as (x' & E & _). injection E as -> -> ->. apply in_enum in Hic.
        destruct (to_asg_spec i c R x Hic) as (Q & j & c' & Ha & Hj & HR).
        rewrite Ha. unfold gkey. cbn [g_S g_i g_j fst snd].
        rewrite (nth_error_nth _ _ _ Hic), (nth_error_nth _ _ _ Hj), HR. reflexivity.
    Qed.

    Lemma supercell_G g m const : additive g -> ext g -> NoDup (keys (hop m)) ->
      sc_const m sc = Ok const ->
      Gsum g const = nsum (fun ic => nsum (fun x =>
        let o := to_asg (ic, x) in g (g_S o) (blk (size m) (g_i o) (g_j o) (g_x o))) (hop m)) (enum (sc_cells sc)).
    Proof.
      intros Ha He Hnd Hc. rewrite sc_const_assigns in Hc. injection Hc as <-.
      rewrite assigns_G; [|assumption|assumption|apply NoDup_ops, Hnd|reflexivity].
      rewrite nsum_map. unfold ops. rewrite nsum_flat_map. cbn [Gsum nsum].
      transitivity (nsum (fun ic => nsum (fun x =>
        let o := to_asg (ic, x) in g (g_S o) (blk (size m) (g_i o) (g_j o) (g_x o))) (hop m)) (enum (sc_cells sc))); [|reflexivity].
      match goal with |- n0 + ?u = ?v => transitivity u; [ring|] end.
      apply nsum_ext. intros ic _. rewrite nsum_map. reflexivity.
    Qed.

    (** Only one row of cells contributes. *)
    Lemma supercell_G_row g m const i c (f : vec -> nat -> mat -> F) : additive g -> ext g -> NoDup (keys (hop m)) ->
      sc_const m sc = Ok const -> nth_error (sc_cells sc) i = Some c ->
      (forall Q i' j x, g Q (blk (size m) i' j x) = if (i' =? i)%nat then f Q j x else n0) ->
      Gsum g const = nsum (fun x => let o := to_asg ((i, c), x) in f (g_S o) (g_j o) (snd x)) (hop m).
    Proof.
      intros Ha He Hnd Hc Hi Hf. rewrite (supercell_G g m const) by assumption.
      rewrite (nsum_single _ _ (i, c)).
      - apply nsum_ext. intros [R x] _. cbv zeta. rewrite Hf.
        destruct (to_asg_spec i c R x Hi) as (Q & j & c' & E & _). rewrite E. cbn [g_i g_j g_S g_x snd].
        rewrite Nat.eqb_refl. reflexivity.
      - apply NoDup_enum.
      - apply in_enum, Hi.
      - intros [i' c'] Hin Hne. apply nsum_zero. intros [R x] _. cbv zeta. rewrite Hf.
        apply in_enum in Hin. destruct (to_asg_spec i' c' R x Hin) as (Q & j & c'' & E & _). rewrite E. cbn [g_i].
        destruct (Nat.eqb_spec i' i) as [->|]; [|reflexivity]. exfalso. apply Hne. congruence.
    Qed.

    Lemma sc_hopping m const Q i j c c' a b : NoDup (keys (hop m)) -> sc_const m sc = Ok const ->
      nth_error (sc_cells sc) i = Some c -> nth_error (sc_cells sc) j = Some c' ->
      a < size m -> b < size m ->
      hopping const Q (i * size m + a)%nat (j * size m + b)%nat =
      hopping (hop m) (vsub (vadd (comb N1 N2 N3 Q) c') c) a b.
    Proof.
      intros Hnd Hc Hi Hj Ha Hb. rewrite hopping_G.
      rewrite (supercell_G_row _ m const i c (fun Q' j' x => if veqb Q' Q && (j' =? j)%nat then x a b else n0)); try assumption.
      - unfold hopping. apply nsum_ext. intros [R x] _. cbv zeta. cbn [fst snd].
        destruct (to_asg_spec i c R x Hi) as (Q' & j' & c'' & E & Hj' & HR). rewrite E. cbn [g_S g_j].
        destruct (veqb R (vsub (vadd (comb N1 N2 N3 Q) c') c)) eqn:E1.
        + apply veqb_eq in E1.
          assert (E2 : Ok (Q', j') = Ok (Q, j)).
          { rewrite <- (to_supercell_unique a1 a2 a3 sc (vadd R c) Q' j' c'' Hd Hsc Hj').
            - rewrite <- (to_supercell_unique a1 a2 a3 sc (vadd R c) Q j c' Hd Hsc Hj); [reflexivity|].
              rewrite E1. unfold N1, N2, N3. vring.
            - rewrite HR. unfold N1, N2, N3. vring. }
          injection E2 as -> ->. rewrite veqb_refl, Nat.eqb_refl. reflexivity.
        + destruct (veqb Q' Q && (j' =? j)%nat) eqn:E2; [|reflexivity].
          apply andb_true_iff in E2. destruct E2 as [E2 E3]. apply veqb_eq in E2. apply Nat.eqb_eq in E3. subst Q' j'.
          assert (c'' = c') by congruence. subst c''. rewrite HR, veqb_refl in E1. discriminate.
      - apply hopping_additive.
      - intros R x y Hxy. rewrite Hxy. reflexivity.
      - intros Q' i' j' x. rewrite blk_at by assumption.
        destruct (veqb Q' Q), (i' =? i)%nat, (j' =? j)%nat; reflexivity.
    Qed.

    (** Bloch states of the unit cell are Bloch states of the supercell. *)
    Lemma sc_bloch e m const i c a (psi : nat -> F) : (forall Q T, e (vadd Q T) = e Q * e T) ->
      NoDup (keys (hop m)) -> sc_const m sc = Ok const ->
      nth_error (sc_cells sc) i = Some c -> a < size m ->
      nsum (fun jc => nsum (fun b =>
        nsum (fun x => snd x (i * size m + a)%nat (fst jc * size m + b)%nat * e (comb N1 N2 N3 (fst x))) const *
        (e (snd jc) * psi b)) (seq 0 (size m))) (enum (sc_cells sc)) =
      e c * nsum (fun b => H e m a b * psi b) (seq 0 (size m)).
    Proof.
      intros He Hnd Hc Hi Ha.
      rewrite nsum_swap, <- nsum_mul_l. apply nsum_ext. intros b Hb. apply in_seq in Hb. destruct Hb as [_ Hb]. cbn in Hb.
      rewrite (nsum_ext _ (fun jc => (nsum (fun x => let o := to_asg ((i, c), x) in
        (if (g_j o =? fst jc)%nat then snd x a b else n0) * e (comb N1 N2 N3 (g_S o))) (hop m) * e (snd jc)) * psi b)).
      2: { intros [j c'] Hj. cbn [fst snd].
        transitivity (nsum (fun x => snd x (i * size m + a)%nat (j * size m + b)%nat * e (comb N1 N2 N3 (fst x))) const * e c' * psi b); [ring|].
        do 2 f_equal.
        change (Gsum (fun Q y => y (i * size m + a)%nat (j * size m + b)%nat * e (comb N1 N2 N3 Q)) const =
          nsum (fun x => let o := to_asg ((i, c), x) in (if (g_j o =? j)%nat then snd x a b else n0) * e (comb N1 N2 N3 (g_S o))) (hop m)).
        apply (supercell_G_row _ m const i c (fun Q j' x => (if (j' =? j)%nat then x a b else n0) * e (comb N1 N2 N3 Q))); try assumption.
        - intros R x y. unfold madd. ring.
        - intros R x y Hxy. rewrite Hxy. reflexivity.
        - intros Q i' j' x. rewrite blk_at by assumption. destruct (i' =? i)%nat, (j' =? j)%nat; cbn [andb]; ring. }
      rewrite nsum_mul_r.
      transitivity (e c * H e m a b * psi b); [|ring]. f_equal.
      rewrite (nsum_ext _ (fun jc => nsum (fun x => let o := to_asg ((i, c), x) in
        (if (g_j o =? fst jc)%nat then snd x a b else n0) * e (comb N1 N2 N3 (g_S o)) * e (snd jc)) (hop m))).
      2: { intros jc _. rewrite <- nsum_mul_r. reflexivity. }
      rewrite nsum_swap. unfold H. rewrite <- nsum_mul_l. apply nsum_ext. intros [R x] _. cbv zeta.
      destruct (to_asg_spec i c R x Hi) as (Q & j & c' & E & Hj & HR). rewrite E. cbn [g_S g_j fst snd].
      rewrite (nsum_single _ _ (j, c')).
      - cbn [fst snd]. rewrite Nat.eqb_refl.
        transitivity (x a b * e (vadd (comb N1 N2 N3 Q) c')); [rewrite He; ring|].
        replace (vadd (comb N1 N2 N3 Q) c') with (vadd c R) by (rewrite HR; vring). rewrite He. ring.
      - apply NoDup_enum.
      - apply in_enum, Hj.
      - intros [j' c''] Hin Hne. cbn [fst snd]. apply in_enum in Hin.
        destruct (Nat.eqb_spec j j') as [<-|]; [|ring]. exfalso. apply Hne. congruence.
    Qed.

    Lemma sc_keys m const : sc_const m sc = Ok const -> NoDup (keys const).
    Proof. intros Hc. rewrite sc_const_assigns in Hc. injection Hc as <-. apply NoDup_assigns. constructor. Qed.

    (** ** unit_cell *)
    Definition uc_list (sz : nat) (const : list (vec * mat)) : list (vec * mat) :=
      flat_map (fun x => map (fun ic => (vadd (comb N1 N2 N3 (fst x)) (snd ic), fun a b => snd x a (fst ic * sz + b)%nat))
        (enum (sc_cells sc))) const.

    Lemma uc_fold sz (const : list (vec * mat)) d : 
      fold_left (fun const x => fold_left (uc_step sz (N1, N2, N3) (fst x) (snd x)) (enum (sc_cells sc)) const) const d =
      fold_left (fun d y => if nonzero sz (snd y) then dset d (fst y) (snd y) else d) (uc_list sz const) d.
    Proof.
      unfold uc_list. revert d. induction const as [|[R x] const IH]; intros d; cbn [fold_left flat_map]; [reflexivity|].
      rewrite fold_left_app, IH. f_equal. cbn [fst snd]. clear IH.
      revert d. induction (enum (sc_cells sc)) as [|[i c] l IH]; intros d; cbn [fold_left map]; [reflexivity|].
      rewrite IH. reflexivity.
    Qed.

    Lemma uc_list_keys sz (const : list (vec * mat)) : NoDup (keys const) -> NoDup (keys (uc_list sz const)).
    Proof.
      intros Hnd. unfold uc_list, keys. rewrite flat_map_concat_map, concat_map, map_map.
      rewrite (map_ext _ (fun x : vec * mat => map (fun c => vadd (comb N1 N2 N3 (fst x)) c) (sc_cells sc))).
      2: { intros x. rewrite map_map. cbn [fst]. rewrite <- (map_map snd (fun c => vadd (comb N1 N2 N3 (fst x)) c)).
        f_equal. unfold enum. generalize 0. induction (sc_cells sc) as [|c l IH]; intros k; cbn; [reflexivity|]. rewrite IH. reflexivity. }
      rewrite <- (map_map fst (fun R => map (fun c => vadd (comb N1 N2 N3 R) c) (sc_cells sc))), <- flat_map_concat_map.
      destruct (supercell_spec a1 a2 a3 Hd) as (s' & Hs' & _ & _ & _ & _ & _ & [Hnc _] & _).
      assert (s' = sc) by congruence. subst s'.
      apply (NoDup_flat_map _ (fun v => match to_supercell v sc with Ok (Q, _) => Q | Raise _ => vzero end)).
      - intros Q v Hv. apply in_map_iff in Hv. destruct Hv as (c & <- & Hc). apply In_nth_error in Hc. destruct Hc as [i Hi].
        rewrite (to_supercell_unique a1 a2 a3 sc (vadd (comb N1 N2 N3 Q) c) Q i c Hd Hsc Hi eq_refl). reflexivity.
      - intros Q. apply NoDup_map_inj; [|exact Hnc]. intros c c' E.
        assert (Ex := f_equal vx E). assert (Ey := f_equal vy E). assert (Ez := f_equal vz E).
        cbn [vx vy vz vadd] in Ex, Ey, Ez. apply vec_ext; lia.
      - exact Hnd.
    Qed.

    Lemma uc_fold_G g sz : additive g -> ext g -> local sz g -> forall l d, NoDup (keys d ++ keys l) ->
      Gsum g (fold_left (fun d y => if nonzero sz (snd y) then dset d (fst y) (snd y) else d) l d) = Gsum g d + Gsum g l.
    Proof.
      intros Ha He Hl. induction l as [|[R x] l IH]; intros d Hnd; cbn [fold_left]; [cbn; ring|].
      change (Gsum g ((R, x) :: l)) with (g R x + Gsum g l). cbn [fst snd].
      assert (HR : ~ In R (keys d)).
      { intros Hin. cbn in Hnd. apply NoDup_remove_2 in Hnd. apply Hnd, in_or_app. auto. }
      destruct (nonzero sz x) eqn:E.
      - rewrite IH.
        + rewrite Gsum_dset_new by (apply dget_None, HR). ring.
        + rewrite keys_dset. rewrite (proj2 (dget_None d R) HR), <- app_assoc. exact Hnd.
      - rewrite IH by (cbn in Hnd; apply NoDup_remove_1 in Hnd; exact Hnd).
        rewrite (Hl R x) by (apply nonzero_false, E). ring.
    Qed.

    Lemma uc_fold_NoDup sz l : forall d, NoDup (keys d) ->
      NoDup (keys (fold_left (fun d (y : vec * mat) => if nonzero sz (snd y) then dset d (fst y) (snd y) else d) l d)).
    Proof.
      induction l as [|x l IH]; intros d Hd'; cbn [fold_left]; [exact Hd'|]. apply IH.
      destruct (nonzero sz (snd x)); [apply NoDup_dset|]; exact Hd'.
    Qed.

    Lemma uc_hopping sz (const : list (vec * mat)) R a b : a < sz -> b < sz -> NoDup (keys const) ->
      exists Q j c, R = vadd (comb N1 N2 N3 Q) c /\ nth_error (sc_cells sc) j = Some c /\
      hopping (fold_left (fun const x => fold_left (uc_step sz (N1, N2, N3) (fst x) (snd x)) (enum (sc_cells sc)) const) const []) R a b =
      hopping const Q a (j * sz + b)%nat.
    Proof.
      intros Ha Hb Hnd.
      destruct (to_supercell_spec a1 a2 a3 sc R Hd Hsc) as (Q & j & c & _ & Hj & HR).
      exists Q, j, c. split; [exact HR|]. split; [exact Hj|].
      rewrite uc_fold, hopping_G, uc_fold_G with (sz := sz).
      - match goal with |- Gsum ?g [] + ?u = _ => change (Gsum g []) with (@n0 F); transitivity u; [ring|] end.
        unfold Gsum, hopping, uc_list. rewrite nsum_flat_map. apply nsum_ext. intros [Q' x] _. rewrite nsum_map. cbn [fst snd].
        destruct (veqb Q' Q) eqn:E.
        + apply veqb_eq in E. subst Q'. rewrite (nsum_single _ _ (j, c)).
          * cbn [fst snd]. rewrite HR. fold N1 N2 N3. rewrite veqb_refl. reflexivity.
          * apply NoDup_enum.
          * apply in_enum, Hj.
          * intros [j' c'] Hin Hne. cbn [fst snd]. destruct (veqb _ R) eqn:E; [|reflexivity]. exfalso. apply Hne.
            apply veqb_eq in E. apply in_enum in Hin.
            assert (E2 : Ok (Q, j') = Ok (Q, j)).
            { rewrite <- (to_supercell_unique a1 a2 a3 sc R Q j' c' Hd Hsc Hin) by (symmetry; exact E).
              apply (to_supercell_unique a1 a2 a3 sc R Q j c Hd Hsc Hj HR). }
            injection E2 as ->. congruence.
        + apply nsum_zero. intros [j' c'] Hin. cbn [fst snd]. destruct (veqb (vadd _ c') R) eqn:E1; [|reflexivity]. exfalso.
          apply veqb_eq in E1. apply in_enum in Hin.
          assert (E2 : Ok (Q', j') = Ok (Q, j)).
          { rewrite <- (to_supercell_unique a1 a2 a3 sc R Q' j' c' Hd Hsc Hin) by (symmetry; exact E1).
            apply (to_supercell_unique a1 a2 a3 sc R Q j c Hd Hsc Hj HR). }
          injection E2 as -> _. rewrite veqb_refl in E. discriminate.
      - apply hopping_additive.
      - intros Q' x y Hxy. rewrite Hxy. reflexivity.
      - apply hopping_local; assumption.
      - apply uc_list_keys, Hnd.
    Qed.
  End Loop.
End ElSupercell.
