(** The first cell of a supercell; ordering orbitals back. *)
From Coq Require Import Permutation Sorted.
From Verif Require Import Common CommonProofs LatModel LatSpec LatProofs Num NumProofs ElModel ElSpec ElProofs ElProofs2 ElProofs3.

Section Sorted.
  Lemma sorted_app {A} (R : A -> A -> Prop) l l' : StronglySorted R l -> StronglySorted R l' ->
    (forall x y, In x l -> In y l' -> R x y) -> StronglySorted R (l ++ l').
  Proof.
    induction 1 as [|x l Hl IH Hx]; intros Hl' Hc; cbn; [exact Hl'|]. constructor.
    - apply IH; [exact Hl'|]. intros u w Hu Hw. apply Hc; [right; exact Hu|exact Hw].
    - apply Forall_app. split; [exact Hx|]. apply Forall_forall. intros y Hy. apply Hc; [left; reflexivity|exact Hy].
  Qed.

  Lemma sorted_flat_map {A B} (S : A -> A -> Prop) (R : B -> B -> Prop) (f : A -> list B) l :
    StronglySorted S l -> (forall x, StronglySorted R (f x)) ->
    (forall x y u w, S x y -> In u (f x) -> In w (f y) -> R u w) -> StronglySorted R (flat_map f l).
  Proof.
    induction 1 as [|x l Hl IH Hx]; intros Hf Hc; cbn; [constructor|].
    apply sorted_app; [apply Hf|apply IH; assumption|].
    intros u w Hu Hw. apply in_flat_map in Hw. destruct Hw as (y & Hy & Hw).
    rewrite Forall_forall in Hx. eapply Hc; eauto.
  Qed.

  Lemma sorted_zrange lo hi : StronglySorted Z.lt (zrange lo hi).
  Proof.
    unfold zrange. generalize (Z.to_nat (hi - lo)) as n. intros n. generalize 0%nat as k.
    induction n as [|n IH]; intros k; cbn; constructor; [apply IH|].
    apply Forall_forall. intros x Hx. apply in_map_iff in Hx. destruct Hx as (i & <- & Hi). apply in_seq in Hi. lia.
  Qed.

  Lemma cells_sorted N N1 N2 N3 B1 B2 B3 : StronglySorted vlt (cells_in N N1 N2 N3 B1 B2 B3).
  Proof.
    unfold cells_in. apply (sorted_flat_map Z.lt); [apply sorted_zrange| |].
    - intros x. apply (sorted_flat_map Z.lt); [apply sorted_zrange| |].
      + intros y. apply (sorted_flat_map Z.lt); [apply sorted_zrange| |].
        * intros z. destruct (_ && _ && _); repeat constructor.
        * intros z z' u w Hz Hu Hw. destruct (_ && _ && _) in Hu; [|destruct Hu]. destruct (_ && _ && _) in Hw; [|destruct Hw].
          destruct Hu as [<-|[]]. destruct Hw as [<-|[]]. unfold vlt. cbn. lia.
      + intros y y' u w Hy Hu Hw. apply in_flat_map in Hu, Hw. destruct Hu as (z & _ & Hu). destruct Hw as (z' & _ & Hw).
        destruct (_ && _ && _) in Hu; [|destruct Hu]. destruct (_ && _ && _) in Hw; [|destruct Hw].
        destruct Hu as [<-|[]]. destruct Hw as [<-|[]]. unfold vlt. cbn. lia.
    - intros x x' u w Hx Hu Hw. apply in_flat_map in Hu, Hw. destruct Hu as (y & _ & Hu). destruct Hw as (y' & _ & Hw).
      apply in_flat_map in Hu, Hw. destruct Hu as (z & _ & Hu). destruct Hw as (z' & _ & Hw).
      destruct (_ && _ && _) in Hu; [|destruct Hu]. destruct (_ && _ && _) in Hw; [|destruct Hw].
      destruct Hu as [<-|[]]. destruct Hw as [<-|[]]. unfold vlt. cbn. lia.
  Qed.
End Sorted.

(** The first cell is the origin iff no cell precedes the origin. *)
Lemma first_cell a1 a2 a3 s : det3 (arg1 a1) (arg2 a2) (arg3 a3) <> 0%Z -> supercell a1 a2 a3 = Ok s ->
  (nth_error (sc_cells s) 0 = Some vzero <-> forall c, In c (sc_cells s) -> ~ vlt c vzero).
Proof.
  intros Hd Hs.
  destruct (supercell_spec a1 a2 a3 Hd) as (s' & Hs' & _ & _ & _ & _ & _ & _ & H0 & _).
  assert (s' = s) by congruence. subst s'.
  assert (Hsort : StronglySorted vlt (sc_cells s)).
  { rewrite supercell_Ok in Hs by exact Hd. injection Hs as <-. apply cells_sorted. }
  destruct (sc_cells s) as [|c0 l]; [destruct H0|]. apply StronglySorted_inv in Hsort. destruct Hsort as [_ Hc].
  rewrite Forall_forall in Hc. cbn. split.
  - intros E. injection E as ->. intros c [<-|Hin] Hlt; [eapply vlt_irrefl, Hlt|].
    eapply vlt_irrefl, vlt_trans; [exact Hlt|apply Hc, Hin].
  - intros Hn. destruct H0 as [->|Hin]; [reflexivity|]. exfalso. apply (Hn c0); [left; reflexivity|]. apply Hc, Hin.
Qed.

Lemma first_cell_diagonal n1 n2 n3 s : (0 < n1)%Z -> (0 < n2)%Z -> (0 < n3)%Z ->
  supercell (Mult n1) (Mult n2) (Mult n3) = Ok s -> nth_error (sc_cells s) 0 = Some vzero.
Proof.
  intros H1 H2 H3 Hs. assert (Hd : det3 (V3 n1 0 0) (V3 0 n2 0) (V3 0 0 n3) = (n1 * n2 * n3)%Z) by (unfold det3; cbn; ring).
  assert (Hp : (0 < n1 * n2 * n3)%Z) by nia.
  apply (first_cell (Mult n1) (Mult n2) (Mult n3)); [cbn [arg1 arg2 arg3]; lia|exact Hs|].
  intros c Hc. rewrite supercell_Ok in Hs by (cbn [arg1 arg2 arg3]; lia). injection Hs as <-.
  cbn [sc_of sc_cells arg1 arg2 arg3] in Hc. apply in_cells in Hc. rewrite Hd in Hc.
  rewrite Z.sgn_pos in Hc by exact Hp. unfold dot in Hc. cbn [vx vy vz vscale cross] in Hc.
  unfold vlt. cbn. assert (0 < n2 * n3)%Z by nia. assert (0 < n1 * n3)%Z by nia. assert (0 < n1 * n2)%Z by nia. nia.
Qed.

Section Order.
  Context {F : num}.

  Lemma order_back order (m : @el F) : Permutation order (seq 0 (size m)) ->
    exists inv m1 m2, Permutation inv (seq 0 (size m)) /\
    order_orbitals order m = Ok m1 /\ order_orbitals inv m1 = Ok m2 /\
    map fst (hop m2) = map fst (hop m) /\
    forall R a b, a < size m -> b < size m -> hopping (hop m2) R a b = hopping (hop m) R a b.
  Proof.
    intros Hp. set (ix := fun a => match find_index (Nat.eqb a) order with Some i => i | None => 0 end).
    assert (Hlen : length order = size m) by (rewrite (Permutation_length Hp); apply seq_length).
    assert (Hix : forall a, a < size m -> nth_error order (ix a) = Some a /\ ix a < size m).
    { intros a Ha. unfold ix. destruct (find_index (Nat.eqb a) order) as [i|] eqn:E.
      - apply find_index_Some in E. destruct E as [(c & Hc & Eq) _]. apply Nat.eqb_eq in Eq. subst c.
        split; [exact Hc|]. rewrite <- Hlen. apply nth_error_Some. congruence.
      - exfalso. assert (Hin : In a order) by (apply (Permutation_in _ (Permutation_sym Hp)), in_seq; lia).
        pose proof (proj1 (find_index_None _ _) E a Hin) as Hf. rewrite Nat.eqb_refl in Hf. discriminate. }
    set (inv := map ix (seq 0 (size m))).
    assert (Hinv : Permutation inv (seq 0 (size m))).
    { apply NoDup_Permutation_bis.
      - unfold inv. assert (G : forall l, NoDup l -> (forall a, In a l -> a < size m) -> NoDup (map ix l)).
        { induction 1 as [|x l Hx Hl IH]; intros Hb; cbn; constructor.
          - intros Hin. apply in_map_iff in Hin. destruct Hin as (y & Ey & Hy). apply Hx.
            destruct (Hix x (Hb x (or_introl eq_refl))) as [E1 _]. destruct (Hix y (Hb y (or_intror Hy))) as [E2 _].
            rewrite Ey in E2. congruence.
          - apply IH. intros a Ha. apply Hb. right; exact Ha. }
        apply G; [apply seq_NoDup|]. intros a Ha. apply in_seq in Ha. lia.
      - unfold inv. rewrite map_length. lia.
      - intros x Hx. apply in_map_iff in Hx. destruct Hx as (a & <- & Ha). apply in_seq in Ha. apply in_seq.
        destruct (Hix a); lia. }
    assert (Ho : Forall (fun a => a < size m) order).
    { apply Forall_forall. intros a Ha. apply (Permutation_in _ Hp), in_seq in Ha. lia. }
    destruct (order_Ok order m Ho) as (m1 & E1 & K1 & H1 & _ & S1 & _).
    assert (Hi : Forall (fun a => a < size m1) inv).
    { apply Forall_forall. intros a Ha. apply (Permutation_in _ Hinv), in_seq in Ha. lia. }
    destruct (order_Ok inv m1 Hi) as (m2 & E2 & K2 & H2 & _).
    exists inv, m1, m2. split; [exact Hinv|]. split; [exact E1|]. split; [exact E2|].
    split; [unfold keys in *; congruence|].
    intros R a b Ha Hb.
    assert (Hn : forall a, a < size m -> nth_error inv a = Some (ix a)).
    { intros c Hc. unfold inv. rewrite nth_error_map, (proj2 (nth_error_seq 0 (size m) c c)) by lia. reflexivity. }
    rewrite (H2 R a b (ix a) (ix b) (Hn a Ha) (Hn b Hb)).
    apply H1; apply Hix; assumption.
  Qed.

  Lemma order_error order (m : @el F) a : In a order -> size m <= a -> order_orbitals order m = Raise IndexError.
  Proof.
    intros Hin Ha. unfold order_orbitals. destruct (forallb _ order) eqn:E; [|reflexivity].
    rewrite forallb_forall in E. apply E, Nat.ltb_lt in Hin. lia.
  Qed.
End Order.

Section More.
  Context {F : num}.
  Add Ring F_ring5 : (n_ring F).
  Notation el := (@el F).

  Lemma nonzero_true sz (x : @mat F) : nonzero sz x = true <-> exists a b, a < sz /\ b < sz /\ x a b <> n0.
  Proof.
    split.
    - intros Hn. unfold nonzero in Hn. apply existsb_exists in Hn. destruct Hn as (a & Ha & Hn).
      apply existsb_exists in Hn. destruct Hn as (b & Hb & Hn). apply in_seq in Ha, Hb.
      exists a, b. split; [lia|]. split; [lia|]. intros E. rewrite E, neqb_refl in Hn. discriminate.
    - intros (a & b & Ha & Hb & Hx). destruct (nonzero sz x) eqn:E; [reflexivity|]. exfalso.
      apply Hx. apply (proj1 (nonzero_false sz x) E); assumption.
  Qed.

  Lemma standardize_keys' (m : el) R :
    In R (map fst (hop (standardize (fun x => x) None false m))) <->
    exists x, In (R, x) (hop m) /\ exists a b, a < size m /\ b < size m /\ x a b <> n0.
  Proof.
    change (In R (keys (hop (standardize (fun x => x) None false m))) <->
      exists x, In (R, x) (hop m) /\ exists a b, a < size m /\ b < size m /\ x a b <> n0).
    rewrite standardize_keys. split; intros (x & Hx & Hn); exists x; (split; [exact Hx|]); apply nonzero_true, Hn.
  Qed.

  Lemma standardize_idem (m : el) :
    let m' := standardize (fun x => x) None false m in
    (forall R x, In (R, x) (hop m') -> exists a b, a < size m /\ b < size m /\ x a b <> n0) ->
    hop (standardize (fun x => x) None false m') = hop m'.
  Proof.
    intros m' Hn. apply standardize_id; [apply standardize_sorted|].
    apply Forall_forall. intros [R x] Hx. cbn [snd]. apply nonzero_true. apply (Hn R x Hx).
  Qed.

  Lemma el_round_trip a1 a2 a3 (m m' : el) :
    det3 (arg1 a1) (arg2 a2) (arg3 a3) <> 0%Z -> NoDup (map fst (hop m)) ->
    el_supercell a1 a2 a3 m = Ok m' -> (forall c, In c (cells m') -> ~ vlt c vzero) ->
    exists m'', el_unit_cell m' = Ok m'' /\ size m'' = size m /\
    forall R a b, a < size m -> b < size m ->
      hopping (hop m'') R a b = hopping (hop m) R a b.
  Proof.
    intros Hd Hnd Hm Hc.
    destruct (el_supercell_spec a1 a2 a3 m Hd Hnd) as (sc & m0 & Hsc & Hm0 & Hcells & _).
    assert (m0 = m') by congruence. subst m0. rewrite Hcells in Hc.
    assert (H0 : nth_error (cells m') 0 = Some vzero).
    { rewrite Hcells. apply (first_cell a1 a2 a3 sc Hd Hsc), Hc. }
    destruct (el_unit_cell_spec a1 a2 a3 m m' vzero Hd Hnd Hm H0) as (m'' & E & Hs & _ & Hh).
    exists m''. split; [exact E|]. split; [exact Hs|]. intros R a b Ha Hb. rewrite Hh by assumption.
    f_equal. vring.
  Qed.

  Lemma el_round_trip_diagonal n1 n2 n3 (m : el) : (0 < n1)%Z -> (0 < n2)%Z -> (0 < n3)%Z ->
    NoDup (map fst (hop m)) ->
    exists m' m'', el_supercell (Mult n1) (Mult n2) (Mult n3) m = Ok m' /\ el_unit_cell m' = Ok m'' /\
    size m'' = size m /\
    forall R a b, a < size m -> b < size m -> hopping (hop m'') R a b = hopping (hop m) R a b.
  Proof.
    intros H1 H2 H3 Hnd.
    assert (Hd : det3 (arg1 (Mult n1)) (arg2 (Mult n2)) (arg3 (Mult n3)) <> 0%Z).
    { unfold det3. cbn [arg1 arg2 arg3 vx vy vz]. nia. }
    destruct (el_supercell_spec (Mult n1) (Mult n2) (Mult n3) m Hd Hnd) as (sc & m' & Hsc & Hm & Hcells & _).
    destruct (el_round_trip (Mult n1) (Mult n2) (Mult n3) m m' Hd Hnd Hm) as (m'' & E & Hs & Hh).
    - rewrite Hcells. apply (first_cell _ _ _ sc Hd Hsc). apply (first_cell_diagonal n1 n2 n3 sc H1 H2 H3 Hsc).
    - exists m', m''. auto.
  Qed.

  Lemma shift_hermitian s Q (m : el) : hermitian m -> hermitian (shift_orbitals s Q m).
  Proof.
    intros Hm R a b Ha Hb. change (size (shift_orbitals s Q m)) with (size m) in *.
    rewrite !shift_hopping by assumption. rewrite <- Hm by assumption. f_equal.
    destruct (s a), (s b); vring.
  Qed.

  Lemma ws_missing divn (m : el) R x l : hop m = (R, x) :: l -> 0 < size m ->
    ws_distribute divn (fun _ _ _ => None) m = Raise KeyError.
  Proof.
    intros Hh Hs. unfold ws_distribute. rewrite Hh.
    assert (G1 : forall k, fold_left (fun const ab => ws_step divn (fun _ _ _ => None) const (R, x) ab) k (Raise KeyError) = Raise KeyError).
    { induction k as [|ab k IH]; cbn; [reflexivity|exact IH]. }
    assert (G2 : forall k l, fold_left (fun const x => fold_left (fun const ab => ws_step divn (fun _ _ _ => None) const x ab) k const) l (Raise KeyError) = Raise KeyError).
    { intros k l'. induction l' as [|y l' IH]; cbn; [reflexivity|].
      assert (G : forall k, fold_left (fun const ab => ws_step divn (fun _ _ _ => None) const y ab) k (Raise KeyError) = Raise KeyError)
        by (induction k0 as [|ab k0 IHk]; cbn; [reflexivity|exact IHk]).
      rewrite G. exact IH. }
    assert (E : exists P, list_prod (seq 0 (size m)) (seq 0 (size m)) = (0, 0) :: P).
    { destruct (size m) as [|n]; [lia|]. cbn. eauto. }
    destruct E as [P E]. rewrite E. cbn [fold_left].
    change (ws_step divn (fun _ _ _ => None) (Ok []) (R, x) (0, 0)) with (@Raise (list (vec * @mat F)) KeyError).
    rewrite G1. exact (f_equal (fun c => bind c _) (G2 ((0, 0) :: P) l)).
  Qed.
End More.

From Coq Require Import Reals.
From Verif Require Import NumC.

Section MoreC.
  Local Open Scope R_scope.

  Lemma v_gradient (m : @el C) k1 k2 k3 a b :
    (derivable_pt_lim (fun s => Re (H (phase (K3 s k2 k3)) m a b)) k1 (Re (v Ci ofZ (phase (K3 k1 k2 k3)) m vx a b)) /\
     derivable_pt_lim (fun s => Im (H (phase (K3 s k2 k3)) m a b)) k1 (Im (v Ci ofZ (phase (K3 k1 k2 k3)) m vx a b))) /\
    (derivable_pt_lim (fun s => Re (H (phase (K3 k1 s k3)) m a b)) k2 (Re (v Ci ofZ (phase (K3 k1 k2 k3)) m vy a b)) /\
     derivable_pt_lim (fun s => Im (H (phase (K3 k1 s k3)) m a b)) k2 (Im (v Ci ofZ (phase (K3 k1 k2 k3)) m vy a b))) /\
    (derivable_pt_lim (fun s => Re (H (phase (K3 k1 k2 s)) m a b)) k3 (Re (v Ci ofZ (phase (K3 k1 k2 k3)) m vz a b)) /\
     derivable_pt_lim (fun s => Im (H (phase (K3 k1 k2 s)) m a b)) k3 (Im (v Ci ofZ (phase (K3 k1 k2 k3)) m vz a b))).
  Proof.
    split; [|split].
    - apply (v_derivative m (fun s => K3 s k2 k3) vx (fun Q => IZR (vy Q) * k2 + IZR (vz Q) * k3)).
      intros Q s. unfold kdot. cbn. ring.
    - apply (v_derivative m (fun s => K3 k1 s k3) vy (fun Q => IZR (vx Q) * k1 + IZR (vz Q) * k3)).
      intros Q s. unfold kdot. cbn. ring.
    - apply (v_derivative m (fun s => K3 k1 k2 s) vz (fun Q => IZR (vx Q) * k1 + IZR (vy Q) * k2)).
      intros Q s. unfold kdot. cbn. ring.
  Qed.

  (** The velocity operator as Hamiltonian of a model with hopping i x(R) t(R). *)
  Lemma v_hermitian (m : @el C) k x a b : (forall Q, x (vopp Q) = (- x Q)%Z) -> hermitian m ->
    (a < size m)%nat -> (b < size m)%nat ->
    v Ci ofZ (phase k) m x b a = nconj (v Ci ofZ (phase k) m x a b).
  Proof.
    intros Hx Hm Ha Hb.
    set (h := map (fun y => (fst y, fun a b => nmul (nmul Ci (ofZ (x (fst y)))) (snd y a b))) (hop m)).
    assert (E : forall a b, v Ci ofZ (phase k) m x a b = H (phase k) (set_hop m h (flatR m)) a b).
    { intros a' b'. unfold v, H. cbn [set_hop hop]. unfold h. rewrite nsum_map. reflexivity. }
    rewrite !E. apply H_hermitian; [apply phase_conj|]. cbn [set_hop hop].
    assert (Eh : forall R a b, hopping h R a b = nmul (nmul Ci (ofZ (x R))) (hopping (hop m) R a b)).
    { intros R a' b'. unfold hopping, h. rewrite nsum_map, <- nsum_mul_l. apply nsum_ext. intros y _. cbn [fst snd].
      destruct (veqb (fst y) R) eqn:Ey; [apply veqb_eq in Ey; rewrite Ey; reflexivity|].
      cbn. apply f_equal2; ring. }
    intros R. rewrite !Eh, Hm, Hx by assumption. rewrite !n_conj_mul. f_equal.
    unfold ofZ, RtoC, Ci. cbn. rewrite opp_IZR. apply f_equal2; ring.
  Qed.
End MoreC.
