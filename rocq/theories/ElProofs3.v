(** Further proofs about ElModel.v: Hermiticity, velocity, Wigner-Seitz images,
    the full statements about supercells. *)
From Coq Require Import Permutation Reals.
From Verif Require Import Common CommonProofs LatModel LatSpec LatProofs Num NumProofs NumC ElModel ElSpec ElProofs ElProofs2.
Local Open Scope nat_scope.

Section Gen.
  Context {F : num}.
  Add Ring F_ring4 : (n_ring F).
  Notation mat := (@mat F).
  Notation el := (@el F).
  Implicit Types (d h : list (vec * mat)) (m : el).

  (** ** supercell, unit_cell *)
  Lemma el_supercell_spec a1 a2 a3 m : det3 (arg1 a1) (arg2 a2) (arg3 a3) <> 0%Z -> NoDup (map fst (hop m)) ->
    exists sc m', supercell a1 a2 a3 = Ok sc /\ el_supercell a1 a2 a3 m = Ok m' /\
      cells m' = sc_cells sc /\ size m' = length (sc_cells sc) * size m /\
      Nsc m' = Some (arg1 a1, arg2 a2, arg3 a3) /\ NoDup (map fst (hop m')) /\ flatR m' = false /\
      forall Q i j c c' a b, nth_error (sc_cells sc) i = Some c -> nth_error (sc_cells sc) j = Some c' ->
        a < size m -> b < size m ->
        hopping (hop m') Q (i * size m + a) (j * size m + b) =
        hopping (hop m) (vsub (vadd (comb (arg1 a1) (arg2 a2) (arg3 a3) Q) c') c) a b.
  Proof.
    intros Hd Hnd. destruct (supercell_spec a1 a2 a3 Hd) as (sc & Hsc & HN1 & HN2 & HN3 & _).
    exists sc. unfold el_supercell. rewrite Hsc. cbn [bind].
    destruct (sc_const m sc) as [const|] eqn:Hc.
    2: { rewrite (sc_const_assigns a1 a2 a3 sc Hd Hsc) in Hc. discriminate. }
    cbn [bind]. eexists. split; [reflexivity|]. split; [reflexivity|]. cbn [cells size Nsc hop flatR].
    split; [reflexivity|]. split; [reflexivity|]. split; [congruence|].
    split; [apply (sc_keys a1 a2 a3 sc Hd Hsc m const Hc)|]. split; [reflexivity|].
    intros Q i j c c' a b Hi Hj Ha Hb. apply (sc_hopping a1 a2 a3 sc Hd Hsc); assumption.
  Qed.

  Lemma el_supercell_bloch a1 a2 a3 m m' e i c a (psi : nat -> F) :
    det3 (arg1 a1) (arg2 a2) (arg3 a3) <> 0%Z -> NoDup (map fst (hop m)) ->
    el_supercell a1 a2 a3 m = Ok m' -> (forall Q T, e (vadd Q T) = nmul (e Q) (e T)) ->
    nth_error (cells m') i = Some c -> a < size m ->
    nsum (fun j => nsum (fun b =>
      nmul (H (fun Q => e (comb (arg1 a1) (arg2 a2) (arg3 a3) Q)) m' (i * size m + a) (j * size m + b))
           (nmul (e (nth j (cells m') vzero)) (psi b))) (seq 0 (size m))) (seq 0 (length (cells m'))) =
    nmul (e c) (nsum (fun b => nmul (H e m a b) (psi b)) (seq 0 (size m))).
  Proof.
    intros Hd Hnd Hm He Hi Ha. destruct (supercell_spec a1 a2 a3 Hd) as (sc & Hsc & HN1 & HN2 & HN3 & _).
    unfold el_supercell in Hm. rewrite Hsc in Hm. cbn [bind] in Hm.
    destruct (sc_const m sc) as [const|] eqn:Hc; [|discriminate].
    cbn [bind] in Hm. injection Hm as <-. cbn [cells] in *.
    rewrite <- (sc_bloch a1 a2 a3 sc Hd Hsc e m const i c a psi He Hnd Hc Hi Ha).
    rewrite <- enum_fst, nsum_map. apply nsum_ext. intros [j c'] Hj. apply in_enum in Hj.
    apply nsum_ext. intros b _. cbn [fst snd]. rewrite (nth_error_nth _ _ _ Hj). reflexivity.
  Qed.

  Lemma el_unit_cell_spec a1 a2 a3 m m' c0 : det3 (arg1 a1) (arg2 a2) (arg3 a3) <> 0%Z -> NoDup (map fst (hop m)) ->
    el_supercell a1 a2 a3 m = Ok m' -> nth_error (cells m') 0 = Some c0 ->
    exists m'', el_unit_cell m' = Ok m'' /\ size m'' = size m /\ cells m'' = [vzero] /\
    forall R a b, a < size m -> b < size m ->
      hopping (hop m'') R a b = hopping (hop m) (vsub R c0) a b.
  Proof.
    intros Hd Hnd Hm H0. destruct (supercell_spec a1 a2 a3 Hd) as (sc & Hsc & HN1 & HN2 & HN3 & _).
    unfold el_supercell in Hm. rewrite Hsc in Hm. cbn [bind] in Hm.
    destruct (sc_const m sc) as [const|] eqn:Hc; [|discriminate].
    cbn [bind] in Hm. injection Hm as <-. cbn [cells] in *.
    unfold el_unit_cell. cbn [Nsc size cells hop]. eexists. split; [reflexivity|].
    assert (Hn : length (sc_cells sc) <> 0) by (destruct (sc_cells sc); [discriminate|cbn; lia]).
    assert (Hs : length (sc_cells sc) * size m / length (sc_cells sc) = size m).
    { rewrite Nat.mul_comm. apply Nat.div_mul, Hn. }
    cbn [size cells hop]. rewrite !Hs. split; [reflexivity|]. split; [reflexivity|].
    intros R a b Ha Hb. rewrite HN1, HN2, HN3.
    destruct (uc_hopping a1 a2 a3 sc Hd Hsc (size m) const R a b Ha Hb (sc_keys a1 a2 a3 sc Hd Hsc m const Hc))
      as (Q & j & c & HR & Hj & E).
    fold (enum (sc_cells sc)). rewrite E.
    change a with (0 * size m + a) at 1. rewrite (sc_hopping a1 a2 a3 sc Hd Hsc m const Q 0 j c0 c) by assumption.
    f_equal. rewrite HR. reflexivity.
  Qed.

  (** ** The sparse Hamiltonian *)
  Lemma sparse_spec re a1 a2 a3 m : det3 (arg1 a1) (arg2 a2) (arg3 a3) <> 0%Z -> NoDup (map fst (hop m)) ->
    re n0 = n0 -> (forall x y : F, re (nadd x y) = nadd (re x) (re y)) ->
    exists Hs m', el_supercell_sparse re a1 a2 a3 m = Ok Hs /\ el_supercell a1 a2 a3 m = Ok m' /\
    forall i j c c' a b, nth_error (cells m') i = Some c -> nth_error (cells m') j = Some c' ->
      a < size m -> b < size m ->
      Hs (i * size m + a) (j * size m + b) = re (H (fun _ => n1) m' (i * size m + a) (j * size m + b)).
  Proof.
    intros Hd Hnd Hr0 Hra. destruct (supercell_spec a1 a2 a3 Hd) as (sc & Hsc & HN1 & HN2 & HN3 & _).
    unfold el_supercell_sparse, el_supercell. rewrite Hsc. cbn [bind].
    destruct (sc_const m sc) as [const|] eqn:Hc.
    2: { rewrite (sc_const_assigns a1 a2 a3 sc Hd Hsc) in Hc. discriminate. }
    fold (enum (sc_cells sc)). cbn [bind].
    set (add := fun (Hs : mat) (o : asg) => add_block (size m) Hs (g_i o) (g_j o) (fun a b => re (g_x o a b))).
    assert (E : fold_left (fun Hs ic => fold_left (sp_step re (size m) sc (fst ic) (snd ic)) (hop m) Hs) (enum (sc_cells sc)) (Ok mzero) =
      Ok (fold_left add (map (to_asg sc) (ops (sc_cells sc) (hop m))) mzero)).
    { transitivity (fold_left (fun Hs o => sp_step re (size m) sc (fst (fst o)) (snd (fst o)) Hs (snd o))
        (ops (sc_cells sc) (hop m)) (Ok mzero)).
      { unfold ops. rewrite (fold_left_flat (fun Hs (o : op) => sp_step re (size m) sc (fst (fst o)) (snd (fst o)) Hs (snd o))).
        reflexivity. }
      assert (Hin : forall o, In o (ops (sc_cells sc) (hop m)) -> nth_error (sc_cells sc) (fst (fst o)) = Some (snd (fst o))).
      { intros o Ho. unfold ops in Ho. apply in_flat_map in Ho. destruct Ho as ([i c] & Hic & Ho).
        apply in_map_iff in Ho. destruct Ho as (x & <- & _). cbn [fst snd]. apply in_enum, Hic. }
      generalize (@mzero F). revert Hin. generalize (ops (sc_cells sc) (hop m)) as l.
      induction l as [|[[i c] [R x]] l IH]; intros Hin y; cbn [fold_left map]; [reflexivity|].
      destruct (to_supercell_spec a1 a2 a3 sc (vadd R c) Hd Hsc) as (Q & j & c' & Ht & Hj & HR).
      assert (E1 : sp_step re (size m) sc i c (Ok y) (R, x) = Ok (add y (to_asg sc ((i, c), (R, x))))).
      { unfold sp_step, to_asg. cbn [bind fst snd]. rewrite Ht. cbn [bind]. reflexivity. }
      cbn [fst snd]. rewrite E1. apply IH. intros o Ho. apply Hin. right; exact Ho. }
    rewrite E. eexists. eexists. split; [reflexivity|]. split; [reflexivity|]. cbn [cells].
    intros i j c c' a b Hi Hj Ha Hb. unfold H. cbn [hop].
    assert (Hre : forall {A} (f : A -> F) l, re (nsum f l) = nsum (fun x => re (f x)) l).
    { intros A f l. induction l as [|x l IH]; cbn; [exact Hr0|]. rewrite Hra, IH. reflexivity. }
    assert (E2 : nsum (fun x => nmul (snd x (i * size m + a) (j * size m + b)) n1) const =
      nsum (fun o => blk (size m) (g_i o) (g_j o) (g_x o) (i * size m + a) (j * size m + b)) (map (to_asg sc) (ops (sc_cells sc) (hop m)))).
    { change (Gsum (fun (_ : vec) (y : mat) => nmul (y (i * size m + a) (j * size m + b)) n1) const = 
        nsum (fun o => blk (size m) (g_i o) (g_j o) (g_x o) (i * size m + a) (j * size m + b)) (map (to_asg sc) (ops (sc_cells sc) (hop m)))).
      rewrite (supercell_G a1 a2 a3 sc Hd Hsc _ m const); try assumption.
      - unfold ops. rewrite nsum_map, nsum_flat_map. apply nsum_ext. intros ic _. rewrite nsum_map. apply nsum_ext. intros x _. cbv zeta. ring.
      - intros R x y. unfold madd. ring.
      - intros R x y Hxy. rewrite Hxy. reflexivity. }
    rewrite E2, Hre. clear E E2.
    assert (Hf : forall l y, fold_left add l y (i * size m + a) (j * size m + b) =
      nadd (y (i * size m + a) (j * size m + b)) (nsum (fun o => re (blk (size m) (g_i o) (g_j o) (g_x o) (i * size m + a) (j * size m + b))) l)).
    { induction l as [|o l IH]; intros y; cbn [fold_left nsum]; [ring|]. rewrite IH.
      unfold add at 1, add_block. fold (in_block (size m) (g_i o) (g_j o) (i * size m + a) (j * size m + b)).
      unfold blk at 2. destruct (in_block _ _ _ _ _); [ring|]. rewrite Hr0. ring. }
    rewrite Hf. unfold mzero. ring.
  Qed.

  (** ** H in terms of the hopping *)
  Lemma H_hopping e m a b K : NoDup K -> (forall x, In x (hop m) -> In (fst x) K) ->
    H e m a b = nsum (fun R => nmul (hopping (hop m) R a b) (e R)) K.
  Proof.
    intros Hnd HK. unfold H, hopping.
    rewrite (nsum_ext (fun R => nmul _ (e R)) (fun R => nsum (fun x => nmul (if veqb (fst x) R then snd x a b else n0) (e R)) (hop m))).
    2: { intros R _. rewrite <- nsum_mul_r. reflexivity. }
    rewrite nsum_swap. apply nsum_ext. intros x Hx. rewrite (nsum_single _ _ (fst x)).
    - rewrite veqb_refl. reflexivity.
    - exact Hnd.
    - apply HK, Hx.
    - intros R _ Hne. destruct (veqb (fst x) R) eqn:E; [|ring]. apply veqb_eq in E. congruence.
  Qed.

  (** Models with the same hopping have the same Hamiltonian. *)
  Lemma H_determined e m m' a b : (forall R, hopping (hop m) R a b = hopping (hop m') R a b) -> H e m a b = H e m' a b.
  Proof.
    intros Hh. set (K := nodup vec_eq_dec (map fst (hop m) ++ map fst (hop m'))).
    rewrite (H_hopping e m a b K), (H_hopping e m' a b K).
    - apply nsum_ext. intros R _. rewrite Hh. reflexivity.
    - apply NoDup_nodup.
    - intros x Hx. apply nodup_In, in_or_app. right. apply in_map, Hx.
    - apply NoDup_nodup.
    - intros x Hx. apply nodup_In, in_or_app. left. apply in_map, Hx.
  Qed.

  Lemma H_hermitian e m a b : (forall R, nconj (e R) = e (vopp R)) ->
    (forall R, hopping (hop m) (vopp R) b a = nconj (hopping (hop m) R a b)) ->
    H e m b a = nconj (H e m a b).
  Proof.
    intros He Hh. set (K := nodup vec_eq_dec (map fst (hop m) ++ map vopp (map fst (hop m)))).
    assert (HK : NoDup K) by apply NoDup_nodup.
    assert (Hin : forall x, In x (hop m) -> In (fst x) K).
    { intros x Hx. apply nodup_In, in_or_app. left. apply in_map, Hx. }
    assert (Hop : forall R, In R K -> In (vopp R) K).
    { intros R HR. apply nodup_In, in_app_or in HR. apply nodup_In, in_or_app. destruct HR as [HR|HR].
      - right. apply in_map, HR.
      - left. apply in_map_iff in HR. destruct HR as (Q & <- & HQ). rewrite vopp_opp. exact HQ. }
    rewrite (H_hopping e m b a K), (H_hopping e m a b K) by assumption. rewrite n_conj_sum.
    rewrite (nsum_perm _ K (map vopp K)).
    - rewrite nsum_map. apply nsum_ext. intros R _. rewrite n_conj_mul, He, Hh. reflexivity.
    - apply NoDup_Permutation; [exact HK| |].
      + apply NoDup_map_inj; [|exact HK]. intros x y Hxy. rewrite <- (vopp_opp x), Hxy. apply vopp_opp.
      + intros R. rewrite in_map_iff. split.
        * intros HR. exists (vopp R). rewrite vopp_opp. auto.
        * intros (Q & <- & HQ). apply Hop, HQ.
  Qed.

  (** ** t *)
  Lemma t_spec m R : NoDup (map fst (hop m)) -> hop m <> [] ->
    exists x, t m R = Ok x /\ forall a b, x a b = hopping (hop m) R a b.
  Proof.
    intros Hnd Hne. unfold t. destruct (dget (hop m) R) as [x|] eqn:E.
    - exists x. split; [reflexivity|]. intros a b. rewrite hopping_nodup, E by exact Hnd. reflexivity.
    - exists mzero. split; [destruct (hop m); [contradiction|reflexivity]|].
      intros a b. rewrite hopping_nodup, E by exact Hnd. reflexivity.
  Qed.

  Lemma t_first m R x : t m R = Ok x ->
    (exists n, nth_error (hop m) n = Some (R, x) /\ forall n' y, n' < n -> nth_error (hop m) n' <> Some (R, y)) \/
    ((forall y, ~ In (R, y) (hop m)) /\ forall a b, x a b = n0).
  Proof.
    unfold t. destruct (dget (hop m) R) as [y|] eqn:E.
    - intros Hx. injection Hx as <-. left. revert E. induction (hop m) as [|[Q z] h IH]; cbn; [discriminate|].
      destruct (veqb Q R) eqn:E; intros Hz.
      + apply veqb_eq in E. injection Hz as ->. subst Q. exists 0. split; [reflexivity|]. intros; lia.
      + destruct (IH Hz) as (n & Hn & Hl). exists (S n). split; [exact Hn|]. intros [|n'] w Hlt; cbn.
        * intros Hw. injection Hw as -> ->. rewrite veqb_refl in E. discriminate.
        * apply Hl. lia.
    - destruct (hop m) eqn:Eh; [discriminate|]. intros Hx. injection Hx as <-. right. rewrite <- Eh in *. split; [|reflexivity].
      intros y Hy. apply dget_None in E. apply E. apply (in_map fst) in Hy. exact Hy.
  Qed.

  (** ** Wigner-Seitz images *)
  Definition pair_dec (p q : nat * nat) : {p = q} + {p <> q}.
  Proof. decide equality; apply Nat.eq_dec. Defined.

  Lemma dinc_old d R a b x : dinc d R a b x =
    dset d R (fun a' b' => if (a' =? a) && (b' =? b) then nadd (old d R a' b') x else old d R a' b').
  Proof. reflexivity. Qed.

  Lemma dinc_H e d R a b x a' b' :
    nsum (fun y => nmul (snd y a' b') (e (fst y))) (dinc d R a b x) =
    nadd (nsum (fun y => nmul (snd y a' b') (e (fst y))) d)
      (if (a' =? a) && (b' =? b) then nmul x (e R) else n0).
  Proof.
    rewrite dinc_old. change (Gsum (fun R y => nmul (y a' b') (e R)) (dset d R (fun a' b' => if (a' =? a) && (b' =? b) then nadd (old d R a' b') x else old d R a' b')) =
      nadd (Gsum (fun R y => nmul (y a' b') (e R)) d) (if (a' =? a) && (b' =? b) then nmul x (e R) else n0)).
    rewrite Gsum_old.
    - destruct (_ && _); ring.
    - intros Q y z. unfold madd. ring.
    - intros Q y z Hyz. rewrite Hyz. reflexivity.
  Qed.

  Lemma NoDup_dinc d R a b x : NoDup (keys d) -> NoDup (keys (dinc d R a b x)).
  Proof. rewrite dinc_old. apply NoDup_dset. Qed.

  Definition ws_term (e : vec -> F) (divn : F -> nat -> F) (l : list vec) (R : vec) (x : F) : F :=
    nsum (fun T => nmul (divn x (length l)) (e (vadd R T))) l.

  Lemma ws_H e divn supvecs m a b :
    (forall R x a b, In (R, x) (hop m) -> a < size m -> b < size m -> exists T l, supvecs R a b = Some (T :: l)) ->
    a < size m -> b < size m ->
    exists m', ws_distribute divn supvecs m = Ok m' /\ NoDup (map fst (hop m')) /\
      H e m' a b = nsum (fun x => match supvecs (fst x) a b with
        | Some l => ws_term e divn l (fst x) (snd x a b) | None => n0 end) (hop m).
  Proof.
    intros Hsup Ha Hb. unfold ws_distribute.
    set (P := list_prod (seq 0 (size m)) (seq 0 (size m))).
    assert (HP : forall ab, In ab P <-> fst ab < size m /\ snd ab < size m).
    { intros [x y]. unfold P. rewrite in_prod_iff, !in_seq. cbn [fst snd]. lia. }
    assert (HnP : NoDup P).
    { unfold P.
      assert (Hg : forall l k : list nat, NoDup l -> NoDup k -> NoDup (list_prod l k)).
      { induction l as [|x l IH]; intros k Hl Hk; cbn; [constructor|]. inversion Hl as [|? ? Hx Hl']; subst.
        apply NoDup_app'; [apply NoDup_map_inj; [congruence|exact Hk]|apply IH; assumption|].
        intros [u w] H1 H2. apply in_map_iff in H1. destruct H1 as (z & Ez & _). injection Ez as -> ->.
        apply in_prod_iff in H2. tauto. }
      apply Hg; apply seq_NoDup. }
    set (HH := fun d => nsum (fun y : vec * mat => nmul (snd y a b) (e (fst y))) d).
    assert (HHd : forall d R a' b' x, HH (dinc d R a' b' x) =
      nadd (HH d) (if (a =? a') && (b =? b') then nmul x (e R) else n0)) by (intros; apply dinc_H).
    (* one lattice vector and one pair of orbitals *)
    assert (S1 : forall R x ab d, In (R, x) (hop m) -> In ab P -> NoDup (keys d) ->
      exists d', ws_step divn supvecs (Ok d) (R, x) ab = Ok d' /\ NoDup (keys d') /\
        HH d' = nadd (HH d) (if (a =? fst ab) && (b =? snd ab) then
          match supvecs R a b with Some l => ws_term e divn l R (x a b) | None => n0 end else n0)).
    { intros R x [a' b'] d Hx Hab Hnd. apply HP in Hab. cbn [fst snd] in *. destruct Hab as [Ha' Hb'].
      unfold ws_step. cbn [bind fst snd].
      destruct (Hsup R x a' b' Hx Ha' Hb') as (T & l & El). rewrite El. eexists. split; [reflexivity|].
      set (t0 := divn (x a' b') (length (T :: l))). unfold ws_term.
      assert (G : forall k d, NoDup (keys d) -> NoDup (keys (fold_left (fun d T => dinc d (vadd R T) a' b' t0) k d)) /\
        HH (fold_left (fun d T => dinc d (vadd R T) a' b' t0) k d) =
        nadd (HH d) (if (a =? a') && (b =? b') then nsum (fun T => nmul t0 (e (vadd R T))) k else n0)).
      { induction k as [|T' k IH]; intros d0 Hd0; cbn [fold_left nsum].
        - split; [exact Hd0|]. destruct (_ && _); ring.
        - destruct (IH (dinc d0 (vadd R T') a' b' t0) (NoDup_dinc _ _ _ _ _ Hd0)) as [I1 I2]. split; [exact I1|].
          rewrite I2, (HHd d0). destruct (_ && _); ring. }
      destruct (G (T :: l) d Hnd) as [G1 G2]. split; [exact G1|]. rewrite G2. f_equal.
      destruct (Nat.eqb_spec a a') as [->|]; [|reflexivity]. destruct (Nat.eqb_spec b b') as [->|]; [|reflexivity].
      cbn [andb]. rewrite El. reflexivity. }
    (* all pairs of orbitals *)
    assert (S2 : forall R x, In (R, x) (hop m) -> forall k d, NoDup k -> (forall ab, In ab k -> In ab P) -> NoDup (keys d) ->
      exists d', fold_left (fun const ab => ws_step divn supvecs const (R, x) ab) k (Ok d) = Ok d' /\ NoDup (keys d') /\
        HH d' = nadd (HH d) (if in_dec pair_dec (a, b) k then
          match supvecs R a b with Some l => ws_term e divn l R (x a b) | None => n0 end else n0)).
    { intros R x Hx. induction k as [|ab k IH]; intros d Hk HkP Hnd; cbn [fold_left].
      - exists d. split; [reflexivity|]. split; [exact Hnd|]. destruct (in_dec _ (a, b) []) as [[]|]. ring.
      - destruct (S1 R x ab d Hx (HkP ab (or_introl eq_refl)) Hnd) as (d1 & E1 & N1 & H1). rewrite E1.
        inversion Hk as [|? ? Hn Hk']; subst.
        destruct (IH d1 Hk' (fun ab' H' => HkP ab' (or_intror H')) N1) as (d2 & E2 & N2 & H2).
        exists d2. split; [exact E2|]. split; [exact N2|]. rewrite H2, H1.
        destruct (in_dec _ (a, b) k) as [I1|I1]; destruct (in_dec _ (a, b) (ab :: k)) as [I2|I2].
        + assert (Hf : (a =? fst ab) && (b =? snd ab) = false).
          { destruct ab as [a' b']. cbn [fst snd]. destruct (Nat.eqb_spec a a') as [->|]; [|reflexivity].
            destruct (Nat.eqb_spec b b') as [->|]; [|reflexivity]. contradiction. }
          rewrite Hf. ring.
        + exfalso. apply I2. right. exact I1.
        + destruct I2 as [->|I2]; [|contradiction]. cbn [fst snd]. rewrite !Nat.eqb_refl. cbn [andb]. ring.
        + assert (Hf : (a =? fst ab) && (b =? snd ab) = false).
          { destruct ab as [a' b']. cbn [fst snd]. destruct (Nat.eqb_spec a a') as [->|]; [|reflexivity].
            destruct (Nat.eqb_spec b b') as [->|]; [|reflexivity]. exfalso. apply I2. left. reflexivity. }
          rewrite Hf. ring. }
    assert (S3 : forall h d, (forall x, In x h -> In x (hop m)) -> NoDup (keys d) ->
      exists d', fold_left (fun const x => fold_left (fun const ab => ws_step divn supvecs const x ab) P const) h (Ok d) = Ok d' /\
        NoDup (keys d') /\
        HH d' = nadd (HH d) (nsum (fun x => match supvecs (fst x) a b with
          | Some l => ws_term e divn l (fst x) (snd x a b) | None => n0 end) h)).
    { induction h as [|[R x] h IH]; intros d Hh Hnd; cbn [fold_left nsum].
      - exists d. split; [reflexivity|]. split; [exact Hnd|ring].
      - destruct (S2 R x (Hh _ (or_introl eq_refl)) P d HnP (fun _ H' => H') Hnd) as (d1 & E1 & N1 & H1). rewrite E1.
        destruct (IH d1 (fun y Hy => Hh y (or_intror Hy)) N1) as (d2 & E2 & N2 & H2).
        exists d2. split; [exact E2|]. split; [exact N2|]. rewrite H2, H1. cbn [fst snd].
        destruct (in_dec _ (a, b) P) as [I|I]; [ring|]. exfalso. apply I, HP. auto. }
    destruct (S3 (hop m) [] (fun _ H' => H') (NoDup_nil _)) as (d' & E & N & HE).
    rewrite E. cbn [bind]. eexists. split; [reflexivity|]. cbn [set_hop hop]. split; [exact N|].
    transitivity (HH d'); [reflexivity|]. rewrite HE. change (HH []) with (@n0 F). ring.
  Qed.

  (** Multiplication by a natural number. *)
  Fixpoint ntimes (n : nat) (x : F) : F := match n with 0 => n0 | S n => nadd x (ntimes n x) end.

  Lemma nsum_const {A} (x : F) (l : list A) : nsum (fun _ => x) l = ntimes (length l) x.
  Proof. induction l as [|y l IH]; cbn; [reflexivity|]. rewrite IH. reflexivity. Qed.

  Lemma ws_mesh e divn supvecs m a b :
    (forall n x, n <> 0 -> ntimes n (divn x n) = x) ->
    (forall Q T, e (vadd Q T) = nmul (e Q) (e T)) ->
    (forall R x a b, In (R, x) (hop m) -> a < size m -> b < size m ->
      exists T l, supvecs R a b = Some (T :: l) /\ forall T', In T' (T :: l) -> e T' = n1) ->
    a < size m -> b < size m ->
    exists m', ws_distribute divn supvecs m = Ok m' /\ H e m' a b = H e m a b.
  Proof.
    intros Hd He Hs Ha Hb.
    destruct (ws_H e divn supvecs m a b) as (m' & E & _ & HE); [|exact Ha|exact Hb|].
    { intros R x a' b' Hx Ha' Hb'. destruct (Hs R x a' b' Hx Ha' Hb') as (T & l & El & _). eauto. }
    exists m'. split; [exact E|]. rewrite HE. unfold H. apply nsum_ext. intros [R x] Hx. cbn [fst snd].
    destruct (Hs R x a b Hx Ha Hb) as (T & l & El & Hl). rewrite El. unfold ws_term.
    rewrite (nsum_ext _ (fun _ => nmul (divn (x a b) (length (T :: l))) (e R))).
    - rewrite nsum_mul_r, nsum_const, Hd by (cbn; lia). reflexivity.
    - intros T' HT'. rewrite He, (Hl T' HT'). ring.
  Qed.
End Gen.

(** ** Complex numbers *)
Section Complex.
  Local Open Scope R_scope.

  Lemma Re_sum {A} (f : A -> C) l : Re (nsum f l) = fold_right Rplus 0 (map (fun x => Re (f x)) l).
  Proof. induction l as [|x l IH]; cbn; [reflexivity|]. unfold Re in *. rewrite IH. reflexivity. Qed.

  Lemma Im_sum {A} (f : A -> C) l : Im (nsum f l) = fold_right Rplus 0 (map (fun x => Im (f x)) l).
  Proof. induction l as [|x l IH]; cbn; [reflexivity|]. unfold Im in *. rewrite IH. reflexivity. Qed.

  Lemma derivable_sum {A} (f f' : A -> R -> R) x l :
    (forall y, In y l -> derivable_pt_lim (f y) x (f' y x)) ->
    derivable_pt_lim (fun s => fold_right Rplus 0 (map (fun y => f y s) l)) x
      (fold_right Rplus 0 (map (fun y => f' y x) l)).
  Proof.
    induction l as [|y l IH]; cbn; intros Hl; [apply derivable_pt_lim_const|].
    apply (derivable_pt_lim_plus (f y) (fun s => fold_right Rplus 0 (map (fun y => f y s) l))).
    - apply Hl. left. reflexivity.
    - apply IH. intros z Hz. apply Hl. right. exact Hz.
  Qed.

  Lemma derivable_affine n c x : derivable_pt_lim (fun s => n * s + c) x n.
  Proof.
    cut (derivable_pt_lim (fun s => n * s + c) x (n * 1 + 0)).
    { replace (n * 1 + 0) with n by ring. auto. }
    apply (derivable_pt_lim_plus (fun s => n * s) (fun _ => c)).
    - apply (derivable_pt_lim_scal id). apply derivable_pt_lim_id.
    - apply derivable_pt_lim_const.
  Qed.

  Lemma derivable_expi (t : C) n c x :
    derivable_pt_lim (fun s => Re (nmul t (expi (n * s + c)))) x
      (Re (nmul (nmul (nmul Ci (RtoC n)) t) (expi (n * x + c)))) /\
    derivable_pt_lim (fun s => Im (nmul t (expi (n * s + c)))) x
      (Im (nmul (nmul (nmul Ci (RtoC n)) t) (expi (n * x + c)))).
  Proof.
    assert (Hc : derivable_pt_lim (fun s => cos (n * s + c)) x (- sin (n * x + c) * n)).
    { apply (derivable_pt_lim_comp (fun s => n * s + c) cos); [apply derivable_affine|apply derivable_pt_lim_cos]. }
    assert (Hs : derivable_pt_lim (fun s => sin (n * s + c)) x (cos (n * x + c) * n)).
    { apply (derivable_pt_lim_comp (fun s => n * s + c) sin); [apply derivable_affine|apply derivable_pt_lim_sin]. }
    destruct t as [t1 t2]. unfold Re, Im. cbn. split.
    - replace (((0 * n - 1 * 0) * t1 - (0 * 0 + 1 * n) * t2) * cos (n * x + c) -
        ((0 * n - 1 * 0) * t2 + (0 * 0 + 1 * n) * t1) * sin (n * x + c))
        with (t1 * (- sin (n * x + c) * n) - t2 * (cos (n * x + c) * n)) by ring.
      apply (derivable_pt_lim_minus (fun s => t1 * cos (n * s + c)) (fun s => t2 * sin (n * s + c)));
        [apply (derivable_pt_lim_scal (fun s => cos (n * s + c)))|apply (derivable_pt_lim_scal (fun s => sin (n * s + c)))]; assumption.
    - replace (((0 * n - 1 * 0) * t1 - (0 * 0 + 1 * n) * t2) * sin (n * x + c) +
        ((0 * n - 1 * 0) * t2 + (0 * 0 + 1 * n) * t1) * cos (n * x + c))
        with (t1 * (cos (n * x + c) * n) + t2 * (- sin (n * x + c) * n)) by ring.
      apply (derivable_pt_lim_plus (fun s => t1 * sin (n * s + c)) (fun s => t2 * cos (n * s + c)));
        [apply (derivable_pt_lim_scal (fun s => sin (n * s + c)))|apply (derivable_pt_lim_scal (fun s => cos (n * s + c)))]; assumption.
  Qed.

  Definition ofZ (n : Z) : C := RtoC (IZR n).

  (** Derivative along any line through k. *)
  Lemma v_derivative (m : @el C) (line : R -> kpoint) (x : vec -> Z) (r : vec -> R) s0 a b :
    (forall Q s, kdot (line s) Q = IZR (x Q) * s + r Q) ->
    derivable_pt_lim (fun s => Re (H (phase (line s)) m a b)) s0 (Re (v Ci ofZ (phase (line s0)) m x a b)) /\
    derivable_pt_lim (fun s => Im (H (phase (line s)) m a b)) s0 (Im (v Ci ofZ (phase (line s0)) m x a b)).
  Proof.
    intros Hl. split.
    - unfold v. rewrite Re_sum.
      assert (E : forall s, Re (H (phase (line s)) m a b) =
        fold_right Rplus 0 (map (fun y : vec * @mat C => Re (nmul (snd y a b) (expi (IZR (x (fst y)) * s + r (fst y))))) (hop m))).
      { intros s. unfold H. rewrite Re_sum. f_equal. apply map_ext. intros y. unfold phase. rewrite Hl. reflexivity. }
      intros eps Heps.
      destruct (derivable_sum (fun (y : vec * @mat C) s => Re (nmul (snd y a b) (expi (IZR (x (fst y)) * s + r (fst y)))))
        (fun y s => Re (nmul (nmul (nmul Ci (ofZ (x (fst y)))) (snd y a b)) (phase (line s) (fst y)))) s0 (hop m)) with (eps := eps) as [d Hd].
      + intros y _. unfold phase, ofZ. rewrite Hl. apply derivable_expi.
      + exact Heps.
      + exists d. intros h Hh Hh'. rewrite !E. apply Hd; assumption.
    - unfold v. rewrite Im_sum.
      assert (E : forall s, Im (H (phase (line s)) m a b) =
        fold_right Rplus 0 (map (fun y : vec * @mat C => Im (nmul (snd y a b) (expi (IZR (x (fst y)) * s + r (fst y))))) (hop m))).
      { intros s. unfold H. rewrite Im_sum. f_equal. apply map_ext. intros y. unfold phase. rewrite Hl. reflexivity. }
      intros eps Heps.
      destruct (derivable_sum (fun (y : vec * @mat C) s => Im (nmul (snd y a b) (expi (IZR (x (fst y)) * s + r (fst y)))))
        (fun y s => Im (nmul (nmul (nmul Ci (ofZ (x (fst y)))) (snd y a b)) (phase (line s) (fst y)))) s0 (hop m)) with (eps := eps) as [d Hd].
      + intros y _. unfold phase, ofZ. rewrite Hl. apply derivable_expi.
      + exact Heps.
      + exists d. intros h Hh Hh'. rewrite !E. apply Hd; assumption.
  Qed.

  Lemma H_periodic (m : @el C) k g a b : H (phase (kadd k (krec g))) m a b = H (phase k) m a b.
  Proof. unfold H. apply nsum_ext. intros x _. rewrite phase_krec. reflexivity. Qed.
End Complex.
