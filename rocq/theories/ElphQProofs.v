(** Proofs about ElphQModel.v. *)
From Coq Require Import Permutation Reals Lra Lia.
From Verif Require Import Common CommonProofs LatModel LatProofs VorModel Num NumProofs NumC ElModel WSModel WSSpec WSProofs WSProofs2 KrModel KrProofs ElphModel ElphSpec ElphProofs ElphQModel.
Local Open Scope nat_scope.

Add Ring Cring4 : (@n_ring C).

Lemma over_mul z d : over z d = nmul z (over n1 d).
Proof. unfold over. destruct (d =? 0); [ring|]. unfold Cdivn. ring. Qed.

Section Ws.
  Context (nr : vec) (nb1 nb2 : nat) (len : vec -> nat -> nat -> Q) (eps : Q) (nproc : nat).
  Hypothesis Hnr : (0 < vx nr /\ 0 < vy nr /\ 0 < vz nr)%Z.
  Hypothesis Heps : (0 < eps)%Q.
  Hypothesis Hp : (0 < nproc)%nat.

  Lemma ws_sum d i j (e f : vec -> C) : wigner nr 1 2 nb1 nb2 len eps nproc = Ok d -> i < nb1 -> j < nb2 ->
    (forall R R', same_cell nr R R' -> e R = e R') ->
    nsum (fun x => nmul (e (fst x)) (over (f (mesh_index nr 1 (fst x))) (fst (snd x i j)))) d = nsum (fun m => nmul (e m) (f m)) (ws_mesh nr).
  Proof.
    intros E Hi Hj He.
    rewrite (nsum_filter_split _ (fun x => mesh_index nr 1 (fst x)) veqb d (ws_mesh nr)); [|apply veqb_eq|apply nodup_ws_mesh|].
    2: { intros x _. apply in_ws_mesh. apply (mesh_index_on nr 1 Hnr). }
    apply nsum_ext. intros m Hm. apply in_ws_mesh in Hm.
    destruct (wigner_class nr 1 2 nb1 nb2 len eps Hnr (or_introl eq_refl) eq_refl Heps nproc d m i j Hp E Hm Hi Hj) as (n & Hn & Hl & Hv). cbn zeta in *.
    set (l := filter (fun x => veqb (mesh_index nr 1 (fst x)) m && negb (fst (snd x i j) =? 0)) d) in Hl, Hv.
    assert (E1 : forall l0, nsum (fun x => nmul (e (fst x)) (over (f (mesh_index nr 1 (fst x))) (fst (snd x i j))))
        (filter (fun x => veqb (mesh_index nr 1 (fst x)) m) l0) =
      nsum (fun x => nmul (e m) (Cdivn (f m) (fst (snd x i j))))
        (filter (fun x : vec * wentry => veqb (mesh_index nr 1 (fst x)) m && negb (fst (snd x i j) =? 0)) l0)).
    { induction l0 as [|x l0 IH]; [reflexivity|]. cbn [filter]. destruct (veqb (mesh_index nr 1 (fst x)) m) eqn:Ex; cbn [andb]; [|exact IH].
      apply veqb_eq in Ex. cbn [nsum]. rewrite IH. unfold over at 1.
      destruct (Nat.eqb_spec (fst (snd x i j)) 0) as [E0|E0]; cbn [negb nsum]; [ring|].
      rewrite Ex. f_equal. f_equal. apply He. rewrite <- Ex. replace (fst x) with (vscale 1 (fst x)) at 1; [apply (mesh_index_same nr 1 Hnr)|].
      apply vec_ext; unfold vscale; cbn [vx vy vz]; lia. }
    rewrite E1. fold l. rewrite nsum_mul_l. f_equal.
    rewrite (nsum_ext _ (fun _ => Cdivn (f m) n)) by (intros x Hx; rewrite (Hv x Hx); reflexivity).
    transitivity (nsum (fun _ : nat => Cdivn (f m) n) (seq 0 n)); [|apply Cdivn_sum; exact Hn].
    clear - Hl. generalize (Cdivn (f m) n). intros c. subst n. generalize 0%nat.
    induction l as [|x l' IH]; intros s; cbn [length seq nsum]; [reflexivity|]. rewrite (IH (S s)). reflexivity.
  Qed.
End Ws.

Lemma both_lattices nq nk g x m n G K : to_both_lattices nq nk g x m n G K =
  to_lattice true nq (fun q _ _ => to_lattice true nk (fun k _ _ => g q x k m n) K 0 0) G 0 0.
Proof. unfold to_both_lattices. cbn [to_lattice]. f_equal. unfold ifftn at 1 3. f_equal. apply nsum_ext. intros q _. rewrite n_conj_conj. reflexivity. Qed.

Lemma both_inversion nq nk (g : mesh_coupling) x m n q k : (0 < vx nq /\ 0 < vy nq /\ 0 < vz nq)%Z -> (0 < vx nk /\ 0 < vy nk /\ 0 < vz nk)%Z ->
  on_mesh nq q -> on_mesh nk k ->
  nsum (fun G => nmul (phase (mesh_point nq q) G) (nsum (fun K => nmul (phase (mesh_point nk k) K) (to_both_lattices nq nk g x m n G K)) (ws_mesh nk))) (ws_mesh nq) =
  g q x k m n.
Proof.
  intros Hq Hk Mq Mk.
  rewrite (nsum_ext _ (fun G => nsum (fun K => nmul (phase (mesh_point nk k) K) (nmul (phase (mesh_point nq q) G) (to_both_lattices nq nk g x m n G K))) (ws_mesh nk))).
  2: { intros G _. rewrite <- nsum_mul_l. apply nsum_ext. intros K _. ring. }
  rewrite nsum_swap.
  rewrite (nsum_ext _ (fun K => nmul (phase (mesh_point nk k) K) (to_lattice true nk (fun k _ _ => g q x k m n) K 0 0))).
  - rewrite to_lattice_inversion by assumption. reflexivity.
  - intros K _. rewrite nsum_mul_l. f_equal. rewrite (nsum_ext _ (fun G => nmul (phase (mesh_point nq q) G) (to_lattice true nq (fun q _ _ => to_lattice true nk (fun k _ _ => g q x k m n) K 0 0) G 0 0))) by (intros G _; rewrite both_lattices; reflexivity).
    rewrite to_lattice_inversion by assumption. reflexivity.
Qed.

(** Factor due to masses *)
Definition mass_factor (divide_mass mass_model : bool) (M : R) : R :=
  if divide_mass && negb mass_model then sqrt M else if negb divide_mass && mass_model then / sqrt M else 1%R.

Lemma q2r_sum nq nk (g : mesh_coupling) nel nats wg wk len_g len_k nproc x m n q k c :
  (0 < vx nq /\ 0 < vy nq /\ 0 < vz nq)%Z -> (0 < vx nk /\ 0 < vy nk /\ 0 < vz nk)%Z -> 0 < nproc ->
  wigner nq 1 2 nel nats len_g (1 # 10000000) nproc = Ok wg -> wigner nk 1 2 nel nel len_k (1 # 10000000) nproc = Ok wk ->
  on_mesh nq q -> on_mesh nk k -> x < 3 * nats -> m < nel -> n < nel ->
  nsum (fun i => nsum (fun j =>
      nmul (nmul (nmul (divide_dg (wigner_deg nel nats wg wk) (divide_dk (wigner_deg nel nats wg wk)
          (fun irg x irk m n => to_both_lattices nq nk g x m n (mesh_index nq 1 (nth irg (map fst wg) vzero)) (mesh_index nk 1 (nth irk (map fst wk) vzero)))) i x j m n) c)
        (phase (mesh_point nq q) (nth i (map fst wg) vzero))) (phase (mesh_point nk k) (nth j (map fst wk) vzero)))
      (seq 0 (length (map fst wk)))) (seq 0 (length (map fst wg))) = nmul c (g q x k m n).
Proof.
  intros Hq Hk Hp Eg Ek Mq Mk Hx Hm Hn. rewrite <- (both_inversion nq nk g x m n q k Hq Hk Mq Mk).
  assert (Hx3 : x / 3 < nats) by (apply Nat.div_lt_upper_bound; lia).
  set (X := if 1 <? nats then x / 3 else 0). set (M := if 1 <? nel then m else 0). set (N := if 1 <? nel then n else 0).
  assert (EX : X = x / 3) by (unfold X; destruct (Nat.ltb_spec 1 nats); lia).
  assert (EM : M = m) by (unfold M; destruct (Nat.ltb_spec 1 nel); lia).
  assert (EN : N = n) by (unfold N; destruct (Nat.ltb_spec 1 nel); lia).
  rewrite !map_length.
  set (T := to_both_lattices nq nk g x m n).
  transitivity (nsum (fun i => nsum (fun j =>
    (fun wi wj => nmul c (nmul (phase (mesh_point nq q) (fst wi)) (over (nmul (phase (mesh_point nk k) (fst wj))
      (over (T (mesh_index nq 1 (fst wi)) (mesh_index nk 1 (fst wj))) (fst (snd wj m n)))) (fst (snd wi m (x / 3))))))
     (nth i wg (vzero, wzero)) (nth j wk (vzero, wzero))) (seq 0 (length wk))) (seq 0 (length wg))).
  { apply nsum_ext. intros i Hi. apply nsum_ext. intros j Hj. apply in_seq in Hi, Hj. cbn beta.
    assert (Ei : nth i (map fst wg) vzero = fst (nth i wg (vzero, wzero))) by (rewrite (map_nth fst wg (vzero, wzero)); reflexivity).
    assert (Ej : nth j (map fst wk) vzero = fst (nth j wk (vzero, wzero))) by (rewrite (map_nth fst wk (vzero, wzero)); reflexivity).
    unfold divide_dg, divide_dk, wigner_deg. cbn [dk_0 dk_1 dk dg_0 dg_1 dg_2 dg]. fold X M N. rewrite EX, EM, EN.
    rewrite (nth_error_nth' wg (vzero, wzero)) by lia. rewrite (nth_error_nth' wk (vzero, wzero)) by lia. rewrite Ei, Ej. fold T.
    rewrite (over_mul (over _ _)), (over_mul (T _ _)), (over_mul (nmul (phase _ _) _)). ring. }
  rewrite (nsum_ext _ (fun i => (fun wi => nmul c (nmul (phase (mesh_point nq q) (fst wi)) (over (nsum (fun K => nmul (phase (mesh_point nk k) K) (T (mesh_index nq 1 (fst wi)) K)) (ws_mesh nk)) (fst (snd wi m (x / 3)))))) (nth i wg (vzero, wzero)))).
  2: { intros i _. cbn beta. rewrite (nsum_nth (fun wj => nmul c (nmul (phase (mesh_point nq q) (fst (nth i wg (vzero, wzero)))) (over (nmul (phase (mesh_point nk k) (fst wj))
      (over (T (mesh_index nq 1 (fst (nth i wg (vzero, wzero)))) (mesh_index nk 1 (fst wj))) (fst (snd wj m n)))) (fst (snd (nth i wg (vzero, wzero)) m (x / 3)))))) wk (vzero, wzero)).
       rewrite nsum_mul_l, nsum_mul_l. f_equal. f_equal. rewrite (over_mul (nsum _ _)).
       rewrite <- (ws_sum nk nel nel len_k (1 # 10000000) nproc Hk eq_refl Hp wk m n (phase (mesh_point nk k)) (T (mesh_index nq 1 (fst (nth i wg (vzero, wzero))))) Ek Hm Hn (fun R R' => mesh_phase nk k R R' Hk)).
       rewrite <- nsum_mul_r. apply nsum_ext. intros wj _. rewrite over_mul. ring. }
  rewrite (nsum_nth (fun wi => nmul c (nmul (phase (mesh_point nq q) (fst wi)) (over (nsum (fun K => nmul (phase (mesh_point nk k) K) (T (mesh_index nq 1 (fst wi)) K)) (ws_mesh nk)) (fst (snd wi m (x / 3)))))) wg (vzero, wzero)).
  rewrite nsum_mul_l. f_equal.
  apply (ws_sum nq nel nats len_g (1 # 10000000) nproc Hq eq_refl Hp wg m (x / 3) (phase (mesh_point nq q)) (fun G => nsum (fun K => nmul (phase (mesh_point nk k) K) (T G K)) (ws_mesh nk)) Eg Hm Hx3 (fun R R' => mesh_phase nq q R R' Hq)).
Qed.
