(** Proofs about DispModel.v: comparison with the machine in which rank 0 writes to
    the memory of its node. *)
From Verif Require Import Common CommonProofs MPIModel MPIProofs MPISharedProofs DispModel.

Section Sim.
  Context {M : Type}.
  Variables (nproc : nat) (nd : nat -> nat) (init : M).

  Definition only_barriers (l : list (@instr M)) : Prop :=
    forall i, In i l -> match i with Enter _ | Leave _ => True | _ => False end.

  Definition sim (s t : @state M) : Prop :=
    (forall p, p < nproc -> code s p = code t p) /\ sent s = sent t /\ received s = received t /\ entered s = entered t /\
    mem t 0 = mem s (nd 0) /\ (forall x, x <> nd 0 -> mem t (S x) = mem s x) /\ mem t (S (nd 0)) = init /\
    (forall p, p < nproc -> p <> 0 -> nd p = nd 0 -> only_barriers (code t p)).

  Lemma sim_set1 p s1 t1 rest : p < nproc -> (forall p, p < nproc -> s1 p = t1 p) ->
    forall q, q < nproc -> set1 s1 p rest q = (set1 t1 p rest q : list (@instr M)).
  Proof. intros Hp H q Hq. unfold set1. destruct (q =? p); [reflexivity|apply H, Hq]. Qed.

  Lemma only_tail p (t1 : nat -> list (@instr M)) i rest : t1 p = i :: rest ->
    (forall p, p < nproc -> p <> 0 -> nd p = nd 0 -> only_barriers (t1 p)) ->
    forall q, q < nproc -> q <> 0 -> nd q = nd 0 -> only_barriers (set1 t1 p rest q).
  Proof.
    intros E H q Hq H0 Hn. unfold set1. destruct (Nat.eqb_spec q p) as [->|NE]; [|apply H; assumption].
    intros j Hj. apply (H p Hq H0 Hn). rewrite E. right. exact Hj.
  Qed.

  Lemma sim_step s t p t' : p < nproc -> sim s t -> step (order_cell nd) t p = Some t' ->
    exists s', step nd s p = Some s' /\ sim s' t'.
  Proof.
    intros Hp (Hc & Hs & Hr & He & H0 & Hx & Hi & Hb) St. unfold step in *. rewrite (Hc p Hp).
    destruct (code t p) as [|i rest] eqn:E; [discriminate|].
    assert (W : forall w, match i with Enter _ | Leave _ => False | _ => True end ->
      let ms := set1 (mem s) (nd p) w in let mt := set1 (mem t) (order_cell nd p) w in
      mt 0 = ms (nd 0) /\ (forall x, x <> nd 0 -> mt (S x) = ms x) /\ mt (S (nd 0)) = init).
    { intros w Hw ms mt. unfold ms, mt. destruct p as [|p].
      - cbn [order_cell]. rewrite !set1_same. split; [reflexivity|]. split; [|rewrite set1_other by discriminate; exact Hi].
        intros x Hxn. rewrite !set1_other by (congruence || exact Hxn). apply Hx, Hxn.
      - cbn [order_cell]. assert (N : nd (S p) <> nd 0).
        { intros N. specialize (Hb (S p) Hp ltac:(discriminate) N i ltac:(rewrite E; left; reflexivity)). destruct i; contradiction. }
        rewrite !set1_other by (congruence || (intros A; congruence)). split; [exact H0|]. split; [|exact Hi].
        intros x Hxn. unfold set1. cbn [Nat.eqb]. destruct (x =? nd (S p)); [reflexivity|apply Hx, Hxn]. }
    assert (V : match i with Enter _ | Leave _ => False | _ => True end -> mem t (order_cell nd p) = mem s (nd p)).
    { intros Hw. destruct p as [|p]; [exact H0|]. cbn [order_cell]. apply Hx. intros N.
      specialize (Hb (S p) Hp ltac:(discriminate) N i ltac:(rewrite E; left; reflexivity)). destruct i; contradiction. }
    destruct i as [f|c|c|c].
    - rewrite V in St by exact I. eexists. split; [reflexivity|]. injection St as <-. unfold sim. cbn [code mem sent received entered].
      destruct (W (f (mem s (nd p))) I) as (W0 & W1 & W2).
      repeat split; auto; [apply sim_set1; assumption|eapply only_tail; eassumption].
    - rewrite Hs, Hr. rewrite V in St by exact I. destruct (match c with root :: _ => root =? p | [] => false end).
      + eexists. split; [reflexivity|]. injection St as <-. unfold sim. cbn [code mem sent received entered].
        repeat split; auto; [apply sim_set1; assumption|eapply only_tail; eassumption].
      + destruct (nth_error (sent t c) (received t p c)) as [w|]; [|discriminate].
        eexists. split; [reflexivity|]. injection St as <-. unfold sim. cbn [code mem sent received entered].
        destruct (W w I) as (W0 & W1 & W2).
        repeat split; auto; [apply sim_set1; assumption|eapply only_tail; eassumption].
    - rewrite He. eexists. split; [reflexivity|]. injection St as <-. unfold sim. cbn [code mem sent received entered].
      repeat split; auto; [apply sim_set1; assumption|eapply only_tail; eassumption].
    - rewrite He. destruct (forallb _ c); [|discriminate]. eexists. split; [reflexivity|]. injection St as <-.
      unfold sim. cbn [code mem sent received entered].
      repeat split; auto; [apply sim_set1; assumption|eapply only_tail; eassumption].
  Qed.

  Lemma sim_run sched : forall s t t', Forall (fun p => p < nproc) sched -> sim s t -> run (order_cell nd) t sched = Some t' ->
    exists s', run nd s sched = Some s' /\ sim s' t'.
  Proof.
    induction sched as [|p sched IH]; intros s t t' HF Hsim Hrun; cbn [run] in *.
    - injection Hrun as <-. exists s. split; [reflexivity|exact Hsim].
    - inversion_clear HF as [|? ? Hp HF']. destruct (step (order_cell nd) t p) as [t1|] eqn:E; [|discriminate].
      destruct (sim_step s t p t1 Hp Hsim E) as (s1 & E1 & S1). rewrite E1. apply (IH s1 t1 t'); assumption.
  Qed.
End Sim.

Lemma sim_start {M} nproc nd (o : M) m : 0 < nproc ->
  sim nproc nd (m (S (nd 0))) (start (order_prog nproc nd o) (fun x => if x =? nd 0 then m 0 else m (S x))) (start (order_prog nproc nd o) m).
Proof.
  intros Hn. unfold sim, start. cbn [code mem sent received entered]. repeat split.
  - rewrite Nat.eqb_refl. reflexivity.
  - intros x Hx. apply Nat.eqb_neq in Hx. rewrite Hx. reflexivity.
  - intros p Hp H0 He i Hi. unfold order_prog, share_node_prog in Hi.
    assert (NR : node_rank nproc nd p <> 0).
    { intros NR. apply H0. apply (leader_unique nproc nd); auto. apply root_is_leader, Hn. }
    apply Nat.eqb_neq in H0, NR. rewrite H0, NR in Hi. cbn [app Barrier In] in Hi. destruct Hi as [<-|[<-|[]]]; exact I.
Qed.

Lemma order_result {M} nproc nd (o : M) m sched s p : Forall (fun p => p < nproc) sched -> p < nproc ->
  run (order_cell nd) (start (order_prog nproc nd o) m) sched = Some s -> code s p = [] ->
  mem s (order_cell nd p) = if negb (p =? 0) && (nd p =? nd 0) then m (S (nd 0)) else o.
Proof.
  intros HF Hp Hrun Hd. destruct (sim_run nproc nd (m (S (nd 0))) sched _ _ s HF (sim_start nproc nd o m ltac:(lia)) Hrun) as (t & Ht & Hc & _ & _ & _ & H0 & Hx & Hi & _).
  destruct (share_node_safe nproc nd o _ sched t p HF Hp Ht ltac:(rewrite Hc by exact Hp; exact Hd)) as [Ho _].
  destruct p as [|p]; cbn [order_cell Nat.eqb negb andb]; [congruence|].
  destruct (Nat.eqb_spec (nd (S p)) (nd 0)) as [He|He]; [rewrite He; exact Hi|]. rewrite Hx by exact He. exact Ho.
Qed.
