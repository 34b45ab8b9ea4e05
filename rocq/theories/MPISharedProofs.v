(** Proofs about interleaved shared-memory programs (MPIModel.v). *)
From Coq Require Import Permutation Sorted.
From Verif Require Import Common CommonProofs MPIModel MPIProofs.

Lemma comm_eqb_refl c : comm_eqb c c = true.
Proof. unfold comm_eqb. destruct (list_eq_dec Nat.eq_dec c c); congruence. Qed.

Lemma setc_same {A} (f : comm -> A) c a : setc f c a c = a.
Proof. unfold setc. rewrite comm_eqb_refl. reflexivity. Qed.

Lemma set1_same {A} (f : nat -> A) p a : set1 f p a p = a.
Proof. unfold set1. rewrite Nat.eqb_refl. reflexivity. Qed.

Lemma set1_other {A} (f : nat -> A) p q a : q <> p -> set1 f p a q = f q.
Proof. intros H. unfold set1. destruct (Nat.eqb_spec q p); congruence. Qed.

Section Work.
  Context {M : Type}.
  Variables (nproc : nat) (nd : nat -> nat).

  Lemma step_length (s s' : @state M) p : step nd s p = Some s' ->
    S (length (code s' p)) = length (code s p) /\
    (forall q, q <> p -> code s' q = code s q).
  Proof.
    unfold step. destruct (code s p) as [|i rest] eqn:E; [discriminate|].
    assert (Hgo : forall s0, code s0 = set1 (code s) p rest ->
      S (length (code s0 p)) = length (i :: rest) /\ (forall q, q <> p -> code s0 q = code s q)).
    { intros s0 ->. rewrite set1_same. split; [reflexivity|]. intros q Hq. apply set1_other, Hq. }
    destruct i as [f|c|c|c].
    - intros [= <-]. apply Hgo. reflexivity.
    - destruct (match c with root :: _ => root =? p | [] => false end).
      + intros [= <-]. apply Hgo. reflexivity.
      + destruct (nth_error _ _); [|discriminate]. intros [= <-]. apply Hgo. reflexivity.
    - intros [= <-]. apply Hgo. reflexivity.
    - destruct (forallb _ c); [|discriminate]. intros [= <-]. apply Hgo. reflexivity.
  Qed.

  (** Schedules are bounded by the number of instructions. *)
  Definition work (s : @state M) : nat := sumN (map (fun p => length (code s p)) (seq 0 nproc)).

  Lemma sumN_update (f g : nat -> nat) p a n : a <= p < a + n ->
    (forall q, q <> p -> g q = f q) -> S (g p) = f p ->
    S (sumN (map g (seq a n))) = sumN (map f (seq a n)).
  Proof.
    revert a; induction n as [|n IH]; intros a Hp Ho Hs; [lia|]. cbn [seq map sumN].
    destruct (Nat.eq_dec p a) as [->|Hne].
    - replace (map g (seq (S a) n)) with (map f (seq (S a) n)); [lia|].
      apply map_ext_in. intros x Hx. apply in_seq in Hx. symmetry. apply Ho. lia.
    - rewrite (Ho a) by congruence. rewrite <- (IH (S a)) by (auto; lia). lia.
  Qed.

  Lemma run_work sched s s' : Forall (fun p => p < nproc) sched ->
    run nd s sched = Some s' -> work s' + length sched = work s.
  Proof.
    revert s; induction sched as [|p sched IH]; intros s HF Hrun; cbn in Hrun.
    - injection Hrun as <-. cbn. lia.
    - inversion_clear HF as [|? ? Hp HF'].
      destruct (step nd s p) as [s1|] eqn:E; [|discriminate].
      destruct (step_length s s1 p E) as [Hl Ho].
      specialize (IH s1 HF' Hrun). cbn [length].
      assert (S (work s1) = work s).
      { unfold work. apply (sumN_update _ _ p); [lia| |exact Hl]. intros q Hq. rewrite Ho by exact Hq. reflexivity. }
      lia.
  Qed.
End Work.

Section Share.
  Context {M : Type}.
  Variables (nproc : nat) (nd : nat -> nat) (v : M).
  Variable Bc : nat -> comm.   (* the communicator of the closing barrier *)
  Hypothesis Hn : 0 < nproc.
  Hypothesis HBc : forall p q, p < nproc -> In q (Bc p) -> q < nproc /\ Bc q = Bc p.
  Hypothesis HBl : forall p l, p < nproc -> l < nproc -> nd l = nd p ->
    node_rank nproc nd l = 0 -> In l (Bc p).

  Let L := leaders nproc nd.

  Definition gprog (p : nat) : list (@instr M) :=
    (if p =? 0 then [Write (fun _ => v)] else []) ++
    (if node_rank nproc nd p =? 0 then [Bcast (images_comm nproc nd p)] else []) ++
    Barrier (Bc p).

  Definition full (p : nat) : list (@instr M) :=
    [Write (fun _ => v); Bcast L; Enter (Bc p); Leave (Bc p)].

  Definition Inv (s : state) : Prop := exists k : nat -> nat,
    (forall p, p < nproc -> code s p = skipn (k p) (full p) /\ k p <= 4 /\
       (p <> 0 -> 1 <= k p) /\ (node_rank nproc nd p <> 0 -> 2 <= k p)) /\
    sent s L = (if k 0 <=? 1 then [] else [v]) /\
    (forall p, p < nproc -> p <> 0 -> node_rank nproc nd p = 0 ->
       received s p L = if k p <=? 1 then 0 else 1) /\
    (forall p, p < nproc -> entered s p (Bc p) = if k p <=? 2 then 0 else 1) /\
    (forall p, p < nproc -> node_rank nproc nd p = 0 -> 2 <= k p -> mem s (nd p) = v) /\
    (1 <= k 0 -> mem s (nd 0) = v) /\
    (forall p, p < nproc -> k p = 4 -> forall q, In q (Bc p) -> 3 <= k q).

  Lemma Inv_start m : Inv (start gprog m).
  Proof.
    exists (fun p => if p =? 0 then 0 else if node_rank nproc nd p =? 0 then 1 else 2).
    cbn [start code sent received entered mem].
    split.
    { intros p Hp. unfold gprog, full, L.
      destruct (Nat.eqb_spec p 0) as [->|Hp0].
      - rewrite root_is_leader by exact Hn. cbn [Nat.eqb app skipn].
        rewrite images_leader by (apply root_is_leader; exact Hn).
        repeat split; try lia.
      - destruct (Nat.eqb_spec (node_rank nproc nd p) 0) as [H0|H0].
        + rewrite images_leader by exact H0. repeat split; lia.
        + repeat split; lia. }
    split; [reflexivity|].
    split.
    { intros p Hp Hp0 H0. destruct (Nat.eqb_spec p 0); [congruence|]. rewrite H0. reflexivity. }
    split.
    { intros p Hp. destruct (p =? 0); [reflexivity|]. destruct (node_rank nproc nd p =? 0); reflexivity. }
    split.
    { intros p Hp H0. rewrite H0. cbn. destruct (p =? 0); lia. }
    split; [cbn; lia|].
    intros p Hp. destruct (p =? 0); [lia|]. destruct (node_rank nproc nd p =? 0); lia.
  Qed.

  Lemma Inv_step s s' p : Inv s -> p < nproc -> step nd s p = Some s' -> Inv s'.
  Proof.
    intros (k & Hcode & Hsent & Hrec & Hent & Hmem & Hmem0 & Hbar) Hp Hstep.
    destruct (Hcode p Hp) as (Hc & Hk4 & Hk1 & Hk2).
    unfold step in Hstep. rewrite Hc in Hstep.
    assert (Hk : k p = 0 \/ k p = 1 \/ k p = 2 \/ k p = 3 \/ k p = 4) by lia.
    assert (Hleader_ne : forall q, q < nproc -> node_rank nproc nd q = 0 ->
              node_rank nproc nd p = 0 -> q <> p -> nd q <> nd p).
    { intros q Hq H1 H2 Hne He. apply Hne. eapply leader_unique; eauto. }
    destruct Hk as [Hk|[Hk|[Hk|[Hk|Hk]]]]; rewrite Hk in Hstep; cbn [skipn full] in Hstep.
    - (* Write: only rank 0 *)
      assert (p = 0) by (destruct (Nat.eq_dec p 0); [assumption|specialize (Hk1 ltac:(assumption)); lia]).
      subst p. injection Hstep as <-. exists (set1 k 0 1). cbn [code sent received entered mem].
      assert (Hl0 := root_is_leader nproc nd Hn).
      split. { intros q Hq. destruct (Nat.eq_dec q 0) as [->|Hq0].
        - rewrite !set1_same. repeat split; try lia.
        - rewrite !set1_other by exact Hq0. apply Hcode. exact Hq. }
      split. { rewrite set1_same, Hsent, Hk. reflexivity. }
      split. { intros q Hq Hq0 HL. rewrite set1_other by exact Hq0. apply Hrec; assumption. }
      split. { intros q Hq. destruct (Nat.eq_dec q 0) as [->|Hq0].
        - rewrite set1_same, Hent, Hk by exact Hq. reflexivity.
        - rewrite set1_other by exact Hq0. apply Hent. exact Hq. }
      split. { intros q Hq HL. destruct (Nat.eq_dec q 0) as [->|Hq0].
        - rewrite set1_same. lia.
        - rewrite !set1_other by (try apply Hleader_ne; assumption). apply Hmem; assumption. }
      split. { intros _. apply set1_same. }
      intros q Hq. destruct (Nat.eq_dec q 0) as [->|Hq0]; [rewrite set1_same; lia|].
      rewrite set1_other by exact Hq0. intros H4 r Hr. specialize (Hbar q Hq H4 r Hr).
      destruct (Nat.eq_dec r 0) as [->|Hr0]; [lia|rewrite set1_other by exact Hr0; exact Hbar].
    - (* Bcast *)
      assert (HLp : node_rank nproc nd p = 0)
        by (destruct (Nat.eq_dec (node_rank nproc nd p) 0); [assumption|specialize (Hk2 ltac:(assumption)); lia]).
      destruct (leaders_head nproc nd Hn) as (c & HL). fold L in HL. rewrite HL in Hstep.
      destruct (Nat.eqb_spec 0 p) as [<-|Hp0].
      + injection Hstep as <-. exists (set1 k 0 2). rewrite <- HL. cbn [code sent received entered mem].
        split. { intros q Hq. destruct (Nat.eq_dec q 0) as [->|Hq0].
          - rewrite !set1_same. repeat split; try lia.
          - rewrite !set1_other by exact Hq0. apply Hcode. exact Hq. }
        split. { rewrite set1_same, setc_same, Hsent, Hk, Hmem0 by lia. reflexivity. }
        split. { intros q Hq Hq0 HLq. rewrite set1_other by exact Hq0. apply Hrec; assumption. }
        split. { intros q Hq. destruct (Nat.eq_dec q 0) as [->|Hq0].
          - rewrite set1_same, Hent, Hk by exact Hq. reflexivity.
          - rewrite set1_other by exact Hq0. apply Hent. exact Hq. }
        split. { intros q Hq HLq. destruct (Nat.eq_dec q 0) as [->|Hq0].
          - intros _. apply Hmem0. lia.
          - rewrite set1_other by assumption. apply Hmem; assumption. }
        split. { intros _. apply Hmem0. lia. }
        intros q Hq. destruct (Nat.eq_dec q 0) as [->|Hq0]; [rewrite set1_same; lia|].
        rewrite set1_other by exact Hq0. intros H4 r Hr. specialize (Hbar q Hq H4 r Hr).
        destruct (Nat.eq_dec r 0) as [->|Hr0]; [lia|rewrite set1_other by exact Hr0; exact Hbar].
      + rewrite <- HL in Hstep.
        destruct (nth_error (sent s L) (received s p L)) as [w|] eqn:Hw; [|discriminate].
        injection Hstep as <-. exists (set1 k p 2). cbn [code sent received entered mem].
        assert (Hwv : w = v /\ 2 <= k 0).
        { rewrite Hsent in Hw. destruct (Nat.leb_spec (k 0) 1) as [Hle|Hgt].
          - destruct (received s p L); discriminate.
          - rewrite Hrec, Hk in Hw by auto. cbn in Hw. split; [congruence|lia]. }
        destruct Hwv as [-> Hk0].
        split. { intros q Hq. destruct (Nat.eq_dec q p) as [->|Hqp].
          - rewrite !set1_same. repeat split; try lia.
          - rewrite !set1_other by exact Hqp. apply Hcode. exact Hq. }
        split. { rewrite set1_other by exact Hp0. exact Hsent. }
        split. { intros q Hq Hq0 HLq. destruct (Nat.eq_dec q p) as [->|Hqp].
          - rewrite !set1_same, setc_same. rewrite Hrec, Hk by auto. reflexivity.
          - rewrite !set1_other by exact Hqp. apply Hrec; assumption. }
        split. { intros q Hq. destruct (Nat.eq_dec q p) as [->|Hqp].
          - rewrite set1_same, Hent, Hk by exact Hq. reflexivity.
          - rewrite set1_other by exact Hqp. apply Hent. exact Hq. }
        split. { intros q Hq HLq. destruct (Nat.eq_dec q p) as [->|Hqp].
          - intros _. apply set1_same.
          - rewrite (set1_other k) by assumption. intros H2.
            rewrite set1_other by (apply Hleader_ne; assumption). apply Hmem; assumption. }
        split. { rewrite set1_other by exact Hp0. intros _.
          rewrite set1_other by (apply Hleader_ne; auto; apply root_is_leader; exact Hn).
          apply Hmem0. lia. }
        intros q Hq. destruct (Nat.eq_dec q p) as [->|Hqp]; [rewrite set1_same; lia|].
        rewrite set1_other by exact Hqp. intros H4 r Hr. specialize (Hbar q Hq H4 r Hr).
        destruct (Nat.eq_dec r p) as [->|Hrp]; [lia|rewrite set1_other by exact Hrp; exact Hbar].
    - (* Enter *)
      injection Hstep as <-. exists (set1 k p 3). cbn [code sent received entered mem].
      assert (Hk0 : (set1 k p 3 0 <=? 1) = (k 0 <=? 1)).
      { destruct (Nat.eq_dec p 0) as [->|Hp0]; [rewrite set1_same, Hk; reflexivity|].
        rewrite set1_other by congruence. reflexivity. }
      split. { intros q Hq. destruct (Nat.eq_dec q p) as [->|Hqp].
        - rewrite !set1_same. repeat split; try lia.
        - rewrite !set1_other by exact Hqp. apply Hcode. exact Hq. }
      split. { rewrite Hk0. exact Hsent. }
      split. { intros q Hq Hq0 HLq. rewrite Hrec by auto.
        destruct (Nat.eq_dec q p) as [->|Hqp]; [rewrite set1_same, Hk; reflexivity|].
        rewrite set1_other by exact Hqp. reflexivity. }
      split. { intros q Hq. destruct (Nat.eq_dec q p) as [->|Hqp].
        - rewrite !set1_same, setc_same, Hent, Hk by exact Hq. reflexivity.
        - rewrite !set1_other by exact Hqp. apply Hent. exact Hq. }
      split. { intros q Hq HLq. destruct (Nat.eq_dec q p) as [->|Hqp].
        - intros _. apply Hmem; auto; lia.
        - rewrite set1_other by assumption. apply Hmem; assumption. }
      split. { destruct (Nat.eq_dec p 0) as [->|Hp0].
        - intros _. apply Hmem0; lia.
        - rewrite set1_other by congruence. exact Hmem0. }
      intros q Hq. destruct (Nat.eq_dec q p) as [->|Hqp]; [rewrite set1_same; lia|].
      rewrite set1_other by exact Hqp. intros H4 r Hr. specialize (Hbar q Hq H4 r Hr).
      destruct (Nat.eq_dec r p) as [->|Hrp]; [lia|rewrite set1_other by exact Hrp; exact Hbar].
    - (* Leave *)
      destruct (forallb _ (Bc p)) eqn:Hall; [|discriminate].
      injection Hstep as <-. exists (set1 k p 4). cbn [code sent received entered mem].
      assert (Hk0 : (set1 k p 4 0 <=? 1) = (k 0 <=? 1)).
      { destruct (Nat.eq_dec p 0) as [->|Hp0]; [rewrite set1_same, Hk; reflexivity|].
        rewrite set1_other by congruence. reflexivity. }
      split. { intros q Hq. destruct (Nat.eq_dec q p) as [->|Hqp].
        - rewrite !set1_same. repeat split; try lia.
        - rewrite !set1_other by exact Hqp. apply Hcode. exact Hq. }
      split. { rewrite Hk0. exact Hsent. }
      split. { intros q Hq Hq0 HLq. rewrite Hrec by auto.
        destruct (Nat.eq_dec q p) as [->|Hqp]; [rewrite set1_same, Hk; reflexivity|].
        rewrite set1_other by exact Hqp. reflexivity. }
      split. { intros q Hq. destruct (Nat.eq_dec q p) as [->|Hqp].
        - rewrite set1_same, Hent, Hk by exact Hq. reflexivity.
        - rewrite !set1_other by exact Hqp. apply Hent. exact Hq. }
      split. { intros q Hq HLq. destruct (Nat.eq_dec q p) as [->|Hqp].
        - intros _. apply Hmem; auto; lia.
        - rewrite set1_other by assumption. apply Hmem; assumption. }
      split. { destruct (Nat.eq_dec p 0) as [->|Hp0].
        - intros _. apply Hmem0; lia.
        - rewrite set1_other by congruence. exact Hmem0. }
      assert (Hthree : forall r, In r (Bc p) -> 3 <= k r).
      { intros r Hr. rewrite forallb_forall in Hall. specialize (Hall r Hr).
        apply Nat.leb_le in Hall. rewrite (Hent p Hp), Hk in Hall. cbn in Hall.
        destruct (HBc p r Hp Hr) as [Hrn HBr].
        rewrite <- HBr, (Hent r Hrn) in Hall.
        destruct (Nat.leb_spec (k r) 2); lia. }
      intros q Hq H4 r Hr.
      assert (Hkr : 3 <= k r).
      { destruct (Nat.eq_dec q p) as [->|Hqp]; [apply Hthree; exact Hr|].
        rewrite set1_other in H4 by exact Hqp. apply (Hbar q Hq H4 r Hr). }
      destruct (Nat.eq_dec r p) as [->|Hrp]; [rewrite set1_same; lia|rewrite set1_other by exact Hrp; exact Hkr].
    - discriminate.
  Qed.

  Lemma Inv_run sched s s' : Inv s -> Forall (fun p => p < nproc) sched ->
    run nd s sched = Some s' -> Inv s'.
  Proof.
    revert s; induction sched as [|p sched IH]; intros s HI HF Hrun; cbn in Hrun.
    - injection Hrun as <-. exact HI.
    - inversion_clear HF as [|? ? Hp HF'].
      destruct (step nd s p) as [s1|] eqn:E; [|discriminate].
      apply (IH s1); [eapply Inv_step; eauto|exact HF'|exact Hrun].
  Qed.

  (** A second invariant: whoever has received proves that the root has sent. *)
  Definition Inv2 (s : @state M) : Prop :=
    forall p, p < nproc -> p <> 0 -> node_rank nproc nd p = 0 ->
      length (code s p) <= 2 -> length (code s 0) <= 2.

  Lemma Inv_code_length s p : Inv s -> p < nproc ->
    exists j, j <= 4 /\ code s p = skipn j (full p) /\ (p <> 0 -> 1 <= j) /\
      (node_rank nproc nd p <> 0 -> 2 <= j).
  Proof. intros (k & Hcode & _) Hp. exists (k p). specialize (Hcode p Hp). tauto. Qed.

  Lemma Inv2_start m : Inv2 (start gprog m).
  Proof.
    intros p Hp Hp0 HL. cbn [start code]. unfold gprog. rewrite HL. cbn [Nat.eqb].
    destruct (Nat.eqb_spec p 0); [congruence|]. cbn. lia.
  Qed.

  Lemma Inv2_step s s' p : Inv s -> Inv2 s -> p < nproc -> step nd s p = Some s' -> Inv2 s'.
  Proof.
    intros HI H2 Hp Hstep q Hq Hq0 HL Hlen.
    destruct (step_length nd s s' p Hstep) as [Hl Ho].
    destruct (Nat.eq_dec q p) as [->|Hqp].
    - rewrite (Ho 0) by congruence.
      destruct (Nat.eq_dec (length (code s p)) 3) as [H3|H3].
      + (* p just received *)
        destruct HI as (k & Hcode & Hsent & _).
        destruct (Hcode p Hp) as (Hc & Hk4 & Hk1 & _). specialize (Hk1 Hq0).
        assert (Hk : k p = 1).
        { rewrite Hc, skipn_length in H3. cbn [full length] in H3. lia. }
        unfold step in Hstep. rewrite Hc, Hk in Hstep. cbn [skipn full] in Hstep.
        destruct (leaders_head nproc nd Hn) as (c & HLe). fold L in HLe. rewrite HLe in Hstep.
        destruct (Nat.eqb_spec 0 p) as [He|_]; [congruence|]. rewrite <- HLe, Hsent in Hstep.
        destruct (Hcode 0 Hn) as (Hc0 & _). rewrite Hc0, skipn_length. cbn [full length].
        destruct (Nat.leb_spec (k 0) 1) as [Hle|Hgt]; [|lia].
        destruct (received s p L); discriminate.
      + apply (H2 p); auto. lia.
    - rewrite (Ho q Hqp) in Hlen. specialize (H2 q Hq Hq0 HL Hlen).
      destruct (Nat.eq_dec p 0) as [->|Hp0]; [lia|]. rewrite (Ho 0) by congruence. exact H2.
  Qed.

  Lemma Inv2_run sched s s' : Inv s -> Inv2 s -> Forall (fun p => p < nproc) sched ->
    run nd s sched = Some s' -> Inv2 s'.
  Proof.
    revert s; induction sched as [|p sched IH]; intros s HI H2 HF Hrun; cbn in Hrun.
    - injection Hrun as <-. exact H2.
    - inversion_clear HF as [|? ? Hp HF'].
      destruct (step nd s p) as [s1|] eqn:E; [|discriminate].
      apply (IH s1); [eapply Inv_step; eauto|eapply Inv2_step; eauto|exact HF'|exact Hrun].
  Qed.

  Lemma Inv_done s p : Inv s -> Inv2 s -> p < nproc -> code s p = [] ->
    mem s (nd p) = v /\ length (code s 0) <= 2.
  Proof.
    intros HI H2 Hp Hdone.
    destruct HI as (k & Hcode & Hsent & Hrec & Hent & Hmem & Hmem0 & Hbar).
    destruct (Hcode p Hp) as (Hc & Hk4 & _).
    assert (Hk : k p = 4).
    { rewrite Hdone in Hc. destruct (k p) as [|[|[|[|[|n]]]]]; try discriminate; lia. }
    destruct (leader_exists nproc nd p Hp) as (l & Hl & Hnl & HL).
    assert (Hkl : 3 <= k l) by (apply (Hbar p Hp Hk l); apply HBl; assumption).
    split; [rewrite <- Hnl; apply Hmem; auto; lia|].
    destruct (Nat.eq_dec l 0) as [->|Hl0].
    - destruct (Hcode 0 Hn) as (Hc0 & _). rewrite Hc0, skipn_length. cbn [full length]. lia.
    - apply (H2 l Hl Hl0 HL). destruct (Hcode l Hl) as (Hcl & _).
      rewrite Hcl, skipn_length. cbn [full length]. lia.
  Qed.

  (** No deadlock: as long as somebody has not finished, somebody can move. *)
  Lemma Inv_progress s : Inv s ->
    (exists p, p < nproc /\ code s p <> []) ->
    exists p s', p < nproc /\ step nd s p = Some s'.
  Proof.
    intros (k & Hcode & Hsent & Hrec & Hent & Hmem & Hmem0 & Hbar) (p & Hp & Hne).
    destruct (Hcode 0 Hn) as (Hc0 & Hk40 & _).
    destruct (leaders_head nproc nd Hn) as (c & HLe). fold L in HLe.
    destruct (Nat.eq_dec (k 0) 0) as [H00|H00].
    { exists 0. unfold step. rewrite Hc0, H00. cbn [skipn full]. eexists. split; [exact Hn|reflexivity]. }
    destruct (Nat.eq_dec (k 0) 1) as [H01|H01].
    { exists 0. unfold step. rewrite Hc0, H01. cbn [skipn full]. rewrite HLe. cbn [Nat.eqb].
      eexists. split; [exact Hn|reflexivity]. }
    destruct (existsb (fun q => k q =? 1) (seq 0 nproc)) eqn:E1.
    { apply existsb_exists in E1. destruct E1 as (q & Hq & Hk1). apply in_seq in Hq. apply Nat.eqb_eq in Hk1.
      destruct (Hcode q ltac:(lia)) as (Hc & _ & _ & Hkl).
      assert (Hq0 : q <> 0) by (intros ->; congruence).
      assert (HLq : node_rank nproc nd q = 0)
        by (destruct (Nat.eq_dec (node_rank nproc nd q) 0); [assumption|specialize (Hkl ltac:(assumption)); lia]).
      exists q. unfold step. rewrite Hc, Hk1. cbn [skipn full]. rewrite HLe.
      destruct (Nat.eqb_spec 0 q); [congruence|]. rewrite <- HLe, Hsent, Hrec, Hk1 by (auto; lia).
      destruct (Nat.leb_spec (k 0) 1); [lia|]. cbn. eexists. split; [lia|reflexivity]. }
    destruct (existsb (fun q => k q =? 2) (seq 0 nproc)) eqn:E2.
    { apply existsb_exists in E2. destruct E2 as (q & Hq & Hk2). apply in_seq in Hq. apply Nat.eqb_eq in Hk2.
      destruct (Hcode q ltac:(lia)) as (Hc & _).
      exists q. unfold step. rewrite Hc, Hk2. cbn [skipn full]. eexists. split; [lia|reflexivity]. }
    assert (Hall : forall q, q < nproc -> 3 <= k q).
    { intros q Hq. destruct (Hcode q Hq) as (_ & H4 & H1 & _).
      assert (k q <> 1).
      { intros He. assert (existsb (fun q => k q =? 1) (seq 0 nproc) = true); [|congruence].
        apply existsb_exists. exists q. split; [apply in_seq; lia|apply Nat.eqb_eq, He]. }
      assert (k q <> 2).
      { intros He. assert (existsb (fun q => k q =? 2) (seq 0 nproc) = true); [|congruence].
        apply existsb_exists. exists q. split; [apply in_seq; lia|apply Nat.eqb_eq, He]. }
      assert (k q <> 0).
      { intros He. destruct (Nat.eq_dec q 0) as [->|Hq0]; [congruence|]. specialize (H1 Hq0). lia. }
      lia. }
    destruct (Hcode p Hp) as (Hc & Hk4 & _). specialize (Hall p Hp) as Hkp.
    assert (Hk3 : k p = 3).
    { destruct (Nat.eq_dec (k p) 4) as [H4|H4]; [|lia]. rewrite Hc, H4 in Hne. destruct Hne. reflexivity. }
    exists p. unfold step. rewrite Hc, Hk3. cbn [skipn full].
    replace (forallb _ (Bc p)) with true.
    { eexists. split; [exact Hp|reflexivity]. }
    symmetry. apply forallb_forall. intros r Hr. apply Nat.leb_le.
    destruct (HBc p r Hp Hr) as [Hrn HBr]. rewrite (Hent p Hp), Hk3.
    rewrite <- HBr, (Hent r Hrn). specialize (Hall r Hrn).
    destruct (Nat.leb_spec (k r) 2); [lia|]. cbn. lia.
  Qed.

  Lemma gprog_safe m sched s p :
    Forall (fun p => p < nproc) sched -> p < nproc ->
    run nd (start gprog m) sched = Some s ->
    code s p = [] -> mem s (nd p) = v /\ length (code s 0) <= 2.
  Proof.
    intros HF Hp Hrun Hdone. apply Inv_done; auto.
    - eapply Inv_run; [|exact HF|exact Hrun]. apply Inv_start.
    - eapply Inv2_run; [| |exact HF|exact Hrun]; [apply Inv_start|apply Inv2_start].
  Qed.

  Lemma gprog_no_deadlock m sched s :
    Forall (fun p => p < nproc) sched ->
    run nd (start gprog m) sched = Some s ->
    (exists p, p < nproc /\ code s p <> []) ->
    exists p s', p < nproc /\ step nd s p = Some s'.
  Proof.
    intros HF Hrun. apply Inv_progress.
    eapply Inv_run; [|exact HF|exact Hrun]. apply Inv_start.
  Qed.
End Share.

Lemma world_barrier nproc nd (p : nat) :
  (forall p q, p < nproc -> In q (world nproc) -> q < nproc /\ world nproc = world nproc) /\
  (forall p l, p < nproc -> l < nproc -> nd l = nd p ->
    node_rank nproc nd l = 0 -> In l (world nproc)).
Proof.
  split.
  - intros p' q _ Hq. unfold world in Hq. apply in_seq in Hq. split; [lia|reflexivity].
  - intros p' l _ Hl _ _. unfold world. apply in_seq. lia.
Qed.

Lemma node_barrier nproc nd :
  (forall p q, p < nproc -> In q (node_comm nproc nd p) ->
     q < nproc /\ node_comm nproc nd q = node_comm nproc nd p) /\
  (forall p l, p < nproc -> l < nproc -> nd l = nd p ->
    node_rank nproc nd l = 0 -> In l (node_comm nproc nd p)).
Proof.
  split.
  - intros p q _ Hq. unfold node_comm in *. apply In_Split_world in Hq.
    split; [apply Hq|]. apply Split_world_eq. apply Hq.
  - intros p l _ Hl He _. unfold node_comm. apply In_Split_world. auto.
Qed.

Lemma share_safe {M} nproc nd (v : M) m sched s p :
  Forall (fun p => p < nproc) sched -> p < nproc ->
  run nd (start (share_prog nproc nd v) m) sched = Some s ->
  code s p = [] -> mem s (nd p) = v /\ length (code s 0) <= 2.
Proof.
  intros HF Hp. assert (Hn : 0 < nproc) by lia.
  destruct (world_barrier nproc nd 0) as [HB1 HB2].
  apply (gprog_safe nproc nd v (fun _ => world nproc)); auto.
Qed.

Lemma share_node_safe {M} nproc nd (v : M) m sched s p :
  Forall (fun p => p < nproc) sched -> p < nproc ->
  run nd (start (share_node_prog nproc nd v) m) sched = Some s ->
  code s p = [] -> mem s (nd p) = v /\ length (code s 0) <= 2.
Proof.
  intros HF Hp. assert (Hn : 0 < nproc) by lia.
  destruct (node_barrier nproc nd) as [HB1 HB2].
  apply (gprog_safe nproc nd v (node_comm nproc nd)); auto.
Qed.

Lemma share_no_deadlock {M} nproc nd (v : M) m sched s :
  Forall (fun p => p < nproc) sched -> 0 < nproc ->
  run nd (start (share_prog nproc nd v) m) sched = Some s ->
  (exists p, p < nproc /\ code s p <> []) ->
  exists p s', p < nproc /\ step nd s p = Some s'.
Proof.
  intros HF Hn.
  destruct (world_barrier nproc nd 0) as [HB1 HB2].
  apply (gprog_no_deadlock nproc nd v (fun _ => world nproc)); auto.
Qed.

Lemma share_node_no_deadlock {M} nproc nd (v : M) m sched s :
  Forall (fun p => p < nproc) sched -> 0 < nproc ->
  run nd (start (share_node_prog nproc nd v) m) sched = Some s ->
  (exists p, p < nproc /\ code s p <> []) ->
  exists p s', p < nproc /\ step nd s p = Some s'.
Proof.
  intros HF Hn.
  destruct (node_barrier nproc nd) as [HB1 HB2].
  apply (gprog_no_deadlock nproc nd v (node_comm nproc nd)); auto.
Qed.

Lemma share_bounded {M} nproc nd (prog : nat -> list (@instr M)) m sched s :
  Forall (fun p => p < nproc) sched ->
  run nd (start prog m) sched = Some s ->
  length sched <= sumN (map (fun p => length (prog p)) (seq 0 nproc)).
Proof.
  intros HF Hrun. assert (H := run_work nproc nd sched _ _ HF Hrun).
  unfold work in H at 2. cbn [start code] in H. lia.
Qed.
