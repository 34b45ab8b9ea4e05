(** C69: saving and loading drivers. *)
From Verif Require Import SaveModel.
Local Open Scope string_scope.

(** Drivers whose couplings are stored in full have communicators, and so have their
    [elph] objects. *)
Record dense (h : heap) : Prop := {
  dense_interactive : exists b, self h "interactive" = Some (VBool b);
  dense_comms : exists n i, self h "node" = Some (VComm n) /\ self h "images" = Some (VComm i);
  dense_sparse : self h "sparse" = Some (VBool false);
  dense_elph : exists n i, elph h "node" = Some (VComm n) /\ elph h "images" = Some (VComm i)
}.

(** No other attribute is a communicator. *)
Definition only_these (h : heap) : Prop :=
  forall x, x <> "node" -> x <> "images" -> (forall i, self h x <> Some (VComm i)) /\ (forall i, elph h x <> Some (VComm i)).

Definition same (h h' : heap) : Prop := forall x, self h x = self h' x /\ elph h x = elph h' x.

Definition example_driver : heap :=
  {| self := fun x => if String.eqb x "interactive" then Some (VBool true) else if String.eqb x "sparse" then Some (VBool false) else if String.eqb x "node" then Some (VComm 1) else if String.eqb x "images" then Some (VComm 2) else if String.eqb x "u" then Some (VData 42) else None;
     elph := fun x => if String.eqb x "node" then Some (VComm 3) else if String.eqb x "images" then Some (VComm 4) else if String.eqb x "data" then Some (VData 7) else None |}.
Lemma example_dense : dense example_driver.
Proof. split; cbn; eauto. Qed.
Lemma example_only : only_these example_driver.
Proof.
  intros x N1 N2. apply String.eqb_neq in N1, N2. cbn. rewrite N1, N2. repeat match goal with |- context [String.eqb x ?s] => destruct (String.eqb x s) end; split; discriminate.
Qed.

Ltac names x := repeat match goal with |- context [String.eqb x ?s] => destruct (String.eqb_spec x s); subst end; cbn in *; try discriminate; try congruence.

(** If the file can be written, the driver is afterwards as before, and the file contains
    no communicators. Loading the file gives a driver with the same attributes, except that
    it is not interactive and has new communicators. *)
Theorem C69_save_load :
  forall h f n i, dense h -> only_these h ->
  exists h' p, save None (h, f) = ((h', Pickle p), Ok tt) /\ same h' h /\ picklable p /\
  exists d, load (Pickle p) n i = Ok d /\
    self d "interactive" = Some (VBool false) /\
    self d "node" = Some (VComm n) /\ self d "images" = Some (VComm i) /\ elph d "node" = Some (VComm n) /\ elph d "images" = Some (VComm i) /\
    forall x, x <> "node" -> x <> "images" -> elph d x = elph h x /\ (x <> "interactive" -> self d x = self h x).
Proof.
  intros [S E] f n i [(b & Hi) (n0 & i0 & Hn & Hm) Hs (n1 & i1 & Hn1 & Hm1)] HO. cbn in *.
  eexists. eexists. split; [|split; [|split]].
  - unfold save, then_, get_attr, set_attr, del_attr, get_elph, set_elph, del_elph, store, ret, put. cbn. repeat (first [rewrite Hi|rewrite Hn|rewrite Hm|rewrite Hs|rewrite Hn1|rewrite Hm1]; cbn). reflexivity.
  - intros x. cbn. split; names x.
  - intros x. cbn. destruct (String.eqb_spec x "node") as [->|N1]; [cbn; split; discriminate|]. destruct (String.eqb_spec x "images") as [->|N2]; [cbn; split; discriminate|]. destruct (HO x N1 N2) as [A B]. cbn in A, B. split; intros j; names x; first [discriminate|apply A|apply B].
  - eexists. split; [cbn; unfold put; cbn; rewrite Hs; cbn; reflexivity|]. cbn. repeat split. + names x. + intros N. names x.
Qed.
Print Assumptions C69_save_load.

Example C69_save_load_example :
  exists h' p, save None (example_driver, Broken) = ((h', Pickle p), Ok tt) /\ same h' example_driver /\ picklable p /\
  exists d, load (Pickle p) 8 9 = Ok d /\ self d "interactive" = Some (VBool false) /\
    self d "node" = Some (VComm 8) /\ self d "images" = Some (VComm 9) /\ elph d "node" = Some (VComm 8) /\ elph d "images" = Some (VComm 9) /\
    forall x, x <> "node" -> x <> "images" -> elph d x = elph example_driver x /\ (x <> "interactive" -> self d x = self example_driver x).
Proof. exact (C69_save_load example_driver Broken 8 9 example_dense example_only). Qed.

(** If writing the file fails in any way, however, the driver has lost its communicators and
    is no longer interactive; saving it again is not possible either. All its other
    attributes are unchanged. *)
Theorem C69_failing_save_refuted :
  forall h f trouble e, dense h -> (trouble = inl e \/ trouble = inr e) ->
  exists h' f', save (Some trouble) (h, f) = ((h', f'), Raise e) /\
    self h' "interactive" = Some (VBool false) /\ self h' "node" = None /\ self h' "images" = None /\ elph h' "node" = None /\ elph h' "images" = None /\
    (forall x, x <> "node" -> x <> "images" -> elph h' x = elph h x /\ (x <> "interactive" -> self h' x = self h x)) /\
    snd (save None (h', f')) = Raise AttributeError.
Proof.
  intros [S E] f t e [(b & Hi) (n0 & i0 & Hn & Hm) Hs (n1 & i1 & Hn1 & Hm1)] HT. cbn in *.
  eexists. eexists. split; [|split; [|split; [|split; [|split; [|split; [|split]]]]]].
  - unfold save, then_, get_attr, set_attr, del_attr, get_elph, set_elph, del_elph, ret, put. cbn. repeat (first [rewrite Hi|rewrite Hn|rewrite Hm|rewrite Hs|rewrite Hn1|rewrite Hm1]; cbn).
    instantiate (1 := if t then f else Broken). destruct HT as [->| ->]; cbn; reflexivity.
  - reflexivity.
  - reflexivity.
  - reflexivity.
  - reflexivity.
  - reflexivity.
  - intros x N1 N2. cbn. split; [|intros N3]; names x.
  - cbn. reflexivity.
Qed.
Print Assumptions C69_failing_save_refuted.

Example C69_failing_save_example : snd (save (Some (inr OSError)) (example_driver, Missing)) = Raise OSError /\ self (fst (fst (save (Some (inr OSError)) (example_driver, Missing)))) "node" = None.
Proof. split; reflexivity. Qed.

(** Drivers with sparse matrices have no communicators (line 138 is not reached for them)
    and cannot be saved at all: an AttributeError is raised, the file is not touched, and the
    driver is no longer interactive. *)
Theorem C69_sparse_driver_refuted :
  forall h f trouble, (exists b, self h "interactive" = Some (VBool b)) -> self h "node" = None ->
  exists h', save trouble (h, f) = ((h', f), Raise AttributeError) /\ self h' "interactive" = Some (VBool false) /\
  forall x, elph h' x = elph h x /\ (x <> "interactive" -> self h' x = self h x).
Proof.
  intros [S E] f t (b & Hi) Hn. cbn in *. eexists. split; [|split; [|]].
  - unfold save, then_, get_attr, set_attr, put. cbn. rewrite Hi. cbn. rewrite Hn. reflexivity.
  - reflexivity.
  - intros x. cbn. split; [reflexivity|]. intros N. names x.
Qed.
Print Assumptions C69_sparse_driver_refuted.

Example C69_sparse_driver_example : snd (save None ({| self := fun x => if String.eqb x "interactive" then Some (VBool true) else if String.eqb x "sparse" then Some (VBool true) else None; elph := fun _ => None |}, Missing)) = Raise AttributeError.
Proof. reflexivity. Qed.

(** Loading fails whenever the file is missing or incomplete. *)
Theorem C69_load_needs_complete_file :
  forall f n i d, load f n i = Ok d -> exists h, f = Pickle h /\ forall x, x <> "node" -> x <> "images" -> self d x = self h x /\ elph d x = elph h x.
Proof.
  intros f n i d H. destruct f as [| |h]; cbn in H; try discriminate. exists h. split; [reflexivity|]. unfold put in H. cbn in H. destruct (self h "sparse") as [v|]; [|discriminate].
  injection H as <-. intros x N1 N2. cbn. apply String.eqb_neq in N1, N2. rewrite N1, N2. destruct (truth v); [split; reflexivity|]. unfold put. rewrite N1, N2. split; reflexivity.
Qed.
Print Assumptions C69_load_needs_complete_file.

Example C69_load_example : load Missing 0 1 = Raise AttributeError /\ exists d, load (Pickle example_driver) 0 1 = Ok d.
Proof. split; [reflexivity|]. eexists. reflexivity. Qed.
