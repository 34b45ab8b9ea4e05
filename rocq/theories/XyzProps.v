(** C68: trajectories. *)
From Verif Require Import TextProofs XyzModel XyzSpec XyzProofs.
From Coq Require Import Qabs.
Local Open Scope nat_scope.

(** Small system for the examples *)
Definition fmt_g0 (x : Q) : text := fmt_f 3 x.
Definition TaS : driver := {| nat_ := 2; atoms := [§"Ta"; §"S"]; r := [(0%Q, 0%Q, 0%Q); (1#2, 1#3, -(3#2))%Q]; cell := [1%Q; 0%Q; 0%Q] |}.
Definition TaSe : driver := {| nat_ := 2; atoms := [§"Ta"; §"Se"]; r := [(0%Q, 0%Q, 1%Q); (1#2, 1#3, -(3#2))%Q]; cell := [1%Q; 0%Q; 0%Q] |}.
Definition Ta : driver := {| nat_ := 1; atoms := [§"Ta"]; r := [origin]; cell := [] |}.
Definition u1 : list vec := [(1#100, 0, 0)%Q; (0, -(1#7), 0)%Q].
Definition u2 : list vec := [(0, 0, 1#1000000000)%Q; (-(1#2), 2#3, 3#2)%Q].
Lemma fmt_g0_line x : no_newline (fmt_g0 x).
Proof. apply no_newline_f. Qed.
Lemma TaS_proper : proper TaS.
Proof. split; [reflexivity|reflexivity|repeat constructor; discriminate]. Qed.
Lemma TaSe_proper : proper TaSe.
Proof. split; [reflexivity|reflexivity|repeat constructor; discriminate]. Qed.
Lemma Ta_proper : proper Ta.
Proof. split; [reflexivity|reflexivity|repeat constructor; discriminate]. Qed.

(** For every history of calls of to_xyz with arbitrary displacements, into a new file or
    with at least one call that overwrites the file, from_xyz succeeds and all processes
    have the same displacements, which are the ones written last, to nine decimals. *)
Theorem C68_roundtrip :
  forall fmt_g, (forall x, no_newline (fmt_g x)) ->
  forall d history u append file us,
  proper d -> Forall (fun ua => length (fst ua) = nat_ d) (history ++ [(u, append)]) ->
  (file = None \/ Exists (fun ua => snd ua = false) (history ++ [(u, append)])) ->
  us <> [] -> Forall (fun v => length v = nat_ d) us ->
  exists u', from_xyz d (write_history fmt_g d (history ++ [(u, append)]) file) us = (map (fun _ => u') us, None) /\
    length u' = nat_ d /\ forall i, i < nat_ d -> vnear (nth i u origin) (nth i u' origin).
Proof.
  intros fmt_g Hg d history u append file us P Hh HF NE Hus. assert (L : length (hd [] us) = nat_ d) by (destruct us; [congruence|]; apply Forall_cons_iff in Hus; apply Hus).
  eexists. split; [apply (from_xyz_history fmt_g Hg d d history u append file us P P eq_refl Hh HF NE L)|]. rewrite absorb_length. split; [exact L|].
  apply Forall_app in Hh as [_ Hl]. apply Forall_cons_iff in Hl as [Lu _]. cbn [fst] in Lu. intros i Hi.
  pose proof (absorb_restored d d u (hd [] us) i P P eq_refl Lu L Hi) as R. unfold atom_restored in R. destruct (list_eq_dec _ _ _); [|congruence].
  destruct (nth i (r d) origin) as [[a b] c], (nth i u origin) as [[x y] z], (nth i (absorb _ _ _ _ _) origin) as [[x' y'] z']. unfold vnear, vadd, near in *.
  assert (S : forall a x y : Q, (Qabs (a + x - (a + y)) <= 1 # 2000000000)%Q -> (Qabs (x - y) <= 1 # 2000000000)%Q) by (intros ? ? ? H; setoid_replace (x0 - y0)%Q with (a0 + x0 - (a0 + y0))%Q by ring; exact H).
  destruct R as (R1 & R2 & R3). repeat split; eapply S; eassumption.
Qed.
Print Assumptions C68_roundtrip.

Example C68_roundtrip_example :
  fst (from_xyz TaS (write_history fmt_g0 TaS [(u1, false); (u2, true)] (Some §"old content")) [u1; u2; u1]) <> [u1; u2; u1] /\
  exists u', from_xyz TaS (write_history fmt_g0 TaS ([(u1, false)] ++ [(u2, true)]) (Some §"old content")) [u1; u2; u1] = (map (fun _ => u') [u1; u2; u1], None) /\
    length u' = 2 /\ forall i, i < 2 -> vnear (nth i u2 origin) (nth i u' origin).
Proof.
  split; [vm_compute; discriminate|]. apply (C68_roundtrip fmt_g0 fmt_g0_line TaS [(u1, false)] u2 true (Some §"old content") [u1; u2; u1] TaS_proper); [repeat constructor|right; repeat constructor|discriminate|repeat constructor].
Qed.

(** Nothing is lost if the positions have no more than nine decimals. *)
Theorem C68_exact :
  forall fmt_g, (forall x, no_newline (fmt_g x)) ->
  forall d history u append file us,
  proper d -> Forall (fun ua => length (fst ua) = nat_ d) (history ++ [(u, append)]) ->
  (file = None \/ Exists (fun ua => snd ua = false) (history ++ [(u, append)])) ->
  us <> [] -> Forall (fun v => length v = nat_ d) us ->
  (forall i, i < nat_ d -> vnine (vadd (nth i (r d) origin) (nth i u origin))) ->
  exists u', from_xyz d (write_history fmt_g d (history ++ [(u, append)]) file) us = (map (fun _ => u') us, None) /\
    length u' = nat_ d /\ forall i, i < nat_ d -> veq (nth i u' origin) (nth i u origin).
Proof.
  intros fmt_g Hg d history u append file us P Hh HF NE Hus H9. assert (L : length (hd [] us) = nat_ d) by (destruct us; [congruence|]; apply Forall_cons_iff in Hus; apply Hus).
  eexists. split; [apply (from_xyz_history fmt_g Hg d d history u append file us P P eq_refl Hh HF NE L)|]. rewrite absorb_length. split; [exact L|].
  apply Forall_app in Hh as [_ Hl]. apply Forall_cons_iff in Hl as [Lu _]. cbn [fst] in Lu. intros i Hi. apply absorb_exact; auto.
Qed.
Print Assumptions C68_exact.

Example C68_exact_example :
  exists u', from_xyz Ta (write_history fmt_g0 Ta ([] ++ [([(1#8, -(5#2), 1#1000000000)%Q], true)]) None) [[origin]] = ([u'], None) /\
    length u' = 1 /\ forall i, i < 1 -> veq (nth i u' origin) (nth i [(1#8, -(5#2), 1#1000000000)%Q] origin).
Proof.
  apply (C68_exact fmt_g0 fmt_g0_line Ta [] [(1#8, -(5#2), 1#1000000000)%Q] true None [[origin]] Ta_proper); [repeat constructor|left; reflexivity|discriminate|repeat constructor|].
  intros [|i] Hi; [|cbn in Hi; lia]. cbn. repeat split; [exists 125000000%Z|exists (-2500000000)%Z|exists 1%Z]; reflexivity.
Qed.

(** The reader may have another reference structure and other kinds of atoms. Atoms of the
    same kind end up at the same place, the displacements of others do not change. *)
Theorem C68_other_reference :
  forall fmt_g, (forall x, no_newline (fmt_g x)) ->
  forall d d' history u append file us,
  proper d -> proper d' -> nat_ d = nat_ d' -> Forall (fun ua => length (fst ua) = nat_ d) (history ++ [(u, append)]) ->
  (file = None \/ Exists (fun ua => snd ua = false) (history ++ [(u, append)])) ->
  us <> [] -> Forall (fun v => length v = nat_ d) us ->
  exists u', from_xyz d' (write_history fmt_g d (history ++ [(u, append)]) file) us = (map (fun _ => u') us, None) /\
    length u' = nat_ d /\ forall i, i < nat_ d -> atom_restored d u d' (hd [] us) u' i.
Proof.
  intros fmt_g Hg d d' history u append file us P P' E Hh HF NE Hus. assert (L : length (hd [] us) = nat_ d) by (destruct us; [congruence|]; apply Forall_cons_iff in Hus; apply Hus).
  eexists. split; [apply (from_xyz_history fmt_g Hg d d' history u append file us P P' E Hh HF NE L)|]. rewrite absorb_length. split; [exact L|].
  apply Forall_app in Hh as [_ Hl]. apply Forall_cons_iff in Hl as [Lu _]. intros i Hi. apply absorb_restored; assumption.
Qed.
Print Assumptions C68_other_reference.

Example C68_other_reference_example :
  exists u', from_xyz TaSe (write_history fmt_g0 TaS ([(u1, false)] ++ [(u2, true)]) None) [u1] = ([u'], None) /\
    length u' = 2 /\ forall i, i < 2 -> atom_restored TaS u2 TaSe u1 u' i.
Proof.
  apply (C68_other_reference fmt_g0 fmt_g0_line TaS TaSe [(u1, false)] u2 true None [u1] TaS_proper TaSe_proper eq_refl); [repeat constructor|left; reflexivity|discriminate|repeat constructor].
Qed.

(** Trajectories with another number of atoms change nothing on the first process. (The
    others still receive its displacements.) *)
Theorem C68_wrong_number :
  forall fmt_g, (forall x, no_newline (fmt_g x)) ->
  forall d d' history u append file us,
  proper d -> nat_ d <> nat_ d' ->
  (file = None \/ Exists (fun ua => snd ua = false) (history ++ [(u, append)])) -> us <> [] ->
  from_xyz d' (write_history fmt_g d (history ++ [(u, append)]) file) us = (map (fun _ => hd [] us) us, None).
Proof. exact from_xyz_count. Qed.
Print Assumptions C68_wrong_number.

Example C68_wrong_number_example :
  from_xyz Ta (write_history fmt_g0 TaS ([(u1, false)] ++ [(u2, true)]) None) [[origin]] = ([[origin]], None).
Proof. apply (C68_wrong_number fmt_g0 fmt_g0_line TaS Ta [(u1, false)] u2 true None [[origin]] TaS_proper); [discriminate|left; reflexivity|discriminate]. Qed.

(** If writing has been interrupted between two lines, so that the last frame is not
    complete, from_xyz raises StopIteration. *)
Theorem C68_interrupted :
  forall fmt_g, (forall x, no_newline (fmt_g x)) ->
  forall d history u t missing us,
  proper d -> Forall (fun u => length u = nat_ d) history -> length u = nat_ d -> Forall (fun v => length v = nat_ d) us -> us <> [] ->
  frame fmt_g d u = (t ++ [newline]) ++ missing -> missing <> [] ->
  exists w, from_xyz d (Some (concat (map (frame fmt_g d) history) ++ t ++ [newline])) us = (w :: tl us, Some StopIteration).
Proof. exact from_xyz_cut. Qed.
Print Assumptions C68_interrupted.

Example C68_interrupted_example : exists t missing, frame fmt_g0 TaS u2 = (t ++ [newline]) ++ missing /\ missing <> [] /\
  exists w, from_xyz TaS (Some (concat (map (frame fmt_g0 TaS) [u1; u1]) ++ t ++ [newline])) [u1] = ([w], Some StopIteration).
Proof.
  exists (fmt_d 2). eexists. assert (E : frame fmt_g0 TaS u2 = (fmt_d 2 ++ [newline]) ++ skipn 2 (frame fmt_g0 TaS u2)) by (vm_compute; reflexivity).
  split; [exact E|]. split; [vm_compute; discriminate|]. apply (C68_interrupted fmt_g0 fmt_g0_line TaS [u1; u1] u2 _ _ [u1] TaS_proper) with (5 := E); [repeat constructor|reflexivity|repeat constructor|discriminate|vm_compute; discriminate].
Qed.

(** If it has been interrupted within the last number, however, this is not noticed and the
    position is wrong. *)
Theorem C68_interrupted_refuted :
  exists t missing u', frame fmt_g0 Ta [(1#2, 1#2, 1#2)%Q] = t ++ missing /\ missing <> [] /\
    from_xyz Ta (Some t) [[origin]] = ([[u']], None) /\ ~ vnear (1#2, 1#2, 1#2)%Q u'.
Proof.
  set (f := frame fmt_g0 Ta [(1#2, 1#2, 1#2)%Q]). exists (firstn (length f - 10) f), (skipn (length f - 10) f).
  eexists. split; [symmetry; apply firstn_skipn|]. split; [vm_compute; discriminate|]. split; [vm_compute; reflexivity|].
  intros (_ & _ & H). vm_compute in H. apply H. reflexivity.
Qed.
Print Assumptions C68_interrupted_refuted.

(** Without an overwriting call, foreign content of the file remains and may make reading
    fail. *)
Theorem C68_foreign_content_refuted :
  snd (from_xyz Ta (write_history fmt_g0 Ta [([origin], true)] (Some §"old content")) [[origin]]) = Some ValueError.
Proof. vm_compute. reflexivity. Qed.
Print Assumptions C68_foreign_content_refuted.
