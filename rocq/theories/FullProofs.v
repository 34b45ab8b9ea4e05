From Verif Require Import Common LatModel LatProofs SymModel SymSpec SymProofs SymProofs3 BandModel BandSpec BandProofs BandProps FullModel FullSpec.
From Coq Require Import Permutation Sorted Lia.
Local Open Scope Z_scope.

(** ** The irreducible wedge *)

Lemma mod_cases n x : 0 < n -> -2 * n <= x < 2 * n ->
  x mod n = if x <? - n then x + 2 * n else if x <? 0 then x + n else if x <? n then x else x - n.
Proof.
  intros Hn Hx. destruct (x <? - n) eqn:E1; [|destruct (x <? 0) eqn:E2; [|destruct (x <? n) eqn:E3]];
    symmetry; [apply Z.mod_unique with (-2)|apply Z.mod_unique with (-1)|apply Z.mod_unique with 0|apply Z.mod_unique with 1]; lia.
Qed.

Lemma not_before_iff nk angle q : allowed_angle angle -> 0 < nk -> in_mesh nk q ->
  ((forall k, in_mesh nk k -> before k q -> ~ equivalent angle nk k q) <->
   forall M, In M (group angle) -> ~ before (pmod nk (act M q)) q).
Proof.
  intros Ha Hn Hq. split.
  - intros H M HM B. apply (H _ (pmod_in nk _ Hn) B). apply equivalent_sym; [assumption..|]. apply equivalent_iff; [assumption..|].
    exists M. split; [exact HM|]. apply pmod_id, pmod_in, Hn.
  - intros H k Hk B E. apply equivalent_sym in E; [|assumption..]. apply equivalent_iff in E; [|assumption..].
    destruct E as (M & HM & E). apply (H M HM). rewrite <- E, pmod_id; assumption.
Qed.

Ltac group_cases := unfold group; vm_compute; tauto.

Ltac modc n := rewrite ?(mod_cases n) by lia; repeat match goal with |- context [if ?x <? ?y then _ else _] => destruct (Z.ltb_spec x y) end.

Lemma wedge_iff nk angle q : allowed_angle angle -> 0 < nk ->
  (wedge angle nk q <-> in_mesh nk q /\ forall k, in_mesh nk k -> before k q -> ~ equivalent angle nk k q).
Proof.
  intros Ha Hn. destruct q as [a b]. split.
  - intros W. assert (Hq : in_mesh nk (a, b)) by (unfold in_mesh; cbn [fst snd]; destruct Ha as [->|[->| ->]]; cbn in W; lia).
    split; [exact Hq|]. apply not_before_iff; [assumption..|]. intros M HM.
    destruct Ha as [->|[->| ->]]; vm_compute in HM;
      repeat (destruct HM as [<-|HM]; [unfold before, pmod, act; cbn [m11 m12 m21 m22 fst snd]; cbn in W; modc nk; lia|]); destruct HM.
  - intros [Hq H]. rewrite not_before_iff in H by assumption. unfold in_mesh in Hq. cbn [fst snd] in Hq.
    destruct Ha as [->|[->| ->]]; cbn.
    + pose proof (H (M2 0 1 1 0) ltac:(group_cases)) as H1. pose proof (H (M2 (-1) (-1) 1 0) ltac:(group_cases)) as H2.
      pose proof (H (M2 0 (-1) (-1) 0) ltac:(group_cases)) as H3. pose proof (H (M2 1 0 (-1) (-1)) ltac:(group_cases)) as H4.
      revert H1 H2 H3 H4. unfold before, pmod, act. cbn [m11 m12 m21 m22 fst snd]. modc nk; lia.
    + pose proof (H (M2 0 1 1 0) ltac:(group_cases)) as H1. pose proof (H (M2 1 0 0 (-1)) ltac:(group_cases)) as H2.
      pose proof (H (M2 (-1) 0 0 1) ltac:(group_cases)) as H3.
      revert H1 H2 H3. unfold before, pmod, act. cbn [m11 m12 m21 m22 fst snd]. modc nk; lia.
    + pose proof (H (M2 0 1 1 0) ltac:(group_cases)) as H1. pose proof (H (M2 (-1) 1 0 1) ltac:(group_cases)) as H2.
      pose proof (H (M2 1 0 1 (-1)) ltac:(group_cases)) as H3.
      revert H1 H2 H3. unfold before, pmod, act. cbn [m11 m12 m21 m22 fst snd]. modc nk; lia.
Qed.

Lemma irreducibles_wedge nk angle : allowed_angle angle -> 0 < nk ->
  exists irr, irreducibles nk angle = Ok irr /\ forall q, In q irr <-> wedge angle nk q.
Proof.
  intros Ha Hn. destruct (irreducibles_spec angle nk Ha Hn) as (irr & E & _ & H). exists irr. split; [exact E|].
  intros q. rewrite H, wedge_iff by assumption. reflexivity.
Qed.
