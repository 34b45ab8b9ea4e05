From Coq Require Import QArith Lqa.
From Verif Require Import Common MPIModel StackModel StackSpec LinModel LinSpec LinProofs PltModel PltSpec PltProofs PltProofs2.
Local Open Scope Q_scope.

Lemma clip_position lo hi lo' hi' x : lo' == lo -> hi' == hi -> lo < hi -> position lo hi x (qmin (qmax ((x - lo') / (hi' - lo')) 0) 1).
Proof.
  intros El Eh H. set (p := (x - lo') / (hi' - lo')). assert (Ep : p * (hi - lo) == x - lo). { unfold p. rewrite El, Eh. field. lra. }
  unfold position. destruct (qmax_cases p 0) as [[-> A]|[-> A]].
  - destruct (qmin_cases p 1) as [[-> B]|[-> B]].
    + right. right. split; [split; nra|lra].
    + right. left. split; [nra|reflexivity].
  - destruct (qmin_cases 0 1) as [[-> B]|[-> B]]; [|lra]. left. split; [nra|reflexivity].
Qed.

Definition resolved lo hi (a b : anchor) : Prop :=
  match a with Num x => b = Num x | Str x => exists p, b = Num p /\ lo + p * (hi - lo) == x end.

Lemma color_ok {C} nproc data (cmap : list anchor -> Q -> C) anchors minimum maximum lo hi : (0 < nproc)%Z ->
  lower_end minimum (fun x => In x data) lo -> upper_end maximum (fun x => In x data) hi -> lo < hi ->
  exists image anchors', color nproc data cmap anchors minimum maximum = Ok (image, anchors') /\
    Forall2 (resolved lo hi) anchors anchors' /\
    Forall2 (fun x c => exists p, position lo hi x p /\ c = cmap anchors' p) data image.
Proof.
  intros Hp Hlo Hhi H. unfold color.
  destruct (lower_found minimum data (fun x => In x data) lo) as (lo' & Elo & Ql); [reflexivity|exact Hlo|].
  destruct (upper_found maximum data (fun x => In x data) hi) as (hi' & Ehi & Qh); [reflexivity|exact Hhi|].
  rewrite Elo. cbn [bind]. rewrite Ehi. cbn [bind].
  destruct (Qeq_bool hi' lo') eqn:E; [apply Qeq_bool_iff in E; lra|]. rewrite parallel_ok by exact Hp. cbn [bind].
  do 2 eexists. split; [reflexivity|]. split.
  - clear -Ql Qh H. induction anchors as [|[x|x] l IH]; cbn [map]; constructor; try exact IH; cbn [resolved]; [reflexivity|].
    eexists. split; [reflexivity|]. rewrite Ql, Qh. field. lra.
  - set (cm := cmap _). set (g := fun x => qmin (qmax ((x - lo') / (hi' - lo')) 0) 1).
    assert (M : map (fun i => cm (nth i (map g data) 0)) (seq 0 (length (map g data))) = map cm (map g data)).
    { generalize (map g data) as l. clear. induction l as [|x l IH]; [reflexivity|]. cbn [length seq map nth]. f_equal.
      rewrite <- seq_shift, map_map. exact IH. }
    rewrite M, map_map. clear -Ql Qh H. induction data as [|x data IH]; cbn [map]; constructor; [|exact IH].
    exists (g x). split; [apply clip_position; assumption|reflexivity].
Qed.

Lemma Forall2_nth_err {A B} (P : A -> B -> Prop) : forall l m i x, Forall2 P l m -> nth_error l i = Some x -> exists y, nth_error m i = Some y /\ P x y.
Proof.
  intros l m i x H. revert i. induction H as [|a b l m Hab H IH]; intros [|i] E; try discriminate.
  - injection E as <-. exists b. split; [reflexivity|exact Hab].
  - apply IH. exact E.
Qed.

Lemma position_det lo hi x p p' : lo < hi -> position lo hi x p -> position lo hi x p' -> p == p'.
Proof.
  unfold position. intros H. intros [[A B]|[[A B]|[A B]]] [[A' B']|[[A' B']|[A' B']]]; try lra; nra.
Qed.
Lemma position_affine lo hi x s c p : 0 < s -> position lo hi x p -> position (s * lo + c) (s * hi + c) (s * x + c) p.
Proof.
  unfold position. intros H [[A B]|[[A B]|[A B]]]; [left; split; [nra|exact B]|right; left; split; [nra|exact B]|right; right].
  split; [split; nra|]. rewrite <- B. ring.
Qed.
