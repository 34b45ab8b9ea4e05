(** C111: polygons for the composition along a line. *)
From Coq Require Import Reals Lra Lia.
From Verif Require Import Common CompModel CompSpec CompProofs.
Local Open Scope R_scope.

(** There is one polygon for each component. They are stacked: the upper boundary of one is
    the lower boundary of the next, and the height of each is the share of the
    component. All of them together are centered about the line, or start from zero. Each
    polygon is the lower boundary, followed by the upper boundary from the end, and the
    first point once more. Every other polygon runs the other way round. *)
Theorem C111_stacked : forall nx nc x y composition center, (0 < nx)%nat ->
  exists b polys, compline nx nc x y composition center = Ok polys /\ length polys = nc /\
    (forall i, (i < nx)%nat ->
      (forall ic, (ic < nc)%nat -> b (S ic) i - b ic i = composition i ic) /\
      if center then (b 0%nat i + b nc i) / 2 = y i else b 0%nat i = 0) /\
    forall ic, (ic < nc)%nat ->
      let xs := map x (seq 0 nx) ++ rev (map x (seq 0 nx)) ++ [x 0%nat] in
      let ys := map (b ic) (seq 0 nx) ++ rev (map (b (S ic)) (seq 0 nx)) ++ [b ic 0%nat] in
      nth_error polys ic = Some (if Nat.even ic then (xs, ys) else (rev xs, rev ys)).
Proof.
  intros nx nc x y composition center H. set (b0 := stacked nc composition). exists (if center then centered nc y b0 else b0). unfold compline. destruct (Nat.eqb_spec nx 0); [lia|]. fold b0.
  eexists. split; [reflexivity|]. split; [rewrite polygons_length, seq_length; reflexivity|]. split.
  - intros i Hi. destruct center; split.
    + intros ic Hic. rewrite !centered_value by lia. unfold b0. rewrite !stacked_cum by lia. cbn [cum]. ring.
    + rewrite !centered_value by lia. unfold b0. rewrite (stacked_cum _ _ 0) by lia. cbn [cum]. field.
    + intros ic Hic. unfold b0. rewrite !stacked_cum by lia. cbn [cum]. ring.
    + unfold b0. rewrite stacked_cum by lia. reflexivity.
  - intros ic Hic. cbn zeta. rewrite (polygons_nth _ _ _ _ _ _ ic); [|rewrite (nth_error_nth' _ 0%nat), seq_nth by (rewrite ?seq_length; lia); reflexivity|left; reflexivity].
    destruct (Nat.even ic); reflexivity.
Qed.
Print Assumptions C111_stacked.

(** The polygons are closed and have the area below the curve of the component; the sign
    alternates with the direction. *)
Theorem C111_area : forall nx nc x y composition center polys ic xs ys, compline nx nc x y composition center = Ok polys -> nth_error polys ic = Some (xs, ys) ->
  length xs = (2 * nx + 1)%nat /\ length ys = (2 * nx + 1)%nat /\ closed xs /\ closed ys /\
  area xs ys = (if Nat.even ic then 1 else -1) * integral x (fun i => composition i ic) nx.
Proof.
  intros nx nc x y composition center polys ic xs ys E N. destruct (Nat.eq_dec nx 0) as [->|H]; [discriminate|].
  destruct (C111_stacked nx nc x y composition center ltac:(lia)) as (b & polys' & E' & L & B & P). rewrite E in E'. injection E' as <-.
  assert (Hic : (ic < nc)%nat) by (rewrite <- L; apply nth_error_Some; rewrite N; discriminate). specialize (P ic Hic). cbn zeta in P. rewrite N in P.
  assert (CL : forall f g : nat -> R, closed (map f (seq 0 nx) ++ rev (map g (seq 0 nx)) ++ [f 0%nat])).
  { intros f g. destruct nx as [|n]; [lia|]. exists (f 0%nat), (map f (seq 1 n) ++ rev (map g (seq 0 (S n)))). rewrite <- app_assoc. reflexivity. }
  assert (RC : forall l, closed l -> closed (rev l)).
  { intros l (p & m & ->). exists p, (rev m). cbn [rev]. rewrite rev_app_distr. reflexivity. }
  assert (LN : forall f g : nat -> R, length (map f (seq 0 nx) ++ rev (map g (seq 0 nx)) ++ [f 0%nat]) = (2 * nx + 1)%nat).
  { intros f g. rewrite !app_length, rev_length, !map_length, seq_length. cbn [length]. lia. }
  assert (I : integral x (fun i => b (S ic) i - b ic i) nx = integral x (fun i => composition i ic) nx).
  { assert (G : forall n, (n <= nx)%nat -> integral x (fun i => b (S ic) i - b ic i) n = integral x (fun i => composition i ic) n); [|apply (G nx); lia].
    induction n as [|[|n] IH]; intros Hn; try reflexivity.
    change (integral x (fun i => b (S ic) i - b ic i) (S n) + (x (S n) - x n) * ((b (S ic) (S n) - b ic (S n)) + (b (S ic) n - b ic n)) / 2 = integral x (fun i => composition i ic) (S n) + (x (S n) - x n) * (composition (S n) ic + composition n ic) / 2).
    rewrite IH by lia. rewrite (proj1 (B n ltac:(lia)) ic Hic), (proj1 (B (S n) ltac:(lia)) ic Hic). reflexivity. }
  pose proof (area_outline nx x (b ic) (b (S ic)) ltac:(lia)) as A. rewrite I in A.
  destruct (Nat.even ic); injection P as -> ->.
  - repeat split; auto. rewrite A. ring.
  - rewrite !rev_length, !LN. repeat split; auto. rewrite area_rev by (rewrite !LN; reflexivity). rewrite A. ring.
Qed.
Print Assumptions C111_area.

(** Without points, there is no first one. *)
Theorem C111_empty : forall nc x y composition center, compline 0 nc x y composition center = Raise ValueError.
Proof. reflexivity. Qed.
Print Assumptions C111_empty.

(** Two components at two points: heights 1 and 2, 3 and 1 *)
Example C111_example : exists polys, compline 2 2 INR (fun _ => 10) (fun i ic => match i, ic with O, O => 1 | O, _ => 3 | _, O => 2 | _, _ => 1 end) true = Ok polys /\
  exists xs ys, nth_error polys 1 = Some (xs, ys) /\ area xs ys = -2 /\ nth 4 ys 0 = 9 /\ nth 3 ys 0 = 10 + / 2.
Proof.
  eexists. split; [reflexivity|]. eexists. eexists. split; [reflexivity|]. split.
  - cbv -[Rplus Rmult Rdiv Rminus Ropp Rinv IZR]. lra.
  - split; cbv -[Rplus Rmult Rdiv Rminus Ropp Rinv IZR]; lra.
Qed.
