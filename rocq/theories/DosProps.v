(** Properties of densities of states: C47, C48. *)
From Coq Require Import Reals Lra Lia Psatz List.
From Coquelicot Require Import Coquelicot.
From Verif Require Import Common DosModel DosSpec DosProofs DosInt DosProofs2.
Import ListNotations.
Local Open Scope R_scope.

(** A 2 x 2 mesh with four different energies. *)
Definition ex_e (i j : nat) : R := INR (i + 2 * j).

Lemma ex_no_flat : no_flat 2 ex_e.
Proof.
  intros t E I F. apply in_flat_map in I. destruct I as (i & Hi & I). apply in_flat_map in I. destruct I as (j & Hj & I).
  assert (K : forall v w, In v t -> In w t -> at_ ex_e v = at_ ex_e w) by (intros v w Hv Hw; rewrite (F v Hv), (F w Hw); reflexivity).
  destruct Hi as [<-|[<-|[]]], Hj as [<-|[<-|[]]], I as [<-|[<-|[]]];
  match type of K with forall v w, In v ?t -> In w ?t -> _ =>
    let t' := eval vm_compute in t in change t with t' in K;
    match t' with [?u; ?v; ?w] => pose proof (K u v (or_introl eq_refl) (or_intror (or_introl eq_refl))) as K1 end end;
  unfold at_, ex_e in K1; apply INR_eq in K1; discriminate.
Qed.

(** ** C47 *)

(** The result does not depend on the number of processes or on the window, as
    long as it contains the argument. *)
Theorem C47_dos_processes_window : forall size size' N e mi ma mi' ma' E, (0 < size)%nat -> (0 < size')%nat ->
  (forall m, mi = Some m -> m <= E) -> (forall m, ma = Some m -> E <= m) ->
  (forall m, mi' = Some m -> m <= E) -> (forall m, ma' = Some m -> E <= m) ->
  hexDOS size N e mi ma E = hexDOS size' N e mi' ma' E.
Proof. intros. rewrite !hexDOS_sum by (assumption || (split; assumption)). reflexivity. Qed.
Print Assumptions C47_dos_processes_window.

Example C47_dos_processes_window_ex : hexDOS 3 2 ex_e (Some 0) (Some 2) 1 = hexDOS 1 2 ex_e None None 1.
Proof. apply C47_dos_processes_window; try lia; intros m [= <-]; lra. Qed.

(** It is nonnegative, zero outside of the band, and positive inside. *)
Theorem C47_dos_sign : forall size N e E x, (0 < size)%nat -> hexDOS size N e None None E = Some x ->
  0 <= x /\
  ((forall i j, (i < N)%nat -> (j < N)%nat -> e i j < E) -> x = 0) /\
  ((forall i j, (i < N)%nat -> (j < N)%nat -> E < e i j) -> x = 0) /\
  (forall i j i' j', (i < N)%nat -> (j < N)%nat -> (i' < N)%nat -> (j' < N)%nat -> e i j < E < e i' j' -> 0 < x).
Proof.
  intros size N e E x S H. rewrite hexDOS_sum in H by (assumption || (split; discriminate)).
  assert (B : forall P : R -> Prop, (forall i j, (i < N)%nat -> (j < N)%nat -> P (e i j)) -> forall t, In t (all_tris N) ->
    P (at_ e (fst3 (corner_sort e t))) /\ P (at_ e (thd3 (corner_sort e t)))).
  { intros P HP t I. assert (HN : (0 < N)%nat) by (destruct N; [destruct I|lia]). destruct (in_sorted_mesh N e t HN I) as ([? ?] & _ & [? ?]). split; apply HP; assumption. }
  assert (O : (forall t, In t (all_tris N) -> at_ e (thd3 (corner_sort e t)) < E \/ E < at_ e (fst3 (corner_sort e t))) -> x = 0).
  { intros O. unfold dos_sum in H. rewrite (sum_inf_some _ (fun _ => 0 * 0)) in H.
    - rewrite sumf_scale in H. cbn in H. apply (f_equal val) in H. cbn in H. lra.
    - intros t I. destruct (corner_sort_spec e t (tris_three N t I)) as [A _]. rewrite Rmult_0_l. apply tri_dos_outside; [exact A|apply O, I]. }
  repeat split.
  - unfold dos_sum in H. destruct (sum_inf _) as [y|] eqn:Y; [|discriminate]. cbn in H. apply (f_equal val) in H. cbn in H. subst x.
    assert (0 <= y).
    { rewrite <- (map_map (fun t => en3 e (corner_sort e t)) (tri_dos E)) in Y. apply (dos_nonneg_sum _ E) in Y; [exact Y|].
      intros t I. apply in_map_iff in I. destruct I as (t' & <- & I). destruct (corner_sort_spec e t' (tris_three N t' I)) as [A _]. exact A. }
    destruct N as [|n]; [cbn in Y; apply (f_equal val) in Y; cbn in Y; subst; lra|].
    apply Rmult_le_pos; [left; apply Rinv_0_lt_compat, lt_0_INR; lia|exact H].
  - intros Hb. apply O. intros t I. left. apply (B (fun z => z < E) Hb t I).
  - intros Hb. apply O. intros t I. right. apply (B (fun z => E < z) Hb t I).
  - intros i j i' j' Hi Hj Hi' Hj' [L U]. exact (dos_positive N e E x i j i' j' Hi Hj Hi' Hj' L U H).
Qed.
Print Assumptions C47_dos_sign.

(** It is infinite exactly at the energies of triangles without dispersion. *)
Theorem C47_dos_infinite : forall size N e E, (0 < size)%nat ->
  (hexDOS size N e None None E = None <-> exists t, In t (all_tris N) /\ flat_at e E t).
Proof. intros size N e E S. rewrite hexDOS_sum by (assumption || (split; discriminate)). apply dos_sum_none. Qed.
Print Assumptions C47_dos_infinite.

Example C47_dos_infinite_ex : hexDOS 2 1 (fun _ _ => 1) None None 1 = None.
Proof. apply C47_dos_infinite; [lia|]. exists [(0, 0); (0, 0); (0, 0)]%nat. split; [left; reflexivity|]. intros v [<-|[<-|[<-|[]]]]; reflexivity. Qed.

Example C47_dos_sign_ex : exists x, hexDOS 2 2 ex_e None None 1 = Some x /\ 0 < x.
Proof.
  destruct (hexDOS 2 2 ex_e None None 1) as [x|] eqn:X.
  - exists x. split; [reflexivity|]. destruct (C47_dos_sign 2 2 ex_e 1 x ltac:(lia) X) as (_ & _ & _ & P).
    apply (P 0 0 1 1)%nat; try lia. unfold ex_e. cbn. lra.
  - exfalso. apply C47_dos_infinite in X; [|lia]. destruct X as (t & I & F). exact (ex_no_flat t 1 I F).
Qed.

(** It integrates to one over any interval containing the band. *)
Theorem C47_dos_integral : forall size N e lo hi, (0 < size)%nat -> (0 < N)%nat -> no_flat N e ->
  (forall i j, (i < N)%nat -> (j < N)%nat -> lo <= e i j <= hi) ->
  exists f, (forall E, hexDOS size N e None None E = Some (f E)) /\ is_RInt (V := R_NormedModule) f lo hi 1.
Proof.
  intros size N e lo hi S HN F B. exists (fun E => val (dos_sum N e E)). split.
  - intros E. rewrite hexDOS_sum by (assumption || (split; discriminate)). rewrite dos_as_a2F, a2F_sum_some by exact F. reflexivity.
  - rewrite <- (mean_const N 1 HN). apply (is_RInt_ext (V := R_NormedModule) (fun E => val (a2F_sum N e (fun _ _ => 1) E))).
    + intros E _. rewrite dos_as_a2F. reflexivity.
    + apply a2F_integral; assumption.
Qed.
Print Assumptions C47_dos_integral.

Example C47_dos_integral_ex : exists f, (forall E, hexDOS 2 2 ex_e None None E = Some (f E)) /\ is_RInt (V := R_NormedModule) f 0 3 1.
Proof.
  apply C47_dos_integral; [lia|lia|exact ex_no_flat|]. intros i j Hi Hj. unfold ex_e. split; [apply pos_INR|].
  replace 3 with (INR 3) by (cbn; ring). apply le_INR. lia.
Qed.

(** It is the derivative of the fraction of the Brillouin zone below a given
    energy in linear interpolation on the triangles. *)
Theorem C47_dos_derivative : forall size N e E, (0 < size)%nat -> (0 < N)%nat ->
  (forall i j, (i < N)%nat -> (j < N)%nat -> e i j <> E) ->
  exists x, hexDOS size N e None None E = Some x /\ derivable_pt_lim (zone_fraction N e) E x.
Proof.
  intros size N e E S HN NE. destruct (zone_derive N e E HN NE) as (x & X & D). exists x. split.
  - rewrite hexDOS_sum by (assumption || (split; discriminate)). exact X.
  - apply is_derive_Reals, D.
Qed.
Print Assumptions C47_dos_derivative.

Example C47_dos_derivative_ex : exists x, hexDOS 1 2 ex_e None None (3 / 2) = Some x /\ derivable_pt_lim (zone_fraction 2 ex_e) (3 / 2) x.
Proof.
  apply C47_dos_derivative; [lia|lia|]. intros i j Hi Hj E.
  assert (INR (2 * (i + 2 * j)) = INR 3) by (rewrite mult_INR; unfold ex_e in E; rewrite E; cbn; field).
  apply INR_eq in H. lia.
Qed.

(** ** C48 *)

Theorem C48_a2F_processes_window : forall size size' N e g mi ma mi' ma' E, (0 < size)%nat -> (0 < size')%nat ->
  (forall m, mi = Some m -> m <= E) -> (forall m, ma = Some m -> E <= m) ->
  (forall m, mi' = Some m -> m <= E) -> (forall m, ma' = Some m -> E <= m) ->
  hexa2F size N e g mi ma E = hexa2F size' N e g mi' ma' E.
Proof. intros. rewrite !hexa2F_sum by (assumption || (split; assumption)). reflexivity. Qed.
Print Assumptions C48_a2F_processes_window.

Example C48_a2F_processes_window_ex : hexa2F 3 2 ex_e ex_e (Some 0) (Some 2) 1 = hexa2F 1 2 ex_e ex_e None None 1.
Proof. apply C48_a2F_processes_window; try lia; intros m [= <-]; lra. Qed.

(** A constant coupling scales the density of states. *)
Theorem C48_a2F_constant : forall size N e c E, (0 < size)%nat ->
  hexa2F size N e (fun _ _ => c) None None E = scale_inf c (hexDOS size N e None None E).
Proof. intros. rewrite hexa2F_sum, hexDOS_sum by (assumption || (split; discriminate)). apply a2F_const. Qed.
Print Assumptions C48_a2F_constant.

(** It is linear in the couplings. *)
Theorem C48_a2F_linear : forall size N e g h p q E x y, (0 < size)%nat ->
  hexa2F size N e g None None E = Some x -> hexa2F size N e h None None E = Some y ->
  hexa2F size N e (fun i j => p * g i j + q * h i j) None None E = Some (p * x + q * y).
Proof. intros size N e g h p q E x y S. rewrite !hexa2F_sum by (assumption || (split; discriminate)). apply a2F_linear. Qed.
Print Assumptions C48_a2F_linear.

(** It is an average of couplings weighted with the density of states; it is
    infinite where the density of states is. *)
Theorem C48_a2F_bounds : forall size N e g E lo hi, (0 < size)%nat -> (0 < N)%nat ->
  (forall i j, (i < N)%nat -> (j < N)%nat -> lo <= g i j <= hi) ->
  match hexDOS size N e None None E, hexa2F size N e g None None E with
  | Some d, Some x => lo * d <= x <= hi * d
  | None, None => True
  | _, _ => False
  end.
Proof.
  intros size N e g E lo hi S HN B. rewrite hexa2F_sum, hexDOS_sum by (assumption || (split; discriminate)).
  destruct (dos_sum N e E) as [d|] eqn:D, (a2F_sum N e g E) as [x|] eqn:X.
  - exact (a2F_bounds N e g E d x lo hi HN B D X).
  - apply a2F_sum_none, dos_sum_none in X. congruence.
  - apply dos_sum_none, (a2F_sum_none N e g) in D. congruence.
  - exact I.
Qed.
Print Assumptions C48_a2F_bounds.

(** Its integral is the arithmetic mean of the couplings. *)
Theorem C48_a2F_integral : forall size N e g lo hi, (0 < size)%nat -> (0 < N)%nat -> no_flat N e ->
  (forall i j, (i < N)%nat -> (j < N)%nat -> lo <= e i j <= hi) ->
  exists f, (forall E, hexa2F size N e g None None E = Some (f E)) /\ is_RInt (V := R_NormedModule) f lo hi (mean N g).
Proof.
  intros size N e g lo hi S HN F B. exists (fun E => val (a2F_sum N e g E)). split.
  - intros E. rewrite hexa2F_sum by (assumption || (split; discriminate)). rewrite a2F_sum_some by exact F. reflexivity.
  - apply a2F_integral; assumption.
Qed.
Print Assumptions C48_a2F_integral.

Example C48_a2F_integral_ex : exists f, (forall E, hexa2F 2 2 ex_e ex_e None None E = Some (f E)) /\ is_RInt (V := R_NormedModule) f 0 3 (3 / 2).
Proof.
  replace (3 / 2) with (mean 2 ex_e) by (unfold mean, mesh, sumf, ex_e, at_; cbn; field).
  apply C48_a2F_integral; [lia|lia|exact ex_no_flat|]. intros i j Hi Hj. unfold ex_e. split; [apply pos_INR|].
  replace 3 with (INR 3) by (cbn; ring). apply le_INR. lia.
Qed.

Example C48_a2F_linear_bounds_ex : exists d x, hexDOS 2 2 ex_e None None 1 = Some d /\ hexa2F 2 2 ex_e ex_e None None 1 = Some x /\ 0 * d <= x <= 3 * d.
Proof.
  pose proof (C48_a2F_bounds 2 2 ex_e ex_e 1 0 3 ltac:(lia) ltac:(lia)) as B.
  destruct C47_dos_sign_ex as (d & D & _). rewrite D in B. destruct (hexa2F 2 2 ex_e ex_e None None 1) as [x|].
  - exists d, x. repeat split; try exact D; apply B; intros i j Hi Hj; unfold ex_e; (split; [apply pos_INR|replace 3 with (INR 3) by (cbn; ring); apply le_INR; lia]).
  - exfalso. apply B. intros i j Hi Hj; unfold ex_e; (split; [apply pos_INR|replace 3 with (INR 3) by (cbn; ring); apply le_INR; lia]).
Qed.
