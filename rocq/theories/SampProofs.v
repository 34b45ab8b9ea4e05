From Coq Require Import Reals List Lra Lia ZArith Psatz.
From Verif Require Import Common Cx CxProofs MPIModel MPIProofs MPIMoreProofs DiagModel DiagProofs HermSpec HermProofs SampModel SampSpec.
Import ListNotations.
Local Open Scope R_scope.

(** ** Communication *)

Lemma each_ok {A B} (f : A -> res B) (h : A -> B) l : (forall x, In x l -> f x = Ok (h x)) -> each f l = Ok (map h l).
Proof.
  induction l as [|x l IH]; intros H; cbn [each map]; [reflexivity|].
  rewrite (H x) by (left; reflexivity). cbn [bind]. rewrite IH by (intros y Hy; apply H; right; exact Hy). reflexivity.
Qed.

Lemma matrix_row_lt nproc nq p col row : matrix nproc nq p = Ok (col, row) -> forall r, In r row -> (r < nproc)%nat.
Proof.
  unfold matrix. destruct (nq =? 0)%nat; intros E; [discriminate|]. injection E as <- <-. intros r Hr.
  apply In_Split_world in Hr. apply Hr.
Qed.

Lemma sample_serial nproc nph nel nk U u squared g q : (0 < nproc)%nat -> q <> [] ->
  sample nproc nph nel nk U u squared g q = Ok (map (sample_one nph nel nk U u squared g q) (seq 0 (length q))).
Proof.
  intros Hp Hq. assert (Hl : (0 < length q)%nat) by (destruct q; [congruence|cbn; lia]).
  destruct (sample_complete nproc (length q) Hl Hp) as (col & row & mine & Hm & Hmine & _ & Hc).
  unfold sample. rewrite Hm. cbn [bind].
  rewrite (each_ok _ (fun p => map (sample_one nph nel nk U u squared g q) (mine p))).
  - cbn [bind]. rewrite <- Hc, concat_map, map_map. reflexivity.
  - intros p Hin. rewrite (Hmine p) by exact (matrix_row_lt _ _ _ _ _ Hm p Hin). reflexivity.
Qed.

(** ** Points *)

Lemma k_point_mesh nk K : k_point nk K = mesh_point nk K.
Proof. destruct nk as [[n1 n2] n3], K as [[i j] l]. unfold k_point, mesh_point, Rdiv. f_equal; [f_equal|]; ring. Qed.

Lemma kq_index_lt n q K : (0 < n)%nat -> (kq_index n q K < n)%nat.
Proof. intros H. unfold kq_index. pose proof (Z.mod_pos_bound (Z.of_nat K + np_round (q / (2 * PI / INR n))) (Z.of_nat n) ltac:(lia)). lia. Qed.

Lemma kq_index_INR n q K : (0 < n)%nat -> exists z : Z,
  INR (kq_index n q K) = INR K + IZR (np_round (q / (2 * PI / INR n))) - INR n * IZR z.
Proof.
  intros H. unfold kq_index. set (r := np_round _). set (s := (Z.of_nat K + r)%Z).
  exists (s / Z.of_nat n)%Z. rewrite INR_IZR_INZ, Z2Nat.id by (apply Z.mod_pos_bound; lia).
  rewrite Z.mod_eq by lia. rewrite minus_IZR, mult_IZR. unfold s at 1. rewrite plus_IZR, <- !INR_IZR_INZ. ring.
Qed.

Lemma kq_near n q K : (0 < n)%nat ->
  close (PI / INR n) (2 * PI * INR (kq_index n q K) / INR n) (2 * PI * INR K / INR n + q).
Proof.
  intros H. destruct (kq_index_INR n q K H) as [z E]. exists (- z)%Z. rewrite E, opp_IZR.
  pose proof PI_RGT_0 as HP. pose proof (lt_0_INR n H) as Hn. set (x := q / (2 * PI / INR n)) in *.
  replace (_ - _ - _) with (2 * PI / INR n * (IZR (np_round x) - x)) by (unfold x; field; lra).
  rewrite Rabs_mult, Rabs_right by (apply Rle_ge, Rlt_le, Rdiv_lt_0_compat; lra).
  pose proof (np_round_near x). replace (PI / INR n) with (2 * PI / INR n * (1 / 2)) by (field; lra).
  apply Rmult_le_compat_l; [apply Rlt_le, Rdiv_lt_0_compat; lra|exact H0].
Qed.

Lemma close_0 a b : close 0 a b <-> exists z : Z, a = b + 2 * PI * IZR z.
Proof.
  split; intros [z H]; exists z.
  - destruct (Req_dec (a - b - 2 * PI * IZR z) 0) as [E|E]; [lra|]. pose proof (Rabs_pos_lt _ E). lra.
  - rewrite H. replace (_ - _ - _) with 0 by ring. rewrite Rabs_R0. lra.
Qed.

Lemma kq_exact n q K m : (0 < n)%nat -> close 0 q (2 * PI * INR m / INR n) ->
  close 0 (2 * PI * INR (kq_index n q K) / INR n) (2 * PI * INR K / INR n + q).
Proof.
  intros H Hq. apply close_0 in Hq. destruct Hq as [w Hq]. pose proof PI_RGT_0 as HP. pose proof (lt_0_INR n H) as Hn.
  destruct (kq_index_INR n q K H) as [z E]. apply close_0.
  assert (Er : np_round (q / (2 * PI / INR n)) = (Z.of_nat m + w * Z.of_nat n)%Z).
  { apply np_round_unique. rewrite plus_IZR, mult_IZR, <- !INR_IZR_INZ, Hq.
    replace (_ - _) with 0 by (field; lra). rewrite Rabs_R0. lra. }
  exists (- z)%Z. rewrite E, Er, plus_IZR, mult_IZR, <- !INR_IZR_INZ, Hq, opp_IZR. field. lra.
Qed.

Lemma mesh_unique n i j a : (0 < n)%nat -> (i < n)%nat -> (j < n)%nat ->
  close 0 (2 * PI * INR i / INR n) a -> close 0 (2 * PI * INR j / INR n) a -> i = j.
Proof.
  intros H Hi Hj A B. apply close_0 in A, B. destruct A as [x A], B as [y B].
  pose proof PI_RGT_0 as HP. pose proof (lt_0_INR n H) as Hn.
  assert (E : INR i - INR j = INR n * (IZR x - IZR y)).
  { apply (Rmult_eq_reg_l (2 * PI / INR n)); [|apply Rgt_not_eq, Rdiv_lt_0_compat; lra].
    transitivity (2 * PI * INR i / INR n - 2 * PI * INR j / INR n); [field; lra|]. rewrite A, B. field. lra. }
  rewrite !INR_IZR_INZ, <- !minus_IZR, <- mult_IZR in E. apply eq_IZR in E.
  set (d := (x - y)%Z) in *. assert (d = 0)%Z by (destruct (Z.lt_trichotomy d 0) as [?|[?|?]]; nia). subst d. nia.
Qed.

(** ** Matrix elements *)

Lemma to_bands_ext nel L R g g' x m n :
  (forall a b, (a < nel)%nat -> (b < nel)%nat -> g x a b = g' x a b) -> to_bands nel L R g x m n = to_bands nel L R g' x m n.
Proof. intros H. apply csum_ext. intros a Ha. apply csum_ext. intros b Hb. rewrite H by assumption. reflexivity. Qed.

Lemma bands_modes nph nel L R u g v m n :
  to_modes nph u (to_bands nel L R g) v m n = braket nph nel L R u g v m n.
Proof.
  unfold to_modes, to_bands, braket, element, along.
  rewrite (csum_ext nph _ (fun x => csum nel (fun a => csum nel (fun b => (conj (L a m) * g x a b * R b n * u x v)%C)))).
  - rewrite csum_swap. apply csum_ext. intros a _. rewrite csum_swap. apply csum_ext. intros b _.
    rewrite <- csum_scal, <- csum_scal_r. apply csum_ext. intros x _. ring.
  - intros x _. rewrite <- csum_scal_r. apply csum_ext. intros a _. rewrite <- csum_scal_r. reflexivity.
Qed.

Lemma squared_abs2 g x a b : real_part (times_conj g) x a b = RtoC (abs2 (g x a b)).
Proof. unfold real_part, times_conj, abs2, conj. cbn. f_equal. ring. Qed.

Lemma total_ext nph nel g g' : (forall x a b, (x < nph)%nat -> (a < nel)%nat -> (b < nel)%nat -> g x a b = g' x a b) ->
  total nph nel g = total nph nel g'.
Proof. intros H. apply rsum_ext. intros x Hx. apply rsum_ext. intros a Ha. apply rsum_ext. intros b Hb. rewrite H by assumption. reflexivity. Qed.

Lemma total_bands nph nel L R g : unitary nel L -> unitary nel R -> total nph nel (to_bands nel L R g) = total nph nel g.
Proof.
  intros HL HR. apply rsum_ext. intros x _.
  rewrite rsum_swap. transitivity (frob nel (g x)); [|reflexivity].
  rewrite <- (frob_unitary nel L R (g x) HL HR). apply rsum_ext. intros n _. apply rsum_ext. intros m _.
  rewrite <- element_ip. reflexivity.
Qed.

Lemma total_modes nph nel u g : unitary nph u -> total nph nel (to_modes nph u g) = total nph nel g.
Proof.
  intros Hu. unfold total. rewrite rsum_swap, (rsum_swap nph nel). apply rsum_ext. intros a _.
  rewrite rsum_swap, (rsum_swap nph nel). apply rsum_ext. intros b _.
  transitivity (rsum nph (fun x => abs2 (conj (g x a b)))); [|apply rsum_ext; intros; apply abs2_of_conj].
  rewrite <- (parseval nph u (fun x => conj (g x a b)) Hu). apply rsum_ext. intros v _.
  rewrite <- (abs2_of_conj (ip _ _ _)). f_equal. unfold ip, col, to_modes. rewrite csum_conj. apply csum_ext. intros x _.
  rewrite conj_mult, !conj_conj. ring.
Qed.
