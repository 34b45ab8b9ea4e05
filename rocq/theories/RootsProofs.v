(** Sums of roots of unity. *)
From Coq Require Import Reals Lra Lia.
From Verif Require Import Common LatModel LatProofs Num NumProofs NumC.
Local Open Scope R_scope.

Add Ring Cring : (@n_ring C).

Lemma C_mul_zero (x y : C) : nmul x y = n0 -> x = n0 \/ y = n0.
Proof.
  destruct x as [a b], y as [c d]. cbn. intros H. injection H as H1 H2.
  destruct (Req_dec (a * a + b * b) 0) as [E|E].
  - left. assert (a = 0) by nra. assert (b = 0) by nra. subst. reflexivity.
  - right. assert (Hc : (a * a + b * b) * c = 0).
    { replace ((a * a + b * b) * c) with (a * (a * c - b * d) + b * (a * d + b * c)) by ring. rewrite H1, H2. ring. }
    assert (Hd : (a * a + b * b) * d = 0).
    { replace ((a * a + b * b) * d) with (a * (a * d + b * c) - b * (a * c - b * d)) by ring. rewrite H1, H2. ring. }
    apply Rmult_integral in Hc, Hd. destruct Hc as [Hc|Hc], Hd as [Hd|Hd]; try contradiction. subst. reflexivity.
Qed.

Lemma cos_one x : cos x = 1 -> exists k, x = 2 * PI * IZR k.
Proof.
  intros H. replace x with (2 * (x / 2)) in H by field. rewrite cos_2a_sin in H.
  assert (Hs : sin (x / 2) = 0) by nra. apply sin_eq_0_0 in Hs. destruct Hs as [k Hk]. exists k.
  replace x with (2 * (x / 2)) by field. rewrite Hk. ring.
Qed.

Fixpoint cpow (z : C) (n : nat) : C := match n with O => n1 | S n => nmul z (cpow z n) end.

Lemma expi_pow x n : cpow (expi x) n = expi (x * INR n).
Proof.
  induction n as [|n IH]; cbn [cpow].
  - rewrite Rmult_0_r, expi_0. reflexivity.
  - rewrite IH, <- expi_add. f_equal. rewrite S_INR. ring.
Qed.

Lemma geometric (z : C) n : nmul (nsub z n1) (nsum (cpow z) (seq 0 n)) = nsub (cpow z n) n1.
Proof.
  induction n as [|n IH]; [cbn; apply f_equal2; ring|].
  rewrite seq_S, nsum_app, Nat.add_0_l. cbn [nsum cpow].
  replace (nmul (nsub z n1) (nadd (nsum (cpow z) (seq 0 n)) (nadd (cpow z n) n0))) with
    (nadd (nmul (nsub z n1) (nsum (cpow z) (seq 0 n))) (nmul (nsub z n1) (cpow z n))) by ring.
  rewrite IH. ring.
Qed.

Lemma nsum_const (c : C) n s : nsum (fun _ : nat => c) (seq s n) = nmul (RtoC (INR n)) c.
Proof.
  revert s. induction n as [|n IH]; intros s; cbn [seq nsum].
  - destruct c. cbn. apply f_equal2; ring.
  - rewrite IH, S_INR. destruct c. cbn. apply f_equal2; ring.
Qed.

(** The orthogonality of the discrete Fourier basis. *)
Lemma roots_sum (N j : Z) : (0 < N)%Z ->
  nsum (fun n => expi (2 * PI / IZR N * IZR (n * j))) (zrange 0 N) = if (j mod N =? 0)%Z then RtoC (IZR N) else n0.
Proof.
  intros HN. assert (HR : IZR N <> 0) by (apply not_0_IZR; lia).
  unfold zrange. rewrite nsum_map.
  replace (Z.to_nat (N - 0)) with (Z.to_nat N) by (f_equal; lia).
  rewrite (nsum_ext _ (fun n => cpow (expi (2 * PI / IZR N * IZR j)) n)).
  2: { intros n _. rewrite expi_pow. f_equal. rewrite mult_IZR, plus_IZR, INR_IZR_INZ. ring. }
  destruct (Z.eqb_spec (j mod N) 0) as [E|E].
  - apply Z.mod_divide in E; [|lia]. destruct E as [k ->].
    replace (2 * PI / IZR N * IZR (k * N)) with (2 * PI * IZR k) by (rewrite mult_IZR; field; exact HR).
    rewrite expi_2PI. rewrite (nsum_ext _ (fun _ => n1)).
    + rewrite nsum_const, INR_IZR_INZ, Z2Nat.id by lia. cbn. apply f_equal2; ring.
    + intros n _. clear. induction n as [|n IH]; cbn [cpow]; [reflexivity|]. rewrite IH. ring.
  - pose proof (geometric (expi (2 * PI / IZR N * IZR j)) (Z.to_nat N)) as G.
    rewrite expi_pow in G. rewrite INR_IZR_INZ, Z2Nat.id in G by lia.
    replace (2 * PI / IZR N * IZR j * IZR N) with (2 * PI * IZR j) in G by (field; exact HR).
    rewrite expi_2PI in G. replace (nsub n1 n1) with (@n0 C) in G by ring.
    apply C_mul_zero in G. destruct G as [G|G]; [|exact G]. exfalso.
    assert (Hc : cos (2 * PI / IZR N * IZR j) = 1).
    { unfold expi in G. cbn in G. injection G as G1 _. lra. }
    apply cos_one in Hc. destruct Hc as [k Hk]. pose proof PI_RGT_0.
    assert (Hj : IZR j = IZR (k * N)).
    { rewrite mult_IZR. replace (IZR j) with ((2 * PI / IZR N * IZR j) * IZR N / (2 * PI)) by (field; lra). rewrite Hk. field. lra. }
    apply eq_IZR in Hj. apply E. rewrite Hj. apply Z.mod_mul. lia.
Qed.

(** With either sign of the exponent. *)
Lemma roots_sum_sign (N j sign : Z) : (0 < N)%Z -> (sign = 1 \/ sign = -1)%Z ->
  nsum (fun n => expi (IZR sign * (2 * PI / IZR N) * IZR (n * j))) (zrange 0 N) = if (j mod N =? 0)%Z then RtoC (IZR N) else n0.
Proof.
  intros HN Hs. rewrite (nsum_ext _ (fun n => expi (2 * PI / IZR N * IZR (n * (sign * j))))).
  - rewrite roots_sum by exact HN. 
    replace ((sign * j) mod N =? 0)%Z with (j mod N =? 0)%Z; [reflexivity|].
    destruct Hs as [-> | ->]; [rewrite Z.mul_1_l; reflexivity|].
    replace (-1 * j)%Z with (- j)%Z by lia. pose proof (Z.mod_divide j N ltac:(lia)) as A. pose proof (Z.mod_divide (- j) N ltac:(lia)) as B.
    destruct (Z.eqb_spec (j mod N) 0) as [E|E], (Z.eqb_spec ((- j) mod N) 0) as [E'|E']; try reflexivity; exfalso.
    + apply E'. apply B. apply Z.divide_opp_r. apply A. exact E.
    + apply E. apply A. apply Z.divide_opp_r. apply B. exact E'.
  - intros n _. f_equal. rewrite !mult_IZR. ring.
Qed.
