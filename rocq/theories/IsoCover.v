(** Lemmas for IsoProps.v: the triangles cover the Brillouin zone; sets of segments;
    contours. *)
From Coq Require Import QArith Qround Lia Lqa Permutation.
From Verif Require Import Common CommonProofs SymModel VorModel LinModel LinProofs IsoModel IsoSpec IsoProofs.
Local Open Scope Q_scope.

Section Cover.
  Variable m : Z.
  Hypothesis Hm : (0 < m)%Z.
  Let N := (3 * m)%Z.

  Lemma covered x : inside (inject_Z N) x -> (forall i j, ~ veq x (inject_Z i, inject_Z j)) ->
    exists K n, interior N K /\ In n [-1; 0; 1; 2; 3; 4]%Z /\ hull (moved N K) (moved N (plus K (dk n))) (moved N (plus K (dk (n + 1)))) x.
  Proof.
    intros IX NL. destruct x as [x y]. pose proof (frac_bound x) as Bs. pose proof (frac_bound y) as Bt. set (i := Qfloor x) in *. set (j := Qfloor y) in *. set (s := x - inject_Z i) in *. set (t := y - inject_Z j) in *.
    assert (EX : x == inject_Z i + s) by (unfold s; ring). assert (EY : y == inject_Z j + t) by (unfold t; ring). clearbody s t i j.
    assert (I1 : forall k, inject_Z (k + 1) == inject_Z k + 1) by (intros; rewrite inject_Z_plus; reflexivity).
    assert (DEC : forall c, interior N c \/ outside m c) by (intros c; unfold outside, interior; fold N; lia).
    assert (K1 : inject_Z 1 == 1) by reflexivity. assert (K2 : inject_Z (-1) == -(1)) by reflexivity. assert (K3 : inject_Z 0 == 0) by reflexivity.
    (* contradiction if no corner is in the interior *)
    assert (NO : forall up w0 w1 w2, 0 <= w0 -> 0 <= w1 -> 0 <= w2 -> w0 + w1 + w2 == 1 ->
      (let c0 := if up : bool then (i + 1, j + 1)%Z else (i, j) in
       x == w0 * inject_Z (fst c0) + w1 * inject_Z (i + 1) + w2 * inject_Z i /\ y == w0 * inject_Z (snd c0) + w1 * inject_Z j + w2 * inject_Z (j + 1)) ->
      outside m (if up then (i + 1, j + 1)%Z else (i, j)) -> outside m (i + 1, j)%Z -> outside m (i, j + 1)%Z -> False).
    { intros up w0 w1 w2 H0 H1 H2 S (X & Y) O0 O1 O2. destruct (all_outside m i j up Hm O0 O1 O2) as (l & Hl & L0 & L1 & L2).
      set (c0 := if up then (i + 1, j + 1)%Z else (i, j)) in *.
      assert (G : w0 == 1 \/ w1 == 1 \/ w2 == 1).
      { destruct IX as ((X1 & X2) & (X3 & X4) & (X5 & X6)). cbn [fst snd] in *.
        assert (D : forall (p q : Z), (N <= p * fst c0 + q * snd c0)%Z -> (N <= p * (i + 1) + q * j)%Z -> (N <= p * i + q * (j + 1))%Z ->
          (p * fst c0 + q * snd c0 <> p * (i + 1) + q * j)%Z -> (p * fst c0 + q * snd c0 <> p * i + q * (j + 1))%Z -> (p * (i + 1) + q * j <> p * i + q * (j + 1))%Z ->
          inject_Z p * x + inject_Z q * y <= inject_Z N -> w0 == 1 \/ w1 == 1 \/ w2 == 1).
        { intros p q P0 P1 P2 Q1 Q2 Q3 L. apply (concentrated m w0 w1 w2 _ _ _ H0 H1 H2 S P0 P1 P2 Q1 Q2 Q3). eapply Qle_trans; [|exact L]. apply Qle_lteq. right. rewrite X, Y. rewrite ?inject_Z_plus, ?inject_Z_mult, ?inject_Z_plus. ring. }
        assert (M2 : inject_Z 2 == 2) by reflexivity. assert (M3 : inject_Z (-2) == -(2)) by reflexivity.
        unfold c0 in *. destruct up; cbn [fst snd] in *;
        destruct l as [|[|[|[|[|[|l]]]]]]; [..|lia| | | | | | |lia]; cbn [beyond fst snd] in L0, L1, L2; fold N in L0, L1, L2;
        first [ apply (D 2%Z 1%Z); rewrite ?M2, ?K1; (lia || lra) | apply (D (-2)%Z (-1)%Z); rewrite ?M3, ?K2; (lia || lra) | apply (D 1%Z 2%Z); rewrite ?M2, ?K1; (lia || lra)
              | apply (D (-1)%Z (-2)%Z); rewrite ?M3, ?K2; (lia || lra) | apply (D 1%Z (-1)%Z); rewrite ?K2, ?K1; (lia || lra) | apply (D (-1)%Z 1%Z); rewrite ?K2, ?K1; (lia || lra) ]. }
      destruct G as [G|[G|G]].
      - apply (NL (fst c0) (snd c0)). assert (w1 == 0 /\ w2 == 0) as [Z1 Z2] by lra. split; cbn [fst snd]; [rewrite X|rewrite Y]; rewrite G, Z1, Z2; ring.
      - apply (NL (i + 1)%Z j). assert (w0 == 0 /\ w2 == 0) as [Z1 Z2] by lra. split; cbn [fst snd]; [rewrite X|rewrite Y]; rewrite G, Z1, Z2; ring.
      - apply (NL i (j + 1)%Z). assert (w0 == 0 /\ w1 == 0) as [Z1 Z2] by lra. split; cbn [fst snd]; [rewrite X|rewrite Y]; rewrite G, Z1, Z2; ring. }
    assert (ST : forall K n s' t', interior N K -> In n [-1; 0; 1; 2; 3; 4]%Z -> 0 <= s' -> 0 <= t' -> s' + t' <= 1 -> veq (x, y) (along K n s' t') ->
      exists K n, interior N K /\ In n [-1; 0; 1; 2; 3; 4]%Z /\ hull (moved N K) (moved N (plus K (dk n))) (moved N (plus K (dk (n + 1)))) (x, y)).
    { intros K n s' t' HI Hn Hs Ht H V. exists K, n. split; [exact HI|]. split; [exact Hn|]. exact (star m K n s' t' (x, y) HI Hn Hs Ht H V IX). }
    destruct (Qlt_le_dec 1 (s + t)) as [U|U].
    - destruct (DEC (i + 1, j + 1)%Z) as [C|C0].
      { apply (ST _ 3%Z (1 - s) (1 - t) C); [cbn; tauto|lra|lra|lra|]. unfold along. change (dk 3) with (-1, 0)%Z. change (dk (3 + 1)) with (0, -1)%Z. split; cbn [fst snd]; rewrite ?I1, ?K2, ?K3, ?EX, ?EY; ring. }
      destruct (DEC (i + 1, j)%Z) as [C|C1].
      { apply (ST _ 1%Z (s + t - 1) (1 - s) C); [cbn; tauto|lra|lra|lra|]. unfold along. change (dk 1) with (0, 1)%Z. change (dk (1 + 1)) with (-1, 1)%Z. split; cbn [fst snd]; rewrite ?I1, ?K1, ?K2, ?K3, ?EX, ?EY; ring. }
      destruct (DEC (i, j + 1)%Z) as [C|C2].
      { apply (ST _ (-1)%Z (1 - t) (s + t - 1) C); [cbn; tauto|lra|lra|lra|]. unfold along. change (dk (-1)) with (1, -1)%Z. change (dk (-1 + 1)) with (1, 0)%Z. split; cbn [fst snd]; rewrite ?I1, ?K1, ?K2, ?K3, ?EX, ?EY; ring. }
      exfalso. apply (NO true (s + t - 1) (1 - t) (1 - s)); try assumption; try lra. cbn zeta. cbn [fst snd]. rewrite !I1. split; [rewrite EX|rewrite EY]; ring.
    - destruct (DEC (i, j)%Z) as [C|C0].
      { apply (ST _ 0%Z s t C); [cbn; tauto|lra|lra|lra|]. unfold along. change (dk 0) with (1, 0)%Z. change (dk (0 + 1)) with (0, 1)%Z. split; cbn [fst snd]; rewrite ?I1, ?K1, ?K3, ?EX, ?EY; ring. }
      destruct (DEC (i + 1, j)%Z) as [C|C1].
      { apply (ST _ 2%Z t (1 - s - t) C); [cbn; tauto|lra|lra|lra|]. unfold along. change (dk 2) with (-1, 1)%Z. change (dk (2 + 1)) with (-1, 0)%Z. split; cbn [fst snd]; rewrite ?I1, ?K1, ?K2, ?K3, ?EX, ?EY; ring. }
      destruct (DEC (i, j + 1)%Z) as [C|C2].
      { apply (ST _ 4%Z (1 - s - t) s C); [cbn; tauto|lra|lra|lra|]. unfold along. change (dk 4) with (0, -1)%Z. change (dk (4 + 1)) with (1, -1)%Z. split; cbn [fst snd]; rewrite ?I1, ?K1, ?K2, ?K3, ?EX, ?EY; ring. }
      exfalso. apply (NO false (1 - s - t) s t); try assumption; try lra. cbn zeta. cbn [fst snd]. rewrite !I1. split; [rewrite EX|rewrite EY]; ring.
  Qed.
End Cover.
