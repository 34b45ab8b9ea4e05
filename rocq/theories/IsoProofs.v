(** Lemmas for IsoProps.v. *)
From Coq Require Import QArith Qround Lia Lqa Permutation.
From Verif Require Import Common CommonProofs LatProofs SymModel SymSpec VorModel VorSpec VorProofs LinModel LinSpec LinProofs IsoModel IsoSpec.
Local Open Scope Q_scope.

(** ** Interpolation on the triangles around a mesh point *)
Section Cells.
  Variable P : Z -> Z -> Q.

  Lemma cell_lower i j s t : 0 <= s -> 0 <= t -> s + t <= 1 ->
    cell 60 P (inject_Z i + s) (inject_Z j + t) == s * P (i + 1)%Z j + t * P i (j + 1)%Z + (1 - s - t) * P i j.
  Proof.
    intros Hs Ht H. rewrite (cell_closed 60 P _ _ i) by lra. destruct (Qlt_le_dec t 1) as [L|L].
    - rewrite (floor_unique (inject_Z j + t) j) by lra. unfold tri. cbn [Z.eqb Pos.eqb].
      destruct (Qlt_le_dec _ _) as [c|c]; [lra|]. ring.
    - assert (Et : t == 1) by lra. assert (Es : s == 0) by lra.
      rewrite (floor_unique (inject_Z j + t) (j + 1)) by (rewrite ?inject_Z_plus; change (inject_Z 1) with 1; lra). unfold tri. cbn [Z.eqb Pos.eqb].
      destruct (Qlt_le_dec _ _) as [c|c]; [rewrite inject_Z_plus in c; change (inject_Z 1) with 1 in c; lra|]. rewrite inject_Z_plus. change (inject_Z 1) with 1. rewrite Es, Et. ring.
  Qed.

  Lemma cell_upper i j s t : 0 <= s -> 0 <= t -> s + t <= 1 ->
    cell 60 P (inject_Z i - s) (inject_Z j - t) == s * P (i - 1)%Z j + t * P i (j - 1)%Z + (1 - s - t) * P i j.
  Proof.
    intros Hs Ht H. assert (E1 : forall k, inject_Z (k - 1) == inject_Z k - 1) by (intros k; unfold Z.sub; rewrite inject_Z_plus; reflexivity).
    rewrite (cell_closed 60 P _ _ (i - 1)) by (rewrite E1; lra). replace (i - 1 + 1)%Z with i by lia. destruct (Qlt_le_dec 0 t) as [L|L].
    - rewrite (floor_unique (inject_Z j - t) (j - 1)) by (rewrite E1; lra). replace (j - 1 + 1)%Z with j by lia. unfold tri. cbn [Z.eqb Pos.eqb].
      destruct (Qlt_le_dec _ _) as [c|c].
      + rewrite !E1. ring.
      + rewrite !E1 in c. assert (Es : s == 1 - t) by lra. rewrite !E1, Es. ring.
    - assert (Et : t == 0) by lra. rewrite (floor_unique (inject_Z j - t) j) by lra. unfold tri. cbn [Z.eqb Pos.eqb].
      destruct (Qlt_le_dec _ _) as [c|c]; [rewrite E1 in c; lra|]. rewrite !E1, Et. ring.
  Qed.

  Definition along (K : pt) (n : Z) (s t : Q) : vertex :=
    (inject_Z (fst K) + s * inject_Z (fst (dk n)) + t * inject_Z (fst (dk (n + 1))),
     inject_Z (snd K) + s * inject_Z (snd (dk n)) + t * inject_Z (snd (dk (n + 1)))).

  Lemma cell_hexagon K n s t : In n [-1; 0; 1; 2; 3; 4]%Z -> 0 <= s -> 0 <= t -> s + t <= 1 ->
    cell 60 P (fst (along K n s t)) (snd (along K n s t)) ==
    (1 - s - t) * P (fst K) (snd K) + s * P (fst K + fst (dk n))%Z (snd K + snd (dk n))%Z + t * P (fst K + fst (dk (n + 1)))%Z (snd K + snd (dk (n + 1)))%Z.
  Proof.
    intros Hn Hs Ht H. destruct K as [a b]. unfold along. cbn [fst snd].
    assert (E1 : forall k, inject_Z (k - 1) == inject_Z k - 1) by (intros k; unfold Z.sub; rewrite inject_Z_plus; reflexivity).
    assert (E2 : forall k, inject_Z (k + 1) == inject_Z k + 1) by (intros k; rewrite inject_Z_plus; reflexivity).
    destruct Hn as [<-|[<-|[<-|[<-|[<-|[<-|[]]]]]]].
    - change (dk (-1)) with (1, -1)%Z. change (dk (-1 + 1)) with (1, 0)%Z. cbn [fst snd]. change (inject_Z 1) with 1. change (inject_Z (-1)) with (-(1)). change (inject_Z 0) with 0.
      rewrite (cell_comp 60 P _ (inject_Z (a + 1) - (1 - s - t)) _ (inject_Z b - s)) by (rewrite ?E2; ring). rewrite cell_upper by lra.
      replace (a + 1 - 1)%Z with a by lia. replace (b + 0)%Z with b by lia. replace (b + -1)%Z with (b - 1)%Z by lia. ring.
    - change (dk 0) with (1, 0)%Z. change (dk (0 + 1)) with (0, 1)%Z. cbn [fst snd]. change (inject_Z 1) with 1. change (inject_Z 0) with 0.
      rewrite (cell_comp 60 P _ (inject_Z a + s) _ (inject_Z b + t)) by ring. rewrite cell_lower by lra.
      replace (b + 0)%Z with b by lia. replace (a + 0)%Z with a by lia. ring.
    - change (dk 1) with (0, 1)%Z. change (dk (1 + 1)) with (-1, 1)%Z. cbn [fst snd]. change (inject_Z 1) with 1. change (inject_Z (-1)) with (-(1)). change (inject_Z 0) with 0.
      rewrite (cell_comp 60 P _ (inject_Z a - t) _ (inject_Z (b + 1) - (1 - s - t))) by (rewrite ?E2; ring). rewrite cell_upper by lra.
      replace (b + 1 - 1)%Z with b by lia. replace (a + 0)%Z with a by lia. replace (a + -1)%Z with (a - 1)%Z by lia. ring.
    - change (dk 2) with (-1, 1)%Z. change (dk (2 + 1)) with (-1, 0)%Z. cbn [fst snd]. change (inject_Z 1) with 1. change (inject_Z (-1)) with (-(1)). change (inject_Z 0) with 0.
      rewrite (cell_comp 60 P _ (inject_Z (a - 1) + (1 - s - t)) _ (inject_Z b + s)) by (rewrite ?E1; ring). rewrite cell_lower by lra.
      replace (a - 1 + 1)%Z with a by lia. replace (b + 0)%Z with b by lia. replace (a + -1)%Z with (a - 1)%Z by lia. ring.
    - change (dk 3) with (-1, 0)%Z. change (dk (3 + 1)) with (0, -1)%Z. cbn [fst snd]. change (inject_Z (-1)) with (-(1)). change (inject_Z 0) with 0.
      rewrite (cell_comp 60 P _ (inject_Z a - s) _ (inject_Z b - t)) by ring. rewrite cell_upper by lra.
      replace (b + 0)%Z with b by lia. replace (a + 0)%Z with a by lia. replace (a + -1)%Z with (a - 1)%Z by lia. replace (b + -1)%Z with (b - 1)%Z by lia. ring.
    - change (dk 4) with (0, -1)%Z. change (dk (4 + 1)) with (1, -1)%Z. cbn [fst snd]. change (inject_Z 1) with 1. change (inject_Z (-1)) with (-(1)). change (inject_Z 0) with 0.
      rewrite (cell_comp 60 P _ (inject_Z a + t) _ (inject_Z (b - 1) + (1 - s - t))) by (rewrite ?E1; ring). rewrite cell_lower by lra.
      replace (b - 1 + 1)%Z with b by lia. replace (a + 0)%Z with a by lia. replace (b + -1)%Z with (b - 1)%Z by lia. ring.
  Qed.
End Cells.

(** ** The interior of the Brillouin zone *)
Definition interior (N : Z) (K : pt) : Prop :=
  (- N < 2 * fst K + snd K < N /\ - N < fst K + 2 * snd K < N /\ - N < fst K - snd K < N)%Z.
Definition inside (N : Q) (v : vertex) : Prop :=
  - N <= 2 * fst v + snd v <= N /\ - N <= fst v + 2 * snd v <= N /\ - N <= fst v - snd v <= N.

Definition veq (v w : vertex) : Prop := fst v == fst w /\ snd v == snd w.

Ltac zq := unfold Qle, Qlt, Qeq, Qminus, Qplus, Qopp, Qmult, inject_Z; cbn [Qnum Qden fst snd Pos.mul]; lia.

Lemma moved_step N a b c1 c2 : interior N (a, b) -> In (c1, c2) [(1, 0); (0, 1); (-1, 1); (-1, 0); (0, -1); (1, -1)]%Z ->
  exists tau, 0 < tau <= 1 /\ (tau == 1 \/ tau == 1 # 2) /\ veq (moved N (plus (a, b) (c1, c2))) (inject_Z a + tau * inject_Z c1, inject_Z b + tau * inject_Z c2) /\ inside (inject_Z N) (moved N (plus (a, b) (c1, c2))).
Proof.
  intros (H1 & H2 & H3) Hc. cbn [fst snd] in *. unfold plus, moved. cbn [fst snd].
  destruct Hc as [E|[E|[E|[E|[E|[E|[]]]]]]]; injection E as <- <-;
  repeat match goal with |- context [(?x <? ?y)%Z] => destruct (Z.ltb_spec x y) end; try lia;
  first [ exists (1 # 2); split; [zq|]; split; [right; reflexivity|]; split; [split; zq|unfold inside; repeat split; zq]
        | exists 1; split; [zq|]; split; [left; reflexivity|]; split; [split; zq|unfold inside; repeat split; zq] ].
Qed.

Lemma moved_ok N K n : interior N K -> In n [-1; 0; 1; 2; 3; 4; 5]%Z ->
  exists tau, 0 < tau <= 1 /\ (tau == 1 \/ tau == 1 # 2) /\ veq (moved N (plus K (dk n))) (inject_Z (fst K) + tau * inject_Z (fst (dk n)), inject_Z (snd K) + tau * inject_Z (snd (dk n))) /\ inside (inject_Z N) (moved N (plus K (dk n))).
Proof.
  intros H Hn. destruct K as [a b]. assert (C : In (dk n) [(1, 0); (0, 1); (-1, 1); (-1, 0); (0, -1); (1, -1)]%Z) by (destruct Hn as [<-|[<-|[<-|[<-|[<-|[<-|[<-|[]]]]]]]]; cbn; tauto).
  destruct (dk n) as [c1 c2]. exact (moved_step N a b c1 c2 H C).
Qed.

Lemma moved_center N K : interior N K -> veq (moved N K) (inject_Z (fst K), inject_Z (snd K)) /\ inside (inject_Z N) (moved N K).
Proof.
  destruct K as [a b]. intros (H1 & H2 & H3). cbn [fst snd] in *. unfold moved.
  repeat match goal with |- context [(?x <? ?y)%Z] => destruct (Z.ltb_spec x y) end; try lia. split; [split; reflexivity|]. unfold inside. repeat split; zq.
Qed.

(** ** Distances *)
Lemma zone_inside v : in_zone v <-> inside 1 v.
Proof.
  destruct v as [x y]. unfold in_zone, inside, dist2. cbn [fst snd Z.eqb Pos.eqb]. split.
  - intros H. pose proof (H 1%Z 0%Z) as A1. pose proof (H (-1)%Z 0%Z) as A2. pose proof (H 0%Z 1%Z) as A3. pose proof (H 0%Z (-1)%Z) as A4. pose proof (H 1%Z (-1)%Z) as A5. pose proof (H (-1)%Z 1%Z) as A6.
    change (inject_Z 1) with 1 in *. change (inject_Z 0) with 0 in *. change (inject_Z (-1)) with (-(1)) in *. lra.
  - intros (H1 & H2 & H3) z w. set (u := 2 * x + y) in *. set (v := x + 2 * y) in *.
    assert (Bz : forall a b : Z, (a <= b)%Z -> inject_Z a <= inject_Z b) by (intros; rewrite <- Zle_Qle; assumption).
    enough (G : inject_Z z * u + inject_Z w * v <= inject_Z (z * z + z * w + w * w)) by (unfold u, v in G; rewrite !inject_Z_plus, !inject_Z_mult in G; lra).
    assert (D : u - v == x - y) by (unfold u, v; ring). rewrite <- D in H3. clearbody u v. clear x y D.
    assert (M : forall (a : Z) t, (0 <= a)%Z -> t <= 1 -> inject_Z a * t <= inject_Z a) by (intros a t Ha Ht; pose proof (Bz 0%Z a Ha); change (inject_Z 0) with 0 in *; nra).
    assert (O : forall a, inject_Z (- a) == - inject_Z a) by (intros; rewrite inject_Z_opp; reflexivity).
    assert (S1 : forall a b, inject_Z (a - b) == inject_Z a - inject_Z b) by (intros; unfold Z.sub; rewrite inject_Z_plus, inject_Z_opp; reflexivity).
    destruct (Z.le_gt_cases 0 z) as [Z0|Z0], (Z.le_gt_cases 0 w) as [W0|W0].
    + pose proof (M z u Z0 ltac:(lra)). pose proof (M w v W0 ltac:(lra)). pose proof (Bz (z + w)%Z (z * z + z * w + w * w)%Z ltac:(nia)) as B. rewrite inject_Z_plus in B. lra.
    + destruct (Z.le_gt_cases (- w) z) as [C|C].
      * pose proof (M (- w)%Z (u - v) ltac:(lia) ltac:(lra)) as G1. pose proof (M (z + w)%Z u ltac:(lia) ltac:(lra)) as G2. pose proof (Bz z (z * z + z * w + w * w)%Z ltac:(nia)) as B. rewrite ?inject_Z_plus, ?O in *. lra.
      * pose proof (M z (u - v) ltac:(lia) ltac:(lra)) as G1. pose proof (M (- w - z)%Z (- v) ltac:(lia) ltac:(lra)) as G2. pose proof (Bz (- w)%Z (z * z + z * w + w * w)%Z ltac:(nia)) as B. rewrite ?S1, ?inject_Z_plus, ?O in *. lra.
    + destruct (Z.le_gt_cases (- z) w) as [C|C].
      * pose proof (M (- z)%Z (v - u) ltac:(lia) ltac:(lra)) as G1. pose proof (M (w + z)%Z v ltac:(lia) ltac:(lra)) as G2. pose proof (Bz w (z * z + z * w + w * w)%Z ltac:(nia)) as B. rewrite ?inject_Z_plus, ?O in *. lra.
      * pose proof (M w (v - u) ltac:(lia) ltac:(lra)) as G1. pose proof (M (- z - w)%Z (- u) ltac:(lia) ltac:(lra)) as G2. pose proof (Bz (- z)%Z (z * z + z * w + w * w)%Z ltac:(nia)) as B. rewrite ?S1, ?inject_Z_plus, ?O in *. lra.
    + pose proof (M (- z)%Z (- u) ltac:(lia) ltac:(lra)) as G1. pose proof (M (- w)%Z (- v) ltac:(lia) ltac:(lra)) as G2. pose proof (Bz (- z - w)%Z (z * z + z * w + w * w)%Z ltac:(nia)) as B. rewrite ?S1, ?inject_Z_plus, ?O in *. lra.
Qed.

Lemma strict_form N u v z w : (0 < N)%Z -> (- N < u < N)%Z -> (- N < v < N)%Z -> (- N < u - v < N)%Z -> (z <> 0 \/ w <> 0)%Z ->
  (z * u + w * v < N * (z * z + z * w + w * w))%Z.
Proof.
  intros HN H1 H2 H3 NZ.
  assert (M : forall a t, (0 <= a)%Z -> (t <= N - 1)%Z -> (a * t <= a * (N - 1))%Z) by (intros; apply Z.mul_le_mono_nonneg_l; assumption).
  assert (F : forall m q, (1 <= m)%Z -> (m <= q)%Z -> (m * (N - 1) < N * q)%Z) by (intros; nia).
  destruct (Z.le_gt_cases 0 z) as [Z0|Z0], (Z.le_gt_cases 0 w) as [W0|W0].
  - pose proof (M z u Z0 ltac:(lia)). pose proof (M w v W0 ltac:(lia)). pose proof (F (z + w) (z * z + z * w + w * w) ltac:(lia) ltac:(nia))%Z. lia.
  - destruct (Z.le_gt_cases (- w) z) as [C|C].
    + pose proof (M (- w) (u - v) ltac:(lia) ltac:(lia))%Z. pose proof (M (z + w) u ltac:(lia) ltac:(lia))%Z. pose proof (F z (z * z + z * w + w * w) ltac:(lia) ltac:(nia))%Z. lia.
    + pose proof (M z (u - v) ltac:(lia) ltac:(lia))%Z. pose proof (M (- w - z) (- v) ltac:(lia) ltac:(lia))%Z. pose proof (F (- w) (z * z + z * w + w * w) ltac:(lia) ltac:(nia))%Z. lia.
  - destruct (Z.le_gt_cases (- z) w) as [C|C].
    + pose proof (M (- z) (v - u) ltac:(lia) ltac:(lia))%Z. pose proof (M (w + z) v ltac:(lia) ltac:(lia))%Z. pose proof (F w (z * z + z * w + w * w) ltac:(lia) ltac:(nia))%Z. lia.
    + pose proof (M w (v - u) ltac:(lia) ltac:(lia))%Z. pose proof (M (- z - w) (- u) ltac:(lia) ltac:(lia))%Z. pose proof (F (- z) (z * z + z * w + w * w) ltac:(lia) ltac:(nia))%Z. lia.
  - pose proof (M (- z) (- u) ltac:(lia) ltac:(lia))%Z. pose proof (M (- w) (- v) ltac:(lia) ltac:(lia))%Z. pose proof (F (- z - w) (z * z + z * w + w * w) ltac:(lia) ltac:(nia))%Z. lia.
Qed.

Lemma dist_int a b : dist2 60 (inject_Z a - 0) (inject_Z b - 0) == inject_Z (a * a + b * b + a * b).
Proof. unfold dist2. cbn [Z.eqb Pos.eqb]. rewrite !inject_Z_plus, !inject_Z_mult. ring. Qed.

Lemma voronoi_ok k N : (0 < N)%Z -> exists l, to_Voronoi k N 60 0 0 0 = Ok l /\ NoDup l /\ l <> [] /\ forall p, In p l <-> nearest 60 N 0 0 k p.
Proof.
  intros HN. apply to_Voronoi_nearest; [left; reflexivity|exact HN| |]; unfold small_shift; cbn [Z.eqb Pos.eqb]; (change (Qabs 0) with 0; rewrite <- (Qmult_0_r 3) at 1 || idtac);
  (assert (inject_Z 0 < inject_Z N) by (rewrite <- Zlt_Qlt; exact HN); change (inject_Z 0) with 0 in *; change (Qabs.Qabs 0) with 0; lra).
Qed.

Lemma single_interior k N K : (0 < N)%Z -> to_Voronoi k N 60 0 0 0 = Ok [K] -> interior N K.
Proof.
  intros HN E. destruct (voronoi_ok k N HN) as (l & E' & _ & _ & H). rewrite E in E'. injection E' as <-.
  destruct (proj1 (H K) (or_introl eq_refl)) as [C B]. destruct K as [a b].
  assert (G : forall z w, (z <> 0 \/ w <> 0)%Z -> (a * a + b * b + a * b < (a - N * z) * (a - N * z) + (b - N * w) * (b - N * w) + (a - N * z) * (b - N * w))%Z).
  { intros z w NZ. destruct (Z.lt_ge_cases (a * a + b * b + a * b) ((a - N * z) * (a - N * z) + (b - N * w) * (b - N * w) + (a - N * z) * (b - N * w))) as [L|L]; [exact L|exfalso].
    assert (SC : same_class N (a - N * z, b - N * w)%Z k).
    { destruct C as [C1 C2]. cbn [fst snd] in *. split; cbn [fst snd]; [replace (a - N * z - fst k)%Z with (a - fst k + - z * N)%Z by lia|replace (b - N * w - snd k)%Z with (b - snd k + - w * N)%Z by lia]; rewrite Z.mod_add by lia; assumption. }
    assert (I : In (a - N * z, b - N * w)%Z [(a, b)]).
    { apply H. split; [exact SC|]. intros q Hq. pose proof (B q Hq) as Bq. eapply Qle_trans; [|exact Bq]. cbn [fst snd]. rewrite !dist_int, <- Zle_Qle. exact L. }
    destruct I as [I|[]]. injection I as I1 I2. nia. }
  pose proof (G 1%Z 0%Z ltac:(lia)). pose proof (G (-1)%Z 0%Z ltac:(lia)). pose proof (G 0%Z 1%Z ltac:(lia)). pose proof (G 0%Z (-1)%Z ltac:(lia)). pose proof (G 1%Z (-1)%Z ltac:(lia)). pose proof (G (-1)%Z 1%Z ltac:(lia)).
  unfold interior. cbn [fst snd]. clear -HN H0 H1 H2 H3 H4 H5. repeat split; nia.
Qed.

Lemma interior_single N K : (0 < N)%Z -> interior N K -> exists k, In k (mesh2 N) /\ to_Voronoi k N 60 0 0 0 = Ok [K].
Proof.
  intros HN HI. exists (fst K mod N, snd K mod N)%Z. split.
  { apply in_prod; apply in_zrange; apply Z.mod_pos_bound; exact HN. }
  set (k := (fst K mod N, snd K mod N)%Z). destruct (voronoi_ok k N HN) as (l & E & ND & NE & H).
  assert (CK : same_class N K k). { split; unfold k; cbn [fst snd]; rewrite Zminus_mod, Z.mod_mod, Z.sub_diag by lia; apply Z.mod_0_l; lia. }
  assert (U : forall p, In p l -> p = K).
  { intros p I. destruct (proj1 (H p) I) as [C B]. specialize (B K CK). destruct K as [a b], p as [c d]. cbn [fst snd] in *. rewrite !dist_int, <- Zle_Qle in B.
    assert (D : exists z w, (c = a - N * z /\ d = b - N * w)%Z).
    { destruct C as [C1 C2], CK as [K1 K2]. cbn [fst snd] in *. apply Z.mod_divide in C1, C2, K1, K2; try lia. destruct C1 as [c1 C1], C2 as [c2 C2], K1 as [k1 K1], K2 as [k2 K2]. exists (k1 - c1)%Z, (k2 - c2)%Z. split; nia. }
    destruct D as (z & w & -> & ->). destruct (Z.eq_dec z 0) as [->|Nz]; [destruct (Z.eq_dec w 0) as [->|Nw]|].
    - f_equal; lia.
    - exfalso. destruct HI as (I1 & I2 & I3). cbn [fst snd] in *. pose proof (strict_form N (2 * a + b) (a + 2 * b) 0 w HN I1 I2 ltac:(lia) ltac:(auto)). nia.
    - exfalso. destruct HI as (I1 & I2 & I3). cbn [fst snd] in *. pose proof (strict_form N (2 * a + b) (a + 2 * b) z w HN I1 I2 ltac:(lia) ltac:(auto)). nia. }
  rewrite E. f_equal. destruct l as [|x [|y l]]; [contradiction|rewrite (U x) by (left; reflexivity); reflexivity|].
  exfalso. pose proof (U x (or_introl eq_refl)). pose proof (U y (or_intror (or_introl eq_refl))). subst x y. inversion ND as [|? ? NI _]; subst. apply NI. left. reflexivity.
Qed.

(** ** Triangles *)
Lemma veq_refl v : veq v v. Proof. split; reflexivity. Qed.
Lemma veq_sym v w : veq v w -> veq w v. Proof. intros [A B]. split; symmetry; assumption. Qed.
Lemma veq_trans u v w : veq u v -> veq v w -> veq u w. Proof. intros [A B] [C D]. split; [rewrite A|rewrite B]; assumption. Qed.
Lemma veqb_iff v w : veqb v w = true <-> veq v w.
Proof. unfold veqb, veq. rewrite andb_true_iff, !Qeq_bool_iff. reflexivity. Qed.

Definition comb (a b c : Q) (i j k : vertex) : vertex := (a * fst i + b * fst j + c * fst k, a * snd i + b * snd j + c * snd k).

Lemma comb_veq a b c i j k i' j' k' : veq i i' -> veq j j' -> veq k k' -> veq (comb a b c i j k) (comb a b c i' j' k').
Proof. intros [I1 I2] [J1 J2] [K1 K2]. split; cbn [comb fst snd]; [rewrite I1, J1, K1|rewrite I2, J2, K2]; reflexivity. Qed.

Lemma sort3_cases x y z : In (sort3 x y z) [(x, y, z); (x, z, y); (y, x, z); (y, z, x); (z, x, y); (z, y, x)].
Proof.
  unfold sort3. cbn [insert_corner]. destruct (key_leb y z); cbn [insert_corner]; destruct (key_leb x y); cbn [insert_corner]; try destruct (key_leb x z); cbn [insert_corner]; try destruct (key_leb x y); cbn; tauto.
Qed.

Lemma key_leb_le x y : key_leb x y = true -> fst x <= fst y.
Proof.
  unfold key_leb. destruct (Qeq_bool (fst x) (fst y)) eqn:E; [intros _; apply Qeq_bool_iff in E; rewrite E; apply Qle_refl|]. apply Qle_bool_iff.
Qed.
Lemma key_leb_gt x y : key_leb x y = false -> fst y <= fst x.
Proof.
  unfold key_leb. destruct (Qeq_bool (fst x) (fst y)) eqn:E; [intros _; apply Qeq_bool_iff in E; rewrite E; apply Qle_refl|]. intros H. destruct (Qlt_le_dec (fst y) (fst x)) as [L|L]; [apply Qlt_le_weak, L|]. apply Qle_bool_iff in L. rewrite L in H. discriminate.
Qed.

Lemma sort3_sorted x y z a b c : sort3 x y z = (a, b, c) -> fst a <= fst b /\ fst b <= fst c.
Proof.
  unfold sort3. cbn [insert_corner]. destruct (key_leb y z) eqn:E1; cbn [insert_corner].
  - destruct (key_leb x y) eqn:E2; cbn [insert_corner]; [|destruct (key_leb x z) eqn:E3]; intros H; injection H as <- <- <-;
    repeat match goal with H : key_leb _ _ = true |- _ => apply key_leb_le in H | H : key_leb _ _ = false |- _ => apply key_leb_gt in H end; split; assumption.
  - destruct (key_leb x z) eqn:E2; cbn [insert_corner]; [|destruct (key_leb x y) eqn:E3]; intros H; injection H as <- <- <-;
    repeat match goal with H : key_leb _ _ = true |- _ => apply key_leb_le in H | H : key_leb _ _ = false |- _ => apply key_leb_gt in H end; split; assumption.
Qed.

Section Triangles.
  Variable f : vertex -> Q.
  Hypothesis fext : forall v w, veq v w -> f v == f w.
  Variable N : Q.

  Definition linear_on (i j k : vertex) : Prop := forall a b c, 0 <= a -> 0 <= b -> 0 <= c -> a + b + c == 1 ->
    f (comb a b c i j k) == a * f i + b * f j + c * f k.
  Definition good (t : triangle) : Prop :=
    let '((A, i), (B, j), (C, k)) := t in A == f i /\ B == f j /\ C == f k /\ A <= B /\ B <= C /\ linear_on i j k /\ inside N i /\ inside N j /\ inside N k.

  Lemma linear_swap12 i j k : linear_on i j k -> linear_on j i k.
  Proof. intros H a b c Ha Hb Hc S. rewrite (fext (comb a b c j i k) (comb b a c i j k)) by (split; cbn [comb fst snd]; ring). unfold linear_on in H; rewrite H by (assumption || lra). ring. Qed.
  Lemma linear_swap23 i j k : linear_on i j k -> linear_on i k j.
  Proof. intros H a b c Ha Hb Hc S. rewrite (fext (comb a b c i k j) (comb a c b i j k)) by (split; cbn [comb fst snd]; ring). unfold linear_on in H; rewrite H by (assumption || lra). ring. Qed.

  (** The hull of three points contains [x]. *)
  Definition hull (i j k x : vertex) : Prop := exists a b c, 0 <= a /\ 0 <= b /\ 0 <= c /\ a + b + c == 1 /\ veq x (comb a b c i j k).
  Lemma hull_swap12 i j k x : hull i j k x -> hull j i k x.
  Proof. intros (a & b & c & Ha & Hb & Hc & S & V). exists b, a, c. split; [|split; [|split; [|split]]]; try assumption; [lra|]. eapply veq_trans; [exact V|]. split; cbn [comb fst snd]; ring. Qed.
  Lemma hull_swap23 i j k x : hull i j k x -> hull i k j x.
  Proof. intros (a & b & c & Ha & Hb & Hc & S & V). exists a, c, b. split; [|split; [|split; [|split]]]; try assumption; [lra|]. eapply veq_trans; [exact V|]. split; cbn [comb fst snd]; ring. Qed.
  Lemma hull_veq i j k i' j' k' x : veq i i' -> veq j j' -> veq k k' -> hull i j k x -> hull i' j' k' x.
  Proof. intros I J K (a & b & c & Ha & Hb & Hc & S & V). exists a, b, c. split; [|split; [|split; [|split]]]; try assumption. eapply veq_trans; [exact V|]. apply comb_veq; assumption. Qed.

  Definition within (t : triangle) (x : vertex) : Prop := let '((A, i), (B, j), (C, k)) := t in hull i j k x.
  Definition vertex_of (t : triangle) (v : vertex) : Prop := let '((A, i), (B, j), (C, k)) := t in v = i \/ v = j \/ v = k.

  Lemma sort3_good x y z : fst x == f (snd x) -> fst y == f (snd y) -> fst z == f (snd z) -> linear_on (snd x) (snd y) (snd z) ->
    inside N (snd x) -> inside N (snd y) -> inside N (snd z) -> good (sort3 x y z) /\ (forall v, hull (snd x) (snd y) (snd z) v -> within (sort3 x y z) v) /\
    forall v, vertex_of (sort3 x y z) v -> v = snd x \/ v = snd y \/ v = snd z.
  Proof.
    intros Ex Ey Ez L Ix Iy Iz. pose proof (sort3_cases x y z) as C. destruct (sort3 x y z) as [[[A i] [B j]] [D k]] eqn:E. apply sort3_sorted in E as [O1 O2]. cbn [fst snd] in O1, O2.
    unfold good, within, vertex_of. destruct x as [ex vx], y as [ey vy], z as [ez vz]. cbn [fst snd] in *.
    assert (L1 := linear_swap12 _ _ _ L). assert (L2 := linear_swap23 _ _ _ L). assert (L3 := linear_swap23 _ _ _ L1). assert (L4 := linear_swap12 _ _ _ L2). assert (L5 := linear_swap12 _ _ _ L3).
    destruct C as [C|[C|[C|[C|[C|[C|[]]]]]]]; injection C as <- <- <- <- <- <-; (split; [|split; [|intros v [->|[->| ->]]; auto]]); try (repeat (split; [assumption|]); assumption);
    intros v H; auto using hull_swap12, hull_swap23.
  Qed.

  (** ** Segments *)
  Lemma ltb_iff x y : ltb x y = true <-> x < y.
  Proof. unfold ltb. destruct (Qle_bool y x) eqn:E; cbn. - apply Qle_bool_iff in E. split; [discriminate|intros; lra]. - split; [intros _|reflexivity]. destruct (Qlt_le_dec x y); [assumption|]. apply Qle_bool_iff in q. congruence. Qed.

  Lemma inside_comb a b c i j k : 0 <= a -> 0 <= b -> 0 <= c -> a + b + c == 1 -> inside N i -> inside N j -> inside N k -> inside N (comb a b c i j k).
  Proof.
    intros Ha Hb Hc S (I1 & I2 & I3) (J1 & J2 & J3) (K1 & K2 & K3).
    assert (G : forall p q r, - N <= p <= N -> - N <= q <= N -> - N <= r <= N -> - N <= a * p + b * q + c * r <= N).
    { intros p q r P1 P2 P3. assert (EN : N == a * N + b * N + c * N) by (rewrite <- (Qmult_1_l N) at 1; rewrite <- S; ring). split; nra. }
    unfold inside. cbn [comb fst snd].
    pose proof (G _ _ _ I1 J1 K1). pose proof (G _ _ _ I2 J2 K2). pose proof (G _ _ _ I3 J3 K3). repeat split; lra.
  Qed.

  Lemma inside_veq v w : veq v w -> inside N v -> inside N w.
  Proof. intros [A B] H. unfold inside in *. rewrite <- A, <- B. exact H. Qed.

  Lemma cut_line E t p q x : good t -> In (Pair p q) (cut E t) -> between p q x -> f x == E /\ inside N x.
  Proof.
    destruct t as [[[A i] [B j]] [C k]]. intros (EA & EB & EC & AB & BC & L & Ii & Ij & Ik) I (u & Hu & X1 & X2).
    assert (G : forall a b c, 0 <= a -> 0 <= b -> 0 <= c -> a + b + c == 1 -> veq x (comb a b c i j k) -> a * A + b * B + c * C == E -> f x == E /\ inside N x).
    { intros a b c Ha Hb Hc S V W. split; [rewrite (fext _ _ V), (L a b c) by assumption; rewrite <- EA, <- EB, <- EC; exact W|]. apply (inside_veq _ _ (veq_sym _ _ V)). apply inside_comb; assumption. }
    unfold cut in I. destruct (ltb A E && Qle_bool E B) eqn:C1.
    - apply andb_true_iff in C1 as [C1 C2]. apply ltb_iff in C1. apply Qle_bool_iff in C2. destruct (Qeq_bool E B && Qeq_bool B C) eqn:C3.
      + apply andb_true_iff in C3 as [C3 C4]. apply Qeq_bool_iff in C3, C4. destruct I as [I|[]]. injection I as <- <-.
        apply (G 0 (1 - u) u); [lra|lra|lra|ring|split; cbn [comb fst snd]; [rewrite X1|rewrite X2]; ring|]. rewrite <- C4, C3. ring.
      + destruct I as [I|[]]. injection I as <- <-. cbn [mix fst snd] in X1, X2. set (al := (E - A) / (B - A)) in *. set (be := (E - A) / (C - A)) in *.
        assert (Al : 0 <= al <= 1). { unfold al. split; [apply Qle_shift_div_l; lra|apply Qle_shift_div_r; lra]. }
        assert (Be : 0 <= be <= 1). { unfold be. split; [apply Qle_shift_div_l; lra|apply Qle_shift_div_r; lra]. }
        assert (Ea : al * (B - A) == E - A) by (unfold al; field; lra). assert (Eb : be * (C - A) == E - A) by (unfold be; field; lra).
        apply (G ((1 - u) * (1 - al) + u * (1 - be)) ((1 - u) * al) (u * be)); [nra|nra|nra|ring|split; cbn [comb fst snd]; [rewrite X1|rewrite X2]; ring|].
        setoid_replace (((1 - u) * (1 - al) + u * (1 - be)) * A + (1 - u) * al * B + u * be * C) with (A + (1 - u) * (al * (B - A)) + u * (be * (C - A))) by ring. rewrite Ea, Eb. ring.
    - destruct (Qle_bool B E && ltb E C) eqn:C2; [|destruct I]. apply andb_true_iff in C2 as [C2 C3]. apply Qle_bool_iff in C2. apply ltb_iff in C3.
      destruct (Qeq_bool E A && Qeq_bool A B) eqn:C4; [destruct I as [I|[I|[]]]; discriminate|].
      destruct I as [I|[]]. injection I as <- <-. cbn [mix fst snd] in X1, X2. set (al := (E - B) / (C - B)) in *. set (be := (E - A) / (C - A)) in *.
      assert (Al : 0 <= al <= 1). { unfold al. split; [apply Qle_shift_div_l; lra|apply Qle_shift_div_r; lra]. }
      assert (Be : 0 <= be <= 1). { unfold be. split; [apply Qle_shift_div_l; lra|apply Qle_shift_div_r; lra]. }
      assert (Ea : al * (C - B) == E - B) by (unfold al; field; lra). assert (Eb : be * (C - A) == E - A) by (unfold be; field; lra).
      apply (G (u * (1 - be)) ((1 - u) * (1 - al)) ((1 - u) * al + u * be)); [nra|nra|nra|ring|split; cbn [comb fst snd]; [rewrite X1|rewrite X2]; ring|].
      setoid_replace (u * (1 - be) * A + (1 - u) * (1 - al) * B + ((1 - u) * al + u * be) * C) with ((1 - u) * (B + al * (C - B)) + u * (A + be * (C - A))) by ring. rewrite Ea, Eb. ring.
  Qed.

  (** A level strictly between the energies of the corners *)
  Lemma cut_complete E t x : good t -> (forall v, vertex_of t v -> ~ f v == E) -> within t x -> f x == E -> exists p q, cut E t = [Pair p q] /\ between p q x.
  Proof.
    destruct t as [[[A i] [B j]] [C k]]. intros (EA & EB & EC & AB & BC & L & Ii & Ij & Ik) NV (a & b & c & Ha & Hb & Hc & S & V) X.
    assert (NA : ~ A == E) by (rewrite EA; apply NV; cbn; auto). assert (NB : ~ B == E) by (rewrite EB; apply NV; cbn; auto). assert (NC : ~ C == E) by (rewrite EC; apply NV; cbn; auto).
    rewrite (fext _ _ V), (L a b c), <- EA, <- EB, <- EC in X by assumption. destruct V as [V1 V2]. cbn [comb fst snd] in V1, V2.
    assert (EE : a == 1 - b - c) by lra.
    assert (A < E). { assert (A <= E) by (rewrite <- X, EE; nra). destruct (Qlt_le_dec A E); [assumption|]. exfalso. apply NA. lra. }
    assert (E < C). { assert (E <= C) by (rewrite <- X; setoid_replace c with (1 - a - b) by lra; nra). destruct (Qlt_le_dec E C); [assumption|]. exfalso. apply NC. lra. }
    unfold cut. rewrite (proj2 (ltb_iff A E)) by assumption. cbn [andb]. destruct (Qle_bool E B) eqn:C1.
    - apply Qle_bool_iff in C1. assert (E < B). { destruct (Qlt_le_dec E B); [assumption|]. exfalso. apply NB. lra. }
      destruct (Qeq_bool E B) eqn:C2; [apply Qeq_bool_iff in C2; exfalso; apply NB; symmetry; exact C2|]. cbn [andb]. eexists _, _. split; [reflexivity|].
      exists (c * (C - A) / (E - A)). assert (S1 : b * (B - A) + c * (C - A) == E - A) by (rewrite <- X, EE; ring). split.
      + split; [apply Qle_shift_div_l; nra|apply Qle_shift_div_r; [lra|]]. rewrite <- S1. nra.
      + cbn [mix fst snd]. assert (S2 : 1 - c * (C - A) / (E - A) == b * (B - A) / (E - A)). { setoid_replace (b * (B - A)) with (E - A - c * (C - A)) by lra. field. lra. }
        rewrite S2, V1, V2.
        assert (Gn : forall x1 x2 x3, a * x1 + b * x2 + c * x3 == b * (B - A) / (E - A) * (x1 * (1 - (E - A) / (B - A)) + x2 * ((E - A) / (B - A))) + c * (C - A) / (E - A) * (x1 * (1 - (E - A) / (C - A)) + x3 * ((E - A) / (C - A)))).
        { intros x1 x2 x3. assert (S3 : b * (B - A) / (E - A) + c * (C - A) / (E - A) == 1) by (setoid_replace (b * (B - A)) with (E - A - c * (C - A)) by lra; field; lra).
          setoid_replace (b * (B - A) / (E - A) * (x1 * (1 - (E - A) / (B - A)) + x2 * ((E - A) / (B - A))) + c * (C - A) / (E - A) * (x1 * (1 - (E - A) / (C - A)) + x3 * ((E - A) / (C - A))))
            with (x1 * (b * (B - A) / (E - A) + c * (C - A) / (E - A)) - b * x1 - c * x1 + b * x2 + c * x3) by (field; lra). rewrite S3, EE. ring. }
        split; apply Gn.
    - assert (B < E). { destruct (Qlt_le_dec B E); [assumption|]. apply Qle_bool_iff in q. congruence. }
      rewrite (proj2 (Qle_bool_iff B E)), (proj2 (ltb_iff E C)) by (assumption || lra). cbn [andb].
      destruct (Qeq_bool E A) eqn:C2; [apply Qeq_bool_iff in C2; exfalso; apply NA; symmetry; exact C2|]. cbn [andb]. eexists _, _. split; [reflexivity|].
      exists (a * (C - A) / (C - E)). assert (S1 : a * (C - A) + b * (C - B) == C - E) by (rewrite <- X, EE; ring). split.
      + split; [apply Qle_shift_div_l; nra|apply Qle_shift_div_r; [lra|]]. rewrite <- S1. nra.
      + cbn [mix fst snd]. assert (S2 : 1 - a * (C - A) / (C - E) == b * (C - B) / (C - E)). { setoid_replace (b * (C - B)) with (C - E - a * (C - A)) by lra. field. lra. }
        rewrite S2, V1, V2.
        assert (Gn : forall x1 x2 x3, a * x1 + b * x2 + c * x3 == b * (C - B) / (C - E) * (x2 * (1 - (E - B) / (C - B)) + x3 * ((E - B) / (C - B))) + a * (C - A) / (C - E) * (x1 * (1 - (E - A) / (C - A)) + x3 * ((E - A) / (C - A)))).
        { intros x1 x2 x3.
          setoid_replace (1 - (E - B) / (C - B)) with ((C - E) / (C - B)) by (field; lra). setoid_replace (1 - (E - A) / (C - A)) with ((C - E) / (C - A)) by (field; lra).
          setoid_replace ((E - B) / (C - B)) with (1 - (C - E) / (C - B)) by (field; lra). setoid_replace ((E - A) / (C - A)) with (1 - (C - E) / (C - A)) by (field; lra).
          assert (S3 : b * (C - B) / (C - E) + a * (C - A) / (C - E) == 1) by (setoid_replace (b * (C - B)) with (C - E - a * (C - A)) by lra; field; lra).
          setoid_replace (b * (C - B) / (C - E) * (x2 * ((C - E) / (C - B)) + x3 * (1 - (C - E) / (C - B))) + a * (C - A) / (C - E) * (x1 * ((C - E) / (C - A)) + x3 * (1 - (C - E) / (C - A))))
            with (x3 * (b * (C - B) / (C - E) + a * (C - A) / (C - E)) - b * x3 - a * x3 + b * x2 + a * x1) by (field; lra). rewrite S3, EE. ring. }
        split; apply Gn.
  Qed.

  Lemma cut_generic E t : good t -> (forall v, vertex_of t v -> ~ f v == E) -> forall e, In e (cut E t) -> exists p q, e = Pair p q.
  Proof.
    destruct t as [[[A i] [B j]] [C k]]. intros (EA & EB & EC & _) NV e I. unfold cut in I.
    destruct (_ && _) in I; [destruct (_ && _) in I; destruct I as [<-|[]]; eexists _, _; reflexivity|].
    destruct (_ && _) in I; [|destruct I]. destruct (Qeq_bool E A && Qeq_bool A B) eqn:C4 in I; [|destruct I as [<-|[]]; eexists _, _; reflexivity].
    apply andb_true_iff in C4 as [C4 _]. apply Qeq_bool_iff in C4. exfalso. apply (NV i); [cbn; auto|]. rewrite <- EA. symmetry. exact C4.
  Qed.
End Triangles.

(** ** All triangles *)
Section Mesh.
  Variable argsort : list Q -> list nat.
  Variable energies : list (list Q).
  Hypothesis HR : rectangular energies.
  Let P := value2 energies.
  Definition f_ (v : vertex) : Q := cell 60 (value2 energies) (fst v) (snd v).
  Lemma f_ext v w : veq v w -> f_ v == f_ w.
  Proof. intros [A B]. apply cell_comp; assumption. Qed.
  Let fun_ := interpolant2 argsort 60 None energies.
  Lemma fun_ok x y : fun_ x y = Ok (f_ (x, y)).
  Proof. apply interpolant2_ok; [left; reflexivity|exact HR|exact I]. Qed.

  Variable N : Z.
  Hypothesis HN : (0 < N)%Z.

  (** A level that no mesh point and no midpoint of neighbors has *)
  Definition generic (E : Q) : Prop := (forall i j, ~ P i j == E) /\ (forall i j i' j', neighbors i j i' j' -> ~ P i j + P i' j' == 2 * E).

  Lemma triangle_at_ok K n : interior N K -> In n [-1; 0; 1; 2; 3; 4]%Z -> exists t, triangle_at fun_ N K n = Ok t /\ good f_ (inject_Z N) t /\
    (forall v, hull (moved N K) (moved N (plus K (dk n))) (moved N (plus K (dk (n + 1)))) v -> within t v) /\
    (forall E, generic E -> forall v, vertex_of t v -> ~ f_ v == E).
  Proof.
    intros HI Hn. destruct (moved_center N K HI) as [V0 I0]. destruct (moved_ok N K n HI) as (t1 & B1 & T1 & V1 & I1); [cbn in Hn |- *; tauto|]. destruct (moved_ok N K (n + 1) HI) as (t2 & B2 & T2 & V2 & I2); [cbn in Hn |- *; lia|].
    set (v0 := moved N K) in *. set (v1 := moved N (plus K (dk n))) in *. set (v2 := moved N (plus K (dk (n + 1)))) in *.
    pose proof (fun s t => cell_hexagon P K n s t Hn) as HX. set (P0 := P (fst K) (snd K)) in *. set (P1 := P (fst K + fst (dk n))%Z (snd K + snd (dk n))%Z) in *. set (P2 := P (fst K + fst (dk (n + 1)))%Z (snd K + snd (dk (n + 1)))%Z) in *.
    assert (HX' : forall s t v, 0 <= s -> 0 <= t -> s + t <= 1 -> veq v (along K n s t) -> f_ v == (1 - s - t) * P0 + s * P1 + t * P2) by (intros s t v Hs Ht H V; rewrite (f_ext _ _ V); apply HX; assumption).
    assert (F0 : f_ v0 == P0). { rewrite (HX' 0 0 v0 ltac:(lra) ltac:(lra) ltac:(lra)); [ring|]. eapply veq_trans; [exact V0|]. split; cbn [along fst snd]; ring. }
    assert (F1 : f_ v1 == (1 - t1) * P0 + t1 * P1). { rewrite (HX' t1 0 v1 ltac:(lra) ltac:(lra) ltac:(lra)); [ring|]. eapply veq_trans; [exact V1|]. split; cbn [along fst snd]; ring. }
    assert (F2 : f_ v2 == (1 - t2) * P0 + t2 * P2). { rewrite (HX' 0 t2 v2 ltac:(lra) ltac:(lra) ltac:(lra)); [ring|]. eapply veq_trans; [exact V2|]. split; cbn [along fst snd]; ring. }
    assert (LI : linear_on f_ v0 v1 v2).
    { intros a b c Ha Hb Hc S. rewrite (HX' (b * t1) (c * t2)); [rewrite F0, F1, F2; setoid_replace a with (1 - b - c) by lra; ring|nra|nra|nra|].
      eapply veq_trans; [apply comb_veq; [exact V0|exact V1|exact V2]|]. assert (Ea : a == 1 - b - c) by lra. split; cbn [comb along fst snd]; rewrite Ea; ring. }
    unfold triangle_at. rewrite !fun_ok. cbn [bind]. change (fst (moved N K), snd (moved N K)) with (fst v0, snd v0). fold v0 v1 v2.
    assert (SP : forall v : vertex, (fst v, snd v) = v) by (intros [? ?]; reflexivity). rewrite !SP.
    destruct (sort3_good f_ f_ext (inject_Z N) (f_ v0, v0) (f_ v1, v1) (f_ v2, v2)) as (G & H & W); try reflexivity; try assumption.
    eexists. split; [reflexivity|]. split; [exact G|]. split; [exact H|]. intros E [G1 G2] v Hv. apply W in Hv. cbn [snd] in Hv.
    assert (NB : forall m, In m [-1; 0; 1; 2; 3; 4; 5]%Z -> neighbors (fst K) (snd K) (fst K + fst (dk m)) (snd K + snd (dk m))).
    { intros m Hm. unfold neighbors. replace (fst K + fst (dk m) - fst K)%Z with (fst (dk m)) by lia. replace (snd K + snd (dk m) - snd K)%Z with (snd (dk m)) by lia. destruct Hm as [<-|[<-|[<-|[<-|[<-|[<-|[<-|[]]]]]]]]; cbn; tauto. }
    assert (M : forall tau PP, (tau == 1 \/ tau == 1 # 2) -> ~ PP == E -> ~ P0 + PP == 2 * E -> ~ (1 - tau) * P0 + tau * PP == E).
    { intros tau PP [Et|Et] N1 N2 EE; rewrite Et in EE; [apply N1; lra|apply N2; lra]. }
    destruct Hv as [->|[->| ->]].
    - rewrite F0. apply G1.
    - rewrite F1. apply M; [exact T1|apply G1|]. apply G2. apply NB. cbn in Hn |- *. tauto.
    - rewrite F2. apply M; [exact T2|apply G1|]. apply G2. apply NB. cbn in Hn |- *. lia.
  Qed.

  Lemma teqb_iff A i B j C k A' i' B' j' C' k' : teqb ((A, i), (B, j), (C, k)) ((A', i'), (B', j'), (C', k')) = true <-> veq i i' /\ veq j j' /\ veq k k'.
  Proof. unfold teqb. cbn [snd]. rewrite !andb_true_iff, !veqb_iff. tauto. Qed.

  Definition has (s : list triangle) (K : pt) (n : Z) : Prop :=
    exists t, In t s /\ (forall v, hull (moved N K) (moved N (plus K (dk n))) (moved N (plus K (dk (n + 1)))) v -> within t v).
  Definition sound (t : triangle) : Prop := good f_ (inject_Z N) t /\ (forall E, generic E -> forall v, vertex_of t v -> ~ f_ v == E).

  Lemma has_mono s s' K n : incl s s' -> has s K n -> has s' K n.
  Proof. intros H (t & I & W). exists t. split; [apply H, I|exact W]. Qed.

  Lemma add_incl {A} eqb (s : list A) x : incl s (add eqb s x).
  Proof. unfold add. destruct (existsb _ _); [apply incl_refl|apply incl_appl, incl_refl]. Qed.

  Lemma steps_ok K : interior N K -> forall l s, (forall n, In n l -> In n [-1; 0; 1; 2; 3; 4]%Z) -> Forall sound s ->
    exists s', fold_left (fun s n => do s <- s ;; do t <- triangle_at fun_ N K n ;; Ok (add teqb s t)) l (Ok s) = Ok s' /\ Forall sound s' /\ incl s s' /\ forall n, In n l -> has s' K n.
  Proof.
    intros HI. induction l as [|n l IH]; intros s HL HS; [exists s; split; [reflexivity|]; split; [exact HS|]; split; [apply incl_refl|intros n []]|].
    cbn [fold_left bind]. destruct (triangle_at_ok K n HI (HL n (or_introl eq_refl))) as (t & E & G & W & GE). rewrite E. cbn [bind].
    destruct (IH (add teqb s t)) as (s' & E' & S' & I' & H').
    - intros m Hm. apply HL. right. exact Hm.
    - unfold add. destruct (existsb _ _); [exact HS|]. apply Forall_app. split; [exact HS|]. constructor; [split; assumption|constructor].
    - exists s'. split; [exact E'|]. split; [exact S'|]. split; [exact (incl_tran (add_incl teqb s t) I')|]. intros m [<-|Hm]; [|apply H', Hm].
      apply (has_mono _ _ _ _ I'). unfold add. destruct (existsb (teqb t) s) eqn:X; [|exists t; split; [apply in_or_app; right; left; reflexivity|exact W]].
      apply existsb_exists in X as (u & Iu & Eu). exists u. split; [exact Iu|]. destruct t as [[[A i] [B j]] [C k]], u as [[[A' i'] [B' j']] [C' k']]. apply teqb_iff in Eu as (V1 & V2 & V3).
      intros v Hv. apply W in Hv. cbn [within] in *. exact (hull_veq _ _ _ _ _ _ _ V1 V2 V3 Hv).
  Qed.

  Lemma mesh_ok : forall l s, Forall sound s ->
    exists s', fold_left (fun s k => do s <- s ;; triangles_at fun_ N s k) l (Ok s) = Ok s' /\ Forall sound s' /\ incl s s' /\
      forall k K n, In k l -> to_Voronoi k N 60 0 0 0 = Ok [K] -> In n [-1; 0; 1; 2; 3; 4]%Z -> has s' K n.
  Proof.
    induction l as [|k l IH]; intros s HS; [exists s; split; [reflexivity|]; split; [exact HS|]; split; [apply incl_refl|intros k K n []]|].
    cbn [fold_left bind]. unfold triangles_at at 2. destruct (voronoi_ok k N HN) as (im & E & _). rewrite E. cbn [bind].
    assert (G : exists s1, (match im with [K] => fold_left (fun s n => do s <- s ;; do t <- triangle_at fun_ N K n ;; Ok (add teqb s t)) [-1; 0; 1; 2; 3; 4]%Z (Ok s) | _ => Ok s end) = Ok s1 /\ Forall sound s1 /\ incl s s1 /\
      forall K n, im = [K] -> In n [-1; 0; 1; 2; 3; 4]%Z -> has s1 K n).
    { destruct im as [|K [|K' im]]; [exists s; split; [reflexivity|]; split; [exact HS|]; split; [apply incl_refl|discriminate]| |exists s; split; [reflexivity|]; split; [exact HS|]; split; [apply incl_refl|discriminate]].
      destruct (steps_ok K (single_interior k N K HN E) [-1; 0; 1; 2; 3; 4]%Z s ltac:(auto) HS) as (s1 & E1 & S1 & I1 & H1). exists s1. split; [exact E1|]. split; [exact S1|]. split; [exact I1|]. intros K' n EK Hn. injection EK as <-. apply H1, Hn. }
    destruct G as (s1 & E1 & S1 & I1 & H1). rewrite E1. destruct (IH s1 S1) as (s' & E' & S' & I' & H'). exists s'. split; [exact E'|]. split; [exact S'|]. split; [exact (incl_tran I1 I')|].
    intros k' K n [<-|Hk] EK Hn; [|exact (H' k' K n Hk EK Hn)]. apply (has_mono _ _ _ _ I'). apply H1; [|exact Hn]. rewrite E in EK. injection EK as ->. reflexivity.
  Qed.

  Lemma all_triangles_ok : N = shape1 energies -> exists s, all_triangles argsort energies = Ok s /\ Forall sound s /\ forall K n, interior N K -> In n [-1; 0; 1; 2; 3; 4]%Z -> has s K n.
  Proof.
    intros EN. destruct (mesh_ok (mesh2 N) [] (Forall_nil _)) as (s & E & S1 & _ & H). exists s. split; [unfold all_triangles; rewrite <- EN; exact E|]. split; [exact S1|].
    intros K n HI Hn. destruct (interior_single N K HN HI) as (k & Ik & Ek). exact (H k K n Ik Ek Hn).
  Qed.
End Mesh.

(** ** The triangles cover the Brillouin zone *)
Section Tiling.
  Variable m : Z.
  Let N := (3 * m)%Z.

  Definition outside (c : pt) : Prop := ~ interior N c.

  (** If all corners are outside, they are outside in the same direction. *)
  Definition beyond (c : pt) (l : nat) : Prop :=
    match l with
    | 0%nat => (N <= 2 * fst c + snd c)%Z | 1%nat => (2 * fst c + snd c <= - N)%Z | 2%nat => (N <= fst c + 2 * snd c)%Z | 3%nat => (fst c + 2 * snd c <= - N)%Z
    | 4%nat => (N <= fst c - snd c)%Z | _ => (fst c - snd c <= - N)%Z
    end.
  Lemma outside_beyond c : outside c -> exists l, (l < 6)%nat /\ beyond c l.
  Proof.
    unfold outside, interior. intros H.
    destruct (Z.le_gt_cases N (2 * fst c + snd c)); [exists 0%nat; split; [lia|assumption]|].
    destruct (Z.le_gt_cases (2 * fst c + snd c) (- N)); [exists 1%nat; split; [lia|assumption]|].
    destruct (Z.le_gt_cases N (fst c + 2 * snd c)); [exists 2%nat; split; [lia|assumption]|].
    destruct (Z.le_gt_cases (fst c + 2 * snd c) (- N)); [exists 3%nat; split; [lia|assumption]|].
    destruct (Z.le_gt_cases N (fst c - snd c)); [exists 4%nat; split; [lia|assumption]|].
    destruct (Z.le_gt_cases (fst c - snd c) (- N)); [exists 5%nat; split; [lia|assumption]|]. exfalso. apply H. lia.
  Qed.

  Lemma all_outside a b (up : bool) : (0 < m)%Z -> outside (if up then (a + 1, b + 1)%Z else (a, b)) -> outside (a + 1, b)%Z -> outside (a, b + 1)%Z ->
    exists l, (l < 6)%nat /\ beyond (if up then (a + 1, b + 1)%Z else (a, b)) l /\ beyond (a + 1, b)%Z l /\ beyond (a, b + 1)%Z l.
  Proof.
    intros Hm O1 O2 O3. apply outside_beyond in O1 as (l1 & L1 & B1), O2 as (l2 & L2 & B2), O3 as (l3 & L3 & B3).
    assert (G : let B l := beyond (if up then (a + 1, b + 1)%Z else (a, b)) l /\ beyond (a + 1, b)%Z l /\ beyond (a, b + 1)%Z l in B 0%nat \/ B 1%nat \/ B 2%nat \/ B 3%nat \/ B 4%nat \/ B 5%nat).
    { cbn zeta. destruct up;
      (destruct l1 as [|[|[|[|[|[|l1]]]]]]; [..|lia]); (destruct l2 as [|[|[|[|[|[|l2]]]]]]; [..|lia]); (destruct l3 as [|[|[|[|[|[|l3]]]]]]; [..|lia]); cbn [beyond fst snd] in *; unfold N in *; clear L1 L2 L3;
      first [ exfalso; lia | left; lia | right; left; lia | right; right; left; lia | right; right; right; left; lia | right; right; right; right; left; lia | right; right; right; right; right; lia | lia ]. }
    destruct G as [G|[G|[G|[G|[G|G]]]]]; eexists; (split; [|exact G]); lia.
  Qed.

  (** Projection onto the direction [dk n], twice its square being the largest value *)
  Definition F (n : Z) (c : pt) : Z :=
    nth (Z.to_nat (n mod 6)) [2 * fst c + snd c; fst c + 2 * snd c; snd c - fst c; - (2 * fst c + snd c); - (fst c + 2 * snd c); fst c - snd c]%Z 0%Z.
  Definition FQ (n : Z) (v : vertex) : Q :=
    nth (Z.to_nat (n mod 6)) [2 * fst v + snd v; fst v + 2 * snd v; snd v - fst v; - (2 * fst v + snd v); - (fst v + 2 * snd v); fst v - snd v] 0.

  Lemma moved_F K n : interior N K -> In n [-1; 0; 1; 2; 3; 4; 5]%Z ->
    (F n K <= N - 2)%Z /\ veq (moved N (plus K (dk n))) (inject_Z (fst K) + inject_Z (fst (dk n)), inject_Z (snd K) + inject_Z (snd (dk n))) \/
    (F n K = N - 1)%Z /\ veq (moved N (plus K (dk n))) (inject_Z (fst K) + (1 # 2) * inject_Z (fst (dk n)), inject_Z (snd K) + (1 # 2) * inject_Z (snd (dk n))).
  Proof.
    destruct K as [a b]. intros (H1 & H2 & H3) Hn. cbn [fst snd] in *.
    destruct Hn as [<-|[<-|[<-|[<-|[<-|[<-|[<-|[]]]]]]]];
    [change (dk (-1)) with (1, -1)%Z; change (F (-1) (a, b)) with (a - b)%Z | change (dk 0) with (1, 0)%Z; change (F 0 (a, b)) with (2 * a + b)%Z
    | change (dk 1) with (0, 1)%Z; change (F 1 (a, b)) with (a + 2 * b)%Z | change (dk 2) with (-1, 1)%Z; change (F 2 (a, b)) with (b - a)%Z
    | change (dk 3) with (-1, 0)%Z; change (F 3 (a, b)) with (- (2 * a + b))%Z | change (dk 4) with (0, -1)%Z; change (F 4 (a, b)) with (- (a + 2 * b))%Z
    | change (dk 5) with (1, -1)%Z; change (F 5 (a, b)) with (a - b)%Z];
    unfold plus, moved; cbn [fst snd];
    repeat match goal with |- context [(?x <? ?y)%Z] => destruct (Z.ltb_spec x y) end; try lia;
    first [ left; split; [lia|split; zq] | right; split; [lia|split; zq] ].
  Qed.

  Lemma FQ_values v : FQ (-1) v = fst v - snd v /\ FQ 0 v = 2 * fst v + snd v /\ FQ 1 v = fst v + 2 * snd v /\ FQ 2 v = snd v - fst v /\ FQ 3 v = - (2 * fst v + snd v) /\ FQ 4 v = - (fst v + 2 * snd v) /\ FQ 5 v = fst v - snd v.
  Proof. repeat split. Qed.
  Lemma F_values c : (F (-1) c = fst c - snd c /\ F 0 c = 2 * fst c + snd c /\ F 1 c = fst c + 2 * snd c /\ F 2 c = snd c - fst c /\ F 3 c = - (2 * fst c + snd c) /\ F 4 c = - (fst c + 2 * snd c) /\ F 5 c = fst c - snd c)%Z.
  Proof. repeat split. Qed.

  Lemma inside_F n v : inside (inject_Z N) v -> In n [-1; 0; 1; 2; 3; 4; 5]%Z -> FQ n v <= inject_Z N.
  Proof.
    intros (H1 & H2 & H3) Hn. destruct (FQ_values v) as (E0 & E1 & E2 & E3 & E4 & E5 & E6).
    destruct Hn as [<-|[<-|[<-|[<-|[<-|[<-|[<-|[]]]]]]]]; [rewrite E0|rewrite E1|rewrite E2|rewrite E3|rewrite E4|rewrite E5|rewrite E6]; lra.
  Qed.

  Lemma FQ_along K n s t : In n [-1; 0; 1; 2; 3; 4]%Z -> FQ n (along K n s t) == inject_Z (F n K) + 2 * s + t /\ FQ (n + 1) (along K n s t) == inject_Z (F (n + 1) K) + s + 2 * t.
  Proof.
    intros Hn. assert (S1 : forall x y, inject_Z (x - y) == inject_Z x - inject_Z y) by (intros; unfold Z.sub; rewrite inject_Z_plus, inject_Z_opp; reflexivity).
    destruct (FQ_values (along K n s t)) as (E0 & E1 & E2 & E3 & E4 & E5 & E6). destruct (F_values K) as (D0 & D1 & D2 & D3 & D4 & D5 & D6).
    destruct Hn as [<-|[<-|[<-|[<-|[<-|[<-|[]]]]]]];
    [change (-1 + 1)%Z with 0%Z; rewrite E0, D0, E1, D1|change (0 + 1)%Z with 1%Z; rewrite E1, D1, E2, D2|change (1 + 1)%Z with 2%Z; rewrite E2, D2, E3, D3
    |change (2 + 1)%Z with 3%Z; rewrite E3, D3, E4, D4|change (3 + 1)%Z with 4%Z; rewrite E4, D4, E5, D5|change (4 + 1)%Z with 5%Z; rewrite E5, D5, E6, D6];
    clear; unfold along;
    [change (dk (-1)) with (1, -1)%Z; change (dk (-1 + 1)) with (1, 0)%Z | change (dk 0) with (1, 0)%Z; change (dk (0 + 1)) with (0, 1)%Z
    | change (dk 1) with (0, 1)%Z; change (dk (1 + 1)) with (-1, 1)%Z | change (dk 2) with (-1, 1)%Z; change (dk (2 + 1)) with (-1, 0)%Z
    | change (dk 3) with (-1, 0)%Z; change (dk (3 + 1)) with (0, -1)%Z | change (dk 4) with (0, -1)%Z; change (dk (4 + 1)) with (1, -1)%Z ];
    cbn [fst snd]; rewrite ?inject_Z_opp; unfold Z.sub; rewrite ?inject_Z_plus, ?inject_Z_mult, ?inject_Z_opp;
    change (inject_Z 1) with 1; change (inject_Z 2) with 2; change (inject_Z 0) with 0; change (inject_Z (-1)) with (-(1)); split; ring.
  Qed.

  Lemma star K n s t x : interior N K -> In n [-1; 0; 1; 2; 3; 4]%Z -> 0 <= s -> 0 <= t -> s + t <= 1 -> veq x (along K n s t) -> inside (inject_Z N) x ->
    hull (moved N K) (moved N (plus K (dk n))) (moved N (plus K (dk (n + 1)))) x.
  Proof.
    intros HI Hn Hs Ht H V IX. destruct (moved_center N K HI) as [V0 _].
    destruct (FQ_along K n s t Hn) as [A1 A2]. pose proof (inside_F n x IX ltac:(cbn in Hn |- *; tauto)) as B1. pose proof (inside_F (n + 1) x IX ltac:(cbn in Hn |- *; lia)) as B2.
    assert (FV : forall k, In k [-1; 0; 1; 2; 3; 4; 5]%Z -> FQ k x == FQ k (along K n s t)).
    { intros k Hk. destruct V as [V1 V2]. destruct (FQ_values x) as (E0 & E1 & E2 & E3 & E4 & E5 & E6). destruct (FQ_values (along K n s t)) as (D0 & D1 & D2 & D3 & D4 & D5 & D6).
      destruct Hk as [<-|[<-|[<-|[<-|[<-|[<-|[<-|[]]]]]]]]; [rewrite E0, D0|rewrite E1, D1|rewrite E2, D2|rewrite E3, D3|rewrite E4, D4|rewrite E5, D5|rewrite E6, D6]; rewrite V1, V2; reflexivity. }
    rewrite (FV n ltac:(cbn in Hn |- *; tauto)), A1 in B1. rewrite (FV (n + 1)%Z ltac:(cbn in Hn |- *; lia)), A2 in B2.
    assert (N1 : inject_Z (N - 1) == inject_Z N - 1) by (unfold Z.sub; rewrite inject_Z_plus; reflexivity).
    destruct (moved_F K n HI ltac:(cbn in Hn |- *; tauto)) as [[M1 W1]|[M1 W1]], (moved_F K (n + 1) HI ltac:(cbn in Hn |- *; lia)) as [[M2 W2]|[M2 W2]].
    - apply (hull_veq _ _ _ _ _ _ _ (veq_sym _ _ V0) (veq_sym _ _ W1) (veq_sym _ _ W2)). exists (1 - s - t), s, t. split; [lra|]. split; [lra|]. split; [lra|]. split; [ring|]. apply (veq_trans _ _ _ V). split; cbn [comb along fst snd]; ring.
    - apply (hull_veq _ _ _ _ _ _ _ (veq_sym _ _ V0) (veq_sym _ _ W1) (veq_sym _ _ W2)). rewrite M2, N1 in B2. exists (1 - s - 2 * t), s, (2 * t). split; [lra|]. split; [lra|]. split; [lra|]. split; [ring|]. apply (veq_trans _ _ _ V). split; cbn [comb along fst snd]; ring.
    - apply (hull_veq _ _ _ _ _ _ _ (veq_sym _ _ V0) (veq_sym _ _ W1) (veq_sym _ _ W2)). rewrite M1, N1 in B1. exists (1 - 2 * s - t), (2 * s), t. split; [lra|]. split; [lra|]. split; [lra|]. split; [ring|]. apply (veq_trans _ _ _ V). split; cbn [comb along fst snd]; ring.
    - exfalso. destruct (F_values K) as (D0 & D1 & D2 & D3 & D4 & D5 & D6). unfold N in M1, M2. clear -Hn M1 M2 D0 D1 D2 D3 D4 D5 D6.
      destruct Hn as [<-|[<-|[<-|[<-|[<-|[<-|[]]]]]]]; [change (-1 + 1)%Z with 0%Z in M2|change (0 + 1)%Z with 1%Z in M2|change (1 + 1)%Z with 2%Z in M2|change (2 + 1)%Z with 3%Z in M2|change (3 + 1)%Z with 4%Z in M2|change (4 + 1)%Z with 5%Z in M2]; lia.
  Qed.

  (** Weights of values that are distinct and at least N *)
  Lemma concentrated (w0 w1 w2 : Q) (d0 d1 d2 : Z) : 0 <= w0 -> 0 <= w1 -> 0 <= w2 -> w0 + w1 + w2 == 1 ->
    (N <= d0)%Z -> (N <= d1)%Z -> (N <= d2)%Z -> (d0 <> d1)%Z -> (d0 <> d2)%Z -> (d1 <> d2)%Z ->
    w0 * inject_Z d0 + w1 * inject_Z d1 + w2 * inject_Z d2 <= inject_Z N -> w0 == 1 \/ w1 == 1 \/ w2 == 1.
  Proof.
    intros H0 H1 H2 S B0 B1 B2 N1 N2 N3 L.
    assert (G : forall d, (N <= d)%Z -> d = N \/ inject_Z N + 1 <= inject_Z d).
    { intros d Hd. destruct (Z.eq_dec d N) as [->|]; [left; reflexivity|right]. setoid_replace (inject_Z N + 1) with (inject_Z (N + 1)) by (rewrite inject_Z_plus; reflexivity). rewrite <- Zle_Qle. lia. }
    assert (G' : forall d, (N <= d)%Z -> inject_Z N <= inject_Z d) by (intros; rewrite <- Zle_Qle; assumption).
    pose proof (G' _ B0). pose proof (G' _ B1). pose proof (G' _ B2).
    assert (E0 : w0 == 1 - w1 - w2) by lra.
    destruct (G d0 B0) as [->|C0].
    - destruct (G d1 B1) as [->|C1]; [congruence|]. destruct (G d2 B2) as [->|C2]; [congruence|]. left. rewrite E0 in L. nra.
    - destruct (G d1 B1) as [->|C1].
      + destruct (G d2 B2) as [->|C2]; [congruence|]. right. left. rewrite E0 in L. nra.
      + right. right. rewrite E0 in L. nra.
  Qed.
End Tiling.
