(** Lemmas about linear interpolation. *)
From Coq Require Import Qabs Qround Lqa.
From Verif Require Import Common CommonProofs StackModel StackSpec StackProofs LinModel LinSpec.
Local Open Scope Q_scope.

(** ** Floor *)

Lemma frac_bound n : 0 <= n - inject_Z (Qfloor n) < 1.
Proof.
  pose proof (Qfloor_le n). pose proof (Qlt_floor n) as H2. rewrite inject_Z_plus in H2.
  change (inject_Z 1) with 1 in H2. lra.
Qed.

Lemma floor_unique n k : inject_Z k <= n -> n < inject_Z k + 1 -> Qfloor n = k.
Proof.
  intros H1 H2. pose proof (frac_bound n). assert (A : inject_Z k < inject_Z (Qfloor n + 1)) by (rewrite inject_Z_plus; change (inject_Z 1) with 1; lra).
  assert (B : inject_Z (Qfloor n) < inject_Z (k + 1)) by (rewrite inject_Z_plus; change (inject_Z 1) with 1; lra).
  rewrite <- Zlt_Qlt in A, B. lia.
Qed.

Lemma floor_int k : Qfloor (inject_Z k) = k.
Proof. apply Qfloor_Z. Qed.

Lemma floor_plus n k : Qfloor (n + inject_Z k) = (Qfloor n + k)%Z.
Proof. pose proof (frac_bound n). apply floor_unique; rewrite inject_Z_plus; lra. Qed.

Lemma inj_nz z : z <> 0%Z -> ~ inject_Z z == 0.
Proof. intros H E. apply H. apply (proj1 (inject_Z_injective z 0)). exact E. Qed.

(** ** Periodic continuation *)

Lemma item_value1 data i : data <> [] -> (0 <= i < shape0 data)%Z -> item data i = Ok (value1 data i).
Proof.
  intros H Hi. unfold item, value1, shape0 in *. rewrite Z.mod_small by lia.
  destruct (nth_error data (Z.to_nat i)) as [x|] eqn:E.
  - rewrite (nth_error_nth _ _ _ E). reflexivity.
  - apply nth_error_None in E. lia.
Qed.

Lemma item2_value2 data i j : rectangular data -> (0 <= i < shape0 data)%Z -> (0 <= j < shape1 data)%Z ->
  item2 data i j = Ok (value2 data i j).
Proof.
  intros (H1 & H2 & H3) Hi Hj. unfold item2, value2, shape0, shape1 in *.
  rewrite Z.mod_small by lia.
  unfold item at 1. destruct (nth_error data (Z.to_nat i)) as [row|] eqn:E; [|apply nth_error_None in E; lia].
  cbn [bind]. rewrite (nth_error_nth _ _ _ E). apply nth_error_In in E.
  rewrite Forall_forall in H3. pose proof (H3 _ E) as El. apply item_value1.
  - destruct row; [|discriminate]. destruct (hd [] data); [congruence|discriminate].
  - unfold shape0. lia.
Qed.

Lemma value1_mod data i : value1 data (i mod shape0 data) = value1 data i.
Proof. unfold value1, shape0. destruct data; [|rewrite Z.mod_mod by (cbn [length]; lia); reflexivity]. destruct (Z.to_nat _), (Z.to_nat _); reflexivity. Qed.

Lemma row_length data i : rectangular data -> length (nth (Z.to_nat (i mod shape0 data)) data []) = length (hd [] data).
Proof.
  intros (H1 & H2 & H3). rewrite Forall_forall in H3. apply H3, nth_In.
  assert (0 < length data)%nat by (destruct data; [congruence|cbn; lia]).
  unfold shape0. pose proof (Z.mod_pos_bound i (Z.of_nat (length data))). lia.
Qed.

Lemma shape0_pos {A} (data : list A) : data <> [] -> (0 < shape0 data)%Z.
Proof. unfold shape0. destruct data; [congruence|cbn [length]; lia]. Qed.

Lemma shape_pos data : rectangular data -> (0 < shape0 data)%Z /\ (0 < shape1 data)%Z.
Proof. intros (H1 & H2 & H3). split; [apply shape0_pos, H1|]. unfold shape1. destruct (hd [] data); [congruence|cbn [length]; lia]. Qed.

Lemma value2_ext data i j i' j' : rectangular data -> (i mod shape0 data = i' mod shape0 data)%Z -> (j mod shape1 data = j' mod shape1 data)%Z ->
  value2 data i j = value2 data i' j'.
Proof.
  intros H Hi Hj. unfold value2. fold (shape0 data). rewrite Hi. unfold value1. rewrite (row_length data i' H).
  fold (shape1 data). rewrite Hj. reflexivity.
Qed.

Lemma split_ok n N : (0 < N)%Z -> split n N = Ok ((Qfloor n mod N)%Z, n - inject_Z (Qfloor n)).
Proof. intros H. unfold split. destruct (Z.eqb_spec N 0); [lia|reflexivity]. Qed.

(** ** The interpolation formulas *)

Definition tri (angle : Z) (t s P00 P10 P01 P11 : Q) : Q :=
  if (angle =? 60)%Z then
    if Qlt_le_dec 1 (t + s) then (1 - s) * P10 + (1 - t) * P01 + (t + s - 1) * P11
    else t * P10 + s * P01 + (1 - t - s) * P00
  else if (angle =? 90)%Z then
    (1 - t) * (1 - s) * P00 + t * (1 - s) * P10 + t * s * P11 + (1 - t) * s * P01
  else
    if Qlt_le_dec s t then (1 - t) * P00 + s * P11 + (t - s) * P10
    else (1 - s) * P00 + t * P11 + (s - t) * P01.

Definition cell (angle : Z) (P : Z -> Z -> Q) (n m : Q) : Q :=
  tri angle (n - inject_Z (Qfloor n)) (m - inject_Z (Qfloor m))
    (P (Qfloor n) (Qfloor m)) (P (Qfloor n + 1)%Z (Qfloor m))
    (P (Qfloor n) (Qfloor m + 1)%Z) (P (Qfloor n + 1)%Z (Qfloor m + 1)%Z).

Definition no_period (period : option Q) : Prop :=
  match period with Some p => p == 0 | None => True end.

Lemma restack_none argsort period l : no_period period -> restack argsort period l = Ok l.
Proof. destruct period as [p|]; [|reflexivity]. cbn. intros H. rewrite (proj2 (Qeq_bool_iff p 0) H). reflexivity. Qed.

Lemma interpolant1_ok argsort period data n : data <> [] -> no_period period ->
  interpolant1 argsort period data n =
  Ok ((1 - (n - inject_Z (Qfloor n))) * value1 data (Qfloor n) + (n - inject_Z (Qfloor n)) * value1 data (Qfloor n + 1)).
Proof.
  intros H Hp. pose proof (shape0_pos data H). unfold interpolant1. rewrite split_ok by assumption. cbn [bind].
  rewrite !item_value1 by (try assumption; apply Z.mod_pos_bound; assumption). cbn [bind].
  rewrite restack_none by assumption. cbn [bind]. rewrite !value1_mod. do 3 f_equal.
  unfold value1. fold (shape0 data). rewrite Zplus_mod_idemp_l. reflexivity.
Qed.

Ltac value2_tac data H :=
  rewrite ?(item2_value2 data) by (try exact H; apply Z.mod_pos_bound; apply (shape_pos data H)); cbn [bind].

Lemma value2_00 data i j : rectangular data -> value2 data (i mod shape0 data) (j mod shape1 data) = value2 data i j.
Proof. intros H. destruct (shape_pos data H). apply value2_ext; [assumption| |]; apply Z.mod_mod; lia. Qed.
Lemma value2_10 data i j : rectangular data -> value2 data ((i mod shape0 data + 1) mod shape0 data) (j mod shape1 data) = value2 data (i + 1) j.
Proof. intros H. destruct (shape_pos data H). apply value2_ext; [assumption| |]; rewrite Z.mod_mod by lia; [apply Zplus_mod_idemp_l|reflexivity]. Qed.
Lemma value2_01 data i j : rectangular data -> value2 data (i mod shape0 data) ((j mod shape1 data + 1) mod shape1 data) = value2 data i (j + 1).
Proof. intros H. destruct (shape_pos data H). apply value2_ext; [assumption| |]; rewrite Z.mod_mod by lia; [reflexivity|apply Zplus_mod_idemp_l]. Qed.
Lemma value2_11 data i j : rectangular data -> value2 data ((i mod shape0 data + 1) mod shape0 data) ((j mod shape1 data + 1) mod shape1 data) = value2 data (i + 1) (j + 1).
Proof. intros H. destruct (shape_pos data H). apply value2_ext; [assumption| |]; rewrite Z.mod_mod by lia; apply Zplus_mod_idemp_l. Qed.

Lemma interpolant2_ok argsort angle period data n m : lattice_angle angle -> rectangular data -> no_period period ->
  interpolant2 argsort angle period data n m = Ok (cell angle (value2 data) n m).
Proof.
  intros Ha H Hp. destruct (shape_pos data H) as [H1 H2]. unfold cell, tri.
  destruct Ha as [-> | [-> | ->]]; cbn [interpolant2 Z.eqb Pos.eqb];
    unfold interpolant2; cbn [Z.eqb Pos.eqb];
    unfold interpolant60, interpolant90, interpolant120; rewrite !split_ok by assumption; cbn [bind];
    value2_tac data H.
  - destruct (Qlt_le_dec _ _) as [c|c].
    + value2_tac data H. rewrite restack_none by assumption. cbn [bind].
      rewrite ?value2_11, ?value2_10, ?value2_01, ?value2_00 by assumption. reflexivity.
    + value2_tac data H. rewrite restack_none by assumption. cbn [bind].
      rewrite ?value2_11, ?value2_10, ?value2_01, ?value2_00 by assumption. reflexivity.
  - rewrite restack_none by assumption. cbn [bind].
    rewrite ?value2_11, ?value2_10, ?value2_01, ?value2_00 by assumption. reflexivity.
  - destruct (Qlt_le_dec _ _) as [c|c].
    + value2_tac data H. rewrite restack_none by assumption. cbn [bind].
      rewrite ?value2_11, ?value2_10, ?value2_01, ?value2_00 by assumption. reflexivity.
    + value2_tac data H. rewrite restack_none by assumption. cbn [bind].
      rewrite ?value2_11, ?value2_10, ?value2_01, ?value2_00 by assumption. reflexivity.
Qed.

(** ** At the mesh points *)

Lemma interpolant1_int argsort period data i : data <> [] -> no_period period ->
  exists y, interpolant1 argsort period data (inject_Z i) = Ok y /\ y == value1 data i.
Proof. intros H Hp. eexists. split; [apply interpolant1_ok; assumption|]. rewrite floor_int. ring. Qed.

Lemma tri_00 angle P00 P10 P01 P11 t s : t == 0 -> s == 0 -> tri angle t s P00 P10 P01 P11 == P00.
Proof.
  intros Ht Hs. unfold tri. destruct (angle =? 60)%Z; [|destruct (angle =? 90)%Z].
  - destruct (Qlt_le_dec _ _) as [c|c]; [lra|]. rewrite Ht, Hs. ring.
  - rewrite Ht, Hs. ring.
  - destruct (Qlt_le_dec _ _) as [c|c]; [lra|]. rewrite Ht, Hs. ring.
Qed.

Lemma interpolant2_int argsort angle period data i j : lattice_angle angle -> rectangular data -> no_period period ->
  exists y, interpolant2 argsort angle period data (inject_Z i) (inject_Z j) = Ok y /\ y == value2 data i j.
Proof.
  intros Ha H Hp. eexists. split; [apply interpolant2_ok; assumption|].
  unfold cell. rewrite !floor_int. apply tri_00; lra.
Qed.

(** ** Weighted averages *)

Lemma interpolant1_average argsort period data n : data <> [] -> no_period period ->
  exists y, interpolant1 argsort period data n = Ok y /\ average (corners1 n) (value1 data) y.
Proof.
  intros H Hp. eexists. split; [apply interpolant1_ok; assumption|]. pose proof (frac_bound n) as Hf.
  exists (fun i => if (i =? Qfloor n)%Z then 1 - (n - inject_Z (Qfloor n)) else n - inject_Z (Qfloor n)).
  unfold corners1. cbn [map qsum]. rewrite Z.eqb_refl. destruct (Z.eqb_spec (Qfloor n + 1) (Qfloor n)); [lia|].
  split; [|split; ring]. intros a _. destruct (a =? Qfloor n)%Z; lra.
Qed.

Definition weights (angle : Z) (t s : Q) : Q * Q * Q * Q :=
  if (angle =? 60)%Z then
    if Qlt_le_dec 1 (t + s) then (0, 1 - s, 1 - t, t + s - 1) else (1 - t - s, t, s, 0)
  else if (angle =? 90)%Z then ((1 - t) * (1 - s), t * (1 - s), (1 - t) * s, t * s)
  else if Qlt_le_dec s t then (1 - t, t - s, 0, s) else (1 - s, 0, s - t, t).

Lemma tri_weights angle t s P00 P10 P01 P11 : 0 <= t < 1 -> 0 <= s < 1 ->
  let '(a, b, c, d) := weights angle t s in
  0 <= a /\ 0 <= b /\ 0 <= c /\ 0 <= d /\ a + b + c + d == 1 /\
  tri angle t s P00 P10 P01 P11 == a * P00 + b * P10 + c * P01 + d * P11.
Proof.
  intros Ht Hs. unfold tri, weights. destruct (angle =? 60)%Z; [|destruct (angle =? 90)%Z].
  - destruct (Qlt_le_dec _ _) as [c|c]; repeat split; try lra; ring.
  - repeat split; try nra; ring.
  - destruct (Qlt_le_dec _ _) as [c|c]; repeat split; try lra; ring.
Qed.

Lemma cell_average angle P n m : average (corners2 n m) (fun c => P (fst c) (snd c)) (cell angle P n m).
Proof.
  pose proof (tri_weights angle _ _ (P (Qfloor n) (Qfloor m)) (P (Qfloor n + 1)%Z (Qfloor m))
    (P (Qfloor n) (Qfloor m + 1)%Z) (P (Qfloor n + 1)%Z (Qfloor m + 1)%Z) (frac_bound n) (frac_bound m)) as H.
  fold (cell angle P n m) in H. destruct (weights angle _ _) as [[[a b] c] d]. destruct H as (Ha & Hb & Hc & Hd & Hs & E).
  exists (fun z => if (fst z =? Qfloor n)%Z then if (snd z =? Qfloor m)%Z then a else c
             else if (snd z =? Qfloor m)%Z then b else d).
  unfold corners2. cbn [map qsum fst snd]. rewrite !Z.eqb_refl.
  destruct (Z.eqb_spec (Qfloor n + 1) (Qfloor n)); [lia|]. destruct (Z.eqb_spec (Qfloor m + 1) (Qfloor m)); [lia|].
  split; [|split; lra]. intros z _. destruct (_ =? _)%Z, (_ =? _)%Z; assumption.
Qed.

Lemma interpolant2_average argsort angle period data n m : lattice_angle angle -> rectangular data -> no_period period ->
  exists y, interpolant2 argsort angle period data n m = Ok y /\
    average (corners2 n m) (fun c => value2 data (fst c) (snd c)) y.
Proof. intros Ha H Hp. eexists. split; [apply interpolant2_ok; assumption|]. apply cell_average. Qed.

Lemma average_bounds {A} (l : list A) f y lo hi : average l f y -> (forall a, In a l -> lo <= f a <= hi) -> lo <= y <= hi.
Proof.
  intros (w & Hw & Hs & E) Hf. rewrite E.
  assert (G : lo * qsum (map w l) <= qsum (map (fun a => w a * f a) l) <= hi * qsum (map w l)).
  { clear Hs E. induction l as [|x l IH]; cbn [map qsum]; [lra|].
    assert (IH' := IH (fun a Ha => Hw a (or_intror Ha)) (fun a Ha => Hf a (or_intror Ha))).
    pose proof (Hw x (or_introl eq_refl)). pose proof (Hf x (or_introl eq_refl)). split; nra. }
  rewrite Hs in G. lra.
Qed.

(** ** Affine functions *)

Lemma tri_affine angle t s a b c P00 P10 P01 P11 :
  P00 == a -> P10 == a + b -> P01 == a + c -> P11 == a + b + c ->
  tri angle t s P00 P10 P01 P11 == a + b * t + c * s.
Proof.
  intros H1 H2 H3 H4. unfold tri. destruct (angle =? 60)%Z; [|destruct (angle =? 90)%Z];
    try destruct (Qlt_le_dec _ _); rewrite ?H1, ?H2, ?H3, ?H4; ring.
Qed.

Lemma interpolant2_affine argsort angle period data n m a b c : lattice_angle angle -> rectangular data -> no_period period ->
  (forall i j, In (i, j) (corners2 n m) -> value2 data i j == a + b * inject_Z i + c * inject_Z j) ->
  exists y, interpolant2 argsort angle period data n m = Ok y /\ y == a + b * n + c * m.
Proof.
  intros Ha H Hp Hc. eexists. split; [apply interpolant2_ok; assumption|]. unfold cell, corners2 in *.
  rewrite (tri_affine angle _ _ (a + b * inject_Z (Qfloor n) + c * inject_Z (Qfloor m)) b c); [ring| | | |];
    rewrite Hc by (cbn; auto 6); rewrite ?inject_Z_plus; change (inject_Z 1) with 1; ring.
Qed.

Lemma interpolant1_affine argsort period data n a b : data <> [] -> no_period period ->
  (forall i, In i (corners1 n) -> value1 data i == a + b * inject_Z i) ->
  exists y, interpolant1 argsort period data n = Ok y /\ y == a + b * n.
Proof.
  intros H Hp Hc. eexists. split; [apply interpolant1_ok; assumption|].
  rewrite !Hc by (cbn; auto). rewrite inject_Z_plus. change (inject_Z 1) with 1. ring.
Qed.

(** ** Translations *)

Lemma interpolant1_periodic argsort period data n z : data <> [] -> no_period period ->
  exists y y', interpolant1 argsort period data n = Ok y /\
    interpolant1 argsort period data (n + inject_Z (z * Z.of_nat (length data))) = Ok y' /\ y == y'.
Proof.
  intros H Hp. do 2 eexists. split; [apply interpolant1_ok; assumption|]. split; [apply interpolant1_ok; assumption|].
  rewrite floor_plus. assert (E : forall i, value1 data (i + z * Z.of_nat (length data)) = value1 data i).
  { intros i. unfold value1. rewrite Z.mod_add; [reflexivity|]. pose proof (shape0_pos data H). unfold shape0 in *. lia. }
  replace (Qfloor n + z * Z.of_nat (length data) + 1)%Z with (Qfloor n + 1 + z * Z.of_nat (length data))%Z by ring.
  rewrite !E, inject_Z_plus. ring.
Qed.

Lemma tri_comp angle t t' s s' P00 P10 P01 P11 : t == t' -> s == s' -> tri angle t s P00 P10 P01 P11 == tri angle t' s' P00 P10 P01 P11.
Proof.
  intros Ht Hs. unfold tri. destruct (angle =? 60)%Z; [|destruct (angle =? 90)%Z].
  - destruct (Qlt_le_dec _ _), (Qlt_le_dec _ _); try lra; rewrite Ht, Hs; ring.
  - rewrite Ht, Hs; ring.
  - destruct (Qlt_le_dec _ _), (Qlt_le_dec _ _); try lra; rewrite Ht, Hs; ring.
Qed.

Lemma interpolant2_periodic argsort angle period data n m z w : lattice_angle angle -> rectangular data -> no_period period ->
  exists y y', interpolant2 argsort angle period data n m = Ok y /\
    interpolant2 argsort angle period data (n + inject_Z (z * Z.of_nat (length data)))
      (m + inject_Z (w * Z.of_nat (length (hd [] data)))) = Ok y' /\ y == y'.
Proof.
  intros Ha H Hp. do 2 eexists. split; [apply interpolant2_ok; assumption|]. split; [apply interpolant2_ok; assumption|].
  destruct (shape_pos data H). unfold cell. rewrite !floor_plus.
  assert (E : forall i j, value2 data (i + z * shape0 data) (j + w * shape1 data) = value2 data i j).
  { intros i j. apply value2_ext; [assumption| |]; apply Z.mod_add; lia. }
  fold (shape0 data) (shape1 data).
  replace (Qfloor n + z * shape0 data + 1)%Z with (Qfloor n + 1 + z * shape0 data)%Z by ring.
  replace (Qfloor m + w * shape1 data + 1)%Z with (Qfloor m + 1 + w * shape1 data)%Z by ring.
  rewrite !E. apply tri_comp; rewrite inject_Z_plus; ring.
Qed.

(** ** Continuity *)

(** A function that is Lipschitz on all intervals between integers. *)
Lemma lip_glue (g : Q -> Q) L : (forall x y, x == y -> g x == g y) ->
  (forall k x y, inject_Z k <= x -> x <= y -> y <= inject_Z k + 1 -> - (L * (y - x)) <= g y - g x <= L * (y - x)) ->
  forall x y, x <= y -> - (L * (y - x)) <= g y - g x <= L * (y - x).
Proof.
  intros Hg H. assert (G : forall d x y, (0 <= d)%Z -> x <= y -> Qfloor y = (Qfloor x + d)%Z -> - (L * (y - x)) <= g y - g x <= L * (y - x)).
  { intros d x y Hd. revert x. pattern d. apply Z_of_nat_complete in Hd as [k ->].
    induction k as [|k IH].
    - intros x Hx E. pose proof (frac_bound x). pose proof (frac_bound y). replace (Qfloor x + Z.of_nat 0)%Z with (Qfloor x) in E by lia. rewrite E in *.
      apply (H (Qfloor x)); lra.
    - intros x Hx E. set (c := inject_Z (Qfloor x + 1)).
      assert (Ec : c == inject_Z (Qfloor x) + 1) by (unfold c; rewrite inject_Z_plus; reflexivity).
      pose proof (frac_bound x). pose proof (frac_bound y).
      assert (Hc : c <= y).
      { apply Qle_trans with (inject_Z (Qfloor y)); [|lra]. unfold c. rewrite <- Zle_Qle. lia. }
      pose proof (H (Qfloor x) x c ltac:(lra) ltac:(lra) ltac:(lra)) as G1.
      pose proof (IH c Hc ltac:(unfold c; rewrite floor_int; lia)) as G2. lra. }
  intros x y Hx. apply (G (Qfloor y - Qfloor x)%Z); [|assumption|lia]. pose proof (Qfloor_resp_le x y Hx). lia.
Qed.

Lemma tri_lip angle L t t' s P00 P10 P01 P11 : 0 <= t -> t <= t' -> t' <= 1 -> 0 <= s < 1 ->
  - L <= P10 - P00 <= L -> - L <= P11 - P01 <= L ->
  - (L * (t' - t)) <= tri angle t' s P00 P10 P01 P11 - tri angle t s P00 P10 P01 P11 <= L * (t' - t).
Proof.
  intros Ht Htt Ht' Hs H0 H1. set (h0 := P10 - P00) in *. set (h1 := P11 - P01) in *.
  assert (B0 : forall d, 0 <= d -> - (L * d) <= d * h0 <= L * d) by (intros; nra).
  assert (B1 : forall d, 0 <= d -> - (L * d) <= d * h1 <= L * d) by (intros; nra).
  unfold tri. destruct (angle =? 60)%Z; [|destruct (angle =? 90)%Z].
  - destruct (Qlt_le_dec 1 (t' + s)) as [c|c], (Qlt_le_dec 1 (t + s)) as [d|d].
    + pose proof (B1 (t' - t) ltac:(lra)). assert (E : (t' - t) * h1 == (1 - s) * P10 + (1 - t') * P01 + (t' + s - 1) * P11 - ((1 - s) * P10 + (1 - t) * P01 + (t + s - 1) * P11)) by (unfold h1; ring). lra.
    + pose proof (B0 (1 - s - t) ltac:(lra)). pose proof (B1 (t' - (1 - s)) ltac:(lra)).
      assert (E : (1 - s - t) * h0 + (t' - (1 - s)) * h1 == (1 - s) * P10 + (1 - t') * P01 + (t' + s - 1) * P11 - (t * P10 + s * P01 + (1 - t - s) * P00)) by (unfold h0, h1; ring). lra.
    + lra.
    + pose proof (B0 (t' - t) ltac:(lra)). assert (E : (t' - t) * h0 == t' * P10 + s * P01 + (1 - t' - s) * P00 - (t * P10 + s * P01 + (1 - t - s) * P00)) by (unfold h0; ring). lra.
  - pose proof (B0 ((t' - t) * (1 - s)) ltac:(nra)). pose proof (B1 ((t' - t) * s) ltac:(nra)).
    assert (E : (t' - t) * (1 - s) * h0 + (t' - t) * s * h1 ==
      (1 - t') * (1 - s) * P00 + t' * (1 - s) * P10 + t' * s * P11 + (1 - t') * s * P01 -
      ((1 - t) * (1 - s) * P00 + t * (1 - s) * P10 + t * s * P11 + (1 - t) * s * P01)) by (unfold h0, h1; ring).
    rewrite <- E. assert (L * (t' - t) == L * ((t' - t) * (1 - s)) + L * ((t' - t) * s)) by ring. lra.
  - destruct (Qlt_le_dec s t') as [c|c], (Qlt_le_dec s t) as [d|d].
    + pose proof (B0 (t' - t) ltac:(lra)). assert (E : (t' - t) * h0 == (1 - t') * P00 + s * P11 + (t' - s) * P10 - ((1 - t) * P00 + s * P11 + (t - s) * P10)) by (unfold h0; ring). lra.
    + pose proof (B1 (s - t) ltac:(lra)). pose proof (B0 (t' - s) ltac:(lra)).
      assert (E : (s - t) * h1 + (t' - s) * h0 == (1 - t') * P00 + s * P11 + (t' - s) * P10 - ((1 - s) * P00 + t * P11 + (s - t) * P01)) by (unfold h0, h1; ring). lra.
    + lra.
    + pose proof (B1 (t' - t) ltac:(lra)). assert (E : (t' - t) * h1 == (1 - s) * P00 + t' * P11 + (s - t') * P01 - ((1 - s) * P00 + t * P11 + (s - t) * P01)) by (unfold h1; ring). lra.
Qed.

Lemma tri_end angle s P00 P10 P01 P11 R0 R1 t : t == 1 -> 0 <= s < 1 ->
  tri angle t s P00 P10 P01 P11 == tri angle 0 s P10 R0 P11 R1.
Proof.
  intros Ht Hs. unfold tri. destruct (angle =? 60)%Z; [|destruct (angle =? 90)%Z].
  - destruct (Qlt_le_dec 1 (t + s)) as [c|c], (Qlt_le_dec 1 (0 + s)) as [d|d]; try lra; rewrite Ht; [ring|].
    assert (E : s == 0) by lra. rewrite E. ring.
  - rewrite Ht. ring.
  - destruct (Qlt_le_dec s t) as [c|c], (Qlt_le_dec s 0) as [d|d]; try lra; rewrite Ht; ring.
Qed.

(** On a closed cell, the formula of that cell applies. *)
Lemma cell_closed angle P n m k : inject_Z k <= n -> n <= inject_Z k + 1 ->
  cell angle P n m == tri angle (n - inject_Z k) (m - inject_Z (Qfloor m))
    (P k (Qfloor m)) (P (k + 1)%Z (Qfloor m)) (P k (Qfloor m + 1)%Z) (P (k + 1)%Z (Qfloor m + 1)%Z).
Proof.
  intros H1 H2. unfold cell. destruct (Qlt_le_dec n (inject_Z k + 1)) as [c|c].
  - rewrite (floor_unique n k H1 c). reflexivity.
  - assert (E : n == inject_Z (k + 1)) by (rewrite inject_Z_plus; change (inject_Z 1) with 1; lra).
    rewrite (Qfloor_comp _ _ E), floor_int.
    rewrite (tri_comp angle (n - inject_Z (k + 1)) 0 _ (m - inject_Z (Qfloor m)) _ _ _ _ ltac:(lra) ltac:(reflexivity)).
    symmetry. apply tri_end; [|apply frac_bound]. rewrite inject_Z_plus in E. change (inject_Z 1) with 1 in E. lra.
Qed.

Lemma cell_comp angle P n n' m m' : n == n' -> m == m' -> cell angle P n m == cell angle P n' m'.
Proof.
  intros Hn Hm. unfold cell. rewrite (Qfloor_comp _ _ Hn), (Qfloor_comp _ _ Hm). apply tri_comp; [rewrite Hn|rewrite Hm]; reflexivity.
Qed.

Lemma cell_lip_n angle P L n n' m : (forall i j, - L <= P (i + 1)%Z j - P i j <= L) -> n <= n' ->
  - (L * (n' - n)) <= cell angle P n' m - cell angle P n m <= L * (n' - n).
Proof.
  intros H. apply (lip_glue (fun n => cell angle P n m)).
  - intros x y E. apply cell_comp; [exact E|reflexivity].
  - intros k x y H1 H2 H3. rewrite !(cell_closed angle P _ m k) by lra.
    pose proof (tri_lip angle L (x - inject_Z k) (y - inject_Z k) (m - inject_Z (Qfloor m)) (P k (Qfloor m)) (P (k + 1)%Z (Qfloor m)) (P k (Qfloor m + 1)%Z) (P (k + 1)%Z (Qfloor m + 1)%Z)
      ltac:(lra) ltac:(lra) ltac:(lra) (frac_bound m) (H k _) (H k _)) as T. lra.
Qed.

Lemma tri_swap angle t s P00 P10 P01 P11 : tri angle t s P00 P10 P01 P11 == tri angle s t P00 P01 P10 P11.
Proof.
  unfold tri. destruct (angle =? 60)%Z; [|destruct (angle =? 90)%Z].
  - destruct (Qlt_le_dec _ _), (Qlt_le_dec _ _); try lra; ring.
  - ring.
  - destruct (Qlt_le_dec _ _), (Qlt_le_dec _ _); try lra; try ring. assert (E : s == t) by lra. rewrite E. ring.
Qed.

Lemma cell_swap angle P n m : cell angle P n m == cell angle (fun i j => P j i) m n.
Proof. unfold cell. apply tri_swap. Qed.

Lemma cell_lip_m angle P L n m m' : (forall i j, - L <= P i (j + 1)%Z - P i j <= L) -> m <= m' ->
  - (L * (m' - m)) <= cell angle P n m' - cell angle P n m <= L * (m' - m).
Proof. intros H Hm. rewrite !(cell_swap angle P). apply cell_lip_n; [|exact Hm]. intros i j. apply H. Qed.

Lemma cell_lip angle P L1 L2 n m n' m' :
  (forall i j, - L1 <= P (i + 1)%Z j - P i j <= L1) -> (forall i j, - L2 <= P i (j + 1)%Z - P i j <= L2) ->
  Qabs (cell angle P n' m' - cell angle P n m) <= L1 * Qabs (n' - n) + L2 * Qabs (m' - m).
Proof.
  intros H1 H2.
  assert (A : - (L1 * Qabs (n' - n)) <= cell angle P n' m' - cell angle P n m' <= L1 * Qabs (n' - n)).
  { destruct (Qlt_le_dec n n') as [c|c].
    - rewrite (Qabs_pos (n' - n)) by lra. apply cell_lip_n; [exact H1|lra].
    - rewrite (Qabs_neg (n' - n)) by lra. pose proof (cell_lip_n angle P L1 n' n m' H1 c). lra. }
  assert (B : - (L2 * Qabs (m' - m)) <= cell angle P n m' - cell angle P n m <= L2 * Qabs (m' - m)).
  { destruct (Qlt_le_dec m m') as [c|c].
    - rewrite (Qabs_pos (m' - m)) by lra. apply cell_lip_m; [exact H2|lra].
    - rewrite (Qabs_neg (m' - m)) by lra. pose proof (cell_lip_m angle P L2 n m' m H2 c). lra. }
  apply Qabs_Qle_condition. lra.
Qed.

Lemma interpolant2_lip argsort angle period data n m n' m' L1 L2 : lattice_angle angle -> rectangular data -> no_period period ->
  (forall i j, Qabs (value2 data (i + 1) j - value2 data i j) <= L1) ->
  (forall i j, Qabs (value2 data i (j + 1) - value2 data i j) <= L2) ->
  exists y y', interpolant2 argsort angle period data n m = Ok y /\ interpolant2 argsort angle period data n' m' = Ok y' /\
    Qabs (y' - y) <= L1 * Qabs (n' - n) + L2 * Qabs (m' - m).
Proof.
  intros Ha H Hp H1 H2. do 2 eexists. split; [apply interpolant2_ok; assumption|]. split; [apply interpolant2_ok; assumption|].
  apply cell_lip; intros i j; apply Qabs_Qle_condition; [apply H1|apply H2].
Qed.

Lemma interpolant1_lip argsort period data n n' L : data <> [] -> no_period period ->
  (forall i, Qabs (value1 data (i + 1) - value1 data i) <= L) ->
  exists y y', interpolant1 argsort period data n = Ok y /\ interpolant1 argsort period data n' = Ok y' /\
    Qabs (y' - y) <= L * Qabs (n' - n).
Proof.
  intros H Hp HL. do 2 eexists. split; [apply interpolant1_ok; assumption|]. split; [apply interpolant1_ok; assumption|].
  pose (P := fun i (j : Z) => value1 data i).
  assert (E : forall n, (1 - (n - inject_Z (Qfloor n))) * value1 data (Qfloor n) + (n - inject_Z (Qfloor n)) * value1 data (Qfloor n + 1) == cell 90 P n 0).
  { intros x. unfold cell, tri, P. cbn [Z.eqb Pos.eqb]. change (Qfloor 0) with 0%Z. change (inject_Z 0) with 0. ring. }
  rewrite !E. pose proof (cell_lip 90 P L 0 n 0 n' 0) as C.
  apply Qle_trans with (L * Qabs (n' - n) + 0 * Qabs (0 - 0)); [apply C|lra].
  - intros i j. apply Qabs_Qle_condition, HL.
  - intros i j. unfold P. lra.
Qed.

(** ** Values on a periodic axis *)

Lemma restack_period argsort p l : sorts argsort -> 0 < p -> l <> [] ->
  exists y, restack argsort (Some p) l = Ok y /\ shifted p l y /\ forall z, shifted p l z -> var y <= var z.
Proof.
  intros Hs Hp Hl. unfold restack. destruct (Qeq_bool p 0) eqn:E; [apply Qeq_bool_iff in E; lra|].
  apply stack_spec; assumption.
Qed.

Lemma average2 t a b : 0 <= t < 1 -> average [0; 1]%Z (fun i => if (i =? 0)%Z then a else b) ((1 - t) * a + t * b).
Proof.
  intros H. exists (fun i => if (i =? 0)%Z then 1 - t else t). cbn [map qsum Z.eqb]. split; [|split; ring].
  intros i _. destruct (i =? 0)%Z; lra.
Qed.

Lemma interpolant1_period argsort p data n : sorts argsort -> 0 < p -> data <> [] ->
  exists A B y, interpolant1 argsort (Some p) data n = Ok y /\
    congruent p (value1 data (Qfloor n)) A /\ congruent p (value1 data (Qfloor n + 1)) B /\
    Qabs (B - A) <= p / 2 /\
    y == (1 - (n - inject_Z (Qfloor n))) * A + (n - inject_Z (Qfloor n)) * B.
Proof.
  intros Hs Hp H. pose proof (shape0_pos data H). unfold interpolant1. rewrite split_ok by assumption. cbn [bind].
  rewrite !item_value1 by (try assumption; apply Z.mod_pos_bound; assumption). cbn [bind].
  assert (E : value1 data ((Qfloor n mod shape0 data + 1) mod shape0 data) = value1 data (Qfloor n + 1)).
  { rewrite value1_mod. unfold value1. fold (shape0 data). rewrite Zplus_mod_idemp_l. reflexivity. }
  rewrite E, value1_mod. clear E.
  edestruct (restack_period argsort p) as (y & E & Sh & Opt); [eassumption|eassumption| |rewrite E]; [discriminate|].
  cbn [bind]. inversion Sh as [|x0 A l0 l1 CA Sh1]; subst. inversion Sh1 as [|x1 B l2 l3 CB Sh2]; subst. inversion Sh2; subst.
  exists A, B. eexists. split; [reflexivity|]. split; [exact CA|]. split; [exact CB|]. split; [|reflexivity].
  (* otherwise, moving B closer to A would lower the variance *)
  assert (V : forall a b, var [a; b] == (b - a) * (b - a) * (1 # 4)) by (intros; unfold var, mean, qlen; cbn [map qsum length]; change (inject_Z (Z.of_nat 2)) with 2; field).
  assert (D : forall c : Z, (B - A) * (B - A) <= (B + inject_Z c * p - A) * (B + inject_Z c * p - A)).
  { intros c. assert (S' : shifted p [value1 data (Qfloor n); value1 data (Qfloor n + 1)] [A; B + inject_Z c * p]).
    { constructor; [exact CA|]. constructor; [|constructor]. destruct CB as [z Ez]. exists (z + c)%Z. rewrite Ez, inject_Z_plus. ring. }
    pose proof (Opt _ S') as O. rewrite !V in O. lra. }
  pose proof (D 1%Z) as D1. pose proof (D (-1)%Z) as D2. change (inject_Z 1) with 1 in D1. change (inject_Z (-1)) with (-1) in D2.
  apply Qabs_Qle_condition. set (d := B - A) in *.
  assert (X1 : 0 <= p * (2 * d + p)).
  { assert (E1 : p * (2 * d + p) == (B + 1 * p - A) * (B + 1 * p - A) - d * d) by (unfold d; ring). lra. }
  assert (X2 : 0 <= p * (p - 2 * d)).
  { assert (E1 : p * (p - 2 * d) == (B + -1 * p - A) * (B + -1 * p - A) - d * d) by (unfold d; ring). lra. }
  assert (p / 2 == p * (1 # 2)) by field. split.
  - destruct (Qlt_le_dec d (- (p / 2))); [nra|lra].
  - destruct (Qlt_le_dec (p / 2) d); [nra|lra].
Qed.

(** In two dimensions: a weighted average of values congruent to the corners. *)
Lemma interpolant2_period argsort angle p data n m : lattice_angle angle -> rectangular data -> sorts argsort -> 0 < p ->
  exists f y, interpolant2 argsort angle (Some p) data n m = Ok y /\
    (forall i j, In (i, j) (corners2 n m) -> congruent p (value2 data i j) (f (i, j))) /\
    average (corners2 n m) f y /\
    (forall i j, n == inject_Z i -> m == inject_Z j -> y == f (i, j)).
Proof.
  intros Ha H Hs Hp. destruct (shape_pos data H) as [H1 H2].
  set (v00 := value2 data (Qfloor n) (Qfloor m)). set (v10 := value2 data (Qfloor n + 1) (Qfloor m)).
  set (v01 := value2 data (Qfloor n) (Qfloor m + 1)). set (v11 := value2 data (Qfloor n + 1) (Qfloor m + 1)).
  assert (C0 : forall x, congruent p x x) by (intros x; exists 0%Z; change (inject_Z 0) with 0; ring).
  assert (G : exists x00 x10 x01 x11, interpolant2 argsort angle (Some p) data n m =
      Ok (tri angle (n - inject_Z (Qfloor n)) (m - inject_Z (Qfloor m)) x00 x10 x01 x11) /\
      congruent p v00 x00 /\ congruent p v10 x10 /\ congruent p v01 x01 /\ congruent p v11 x11).
  { unfold tri, interpolant2. destruct Ha as [-> | [-> | ->]]; cbn [Z.eqb Pos.eqb];
      unfold interpolant60, interpolant90, interpolant120; rewrite !split_ok by assumption; cbn [bind];
      value2_tac data H.
    - destruct (Qlt_le_dec _ _) as [c|c]; value2_tac data H;
        rewrite ?value2_11, ?value2_10, ?value2_01, ?value2_00 by assumption; fold v00 v10 v01 v11;
        (edestruct (restack_period argsort p) as (y & E & Sh & _); [eassumption|eassumption| |rewrite E]; [discriminate|]); cbn [bind];
        inversion Sh as [|? A ? ? CA Sh1]; subst; inversion Sh1 as [|? B ? ? CB Sh2]; subst; inversion Sh2 as [|? C ? ? CC Sh3]; subst; inversion Sh3; subst.
      + exists v00, A, B, C. auto.
      + exists C, A, B, v11. auto.
    - rewrite ?value2_11, ?value2_10, ?value2_01, ?value2_00 by assumption; fold v00 v10 v01 v11;
        (edestruct (restack_period argsort p) as (y & E & Sh & _); [eassumption|eassumption| |rewrite E]; [discriminate|]); cbn [bind];
        inversion Sh as [|? A ? ? CA Sh1]; subst; inversion Sh1 as [|? B ? ? CB Sh2]; subst; inversion Sh2 as [|? C ? ? CC Sh3]; subst; inversion Sh3 as [|? D ? ? CD Sh4]; subst; inversion Sh4; subst.
      exists A, B, D, C. auto.
    - destruct (Qlt_le_dec _ _) as [c|c]; value2_tac data H;
        rewrite ?value2_11, ?value2_10, ?value2_01, ?value2_00 by assumption; fold v00 v10 v01 v11;
        (edestruct (restack_period argsort p) as (y & E & Sh & _); [eassumption|eassumption| |rewrite E]; [discriminate|]); cbn [bind];
        inversion Sh as [|? A ? ? CA Sh1]; subst; inversion Sh1 as [|? B ? ? CB Sh2]; subst; inversion Sh2 as [|? C ? ? CC Sh3]; subst; inversion Sh3; subst.
      + exists A, C, v01, B. auto.
      + exists A, v10, C, B. auto. }
  destruct G as (x00 & x10 & x01 & x11 & E & G00 & G10 & G01 & G11).
  set (P := fun i j : Z => if (i =? Qfloor n)%Z then if (j =? Qfloor m)%Z then x00 else x01 else if (j =? Qfloor m)%Z then x10 else x11).
  assert (Ec : cell angle P n m = tri angle (n - inject_Z (Qfloor n)) (m - inject_Z (Qfloor m)) x00 x10 x01 x11).
  { unfold cell, P. rewrite !Z.eqb_refl. destruct (Z.eqb_spec (Qfloor n + 1) (Qfloor n)); [lia|]. destruct (Z.eqb_spec (Qfloor m + 1) (Qfloor m)); [lia|]. reflexivity. }
  exists (fun c => P (fst c) (snd c)). eexists. split; [exact E|]. split; [|split].
  - intros i j Hij. unfold corners2 in Hij. cbn [In] in Hij. unfold P. cbn [fst snd].
    destruct (Z.eqb_spec (Qfloor n + 1) (Qfloor n)); [lia|]. destruct (Z.eqb_spec (Qfloor m + 1) (Qfloor m)); [lia|].
    destruct Hij as [Hij|[Hij|[Hij|[Hij|[]]]]]; injection Hij as <- <-; rewrite ?Z.eqb_refl;
      try (rewrite (proj2 (Z.eqb_neq _ _) n0)); try (rewrite (proj2 (Z.eqb_neq _ _) n1)); assumption.
  - rewrite <- Ec. apply cell_average.
  - intros i j Ei Ej. rewrite tri_00; cbn [fst snd].
    + unfold P. rewrite (Qfloor_comp _ _ Ei), (Qfloor_comp _ _ Ej), !floor_int, !Z.eqb_refl. reflexivity.
    + rewrite (Qfloor_comp _ _ Ei), floor_int. lra.
    + rewrite (Qfloor_comp _ _ Ej), floor_int. lra.
Qed.

(** ** Resizing *)

Lemma collect_ok {A B} (f : A -> res B) (g : A -> B -> Prop) l : (forall x, In x l -> exists y, f x = Ok y /\ g x y) ->
  exists ys, collect f l = Ok ys /\ Forall2 g l ys.
Proof.
  induction l as [|x l IH]; intros H; cbn [collect].
  - exists []. split; [reflexivity|constructor].
  - destruct (H x (or_introl eq_refl)) as (y & E & G). destruct (IH (fun z Hz => H z (or_intror Hz))) as (ys & Es & Gs).
    rewrite E. cbn [bind]. rewrite Es. cbn [bind]. exists (y :: ys). split; [reflexivity|constructor; assumption].
Qed.

Lemma Forall2_seq_nth {B} (g : nat -> B -> Prop) d n : forall s ys, Forall2 g (seq s n) ys ->
  length ys = n /\ forall i, (i < n)%nat -> g (s + i)%nat (nth i ys d).
Proof.
  induction n as [|n IH]; intros s ys H; cbn [seq] in H; inversion H as [|x y l l' Hxy Hl]; subst.
  - split; [reflexivity|]. intros; lia.
  - apply IH in Hl as [El Hl]. cbn [length]. split; [lia|]. intros [|i] Hi; cbn [nth].
    + rewrite Nat.add_0_r. exact Hxy.
    + replace (s + S i)%nat with (S s + i)%nat by lia. apply Hl. lia.
Qed.

Lemma interpolant1_comp argsort period data n n' : data <> [] -> no_period period -> n == n' ->
  exists y y', interpolant1 argsort period data n = Ok y /\ interpolant1 argsort period data n' = Ok y' /\ y == y'.
Proof.
  intros H Hp E. do 2 eexists. split; [apply interpolant1_ok; assumption|]. split; [apply interpolant1_ok; assumption|].
  rewrite (Qfloor_comp _ _ E), E. reflexivity.
Qed.

(** The new data, pointwise. *)
Lemma resize1_ok argsort period data n : data <> [] -> no_period period -> (0 < n)%nat ->
  exists ys, resize1 argsort period true data n = Ok ys /\ length ys = n /\
    forall i, (i < n)%nat -> exists y, interpolant1 argsort period data (inject_Z (Z.of_nat (i * length data)) / inject_Z (Z.of_nat n)) = Ok y /\
      nth i ys 0 == y.
Proof.
  intros H Hp Hn. unfold resize1, resize_scale. destruct (Z.eqb_spec (Z.of_nat n) 0); [lia|]. cbn [bind].
  edestruct (collect_ok (fun i => interpolant1 argsort period data (inject_Z (Z.of_nat i) * (inject_Z (shape0 data) / inject_Z (Z.of_nat n))))
    (fun i y => exists y', interpolant1 argsort period data (inject_Z (Z.of_nat (i * length data)) / inject_Z (Z.of_nat n)) = Ok y' /\ y == y')) as (ys & E & F).
  - intros i Hi. edestruct (interpolant1_comp argsort period data) as (y & y' & E1 & E2 & Ey); [eassumption|eassumption| |exists y; split; [exact E1|exists y'; split; [exact E2|exact Ey]]].
    unfold shape0. rewrite Nat2Z.inj_mul, inject_Z_mult. field. apply inj_nz. lia.
  - exists ys. split; [exact E|]. destruct (Forall2_seq_nth _ 0 _ _ _ F) as [El F']. split; [exact El|].
    intros i Hi. apply F'. exact Hi.
Qed.

(** Original points remain if the size is multiplied. *)
Lemma resize1_multiple argsort period data k : data <> [] -> no_period period -> (0 < k)%nat ->
  exists ys, resize1 argsort period true data (k * length data) = Ok ys /\ length ys = (k * length data)%nat /\
    forall i, (i < length data)%nat -> nth (k * i) ys 0 == nth i data 0.
Proof.
  intros H Hp Hk. pose proof (shape0_pos data H) as Hs. unfold shape0 in Hs.
  destruct (resize1_ok argsort period data (k * length data) H Hp ltac:(nia)) as (ys & E & El & F).
  exists ys. split; [exact E|]. split; [exact El|]. intros i Hi. destruct (F (k * i)%nat ltac:(nia)) as (y & Ey & Ny).
  rewrite Ny. clear Ny. rewrite interpolant1_ok in Ey by assumption. apply (f_equal (get_ok 0)) in Ey. cbn [get_ok] in Ey. rewrite <- Ey.
  assert (X : inject_Z (Z.of_nat (k * i * length data)) / inject_Z (Z.of_nat (k * length data)) == inject_Z (Z.of_nat i)).
  { rewrite !Nat2Z.inj_mul, !inject_Z_mult. field. split; apply inj_nz; lia. }
  rewrite (Qfloor_comp _ _ X), floor_int, X. ring_simplify. unfold value1. rewrite Z.mod_small by lia. rewrite Nat2Z.id. reflexivity.
Qed.

Lemma resize1_open argsort period data n : data <> [] -> no_period period -> (1 < n)%nat ->
  exists ys, resize1 argsort period false data n = Ok ys /\ length ys = n /\
    nth 0 ys 0 == hd 0 data /\ nth (n - 1) ys 0 == last data 0 /\
    (forall a b, (forall i, (i < length data)%nat -> nth i data 0 == a + b * inject_Z (Z.of_nat i)) ->
      forall i, (i < n)%nat -> nth i ys 0 == a + b * (inject_Z (Z.of_nat (i * (length data - 1))) / inject_Z (Z.of_nat (n - 1)))).
Proof.
  intros H Hp Hn. pose proof (shape0_pos data H) as Hs. unfold resize1, resize_scale. destruct (Z.eqb_spec (Z.of_nat n) 1); [lia|]. cbn [bind].
  set (sc := inject_Z (shape0 data - 1) / inject_Z (Z.of_nat n - 1)).
  assert (Hn1 : 0 < inject_Z (Z.of_nat n - 1)) by (change 0 with (inject_Z 0); rewrite <- Zlt_Qlt; lia).
  edestruct (collect_ok (fun i => interpolant1 argsort period data (inject_Z (Z.of_nat i) * sc))
    (fun i y => interpolant1 argsort period data (inject_Z (Z.of_nat i) * sc) = Ok y)) as (ys & E & F).
  { intros i Hi. eexists. split; [|rewrite interpolant1_ok by assumption; reflexivity]. apply interpolant1_ok; assumption. }
  exists ys. split; [exact E|]. destruct (Forall2_seq_nth _ 0 _ _ _ F) as [El F']. split; [exact El|].
  assert (Val : forall i, (i < n)%nat -> nth i ys 0 ==
    (1 - (inject_Z (Z.of_nat i) * sc - inject_Z (Qfloor (inject_Z (Z.of_nat i) * sc)))) * value1 data (Qfloor (inject_Z (Z.of_nat i) * sc)) +
    (inject_Z (Z.of_nat i) * sc - inject_Z (Qfloor (inject_Z (Z.of_nat i) * sc))) * value1 data (Qfloor (inject_Z (Z.of_nat i) * sc) + 1)).
  { intros i Hi. specialize (F' i Hi). rewrite interpolant1_ok in F' by assumption. cbn [Nat.add] in F'. apply (f_equal (get_ok 0)) in F'. cbn [get_ok] in F'. rewrite <- F'. reflexivity. }
  assert (At : forall i k, (i < n)%nat -> (k < length data)%nat -> inject_Z (Z.of_nat i) * sc == inject_Z (Z.of_nat k) -> nth i ys 0 == nth k data 0).
  { intros i k Hi Hk X. rewrite Val by exact Hi. rewrite (Qfloor_comp _ _ X), floor_int, X. ring_simplify.
    unfold value1. rewrite Z.mod_small by lia. rewrite Nat2Z.id. reflexivity. }
  unfold shape0 in *. split; [|split].
  - rewrite (At 0%nat 0%nat); [destruct data; reflexivity|lia|lia|]. change (inject_Z (Z.of_nat 0)) with 0. ring.
  - rewrite (At (n - 1)%nat (length data - 1)%nat); [|lia|lia|].
    + clear -H. destruct data as [|x l] using rev_ind; [congruence|]. rewrite app_length. cbn [length].
      rewrite last_last. replace (length l + 1 - 1)%nat with (length l) by lia. rewrite app_nth2, Nat.sub_diag by lia. reflexivity.
    + unfold sc. rewrite !Nat2Z.inj_sub by lia. change (Z.of_nat 1) with 1%Z. field. lra.
  - intros a b Hab i Hi. rewrite Val by exact Hi. set (x := inject_Z (Z.of_nat i) * sc).
    assert (Ex : inject_Z (Z.of_nat (i * (length data - 1))) / inject_Z (Z.of_nat (n - 1)) == x).
    { unfold x, sc. rewrite Nat2Z.inj_mul, !Nat2Z.inj_sub, inject_Z_mult by lia. change (Z.of_nat 1) with 1%Z. field. lra. }
    rewrite Ex.
    assert (Hx : 0 <= x <= inject_Z (Z.of_nat (length data) - 1)).
    { unfold x, sc. assert (Hi1 : 0 <= inject_Z (Z.of_nat i) <= inject_Z (Z.of_nat n - 1)) by (change 0 with (inject_Z 0); rewrite <- !Zle_Qle; lia).
      assert (Hd : 0 <= inject_Z (Z.of_nat (length data) - 1)) by (change 0 with (inject_Z 0); rewrite <- !Zle_Qle; lia).
      set (A := inject_Z (Z.of_nat i)) in *. set (B := inject_Z (Z.of_nat n - 1)) in *. set (D := inject_Z (Z.of_nat (length data) - 1)) in *.
      assert (S : D / B * B == D) by (field; lra). assert (0 <= D / B) by (apply Qle_shift_div_l; lra). set (q := D / B) in *. split; nra. }
    pose proof (frac_bound x) as Hf.
    assert (Hk : (0 <= Qfloor x <= Z.of_nat (length data) - 1)%Z).
    { split; [apply (Qfloor_resp_le 0 x); lra|]. assert (inject_Z (Qfloor x) < inject_Z (Z.of_nat (length data) - 1 + 1)) by (rewrite inject_Z_plus; change (inject_Z 1) with 1; lra).
      rewrite <- Zlt_Qlt in *. lia. }
    assert (V : forall k, (0 <= k <= Z.of_nat (length data) - 1)%Z -> value1 data k == a + b * inject_Z k).
    { intros k Hk'. unfold value1. rewrite Z.mod_small by lia. rewrite Hab by lia. rewrite Z2Nat.id by lia. reflexivity. }
    rewrite (V (Qfloor x) Hk). destruct (Z.eq_dec (Qfloor x) (Z.of_nat (length data) - 1)) as [e|ne].
    + assert (Z0 : x - inject_Z (Qfloor x) == 0) by (rewrite e in *; lra).
      set (f := inject_Z (Qfloor x)) in *. set (V1 := value1 data (Qfloor x + 1)).
      assert (E1 : (1 - (x - f)) * (a + b * f) + (x - f) * V1 == a + b * x + (x - f) * (V1 - a - b * f - b)) by ring.
      rewrite E1, Z0. ring.
    + rewrite V by lia. rewrite inject_Z_plus. change (inject_Z 1) with 1. ring.
Qed.

Lemma resize2_multiple argsort angle period data k l : lattice_angle angle -> rectangular data -> no_period period -> (0 < k)%nat -> (0 < l)%nat ->
  let N := length data in let M := length (hd [] data) in
  exists ys, resize2 argsort angle period true data (k * N) (l * M) = Ok ys /\ length ys = (k * N * (l * M))%nat /\
    forall i j, (i < N)%nat -> (j < M)%nat -> nth (k * i * (l * M) + l * j) ys 0 == nth j (nth i data []) 0.
Proof.
  intros Ha H Hp Hk Hl N M. destruct (shape_pos data H) as [HN HM]. unfold shape0, shape1 in HN, HM. fold N M in HN, HM.
  unfold resize2, resize_scale, shape0, shape1. fold N M.
  destruct (Z.eqb_spec (Z.of_nat (k * N)) 0); [nia|]. destruct (Z.eqb_spec (Z.of_nat (l * M)) 0); [nia|]. cbn [bind].
  set (f := fun i : nat => interpolant2 _ _ _ _ _ _).
  destruct (collect_ok f (fun i y => f i = Ok y) (seq 0 (k * N * (l * M)))) as (ys & E & F).
  { intros i _. eexists. unfold f. rewrite interpolant2_ok by assumption. split; reflexivity. }
  exists ys. split; [exact E|]. destruct (Forall2_seq_nth _ 0 _ _ _ F) as [El F']. split; [exact El|].
  intros i j Hi Hj. assert (Hij : (k * i * (l * M) + l * j < k * N * (l * M))%nat).
  { assert (k * i + 1 <= k * N)%nat by nia. assert (l * j < l * M)%nat by nia. nia. }
  specialize (F' _ Hij). cbn [Nat.add] in F'. unfold f in F'.
  assert (Hlj : (l * j < l * M)%nat) by nia.
  rewrite Nat.div_add_l, (Nat.div_small (l * j)), Nat.add_0_r in F' by lia.
  rewrite (Nat.add_comm (k * i * (l * M))), Nat.mod_add, Nat.mod_small in F' by lia.
  rewrite interpolant2_ok in F' by assumption. apply (f_equal (get_ok 0)) in F'. cbn [get_ok] in F'.
  rewrite (Nat.add_comm (l * j)) in F'. rewrite <- F'. clear F'.
  assert (X : inject_Z (Z.of_nat (k * i)) * (inject_Z (Z.of_nat N) / inject_Z (Z.of_nat (k * N))) == inject_Z (Z.of_nat i)).
  { rewrite !Nat2Z.inj_mul, !inject_Z_mult. field. split; apply inj_nz; lia. }
  assert (Y : inject_Z (Z.of_nat (l * j)) * (inject_Z (Z.of_nat M) / inject_Z (Z.of_nat (l * M))) == inject_Z (Z.of_nat j)).
  { rewrite !Nat2Z.inj_mul, !inject_Z_mult. field. split; apply inj_nz; lia. }
  rewrite (cell_comp angle _ _ _ _ _ X Y). unfold cell. rewrite !floor_int. rewrite tri_00 by lra.
  unfold value2, value1. fold N. rewrite (Z.mod_small (Z.of_nat i)) by lia. rewrite Nat2Z.id.
  pose proof (row_length data (Z.of_nat i) H) as Er. unfold shape0 in Er. fold N in Er. rewrite Z.mod_small, Nat2Z.id in Er by lia.
  rewrite Er. fold M. rewrite Z.mod_small, Nat2Z.id by lia. reflexivity.
Qed.
