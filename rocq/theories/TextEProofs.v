(** Reading of numbers written in scientific notation. *)
From Coq Require Import Qabs Lqa.
From Verif Require Import Common CommonProofs Text TextProofs TextE.
Local Open Scope Z_scope.

Lemma log10_from_ok fuel : forall n, 0 < n < 10 ^ (Z.of_nat fuel + 1) -> 0 <= log10_from fuel n /\ 10 ^ log10_from fuel n <= n < 10 ^ (log10_from fuel n + 1).
Proof.
  induction fuel as [|fuel IH]; intros n H.
  - cbn [log10_from]. change (10 ^ (Z.of_nat 0 + 1)) with 10 in H. change (10 ^ 0) with 1. change (10 ^ (0 + 1)) with 10. lia.
  - cbn [log10_from]. destruct (Z.ltb_spec n 10) as [L|L]; [change (10 ^ 0) with 1; change (10 ^ (0 + 1)) with 10; lia|].
    assert (D : 0 < n / 10 < 10 ^ (Z.of_nat fuel + 1)). { split; [apply Z.div_str_pos; lia|]. apply Z.div_lt_upper_bound; [lia|]. rewrite <- Z.pow_succ_r by lia. replace (Z.succ (Z.of_nat fuel + 1)) with (Z.of_nat (S fuel) + 1) by lia. lia. }
    destruct (IH _ D) as [P [A B]]. set (l := log10_from fuel (n / 10)) in *. split; [lia|].
    replace (1 + l + 1) with (Z.succ (l + 1)) by lia. replace (1 + l) with (Z.succ l) by lia. rewrite !Z.pow_succ_r by lia.
    pose proof (Z.div_mod n 10 ltac:(lia)). pose proof (Z.mod_pos_bound n 10 ltac:(lia)). lia.
Qed.

Lemma log10_ok n : 0 < n -> 0 <= log10 n /\ 10 ^ log10 n <= n < 10 ^ (log10 n + 1).
Proof. intros H. apply log10_from_ok. split; [exact H|apply fuel_enough; lia]. Qed.

Lemma ten_pos e : 0 < ten e.
Proof. apply Z.pow_pos_nonneg; lia. Qed.

Lemma pow_pos e : 0 <= e -> 0 < 10 ^ e.
Proof. intros H. apply Z.pow_pos_nonneg; lia. Qed.

(** 10 ^ e as a fraction *)
Lemma ten_ratio a b : ten (a + b) * ten (- a) * ten (- b) = ten (- (a + b)) * ten a * ten b.
Proof.
  unfold ten. rewrite <- !Z.pow_add_r by lia. f_equal. lia.
Qed.

Lemma exponent_ok x : Qnum x <> 0 -> Zpos (Qden x) * ten (exponent x) <= Z.abs (Qnum x) * ten (- exponent x) /\ Z.abs (Qnum x) * ten (- (exponent x + 1)) < Zpos (Qden x) * ten (exponent x + 1).
Proof.
  intros Hx. unfold exponent. set (n := Z.abs (Qnum x)). set (q := Zpos (Qden x)). assert (Hn : 0 < n) by (unfold n; lia). assert (Hq : 0 < q) by reflexivity.
  destruct (log10_ok n Hn) as (Pn & An & Bn). destruct (log10_ok q Hq) as (Pq & Aq & Bq). set (k := log10 n) in *. set (l := log10 q) in *. set (e := k - l).
  pose proof (pow_pos k Pn). pose proof (pow_pos l Pq).
  assert (Ek : 10 ^ (k + 1) = 10 * 10 ^ k) by (rewrite Z.add_1_r, Z.pow_succ_r by lia; reflexivity).
  assert (El : 10 ^ (l + 1) = 10 * 10 ^ l) by (rewrite Z.add_1_r, Z.pow_succ_r by lia; reflexivity). rewrite Ek in Bn. rewrite El in Bq.
  (* 10^k * ten(-e) = 10^l * ten e *)
  assert (R : 10 ^ k * ten (- e) = 10 ^ l * ten e) by (unfold ten; rewrite <- !Z.pow_add_r by lia; f_equal; lia).
  assert (Up : forall f, 10 * ten f * ten (- (f + 1)) = ten (f + 1) * ten (- f)). { intros f. unfold ten. destruct (Z.leb_spec 0 f).
    - rewrite (Z.max_r 0 f), (Z.max_l 0 (- (f + 1))), (Z.max_r 0 (f + 1)), (Z.max_l 0 (- f)) by lia. rewrite Z.pow_add_r by lia. ring.
    - rewrite (Z.max_l 0 f), (Z.max_r 0 (- (f + 1))), (Z.max_l 0 (f + 1)), (Z.max_r 0 (- f)) by lia. replace (- f) with (- (f + 1) + 1) by lia. rewrite Z.pow_add_r by lia. change (10 ^ 1) with 10. ring. }
  pose proof (ten_pos e). pose proof (ten_pos (- e)). pose proof (ten_pos (e - 1)). pose proof (ten_pos (- (e - 1))). pose proof (ten_pos (e + 1)). pose proof (ten_pos (- (e + 1))).
  destruct (Z.ltb_spec (n * ten (- e)) (q * ten e)) as [L|L].
  - replace (e - 1 + 1) with e by lia. split; [|exact L]. pose proof (Up (e - 1)) as U. replace (e - 1 + 1) with e in U by lia.
    (* q 10^(e-1) <= n : from q < 10 10^l, n >= 10^k *)
    apply (Z.mul_le_mono_pos_l _ _ (10 * ten (- e))); [lia|]. 
    replace (10 * ten (- e) * (q * ten (e - 1))) with (q * (10 * ten (e - 1) * ten (- e))) by ring. rewrite U. 
    replace (10 * ten (- e) * (n * ten (- (e - 1)))) with (10 * (n * ten (- e)) * ten (- (e - 1))) by ring. rewrite Z.mul_assoc. apply Z.mul_le_mono_nonneg_r; [lia|].
    assert (10 ^ k * ten (- e) <= n * ten (- e)) by (apply Z.mul_le_mono_nonneg_r; lia). assert (q * ten e <= 10 * 10 ^ l * ten e) by (apply Z.mul_le_mono_nonneg_r; lia). lia.
  - split; [exact L|]. pose proof (Up e) as U.
    apply (Z.mul_lt_mono_pos_l (10 * ten e)); [lia|].
    replace (10 * ten e * (n * ten (- (e + 1)))) with (n * (10 * ten e * ten (- (e + 1)))) by ring. rewrite U.
    replace (n * (ten (e + 1) * ten (- e))) with ((n * ten (- e)) * ten (e + 1)) by ring.
    replace (10 * ten e * (q * ten (e + 1))) with (10 * (q * ten e) * ten (e + 1)) by ring. apply Z.mul_lt_mono_pos_r; [lia|].
    assert (n * ten (- e) < 10 * 10 ^ k * ten (- e)) by (apply Z.mul_lt_mono_pos_r; lia). assert (10 ^ l * ten e <= q * ten e) by (apply Z.mul_le_mono_nonneg_r; lia). lia.
Qed.

Lemma round_div_bounds a b lo hi : 0 < b -> lo * b <= a -> a <= hi * b -> lo <= round_div a b <= hi.
Proof.
  intros Hb A B. unfold round_div. pose proof (Z.div_mod a b ltac:(lia)) as E. pose proof (Z.mod_pos_bound a b Hb).
  destruct (Z.ltb_spec (2 * (a mod b)) b); [split; nia|]. destruct (Z.ltb_spec b (2 * (a mod b))); [split; nia|]. destruct (Z.even (a / b)); split; nia.
Qed.

Lemma mantissa_ok d x : Qnum x <> 0 -> 10 ^ Z.of_nat d <= mantissa d x (exponent x) <= 10 ^ (Z.of_nat d + 1).
Proof.
  intros Hx. destruct (exponent_ok x Hx) as [A B]. set (e := exponent x) in *. set (D := Z.of_nat d). assert (HD : 0 <= D) by (unfold D; lia). unfold mantissa. fold D.
  pose proof (ten_pos (e - D)). pose proof (ten_pos (D - e)). pose proof (ten_pos e). pose proof (ten_pos (- e)). pose proof (ten_pos (e + 1)). pose proof (ten_pos (- (e + 1))).
  assert (T : forall f, 0 <= f -> ten f = 10 ^ f) by (intros f Hf; unfold ten; rewrite Z.max_r by lia; reflexivity).
  assert (T0 : forall f, f <= 0 -> ten f = 1) by (intros f Hf; unfold ten; rewrite Z.max_l by lia; reflexivity).
  apply round_div_bounds; [lia|..].
  - (* ten D * ten(e-D) * ten(-e) = ten e * ten(D - e) *)
    pose proof (ten_ratio D (e - D)) as R. replace (D + (e - D)) with e in R by lia. replace (- (e - D)) with (D - e) in R by lia. rewrite (T D HD), (T0 (- D)) in R by lia.
    apply (Z.mul_le_mono_pos_l _ _ (ten (- e))); [lia|].
    replace (ten (- e) * (10 ^ D * (Zpos (Qden x) * ten (e - D)))) with (Zpos (Qden x) * (ten (- e) * 10 ^ D * ten (e - D))) by ring. rewrite <- R.
    replace (Zpos (Qden x) * (ten e * 1 * ten (D - e))) with ((Zpos (Qden x) * ten e) * ten (D - e)) by ring.
    replace (ten (- e) * (Z.abs (Qnum x) * ten (D - e))) with ((Z.abs (Qnum x) * ten (- e)) * ten (D - e)) by ring. apply Z.mul_le_mono_nonneg_r; lia.
  - pose proof (ten_ratio (D + 1) (e - D)) as R. replace (D + 1 + (e - D)) with (e + 1) in R by lia. replace (- (e - D)) with (D - e) in R by lia. rewrite (T (D + 1)), (T0 (- (D + 1))) in R by lia.
    apply (Z.mul_le_mono_pos_l _ _ (ten (- (e + 1)))); [lia|].
    replace (ten (- (e + 1)) * (10 ^ (D + 1) * (Zpos (Qden x) * ten (e - D)))) with (Zpos (Qden x) * (ten (- (e + 1)) * 10 ^ (D + 1) * ten (e - D))) by ring. rewrite <- R.
    replace (Zpos (Qden x) * (ten (e + 1) * 1 * ten (D - e))) with ((Zpos (Qden x) * ten (e + 1)) * ten (D - e)) by ring.
    replace (ten (- (e + 1)) * (Z.abs (Qnum x) * ten (D - e))) with ((Z.abs (Qnum x) * ten (- (e + 1))) * ten (D - e)) by ring. apply Z.mul_le_mono_nonneg_r; lia.
Qed.

Lemma scientific_ok d x : 0 <= fst (scientific d x) /\ fst (scientific d x) < 10 ^ (Z.of_nat d + 1).
Proof.
  unfold scientific. destruct (Z.eqb_spec (Qnum x) 0) as [E|E]; [cbn [fst]; split; [lia|apply pow_pos; lia]|]. pose proof (mantissa_ok d x E). pose proof (pow_pos (Z.of_nat d) ltac:(lia)).
  destruct (Z.ltb_spec (mantissa d x (exponent x)) (10 ^ (Z.of_nat d + 1))); cbn [fst]; [lia|]. rewrite Z.pow_add_r by lia. change (10 ^ 1) with 10. lia.
Qed.

(** The number that is read *)
Definition rounded_E (d : nat) (x : Q) : Q :=
  let '(m, e) := scientific d x in power_of_ten ((if Qnum x <? 0 then -1 else 1) * m) (e - Z.of_nat d).

Lemma fmt_exponent_all (P : ascii -> Prop) e : (forall d, 0 <= d < 10 -> P (chr d)) -> P "-"%char -> P "+"%char -> Forall P (fmt_exponent e).
Proof.
  intros Hd Hm Hp. unfold fmt_exponent. apply Forall_app. split; [destruct (e <? 0); repeat constructor; assumption|]. apply Forall_app. split; [|apply nonneg_all; [exact Hd|lia]].
  destruct (Z.abs e <? 10); [|constructor]. constructor; [|constructor]. apply (Hd 0). lia.
Qed.

Lemma fmt_E_all (P : ascii -> Prop) d x : (forall d, 0 <= d < 10 -> P (chr d)) -> P "-"%char -> P "+"%char -> P "."%char -> P "E"%char -> Forall P (fmt_E d x).
Proof.
  intros Hd Hm Hp Ht He. unfold fmt_E. pose proof (scientific_ok d x) as [S1 S2]. destruct (scientific d x) as [m e]. cbn [fst] in *.
  apply Forall_app. split; [destruct (Qnum x <? 0); repeat constructor; assumption|]. apply Forall_app. split; [apply nonneg_all; [exact Hd|apply Z.div_pos; [lia|apply pow_pos; lia]]|].
  apply Forall_app. split; [repeat constructor; assumption|]. apply Forall_app. split; [apply fraction_all; exact Hd|]. apply Forall_app. split; [repeat constructor; assumption|apply fmt_exponent_all; assumption].
Qed.

Lemma word_fmt_E d x : word (fmt_E d x).
Proof.
  split; [|apply fmt_E_all; try reflexivity; apply solid_chr].
  unfold fmt_E. pose proof (scientific_ok d x) as [S1 S2]. destruct (scientific d x) as [m e]. cbn [fst] in *. destruct (nonneg_all (fun _ => True) (m / 10 ^ Z.of_nat d) (fun _ _ => I) ltac:(apply Z.div_pos; [lia|apply pow_pos; lia])) as [_ N].
  destruct (Qnum x <? 0); [discriminate|]. cbn [app]. destruct (nonneg_to_text (m / 10 ^ Z.of_nat d)); [contradiction|discriminate].
Qed.

Lemma scan_exponent e : exists k, (0 < k)%nat /\ sign (fmt_exponent e) = ((if e <? 0 then -1 else 1), (if Z.abs e <? 10 then §"0" else []) ++ nonneg_to_text (Z.abs e)) /\
  scan 0 0 ((if Z.abs e <? 10 then §"0" else []) ++ nonneg_to_text (Z.abs e)) = (Z.abs e, k, []).
Proof.
  destruct (scan_nonneg (Z.abs e) 0 0 [] ltac:(lia)) as (m & Hm & E). rewrite app_nil_r in E. cbn [scan] in E.
  destruct (Z.ltb_spec (Z.abs e) 10).
  - destruct (scan_nonneg (Z.abs e) 0 1 [] ltac:(lia)) as (m' & Hm' & E'). rewrite app_nil_r in E'. cbn [scan] in E'. exists (1 + m')%nat. split; [lia|]. split; [unfold fmt_exponent; destruct (Z.ltb_spec (Z.abs e) 10); [|lia]; destruct (e <? 0); reflexivity|].
    cbn [str list_ascii_of_string app scan]. change (digit "0") with (Some 0). cbv iota. change (10 * 0 + 0) with 0. rewrite E'. reflexivity.
  - exists (0 + m)%nat. split; [lia|]. split; [unfold fmt_exponent; destruct (Z.ltb_spec (Z.abs e) 10); [lia|]; destruct (e <? 0); reflexivity|]. cbn [app]. rewrite E. reflexivity.
Qed.

Lemma to_float_E d x s r : (0 < d)%nat -> spaces s -> spaces r -> to_float (s ++ fmt_E d x ++ r) = Ok (rounded_E d x).
Proof.
  intros Hd Hs Hr. unfold to_float. rewrite (strip_word s (fmt_E d x) r Hs (word_fmt_E d x) Hr).
  pose proof (scientific_ok d x) as [N M]. assert (P : 0 < 10 ^ Z.of_nat d) by (apply pow_pos; lia). unfold rounded_E, fmt_E. destruct (scientific d x) as [n e]. cbn [fst] in *.
  assert (B : 0 <= n / 10 ^ Z.of_nat d) by (apply Z.div_pos; lia). set (rest := §"." ++ fraction_digits d n ++ §"E" ++ fmt_exponent e).
  assert (S : sign ((if Qnum x <? 0 then §"-" else []) ++ nonneg_to_text (n / 10 ^ Z.of_nat d) ++ rest) = ((if Qnum x <? 0 then -1 else 1), nonneg_to_text (n / 10 ^ Z.of_nat d) ++ rest)).
  { destruct (Qnum x <? 0); [reflexivity|]. cbn [app]. apply sign_nonneg. exact B. }
  rewrite S. destruct (scan_nonneg (n / 10 ^ Z.of_nat d) 0 0 rest B) as (m & Hm & E). rewrite E. unfold rest.
  cbn [str list_ascii_of_string app scan]. change (digit ".") with (@None Z). cbv iota. change (Ascii.eqb "." ".") with true. cbv iota.
  rewrite (scan_fraction d n (0 * 10 ^ Z.of_nat m + n / 10 ^ Z.of_nat d) 0 ("E"%char :: fmt_exponent e)). cbn [scan]. change (digit "E") with (@None Z). cbv iota. destruct m; [lia|]. cbn [Nat.add].
  change (Ascii.eqb "E" "e" || Ascii.eqb "E" "E") with true. cbv iota. destruct (scan_exponent e) as (k & Hk & Es & Ek). rewrite Es, Ek. destruct k; [lia|]. f_equal.
  replace (0 * 10 ^ Z.of_nat (Datatypes.S m) + n / 10 ^ Z.of_nat d) with (n / 10 ^ Z.of_nat d) by ring. pose proof (Z.div_mod n (10 ^ Z.of_nat d) ltac:(lia)).
  replace (n / 10 ^ Z.of_nat d * 10 ^ Z.of_nat d + n mod 10 ^ Z.of_nat d) with n by lia. f_equal. destruct (Z.ltb_spec e 0); lia.
Qed.

(** ** Precision: the relative error is at most half a unit of the last digit. *)
Lemma power_of_ten_ok m e : (power_of_ten m e == (m * ten e) # Z.to_pos (ten (- e)))%Q.
Proof.
  unfold power_of_ten, ten. destruct (Z.ltb_spec e 0).
  - rewrite (Z.max_l 0 e), (Z.max_r 0 (- e)) by lia. change (10 ^ 0) with 1. rewrite Z.mul_1_r. reflexivity.
  - rewrite (Z.max_r 0 e), (Z.max_l 0 (- e)) by lia. reflexivity.
Qed.

Lemma rounded_E_near d x : (Qabs (x - rounded_E d x) <= (1 # (2 * Z.to_pos (10 ^ Z.of_nat d))) * Qabs x)%Q.
Proof.
  unfold rounded_E. destruct (Z.eqb_spec (Qnum x) 0) as [E0|E0].
  { unfold scientific. rewrite E0. change (0 =? 0) with true. cbv iota. assert (X : (x == 0)%Q) by (unfold Qeq; rewrite E0; reflexivity). rewrite power_of_ten_ok. rewrite X. change (0 <? 0) with false. cbv iota. change (1 * 0 * ten (0 - Z.of_nat d)) with 0.
    setoid_replace (0 - (0 # Z.to_pos (ten (- (0 - Z.of_nat d)))))%Q with 0%Q by (unfold Qeq; reflexivity). cbn. lra. }
  assert (V : exists m e, scientific d x = (m, e) /\ m * ten (e - Z.of_nat d) * ten (Z.of_nat d - exponent x) = mantissa d x (exponent x) * ten (exponent x - Z.of_nat d) * ten (Z.of_nat d - e)).
  { unfold scientific. destruct (Z.eqb_spec (Qnum x) 0); [contradiction|]. pose proof (mantissa_ok d x E0) as [_ M]. destruct (Z.ltb_spec (mantissa d x (exponent x)) (10 ^ (Z.of_nat d + 1))) as [L|L]; [eexists _, _; split; [reflexivity|ring]|].
    eexists _, _. split; [reflexivity|]. replace (mantissa d x (exponent x)) with (10 ^ (Z.of_nat d + 1)) by lia. unfold ten. rewrite <- !Z.pow_add_r by lia. f_equal. lia. }
  destruct V as (m & e & -> & V). rewrite power_of_ten_ok. destruct (exponent_ok x E0) as [A _].
  set (f := exponent x) in *. set (D := Z.of_nat d) in *. assert (HD : 0 <= D) by (unfold D; lia). set (mm := mantissa d x f) in *.
  pose proof (ten_pos (e - D)). pose proof (ten_pos (D - e)). pose proof (ten_pos (f - D)). pose proof (ten_pos (D - f)).
  set (sg := if Qnum x <? 0 then -1 else 1).
  assert (EQ : ((sg * m * ten (e - D)) # Z.to_pos (ten (- (e - D))) == (sg * mm * ten (f - D)) # Z.to_pos (ten (D - f)))%Q).
  { unfold Qeq. cbn [Qnum Qden]. replace (- (e - D)) with (D - e) by lia. rewrite !Z2Pos.id by lia. transitivity (sg * (m * ten (e - D) * ten (D - f))); [ring|]. rewrite V. ring. }
  rewrite EQ. clear EQ V.
  pose proof (round_div_near (Z.abs (Qnum x) * ten (D - f)) (Zpos (Qden x) * ten (f - D)) ltac:(lia)) as R. change (round_div _ _) with mm in R.
  (* q ten(f-D) * 10^D <= |a| ten(D - f) *)
  assert (L : Zpos (Qden x) * ten (f - D) * 10 ^ D <= Z.abs (Qnum x) * ten (D - f)).
  { pose proof (ten_ratio D (f - D)) as T. replace (D + (f - D)) with f in T by lia. replace (- (f - D)) with (D - f) in T by lia.
    assert (T1 : ten D = 10 ^ D) by (unfold ten; rewrite Z.max_r by lia; reflexivity). assert (T2 : ten (- D) = 1) by (unfold ten; rewrite Z.max_l by lia; reflexivity). rewrite T1, T2 in T.
    pose proof (ten_pos (- f)). pose proof (ten_pos f). apply (Z.mul_le_mono_pos_l _ _ (ten (- f))); [lia|].
    replace (ten (- f) * (Zpos (Qden x) * ten (f - D) * 10 ^ D)) with (Zpos (Qden x) * (ten (- f) * 10 ^ D * ten (f - D))) by ring. rewrite <- T.
    replace (Zpos (Qden x) * (ten f * 1 * ten (D - f))) with ((Zpos (Qden x) * ten f) * ten (D - f)) by ring.
    replace (ten (- f) * (Z.abs (Qnum x) * ten (D - f))) with ((Z.abs (Qnum x) * ten (- f)) * ten (D - f)) by ring. apply Z.mul_le_mono_nonneg_r; lia. }
  pose proof (pow_pos D HD). destruct x as [a b]. unfold sg in *. cbn [Qnum Qden] in *. unfold Qle, Qabs, Qminus, Qplus, Qopp, Qmult. cbn [Qnum Qden].
  rewrite !Pos2Z.inj_mul, !Z2Pos.id by lia. set (t := ten (f - D)) in *. set (u := ten (D - f)) in *. set (p := 10 ^ D) in *. rewrite Z.mul_1_l.
  assert (X : 2 * Z.abs (a * u + - ((if a <? 0 then -1 else 1) * mm * t) * Z.pos b) <= Z.pos b * t) by (destruct (Z.ltb_spec a 0); [rewrite (Z.abs_neq a) in R by lia|rewrite (Z.abs_eq a) in R by lia]; lia).
  set (y := Z.abs (a * u + - ((if a <? 0 then -1 else 1) * mm * t) * Z.pos b)) in *. assert (0 <= y) by (unfold y; lia).
  assert (Y : 2 * y * p <= Z.abs a * u) by nia.
  replace (y * (2 * p * Z.pos b)) with (2 * y * p * Z.pos b) by ring. replace (Z.abs a * (Z.pos b * u)) with (Z.abs a * u * Z.pos b) by ring. apply Z.mul_le_mono_nonneg_r; lia.
Qed.
