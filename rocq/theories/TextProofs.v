(** Proofs about formatting and parsing. *)
From Verif Require Import Text.
From Coq Require Import Qabs.
Local Open Scope Z_scope.

(** ** Characters *)
Definition solid (t : text) : Prop := Forall (fun c => is_space c = false) t.
Definition word (t : text) : Prop := t <> [] /\ solid t.
Definition spaces (t : text) : Prop := Forall (fun c => is_space c = true) t.

Lemma digit_cases d : 0 <= d < 10 -> d = 0 \/ d = 1 \/ d = 2 \/ d = 3 \/ d = 4 \/ d = 5 \/ d = 6 \/ d = 7 \/ d = 8 \/ d = 9.
Proof. lia. Qed.
Ltac dig H := apply digit_cases in H; repeat (destruct H as [->|H]); [..|subst].

Lemma digit_chr d : 0 <= d < 10 -> digit (chr d) = Some d.
Proof. intros H. dig H; reflexivity. Qed.
Lemma solid_chr d : 0 <= d < 10 -> is_space (chr d) = false.
Proof. intros H. dig H; reflexivity. Qed.

(** ** Digits *)
Lemma digits_all (P : ascii -> Prop) : (forall d, 0 <= d < 10 -> P (chr d)) -> forall fuel n, 0 <= n < 10 ^ (Z.of_nat fuel + 1) -> Forall P (digits fuel n) /\ digits fuel n <> [].
Proof.
  intros HP fuel. induction fuel as [|fuel IH]; intros n H; cbn [digits].
  - split; [constructor; [apply HP; cbn in H; lia|constructor]|discriminate].
  - destruct (Z.ltb_spec n 10); [split; [constructor; [apply HP; lia|constructor]|discriminate]|].
    destruct (IH (n / 10)) as [I1 I2].
    { split; [apply Z.div_pos; lia|]. apply Z.div_lt_upper_bound; [lia|]. replace (Z.of_nat (S fuel) + 1) with (Z.of_nat fuel + 1 + 1) in H by lia. rewrite Z.pow_add_r in H by lia. lia. }
    split; [|destruct (digits fuel (n / 10)); discriminate]. apply Forall_app. split; [exact I1|]. constructor; [apply HP, Z.mod_pos_bound; lia|constructor].
Qed.

Lemma fuel_enough n : 0 <= n -> n < 10 ^ (Z.of_nat (fuel_of n) + 1).
Proof.
  intros H. unfold fuel_of. pose proof (Z.log2_nonneg n). rewrite Z2Nat.id by lia.
  assert (n < 2 ^ (Z.log2 n + 1)).
  { destruct (Z.eq_dec n 0) as [->|NZ]; [reflexivity|]. apply Z.log2_spec. lia. }
  assert (2 ^ (Z.log2 n + 1) <= 10 ^ (Z.log2 n + 1)) by (apply Z.pow_le_mono_l; lia).
  assert (10 ^ (Z.log2 n + 1) <= 10 ^ (Z.log2 n + 1 + 1)) by (apply Z.pow_le_mono_r; lia). lia.
Qed.

Lemma scan_digits fuel : forall n v k rest, 0 <= n < 10 ^ (Z.of_nat fuel + 1) ->
  scan v k (digits fuel n ++ rest) = scan (v * 10 ^ Z.of_nat (length (digits fuel n)) + n) (k + length (digits fuel n)) rest.
Proof.
  induction fuel as [|fuel IH]; intros n v k rest H; cbn [digits].
  - cbn [app scan length]. rewrite digit_chr by (cbn in H; lia). f_equal; lia.
  - destruct (Z.ltb_spec n 10) as [L|L].
    + cbn [app scan length]. rewrite digit_chr by lia. f_equal; lia.
    + assert (B : 0 <= n / 10 < 10 ^ (Z.of_nat fuel + 1)).
      { split; [apply Z.div_pos; lia|]. apply Z.div_lt_upper_bound; [lia|]. replace (Z.of_nat (S fuel) + 1) with (Z.of_nat fuel + 1 + 1) in H by lia. rewrite Z.pow_add_r in H by lia. lia. }
      rewrite <- app_assoc, IH by exact B. cbn [app scan]. rewrite digit_chr by (apply Z.mod_pos_bound; lia). rewrite app_length. cbn [length]. f_equal; [|lia].
      rewrite Nat2Z.inj_add, Z.pow_add_r by lia. change (Z.of_nat 1) with 1. rewrite Z.pow_1_r. pose proof (Z.div_mod n 10 ltac:(lia)). lia.
Qed.

Lemma scan_nonneg n v k rest : 0 <= n -> exists m, (0 < m)%nat /\ scan v k (nonneg_to_text n ++ rest) = scan (v * 10 ^ Z.of_nat m + n) (k + m) rest.
Proof.
  intros H. unfold nonneg_to_text. exists (length (digits (fuel_of n) n)). pose proof (fuel_enough n H). split; [|apply scan_digits; lia].
  destruct (digits_all (fun _ => True) (fun _ _ => I) (fuel_of n) n ltac:(lia)) as [_ NE]. destruct (digits _ _); [congruence|cbn; lia].
Qed.

Lemma nonneg_all (P : ascii -> Prop) n : (forall d, 0 <= d < 10 -> P (chr d)) -> 0 <= n -> Forall P (nonneg_to_text n) /\ nonneg_to_text n <> [].
Proof. intros HP H. pose proof (fuel_enough n H). apply digits_all; [exact HP|lia]. Qed.

Lemma scan_fraction d : forall n v k rest, scan v k (fraction_digits d n ++ rest) = scan (v * 10 ^ Z.of_nat d + n mod 10 ^ Z.of_nat d) (k + d) rest.
Proof.
  induction d as [|d IH]; intros n v k rest; cbn [fraction_digits].
  - cbn [app]. f_equal; [change (10 ^ Z.of_nat 0) with 1; rewrite Z.mod_1_r; lia|lia].
  - rewrite <- app_assoc, IH. cbn [app scan]. rewrite digit_chr by (apply Z.mod_pos_bound; lia). f_equal; [|lia].
    replace (Z.of_nat (S d)) with (1 + Z.of_nat d) by lia. rewrite Z.pow_add_r, Z.pow_1_r by lia. rewrite Z.rem_mul_r by lia. lia.
Qed.

Lemma fraction_all (P : ascii -> Prop) d : (forall d, 0 <= d < 10 -> P (chr d)) -> forall n, Forall P (fraction_digits d n).
Proof. intros HP. induction d as [|d IH]; intros n; cbn [fraction_digits]; [constructor|]. apply Forall_app. split; [apply IH|constructor; [apply HP, Z.mod_pos_bound; lia|constructor]]. Qed.

(** ** Formatted numbers are words *)
Lemma fmt_d_all (P : ascii -> Prop) z : (forall d, 0 <= d < 10 -> P (chr d)) -> P "-"%char -> Forall P (fmt_d z).
Proof.
  intros HP M. unfold fmt_d. destruct (Z.ltb_spec z 0).
  - constructor; [exact M|]. apply nonneg_all; [exact HP|lia].
  - apply nonneg_all; [exact HP|lia].
Qed.

Lemma word_fmt_d z : word (fmt_d z).
Proof.
  split; [|apply fmt_d_all; [exact solid_chr|reflexivity]]. unfold fmt_d. destruct (Z.ltb_spec z 0); [discriminate|]. apply (nonneg_all (fun _ => True)); [auto|lia].
Qed.

Lemma fmt_f_all (P : ascii -> Prop) d x : (forall d, 0 <= d < 10 -> P (chr d)) -> P "-"%char -> P "."%char -> Forall P (fmt_f d x).
Proof.
  intros HP M D. unfold fmt_f. assert (B : 0 <= scaled d x / 10 ^ Z.of_nat d).
  { apply Z.div_pos; [|apply Z.pow_pos_nonneg; lia]. unfold scaled, round_div.
    assert (0 <= Z.abs (Qnum x) * 10 ^ Z.of_nat d / Z.pos (Qden x)) by (apply Z.div_pos; [apply Z.mul_nonneg_nonneg; [lia|apply Z.pow_nonneg; lia]|lia]).
    repeat match goal with |- context [if ?b then _ else _] => destruct b end; lia. }
  apply Forall_app. split; [destruct (Qnum x <? 0); [constructor; [exact M|constructor]|constructor]|]. apply Forall_app. split; [apply nonneg_all; assumption|]. constructor; [exact D|]. apply fraction_all. exact HP.
Qed.

Lemma word_fmt_f d x : word (fmt_f d x).
Proof.
  split; [|apply fmt_f_all; [exact solid_chr|reflexivity|reflexivity]]. unfold fmt_f. intros E. apply (f_equal (@length ascii)) in E. rewrite !app_length in E. cbn in E. lia.
Qed.

(** ** Splitting *)
Lemma spaces_blank n : spaces (repeat blank n).
Proof. unfold spaces. apply Forall_forall. intros c Hc. apply repeat_spec in Hc. subst. reflexivity. Qed.

Lemma words_solid w : forall cur rest, solid w -> words_from cur (w ++ rest) = words_from (cur ++ w) rest.
Proof.
  induction w as [|c w IH]; intros cur rest H; [rewrite app_nil_r; reflexivity|]. apply Forall_cons_iff in H as [Hc Hw]. cbn [app words_from]. rewrite Hc, IH by assumption. rewrite <- app_assoc. reflexivity.
Qed.

Lemma words_spaces s rest : spaces s -> str_split (s ++ rest) = str_split rest.
Proof. unfold str_split. induction 1 as [|c s Hc Hs IH]; [reflexivity|]. cbn [app words_from]. rewrite Hc. exact IH. Qed.

Definition starts_space (t : text) : Prop := match t with [] => True | c :: _ => is_space c = true end.

Lemma split_word s w rest : spaces s -> word w -> starts_space rest -> str_split (s ++ w ++ rest) = w :: str_split rest.
Proof.
  intros Hs [NE Hw] Hr. rewrite words_spaces by exact Hs. unfold str_split. rewrite words_solid by exact Hw. cbn [app].
  destruct rest as [|c rest]; cbn [words_from starts_space] in *; [destruct w; [congruence|reflexivity]|]. rewrite Hr. destruct w; [congruence|reflexivity].
Qed.

Lemma split_pad n w rest : word w -> starts_space rest -> str_split (pad n w ++ rest) = w :: str_split rest.
Proof. intros. unfold pad. rewrite <- app_assoc. apply split_word; [apply spaces_blank|assumption|assumption]. Qed.

Lemma split_blank_pad n w rest : word w -> starts_space rest -> str_split (blank :: pad n w ++ rest) = w :: str_split rest.
Proof. intros. change (blank :: pad n w ++ rest) with ([blank] ++ pad n w ++ rest). rewrite words_spaces by (repeat constructor). apply split_pad; assumption. Qed.

Lemma split_end : str_split [newline] = [].
Proof. reflexivity. Qed.

(** A field that does not fill its width starts with a space. *)
Lemma pad_starts n w rest : (length w < n)%nat -> starts_space (pad n w ++ rest).
Proof. intros H. unfold pad. destruct (n - length w)%nat eqn:E; [lia|reflexivity]. Qed.

(** ** Lines *)
Definition no_newline (t : text) : Prop := Forall (fun c => c <> newline) t.

Lemma lines_from_app l : forall cur rest, no_newline l -> lines_from cur (l ++ newline :: rest) = (cur ++ l ++ [newline]) :: lines rest.
Proof.
  induction l as [|c l IH]; intros cur rest H.
  - cbn [app lines_from]. rewrite Ascii.eqb_refl. reflexivity.
  - apply Forall_cons_iff in H as [Hc Hl]. cbn [app lines_from]. destruct (Ascii.eqb_spec c newline); [contradiction|]. rewrite IH by assumption. rewrite <- app_assoc. reflexivity.
Qed.

Lemma lines_app l rest : no_newline l -> lines (l ++ newline :: rest) = (l ++ [newline]) :: lines rest.
Proof. apply lines_from_app. Qed.

Lemma no_newline_app a b : no_newline a -> no_newline b -> no_newline (a ++ b).
Proof. intros. apply Forall_app. auto. Qed.

Lemma no_newline_solid t : solid t -> no_newline t.
Proof. apply Forall_impl. intros c H ->. discriminate. Qed.

Lemma no_newline_pad n t : no_newline t -> no_newline (pad n t).
Proof. intros H. apply no_newline_app; [|exact H]. apply Forall_forall. intros c Hc. apply repeat_spec in Hc. subst. discriminate. Qed.

Lemma no_newline_d z : no_newline (fmt_d z).
Proof. apply no_newline_solid, word_fmt_d. Qed.
Lemma no_newline_f d x : no_newline (fmt_f d x).
Proof. apply no_newline_solid, word_fmt_f. Qed.

(** ** Parsing what has been formatted *)
Lemma lstrip_spaces s t : spaces s -> lstrip (s ++ t) = lstrip t.
Proof. induction 1 as [|c s Hc Hs IH]; [reflexivity|]. cbn [app lstrip]. rewrite Hc. exact IH. Qed.

Lemma lstrip_solid t r : word t -> lstrip (t ++ r) = t ++ r.
Proof. intros [NE H]. destruct t as [|c t]; [congruence|]. apply Forall_cons_iff in H as [Hc Hl]. cbn [app lstrip]. rewrite Hc. reflexivity. Qed.

Lemma strip_word s t r : spaces s -> word t -> spaces r -> strip (s ++ t ++ r) = t.
Proof.
  intros Hs Ht Hr. unfold strip. rewrite lstrip_spaces, lstrip_solid by assumption. rewrite rev_app_distr, lstrip_spaces.
  - assert (W : word (rev t)) by (destruct Ht as [NE H]; split; [intros E; apply NE; rewrite <- (rev_involutive t), E; reflexivity|apply Forall_rev, H]).
    rewrite <- (app_nil_r (rev t)), lstrip_solid by exact W. rewrite app_nil_r. apply rev_involutive.
  - apply Forall_rev. exact Hr.
Qed.

Lemma sign_chr d t : 0 <= d < 10 -> sign (chr d :: t) = (1, chr d :: t).
Proof. intros H. dig H; reflexivity. Qed.

Lemma sign_nonneg n rest : 0 <= n -> sign (nonneg_to_text n ++ rest) = (1, nonneg_to_text n ++ rest).
Proof.
  intros H. destruct (nonneg_all (fun c => exists d, 0 <= d < 10 /\ c = chr d) n ltac:(intros d Hd; exists d; auto) H) as [A NE].
  destruct (nonneg_to_text n) as [|c t]; [congruence|]. apply Forall_cons_iff in A as [Hc _]. destruct Hc as (d & Hd & ->). cbn [app]. apply sign_chr. exact Hd.
Qed.

Lemma to_int_fmt s z r : spaces s -> spaces r -> to_int (s ++ fmt_d z ++ r) = Ok z.
Proof.
  intros Hs Hr. unfold to_int. rewrite strip_word by (assumption || apply word_fmt_d). unfold fmt_d. destruct (Z.ltb_spec z 0).
  - cbn [str list_ascii_of_string app sign]. change (Ascii.eqb "-" "-") with true. cbv iota.
    destruct (scan_nonneg (- z) 0 0 [] ltac:(lia)) as (m & Hm & E). rewrite app_nil_r in E. rewrite E. cbn [scan]. destruct m; [lia|]. cbn [Nat.add]. f_equal. lia.
  - rewrite <- (app_nil_r (nonneg_to_text z)), sign_nonneg by lia. destruct (scan_nonneg z 0 0 [] ltac:(lia)) as (m & Hm & E). rewrite E. cbn [scan]. destruct m; [lia|]. cbn [Nat.add]. f_equal. lia.
Qed.

Lemma to_int_word z : to_int (fmt_d z) = Ok z.
Proof. pose proof (to_int_fmt [] z [] ltac:(constructor) ltac:(constructor)) as E. rewrite app_nil_r in E. exact E. Qed.

Lemma to_int_line z : to_int (fmt_d z ++ [newline]) = Ok z.
Proof. exact (to_int_fmt [] z [newline] ltac:(constructor) ltac:(repeat constructor)). Qed.

(** The number that is obtained *)
Definition rounded (d : nat) (x : Q) : Q := Qmake ((if Qnum x <? 0 then -1 else 1) * scaled d x) (Z.to_pos (10 ^ Z.of_nat d)).

Lemma scaled_nonneg d x : 0 <= scaled d x.
Proof.
  unfold scaled, round_div. assert (0 <= Z.abs (Qnum x) * 10 ^ Z.of_nat d / Z.pos (Qden x)) by (apply Z.div_pos; [apply Z.mul_nonneg_nonneg; [lia|apply Z.pow_nonneg; lia]|lia]).
  repeat match goal with |- context [if ?b then _ else _] => destruct b end; lia.
Qed.

Lemma to_float_fmt d x : (0 < d)%nat -> to_float (fmt_f d x) = Ok (rounded d x).
Proof.
  intros Hd. unfold to_float. pose proof (strip_word [] (fmt_f d x) [] ltac:(constructor) (word_fmt_f d x) ltac:(constructor)) as Es. cbn [app] in Es. rewrite app_nil_r in Es. rewrite Es.
  pose proof (scaled_nonneg d x) as N. assert (P : 0 < 10 ^ Z.of_nat d) by (apply Z.pow_pos_nonneg; lia). set (n := scaled d x) in *.
  assert (B : 0 <= n / 10 ^ Z.of_nat d) by (apply Z.div_pos; lia).
  assert (S : sign (fmt_f d x) = ((if Qnum x <? 0 then -1 else 1), nonneg_to_text (n / 10 ^ Z.of_nat d) ++ §"." ++ fraction_digits d n)).
  { unfold fmt_f. fold n. destruct (Qnum x <? 0); [reflexivity|]. cbn [app]. apply sign_nonneg. exact B. }
  rewrite S. destruct (scan_nonneg (n / 10 ^ Z.of_nat d) 0 0 (§"." ++ fraction_digits d n) B) as (m & Hm & E). rewrite E.
  cbn [str list_ascii_of_string app scan]. change (digit ".") with (@None Z). cbv iota. change (Ascii.eqb "." ".") with true. cbv iota.
  pose proof (scan_fraction d n (0 * 10 ^ Z.of_nat m + n / 10 ^ Z.of_nat d) 0 []) as F. rewrite app_nil_r in F. rewrite F. cbn [scan]. destruct m; [lia|]. cbn [Nat.add].
  f_equal. unfold power_of_ten, rounded. fold n. destruct (Z.ltb_spec (- Z.of_nat d) 0) as [_|L]; [|lia]. rewrite Z.opp_involutive. f_equal. f_equal.
  pose proof (Z.div_mod n (10 ^ Z.of_nat d) ltac:(lia)). lia.
Qed.

(** Precision *)
Lemma round_div_near a b : 0 < b -> 2 * Z.abs (a - round_div a b * b) <= b.
Proof.
  intros Hb. unfold round_div. pose proof (Z.div_mod a b ltac:(lia)) as E. pose proof (Z.mod_pos_bound a b Hb).
  destruct (Z.ltb_spec (2 * (a mod b)) b); [nia|]. destruct (Z.ltb_spec b (2 * (a mod b))); [nia|]. destruct (Z.even (a / b)); nia.
Qed.

Lemma rounded_near d x : (Qabs (x - rounded d x) <= 1 # (2 * Z.to_pos (10 ^ Z.of_nat d)))%Q.
Proof.
  assert (P : 0 < 10 ^ Z.of_nat d) by (apply Z.pow_pos_nonneg; lia).
  pose proof (round_div_near (Z.abs (Qnum x) * 10 ^ Z.of_nat d) (Zpos (Qden x)) ltac:(lia)) as R. fold (scaled d x) in R.
  unfold Qle, Qabs, Qminus, Qplus, Qopp, rounded. destruct x as [a b]. cbn [Qnum Qden] in *.
  assert (Ep : Z.pos (Z.to_pos (10 ^ Z.of_nat d)) = 10 ^ Z.of_nat d) by (apply Z2Pos.id; exact P).
  rewrite !Pos2Z.inj_mul, !Ep. set (n := scaled d (a # b)) in *. set (p := 10 ^ Z.of_nat d) in *. rewrite Z.mul_1_l.
  assert (X : 2 * Z.abs (a * p + - ((if a <? 0 then -1 else 1) * n) * Z.pos b) <= Z.pos b) by (destruct (Z.ltb_spec a 0); [rewrite (Z.abs_neq a) in R by lia|rewrite (Z.abs_eq a) in R by lia]; lia).
  nia.
Qed.

(** Numbers with at most [d] decimals are not changed. *)
Lemma round_div_exact a b : 0 < b -> round_div (a * b) b = a.
Proof. intros H. unfold round_div. rewrite Z.div_mul, Z.mod_mul by lia. destruct (Z.ltb_spec (2 * 0) b); [reflexivity|lia]. Qed.

Lemma rounded_exact d x m : (x == m # Z.to_pos (10 ^ Z.of_nat d))%Q -> (rounded d x == x)%Q.
Proof.
  intros E. assert (P : 0 < 10 ^ Z.of_nat d) by (apply Z.pow_pos_nonneg; lia). destruct x as [a b]. unfold Qeq in E. cbn [Qnum Qden] in E. rewrite Z2Pos.id in E by exact P.
  unfold rounded, Qeq, scaled. cbn [Qnum Qden]. rewrite Z2Pos.id by exact P.
  assert (A : Z.abs a * 10 ^ Z.of_nat d = Z.abs m * Z.pos b) by (rewrite <- (Z.abs_eq (10 ^ Z.of_nat d)) by lia; rewrite <- Z.abs_mul, E, Z.abs_mul; lia).
  rewrite A, round_div_exact by lia. destruct (Z.ltb_spec a 0); [assert (m < 0) by nia|assert (0 <= m) by nia]; [rewrite Z.abs_neq by lia|rewrite Z.abs_eq by lia]; lia.
Qed.

(** ** Widths *)
Lemma digits_length fuel : forall n w, 0 <= n < 10 ^ Z.of_nat w -> (0 < w)%nat -> n < 10 ^ (Z.of_nat fuel + 1) -> (length (digits fuel n) <= w)%nat.
Proof.
  induction fuel as [|fuel IH]; intros n w H Hw Hf; cbn [digits]; [cbn; lia|]. destruct (Z.ltb_spec n 10); [cbn; lia|]. rewrite app_length. cbn [length].
  destruct w as [|w]; [lia|]. replace (Z.of_nat (S w)) with (Z.of_nat w + 1) in H by lia. rewrite Z.pow_add_r, Z.pow_1_r in H by lia.
  assert (Hw' : (0 < w)%nat) by (destruct w; [cbn in H; lia|lia]).
  enough (length (digits fuel (n / 10)) <= w)%nat by lia. apply IH; [|exact Hw'|].
  - split; [apply Z.div_pos; lia|apply Z.div_lt_upper_bound; lia].
  - replace (Z.of_nat (S fuel) + 1) with (Z.of_nat fuel + 1 + 1) in Hf by lia. rewrite (Z.pow_add_r 10 (Z.of_nat fuel + 1) 1) in Hf by lia. apply Z.div_lt_upper_bound; lia.
Qed.

Lemma nonneg_length n w : 0 <= n < 10 ^ Z.of_nat w -> (0 < w)%nat -> (length (nonneg_to_text n) <= w)%nat.
Proof. intros. apply digits_length; [assumption|assumption|]. apply fuel_enough. lia. Qed.

Lemma fmt_d_length z w : (0 < w)%nat -> - 10 ^ Z.of_nat w < z < 10 ^ (Z.of_nat w + 1) -> (length (fmt_d z) <= S w)%nat.
Proof.
  intros Hw H. unfold fmt_d. destruct (Z.ltb_spec z 0).
  - cbn [str list_ascii_of_string app length]. apply le_n_S. apply nonneg_length; [lia|exact Hw].
  - apply nonneg_length; [|lia]. replace (Z.of_nat (S w)) with (Z.of_nat w + 1) by lia. lia.
Qed.

Lemma fraction_length d : forall n, length (fraction_digits d n) = d.
Proof. induction d as [|d IH]; intros n; [reflexivity|]. cbn [fraction_digits]. rewrite app_length, IH. cbn. lia. Qed.

Lemma fmt_f_length d x w : (0 < w)%nat -> scaled d x < 10 ^ (Z.of_nat w + Z.of_nat d) -> (length (fmt_f d x) <= S w + S d)%nat.
Proof.
  intros Hw H. unfold fmt_f. rewrite !app_length, fraction_length. cbn [str list_ascii_of_string length].
  assert (P : 0 < 10 ^ Z.of_nat d) by (apply Z.pow_pos_nonneg; lia). pose proof (scaled_nonneg d x).
  assert (length (nonneg_to_text (scaled d x / 10 ^ Z.of_nat d)) <= w)%nat.
  { apply nonneg_length; [|exact Hw]. split; [apply Z.div_pos; lia|]. apply Z.div_lt_upper_bound; [exact P|]. rewrite <- Z.pow_add_r by lia. rewrite Z.add_comm. exact H. }
  destruct (Qnum x <? 0); cbn [length]; lia.
Qed.
