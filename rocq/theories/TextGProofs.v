(** Reading of numbers written with a given number of significant digits. *)
From Coq Require Import Qabs Lqa.
From Verif Require Import Common CommonProofs Text TextProofs TextE TextEProofs TextG.
Local Open Scope Z_scope.

Lemma trim_zeros_ok d : forall m, 0 <= m -> 0 <= snd (trim_zeros d m) /\ (fst (trim_zeros d m) <= d)%nat /\ snd (trim_zeros d m) * 10 ^ Z.of_nat (d - fst (trim_zeros d m)) = m.
Proof.
  induction d as [|d IH]; intros m H; cbn [trim_zeros].
  - cbn [fst snd]. split; [exact H|]. split; [lia|]. change (10 ^ Z.of_nat (0 - 0)) with 1. lia.
  - destruct (Z.eqb_spec (m mod 10) 0) as [E|E].
    + destruct (IH (m / 10) ltac:(apply Z.div_pos; lia)) as (A & B & C). split; [exact A|]. split; [lia|].
      replace (S d - fst (trim_zeros d (m / 10)))%nat with (S (d - fst (trim_zeros d (m / 10)))) by lia. rewrite Nat2Z.inj_succ, Z.pow_succ_r by lia.
      pose proof (Z.div_mod m 10 ltac:(lia)). nia.
    + cbn [fst snd]. split; [exact H|]. split; [lia|]. rewrite Nat.sub_diag. change (10 ^ Z.of_nat 0) with 1. lia.
Qed.

Lemma decimals_all (P : ascii -> Prop) d m : (forall d, 0 <= d < 10 -> P (chr d)) -> P "."%char -> 0 <= m -> Forall P (decimals d m) /\ decimals d m <> [].
Proof.
  intros Hd Ht Hm. unfold decimals. pose proof (TextEProofs.pow_pos (Z.of_nat d) ltac:(lia)). destruct (nonneg_all P (m / 10 ^ Z.of_nat d) Hd ltac:(apply Z.div_pos; lia)) as [A N]. split.
  - apply Forall_app. split; [exact A|]. destruct d; [constructor|]. apply Forall_app. split; [repeat constructor; exact Ht|apply fraction_all; exact Hd].
  - destruct (nonneg_to_text (m / 10 ^ Z.of_nat d)); [contradiction|discriminate].
Qed.

Lemma format_g_all (P : ascii -> Prop) p x : (forall d, 0 <= d < 10 -> P (chr d)) -> P "-"%char -> P "+"%char -> P "."%char -> P "e"%char -> Forall P (format_g p x) /\ format_g p x <> [].
Proof.
  intros Hd Hm Hp Ht He. unfold format_g. pose proof (scientific_ok (p - 1) x) as [S1 S2]. destruct (scientific (p - 1) x) as [m e]. cbn [fst] in *.
  set (sg := if Qnum x <? 0 then §"-" else []). assert (Sg : Forall P sg) by (unfold sg; destruct (Qnum x <? 0); repeat constructor; assumption).
  assert (G : forall t, Forall P t /\ t <> [] -> Forall P (sg ++ t) /\ sg ++ t <> []) by (intros t [A B]; split; [apply Forall_app; auto|intros X; apply app_eq_nil in X; apply B, X]). apply G.
  destruct ((-4 <=? e) && (e <? Z.of_nat p)).
  - set (D := Z.to_nat (Z.of_nat (p - 1) - e)). destruct (trim_zeros_ok D m S1) as (A & _). destruct (trim_zeros D m) as [d m']. apply decimals_all; assumption.
  - destruct (trim_zeros_ok (p - 1) m S1) as (A & _). destruct (trim_zeros (p - 1) m) as [d m']. destruct (decimals_all P d m' Hd Ht A) as [B N]. split.
    + apply Forall_app. split; [exact B|]. apply Forall_app. split; [repeat constructor; exact He|apply fmt_exponent_all; assumption].
    + intros X. apply app_eq_nil in X. apply N, X.
Qed.

Lemma word_format_g p x : word (format_g p x).
Proof. destruct (format_g_all (fun c => is_space c = false) p x (solid_chr) eq_refl eq_refl eq_refl eq_refl) as [A B]. split; assumption. Qed.

(** The number that is read *)
Definition rounded_g (p : nat) (x : Q) : Q :=
  let '(m, e) := scientific (p - 1) x in
  let s := if Qnum x <? 0 then -1 else 1 in
  if (-4 <=? e) && (e <? Z.of_nat p)
  then let '(d, m) := trim_zeros (Z.to_nat (Z.of_nat (p - 1) - e)) m in power_of_ten (s * m) (- Z.of_nat d)
  else let '(d, m) := trim_zeros (p - 1) m in power_of_ten (s * m) (e - Z.of_nat d).

Lemma scan_decimals d m rest : 0 <= m -> match rest with [] => True | c :: _ => digit c = None /\ Ascii.eqb c "." = false end ->
  exists k t k' d', scan 0 0 (decimals d m ++ rest) = (m / 10 ^ Z.of_nat d, S k, t) /\
  (match t with
    | c :: t' => if Ascii.eqb c "." then let '(v, k', t) := scan (m / 10 ^ Z.of_nat d) 0 t' in (v, (S k + k')%nat, k', t) else (m / 10 ^ Z.of_nat d, S k, O, t)
    | [] => (m / 10 ^ Z.of_nat d, S k, O, [])
    end) = (m, S k', d', rest) /\ d' = d.
Proof.
  intros Hm Hr. pose proof (TextEProofs.pow_pos (Z.of_nat d) ltac:(lia)) as Pd. unfold decimals.
  destruct (scan_nonneg (m / 10 ^ Z.of_nat d) 0 0 (match d with O => [] | S _ => §"." ++ fraction_digits d m end ++ rest) ltac:(apply Z.div_pos; lia)) as (k & Hk & E).
  rewrite <- app_assoc, E. destruct k as [|k]; [lia|]. cbn [Nat.add]. replace (0 * 10 ^ Z.of_nat (S k) + m / 10 ^ Z.of_nat d) with (m / 10 ^ Z.of_nat d) by ring.
  destruct d as [|d].
  - cbn [app]. assert (SC : forall v n, scan v n rest = (v, n, rest)) by (intros v n; destruct rest as [|c r]; [reflexivity|]; cbn [scan]; destruct Hr as [-> _]; reflexivity).
    rewrite SC. exists k, rest, k, O. split; [reflexivity|]. split; [|reflexivity]. change (10 ^ Z.of_nat 0) with 1. rewrite Z.div_1_r. destruct rest as [|c r]; [reflexivity|]. destruct Hr as [_ ->]. reflexivity.
  - cbn [str list_ascii_of_string app scan]. change (digit ".") with (@None Z). cbv iota. exists k, ("."%char :: fraction_digits (S d) m ++ rest), (k + S d)%nat, (S d). split; [reflexivity|]. split; [|reflexivity].
    change (Ascii.eqb "." ".") with true. cbv iota. rewrite scan_fraction.
    pose proof (Z.div_mod m (10 ^ Z.of_nat (S d)) ltac:(lia)). replace (m / 10 ^ Z.of_nat (S d) * 10 ^ Z.of_nat (S d) + m mod 10 ^ Z.of_nat (S d)) with m by lia.
    assert (SC : forall v n, scan v n rest = (v, n, rest)) by (intros v n; destruct rest as [|c r]; [reflexivity|]; cbn [scan]; destruct Hr as [-> _]; reflexivity). rewrite SC. cbn [Nat.add]. reflexivity.
Qed.

Lemma sign_decimals x d m rest : 0 <= m -> sign ((if Qnum x <? 0 then §"-" else []) ++ decimals d m ++ rest) = ((if Qnum x <? 0 then -1 else 1), decimals d m ++ rest).
Proof.
  intros Hm. destruct (Qnum x <? 0); [reflexivity|]. cbn [app]. unfold decimals. rewrite <- app_assoc. apply sign_nonneg. apply Z.div_pos; [lia|apply TextEProofs.pow_pos; lia].
Qed.

Lemma to_float_g p x s r : spaces s -> spaces r -> to_float (s ++ format_g p x ++ r) = Ok (rounded_g p x).
Proof.
  intros Hs Hr. unfold to_float. rewrite (strip_word s (format_g p x) r Hs (word_format_g p x) Hr).
  pose proof (scientific_ok (p - 1) x) as [N M]. unfold rounded_g, format_g. destruct (scientific (p - 1) x) as [n e]. cbn [fst] in *.
  destruct ((-4 <=? e) && (e <? Z.of_nat p)).
  - set (D := Z.to_nat (Z.of_nat (p - 1) - e)). destruct (trim_zeros_ok D n N) as (A & _). destruct (trim_zeros D n) as [d m]. cbn [snd] in A.
    rewrite <- (app_nil_r (decimals d m)), sign_decimals by exact A. destruct (scan_decimals d m [] A I) as (k & t & k' & d' & E1 & E2 & ->). rewrite E1. cbv beta iota zeta. rewrite E2. reflexivity.
  - destruct (trim_zeros_ok (p - 1) n N) as (A & _). destruct (trim_zeros (p - 1) n) as [d m]. cbn [snd] in A.
    rewrite sign_decimals by exact A. destruct (scan_decimals d m (§"e" ++ fmt_exponent e) A (conj eq_refl eq_refl)) as (k & t & k' & d' & E1 & E2 & ->). rewrite E1. cbv beta iota zeta. rewrite E2.
    cbn [str list_ascii_of_string app]. change (Ascii.eqb "e" "e" || Ascii.eqb "e" "E") with true. cbv iota. destruct (scan_exponent e) as (q & Hq & Es & Ek). rewrite Es, Ek. destruct q; [lia|]. f_equal. f_equal. destruct (Z.ltb_spec e 0); lia.
Qed.

Lemma power_shift m k e : 0 <= k -> (power_of_ten (m * 10 ^ k) (e - k) == power_of_ten m e)%Q.
Proof.
  intros Hk. rewrite !power_of_ten_ok. unfold Qeq. cbn [Qnum Qden]. rewrite !Z2Pos.id by apply ten_pos.
  transitivity (m * (10 ^ k * ten (e - k) * ten (- e))); [ring|]. transitivity (m * (ten e * ten (- (e - k)))); [|ring]. f_equal.
  unfold ten. rewrite <- !Z.pow_add_r by lia. f_equal. lia.
Qed.

(** The same number as in scientific notation *)
Lemma rounded_g_E p x : (0 < p)%nat -> (rounded_g p x == rounded_E (p - 1) x)%Q.
Proof.
  intros Hp. unfold rounded_g, rounded_E. pose proof (scientific_ok (p - 1) x) as [N M]. destruct (scientific (p - 1) x) as [n e]. cbn [fst] in *. set (s := if Qnum x <? 0 then -1 else 1).
  destruct (Z.leb_spec (-4) e); destruct (Z.ltb_spec e (Z.of_nat p)); cbn [andb];
    [set (D := Z.to_nat (Z.of_nat (p - 1) - e))|set (D := (p - 1)%nat)..];
    (destruct (trim_zeros_ok D n N) as (A & B & C); destruct (trim_zeros D n) as [d m]; cbn [fst snd] in A, B, C).
  - replace (e - Z.of_nat (p - 1)) with (- Z.of_nat d - Z.of_nat (D - d)) by (unfold D in *; lia). rewrite <- C, (Z.mul_assoc s m). symmetry. apply power_shift. lia.
  - replace (e - Z.of_nat D) with (e - Z.of_nat d - Z.of_nat (D - d)) by (unfold D in *; lia). rewrite <- C, (Z.mul_assoc s m). symmetry. apply power_shift. lia.
  - replace (e - Z.of_nat D) with (e - Z.of_nat d - Z.of_nat (D - d)) by (unfold D in *; lia). rewrite <- C, (Z.mul_assoc s m). symmetry. apply power_shift. lia.
  - replace (e - Z.of_nat D) with (e - Z.of_nat d - Z.of_nat (D - d)) by (unfold D in *; lia). rewrite <- C, (Z.mul_assoc s m). symmetry. apply power_shift. lia.
Qed.

Lemma rounded_g_near p x : (0 < p)%nat -> (Qabs (x - rounded_g p x) <= (1 # (2 * Z.to_pos (10 ^ Z.of_nat (p - 1)))) * Qabs x)%Q.
Proof. intros Hp. rewrite (rounded_g_E p x Hp). apply rounded_E_near. Qed.
