From Coq Require Import Lia.
From Verif Require Import Text TextProofs TextE TextEProofs NmlModel NmlProofs TabProofs TabProofs2 GridModel GridSpec GridProofs GridProofs2 XsfModel XsfSpec.
From Coq Require Import List.
Import ListNotations.
Local Open Scope nat_scope.

Lemma lines_nl ls : (forall l, In l ls -> single l) -> lines (file_of ls) = map nl ls.
Proof. exact (lines_file ls). Qed.
Lemma keyword_strip s l : keyword s l -> strip (nl l) = str s.
Proof.
  intros H. inversion H as [|g w ws t G W _ T]; subst. inversion T as [g' G'|]; subst. unfold nl. rewrite <- !app_assoc.
  apply strip_word; [apply gap_spaces, G|exact W|]. apply Forall_app. split; [apply gap_spaces, G'|repeat constructor].
Qed.
Lemma lstrip_app t : exists s, spaces s /\ t = s ++ lstrip t.
Proof.
  induction t as [|c t (s & Hs & E)]; [exists []; split; [constructor|reflexivity]|]. cbn [lstrip]. destruct (is_space c) eqn:C.
  - exists (c :: s). split; [constructor; assumption|]. cbn [app]. rewrite <- E. reflexivity.
  - exists []. split; [constructor|reflexivity].
Qed.
Lemma strip_app t : exists s r, spaces s /\ spaces r /\ t = s ++ strip t ++ r.
Proof.
  destruct (lstrip_app t) as (s & Hs & E). destruct (lstrip_app (rev (lstrip t))) as (r & Hr & E'). exists s, (rev r). split; [exact Hs|]. split; [apply Forall_rev, Hr|].
  unfold strip. rewrite <- rev_app_distr, <- E', rev_involutive. exact E.
Qed.
Lemma spaces_gap s : spaces s -> single s -> gap s.
Proof. intros H S0. unfold gap, spaces in *. rewrite Forall_forall in *. intros c J. split; [exact (H c J)|]. intros ->. exact (S0 J). Qed.
Lemma strip_keyword s l : word (str s) -> single l -> strip (nl l) = str s -> keyword s l.
Proof.
  intros W S0 E. destruct (strip_app (nl l)) as (g & r & Hg & Hr & D). rewrite E in D. unfold nl in D.
  destruct r as [|c r] using rev_ind.
  - exfalso. rewrite app_nil_r in D. destruct W as [W1 W2]. destruct (str s) as [|c t] using rev_ind; [congruence|]. rewrite app_assoc in D. apply app_inj_tail in D as [_ <-].
    apply Forall_app in W2 as [_ W2]. inversion W2 as [|? ? X]; subst. discriminate.
  - clear IHr. rewrite !app_assoc in D. apply app_inj_tail in D as [D _]. rewrite <- app_assoc in D. subst l. apply Forall_app in Hr as [Hr _].
    assert (Sg : single g) by (intros J; apply S0; apply in_or_app; left; exact J).
    assert (Sr : single r) by (intros J; apply S0; apply in_or_app; right; apply in_or_app; right; exact J).
    apply Spaced_word; [apply spaces_gap; assumption|exact W| |apply Spaced_end, spaces_gap; assumption]. destruct r; [exact Logic.I|]. inversion Hr; subst. assumption.
Qed.
Lemma skip_read s pre key rest : word (str s) -> Forall (other s) pre -> keyword s key -> skip_to s (map nl pre ++ nl key :: rest) = Ok rest.
Proof.
  intros W F K. induction F as [|l pre [S0 N] _ IH]; cbn [map app skip_to].
  - rewrite (keyword_strip _ _ K), teqb_refl. reflexivity.
  - destruct (teqb (strip (nl l)) (str s)) eqn:E; [|exact IH]. apply teqb_eq in E. exfalso. apply N. apply strip_keyword; assumption.
Qed.
Lemma skip_none s pre : word (str s) -> Forall (other s) pre -> skip_to s (map nl pre) = Raise StopIteration.
Proof.
  intros W F. induction F as [|l pre [S0 N] _ IH]; [reflexivity|]. cbn [map skip_to]. destruct (teqb (strip (nl l)) (str s)) eqn:E; [|exact IH]. apply teqb_eq in E. exfalso. apply N. apply strip_keyword; assumption.
Qed.
Lemma species_read l : forall ls rest, Forall2 species_line l ls -> xsf_atoms (length l) (map nl ls ++ rest) = Ok (l, rest).
Proof.
  induction l as [|[X v] l IH]; intros ls rest H; inversion H as [|? t ? ls' (ws & more & S0 & R) Hl]; subst; [reflexivity|]. clear H.
  cbn [length map app xsf_atoms next bind]. rewrite (spaced_nl _ _ S0). cbn [fst snd first bind] in *. rewrite slice_app by exact (reals_length _ _ R). rewrite (reals_floats _ _ R). cbn [bind].
  rewrite set3_vec. cbn [bind]. rewrite IH by exact Hl. reflexivity.
Qed.
Lemma triple_read v l rest : triple_line v l -> xsf_vector (nl l :: rest) = Ok (v, rest).
Proof. intros (ws & S0 & R). unfold xsf_vector. cbn [next bind]. rewrite (spaced_nl _ _ S0), (reals_floats _ _ R). cbn [bind]. rewrite set3_vec. reflexivity. Qed.
Lemma line_read ws xs : Forall2 real ws xs -> forall more, xsf_line (length xs + more) ws = Ok (xs, more).
Proof. induction 1 as [|w x ws xs H _ IH]; intros more; [reflexivity|]. cbn [xsf_line length Nat.add]. unfold real in H. rewrite H. cbn [bind]. rewrite IH. reflexivity. Qed.
Lemma values_read wss ls : Forall2 spaced wss ls -> forall xs post, Forall2 real (concat wss) xs -> xsf_numbers (length xs) (map nl ls ++ post) = Ok xs.
Proof.
  induction 1 as [|ws l wss ls S0 _ IH]; intros xs post R; cbn [concat] in R.
  - inversion R; subst. cbn [map app length xsf_numbers]. destruct post; reflexivity.
  - apply Forall2_app_inv_l in R as (x1 & x2 & R1 & R2 & ->). rewrite app_length. destruct (length x1 + length x2) as [|n] eqn:E.
    + destruct x1, x2; try discriminate. cbn [map app xsf_numbers]. reflexivity.
    + cbn [map app xsf_numbers]. rewrite (spaced_nl _ _ S0). rewrite <- E, (line_read _ _ R1). cbn [bind]. rewrite (IH x2 post R2). reflexivity.
Qed.
Lemma line_many ws xs : Forall2 real ws xs -> forall n, n < length xs -> xsf_line n ws = Raise IndexError.
Proof. induction 1 as [|w x ws xs H _ IH]; intros n L; [cbn in L; lia|]. cbn [xsf_line]. unfold real in H. rewrite H. cbn [bind]. destruct n as [|n]; [reflexivity|]. rewrite IH by (cbn in L; lia). reflexivity. Qed.
Lemma values_few wss ls : Forall2 spaced wss ls -> forall xs n, Forall2 real (concat wss) xs -> length xs < n -> xsf_numbers n (map nl ls) = Raise StopIteration.
Proof.
  induction 1 as [|ws l wss ls S0 _ IH]; intros xs n R L; cbn [concat] in R.
  - inversion R; subst. destruct n; [cbn in L; lia|reflexivity].
  - apply Forall2_app_inv_l in R as (x1 & x2 & R1 & R2 & ->). rewrite app_length in L. destruct n as [|n]; [lia|].
    cbn [map xsf_numbers]. rewrite (spaced_nl _ _ S0). replace (S n) with (length x1 + (S n - length x1)) by lia. rewrite (line_read _ _ R1). cbn [bind]. rewrite (IH x2 _ R2) by lia. reflexivity.
Qed.

Lemma Forall2_size {A B} (P : A -> B -> Prop) l l' : Forall2 P l l' -> length l = length l'.
Proof. induction 1; cbn [length]; congruence. Qed.
Lemma values_many wss1 ws wss2 ls : Forall2 spaced (wss1 ++ ws :: wss2) ls -> forall xs n, Forall2 real (concat (wss1 ++ ws :: wss2)) xs -> length (concat wss1) < n < length (concat wss1) + length ws -> forall post, xsf_numbers n (map nl ls ++ post) = Raise IndexError.
Proof.
  revert ls. induction wss1 as [|w1 wss1 IH]; intros ls H xs n R L post; cbn [app concat] in *; inversion H as [|? l ? ls' S0 H2]; subst; apply Forall2_app_inv_l in R as (x1 & x2 & R1 & R2 & ->); destruct n as [|n]; try lia.
  - cbn [map app xsf_numbers]. rewrite (spaced_nl _ _ S0). rewrite (line_many _ _ R1) by (rewrite <- (Forall2_size _ _ _ R1); cbn [length] in L; lia). reflexivity.
  - rewrite app_length in L. cbn [map app xsf_numbers]. rewrite (spaced_nl _ _ S0). pose proof (Forall2_size _ _ _ R1) as E1. replace (S n) with (length x1 + (S n - length x1)) by lia. rewrite (line_read _ _ R1). cbn [bind]. rewrite (IH _ H2 x2 _ R2) by lia. reflexivity.
Qed.
Definition of_nats (n : nat * nat * nat) : Z * Z * Z := (Z.of_nat (fst (fst n)), Z.of_nat (snd (fst n)), Z.of_nat (snd n)).
Definition points (n : nat * nat * nat) : nat := fst (fst n) * snd (fst n) * snd n.
Lemma primcoord : word (str "PRIMCOORD"). Proof. split; [discriminate|repeat constructor]. Qed.
Lemma datagrid : word (str "BEGIN_DATAGRID_3D_UNKNOWN"). Proof. split; [discriminate|repeat constructor]. Qed.

Lemma xsf_header (only_header : bool) c wss ld post f : xsf_parts c wss ld post f -> Forall2 spaced wss ld /\ Forall2 real (concat wss) (f_values c) /\ Forall single post /\
  read_xsf only_header f =
    if only_header then Ok (Xsf (f_origin c) [f_a1 c; f_a2 c; f_a3 c] (map fst (f_atoms c)) (map snd (f_atoms c)) (of_nats (f_n c)) (fun _ _ _ => 0%Q))
    else do data <- xsf_numbers (points (f_n c)) (map nl (ld ++ post)) ;;
      Ok (Xsf (f_origin c) [f_a1 c; f_a2 c; f_a3 c] (map fst (f_atoms c)) (map snd (f_atoms c)) (of_nats (f_n c)) (transposed (of_nats (f_n c)) data)).
Proof.
  intros (pre & key & count & la & mid & key' & ln & lo & l1 & l2 & l3 & -> & Fp & K & (w & more & Sw & Iw) & Fa & Fm & K' & (a & b & d & Sn & Ia & Ib & Ic) & To & T1 & T2 & T3 & Fd & Fr & Fo).
  split; [exact Fd|]. split; [exact Fr|]. split; [exact Fo|]. unfold read_xsf. rewrite lines_nl.
  2:{ assert (Tr : forall v l, triple_line v l -> single l) by (intros v l (ws & S0 & _); exact (spaced_single _ _ S0)).
      intros l J. apply in_app_or in J as [J|[<-|[<-|J]]]; [rewrite Forall_forall in Fp; exact (proj1 (Fp _ J))|exact (spaced_single _ _ K)|exact (spaced_single _ _ Sw)|].
      apply in_app_or in J as [J|J]; [eapply Forall2_single; [|exact Fa|exact J]; intros ? ? (ws & m & S0 & _); exact (spaced_single _ _ S0)|].
      apply in_app_or in J as [J|[<-|[<-|[<-|[<-|[<-|[<-|J]]]]]]]; [rewrite Forall_forall in Fm; exact (proj1 (Fm _ J))|exact (spaced_single _ _ K')|exact (spaced_single _ _ Sn)|exact (Tr _ _ To)|exact (Tr _ _ T1)|exact (Tr _ _ T2)|exact (Tr _ _ T3)|].
      apply in_app_or in J as [J|J]; [|rewrite Forall_forall in Fo; exact (Fo _ J)]. eapply Forall2_single; [|exact Fd|exact J]. intros ? ? S0. exact (spaced_single _ _ S0). }
  rewrite map_app. cbn [map]. rewrite (skip_read _ _ _ _ primcoord Fp K). cbn [bind next]. rewrite (spaced_nl _ _ Sw). cbn [first bind]. unfold integer in *. rewrite Iw. cbn [bind]. rewrite empty_nat. cbn [bind].
  rewrite map_app, species_read by exact Fa. cbn [bind]. rewrite map_app. cbn [map]. rewrite (skip_read _ _ _ _ datagrid Fm K'). cbn [bind next]. rewrite (spaced_nl _ _ Sn). cbn [map_all bind]. rewrite Ia. cbn [bind]. rewrite Ib. cbn [bind]. rewrite Ic. cbn [bind set3_int].
  rewrite (triple_read _ _ _ To). cbn [bind]. rewrite (triple_read _ _ _ T1). cbn [bind]. rewrite (triple_read _ _ _ T2). cbn [bind]. rewrite (triple_read _ _ _ T3). cbn [bind]. destruct only_header; [reflexivity|].
  destruct (f_n c) as [[n1 n2] n3]. cbn [fst snd]. replace (Z.of_nat n1 * Z.of_nat n2 * Z.of_nat n3)%Z with (Z.of_nat (n1 * n2 * n3)) by lia. rewrite empty_nat. cbn [bind]. unfold points. cbn [fst snd].
  destruct (xsf_numbers (n1 * n2 * n3) (map nl (ld ++ post))); [|reflexivity]. cbn [bind existsb]. destruct (Z.ltb_spec (Z.of_nat n1) 0); [lia|]. destruct (Z.ltb_spec (Z.of_nat n2) 0); [lia|]. destruct (Z.ltb_spec (Z.of_nat n3) 0); [lia|]. reflexivity.
Qed.
Lemma first_fastest_nth n1 n2 n3 g i j k : i < n1 -> j < n2 -> k < n3 -> nth ((k * n2 + j) * n1 + i) (first_fastest n1 n2 n3 g) 0%Q = g i j k.
Proof.
  intros Hi Hj Hk. exact (in_order_nth n3 n2 n1 (fun k j i => g i j k) k j i Hk Hj Hi).
Qed.
Lemma first_fastest_length n1 n2 n3 g : length (first_fastest n1 n2 n3 g) = n1 * n2 * n3.
Proof. etransitivity; [exact (in_order_length n3 n2 n1 (fun k j i => g i j k))|lia]. Qed.

(** ** Numbers in scientific notation *)
Lemma fmt_e_all (P : ascii -> Prop) d x : (forall d, (0 <= d < 10)%Z -> P (chr d)) -> P "-"%char -> P "+"%char -> P "."%char -> P "e"%char -> Forall P (fmt_e d x).
Proof.
  intros Hd Hm Hp Ht He. unfold fmt_e. pose proof (scientific_ok d x) as [S1 S2]. destruct (scientific d x) as [m e]. cbn [fst] in *.
  apply Forall_app. split; [destruct (Qnum x <? 0)%Z; repeat constructor; assumption|]. apply Forall_app. split; [apply nonneg_all; [exact Hd|apply Z.div_pos; [lia|apply Z.pow_pos_nonneg; lia]]|].
  apply Forall_app. split; [repeat constructor; assumption|]. apply Forall_app. split; [apply fraction_all; exact Hd|]. apply Forall_app. split; [repeat constructor; assumption|apply fmt_exponent_all; assumption].
Qed.
Lemma word_fmt_e d x : word (fmt_e d x).
Proof.
  split; [|apply fmt_e_all; try reflexivity; apply solid_chr].
  unfold fmt_e. pose proof (scientific_ok d x) as [S1 S2]. destruct (scientific d x) as [m e]. cbn [fst] in *. destruct (nonneg_all (fun _ => True) (m / 10 ^ Z.of_nat d)%Z (fun _ _ => Logic.I) ltac:(apply Z.div_pos; [lia|apply Z.pow_pos_nonneg; lia])) as [_ N].
  destruct (Qnum x <? 0)%Z; [discriminate|]. cbn [app]. destruct (nonneg_to_text (m / 10 ^ Z.of_nat d)); [contradiction|discriminate].
Qed.
Lemma to_float_e d x : (0 < d)%nat -> to_float (fmt_e d x) = Ok (rounded_E d x).
Proof.
  intros Hd. unfold to_float. pose proof (strip_word [] (fmt_e d x) [] ltac:(constructor) (word_fmt_e d x) ltac:(constructor)) as Es. cbn [app] in Es. rewrite app_nil_r in Es. rewrite Es. clear Es.
  pose proof (scientific_ok d x) as [N M]. assert (P : (0 < 10 ^ Z.of_nat d)%Z) by (apply Z.pow_pos_nonneg; lia). unfold rounded_E, fmt_e. destruct (scientific d x) as [n e]. cbn [fst] in *.
  assert (B : (0 <= n / 10 ^ Z.of_nat d)%Z) by (apply Z.div_pos; lia). set (rest := §"." ++ fraction_digits d n ++ §"e" ++ fmt_exponent e).
  assert (S : sign ((if (Qnum x <? 0)%Z then §"-" else []) ++ nonneg_to_text (n / 10 ^ Z.of_nat d)%Z ++ rest) = ((if (Qnum x <? 0)%Z then -1 else 1)%Z, nonneg_to_text (n / 10 ^ Z.of_nat d)%Z ++ rest)).
  { destruct (Qnum x <? 0)%Z; [reflexivity|]. cbn [app]. apply sign_nonneg. exact B. }
  rewrite S. destruct (scan_nonneg (n / 10 ^ Z.of_nat d)%Z 0%Z 0 rest B) as (m & Hm & E). rewrite E. unfold rest.
  cbn [str list_ascii_of_string app scan]. change (digit ".") with (@None Z). cbv iota. change (Ascii.eqb "." ".") with true. cbv iota.
  rewrite (scan_fraction d n (0 * 10 ^ Z.of_nat m + n / 10 ^ Z.of_nat d)%Z 0 ("e"%char :: fmt_exponent e)). cbn [scan]. change (digit "e") with (@None Z). cbv iota. destruct m; [lia|]. cbn [Nat.add].
  change (Ascii.eqb "e" "e" || Ascii.eqb "e" "E") with true. cbv iota. destruct (scan_exponent e) as (k & Hk & Es & Ek). rewrite Es, Ek. destruct k; [lia|]. f_equal.
  replace (0 * 10 ^ Z.of_nat (Datatypes.S m) + n / 10 ^ Z.of_nat d)%Z with (n / 10 ^ Z.of_nat d)%Z by ring. pose proof (Z.div_mod n (10 ^ Z.of_nat d) ltac:(lia)).
  replace (n / 10 ^ Z.of_nat d * 10 ^ Z.of_nat d + n mod 10 ^ Z.of_nat d)%Z with n by lia. f_equal. destruct (Z.ltb_spec e 0); lia.
Qed.
