(** Proofs about files with band structures. *)
From Coq Require Import Reals Qreals Qabs Lia.
From Verif Require Import Text TextProofs FilbModel FilbSpec.
Local Open Scope nat_scope.

Lemma split_from_app c s : forall cur t, ~ In c s -> split_from c cur (s ++ c :: t) = (cur ++ s) :: split_from c [] t.
Proof.
  induction s as [|d s IH]; intros cur t H; cbn [app split_from].
  - rewrite Ascii.eqb_refl, app_nil_r. reflexivity.
  - destruct (Ascii.eqb_spec d c) as [->|N]; [exfalso; apply H; left; reflexivity|].
    rewrite IH by (intros I; apply H; right; exact I). rewrite <- app_assoc. reflexivity.
Qed.

Lemma split_from_end c s : forall cur, ~ In c s -> split_from c cur s = [cur ++ s].
Proof.
  induction s as [|d s IH]; intros cur H; cbn [split_from]; [rewrite app_nil_r; reflexivity|].
  destruct (Ascii.eqb_spec d c) as [->|N]; [exfalso; apply H; left; reflexivity|].
  rewrite IH by (intros I; apply H; right; exact I). rewrite <- app_assoc. reflexivity.
Qed.

Lemma upto_app c s t : ~ In c s -> upto c (s ++ c :: t) = Ok s.
Proof.
  induction s as [|d s IH]; intros H; cbn [app upto]; [rewrite Ascii.eqb_refl; reflexivity|].
  destruct (Ascii.eqb_spec d c) as [->|N]; [exfalso; apply H; left; reflexivity|].
  rewrite IH by (intros I; apply H; right; exact I). reflexivity.
Qed.

Lemma read_header_line l nbnd nks : header_line l nbnd nks -> read_header l = Ok (nbnd, nks).
Proof.
  intros [a n1 b n2 c nb nk H C S E1 E2].
  assert (N : forall t, (forall x, In x t -> In x (a ++ n1 ++ b ++ n2 ++ c)) -> ~ In "="%char t).
  { intros t Ht I. apply Ht in I. rewrite Forall_forall in H. apply (H _ I). reflexivity. }
  unfold read_header, split_at. rewrite split_from_app by (apply N; intros; rewrite !in_app_iff; auto).
  rewrite (app_comm_cons b), app_assoc.
  assert (A : ~ In "="%char (n1 ++ ","%char :: b)).
  { rewrite in_app_iff. intros [I|[I|I]]; [|discriminate|]; revert I; apply N; intros; rewrite !in_app_iff; auto. }
  rewrite split_from_app by exact A.
  assert (B : ~ In "="%char (n2 ++ "/"%char :: c)).
  { rewrite in_app_iff. intros [I|[I|I]]; [|discriminate|]; revert I; apply N; intros; rewrite !in_app_iff; auto 6. }
  rewrite split_from_end by exact B. cbn [app]. rewrite !upto_app by assumption. cbn [bind]. rewrite E1. cbn [bind]. rewrite E2. reflexivity.
Qed.

Lemma lstrip_split t : str_split (lstrip t) = str_split t.
Proof.
  induction t as [|c t IH]; [reflexivity|]. cbn [lstrip]. destruct (is_space c) eqn:E; [|reflexivity].
  rewrite IH. unfold str_split. cbn [words_from]. rewrite E. reflexivity.
Qed.

Lemma lstrip_app_solid t c r : is_space c = false -> lstrip (t ++ c :: r) = lstrip (t ++ [c]) ++ r.
Proof.
  intros E. induction t as [|d t IH]; cbn [app lstrip]; [rewrite E; reflexivity|]. destruct (is_space d); [exact IH|]. cbn [app]. rewrite <- app_assoc. reflexivity.
Qed.

Lemma lstrip_ends t c : is_space c = false -> exists t', lstrip (t ++ [c]) = t' ++ [c].
Proof.
  intros E. induction t as [|d t IH]; cbn [app lstrip].
  - rewrite E. exists []. reflexivity.
  - destruct (is_space d); [exact IH|]. exists (d :: t). reflexivity.
Qed.

Lemma lstrip_of_all s t : Forall (eq "*"%char) s -> lstrip_of "*" (s ++ t) = lstrip_of "*" t.
Proof. induction 1 as [|c s <- _ IH]; [reflexivity|]. cbn [app lstrip_of]. rewrite Ascii.eqb_refl. exact IH. Qed.

Lemma Forall_rev' {A} (P : A -> Prop) l : Forall P l -> Forall P (rev l).
Proof. rewrite !Forall_forall. intros H x Hx. apply H. apply in_rev. exact Hx. Qed.

Lemma spaces_all s : Forall (fun c => is_space c = true) s -> spaces s.
Proof. intros H. exact H. Qed.

Lemma strip_point l c stars end_ : c <> "*"%char -> is_space c = false -> Forall (eq "*"%char) stars -> Forall (fun c => is_space c = true) end_ ->
  rstrip_of "*" (strip (l ++ [c] ++ stars ++ end_)) = lstrip (l ++ [c]).
Proof.
  intros N E HS HE. unfold strip. change (l ++ [c] ++ stars ++ end_) with (l ++ c :: stars ++ end_).
  rewrite (lstrip_app_solid l c (stars ++ end_) E). rewrite !rev_app_distr.
  destruct (lstrip_ends l c E) as (t & Et). rewrite Et.
  rewrite <- app_assoc. rewrite lstrip_spaces by (apply spaces_all, Forall_rev'; exact HE).
  assert (L : lstrip (rev stars ++ rev (t ++ [c])) = rev stars ++ rev (t ++ [c])).
  { destruct (rev stars) as [|d s] eqn:Es.
    - cbn [app]. rewrite rev_app_distr. cbn [rev app lstrip]. rewrite E. reflexivity.
    - cbn [app lstrip]. assert (Hd : In d stars) by (apply in_rev; rewrite Es; left; reflexivity). rewrite Forall_forall in HS. rewrite <- (HS d Hd). reflexivity. }
  rewrite L. unfold rstrip_of. rewrite rev_involutive. rewrite lstrip_of_all by (apply Forall_rev'; exact HS).
  rewrite rev_app_distr. cbn [rev app lstrip_of]. destruct (Ascii.eqb_spec c "*") as [X|X]; [contradiction|]. cbn [rev]. rewrite rev_involutive. reflexivity.
Qed.

Lemma read_point_line l k : point_line l k -> read_point l = Ok k.
Proof.
  intros [l' c stars end_ w1 w2 w3 rest x y z Ew E1 E2 E3 Nc Sc HS HE]. unfold read_point. rewrite strip_point, lstrip_split, Ew by assumption.
  cbn [firstn map_res]. rewrite E1, E2, E3. reflexivity.
Qed.

Lemma read_energies_lines nbnd ls es : energy_lines ls es -> forall acc rest, length acc + length es = nbnd -> read_energies nbnd (ls ++ rest) acc = Ok (acc ++ es, rest).
Proof.
  induction 1 as [|l xs ls es N X H IH]; intros acc rest L.
  - rewrite app_nil_r. cbn [length] in L. cbn [app]. destruct rest; cbn [read_energies]; (destruct (Nat.ltb_spec (length acc) nbnd); [lia|reflexivity]).
  - rewrite app_length in L. cbn [app read_energies]. destruct (Nat.ltb_spec (length acc) nbnd) as [B|B]; [|destruct xs; [contradiction|cbn [length] in L; lia]].
    unfold numbers in N. rewrite N. cbn [bind]. rewrite IH by (rewrite app_length; lia). rewrite <- app_assoc. reflexivity.
Qed.

Lemma read_points_content nbnd ls ks bands : content nbnd ls ks bands -> read_points nbnd (length ks) ls = Ok (ks, bands).
Proof.
  induction 1 as [|l k ls es ls' ks bands P E L C IH]; [reflexivity|]. cbn [length read_points].
  rewrite (read_point_line _ _ P). cbn [bind]. rewrite (read_energies_lines nbnd ls es E [] ls' L). cbn [bind app]. rewrite L, Nat.eqb_refl, IH. reflexivity.
Qed.

(** ** Written files *)
Definition row (w d : nat) (es : list Q) : text := concat (map (fun e => blank :: pad w (fmt_f d e)) es).

Lemma row_app w d a b : row w d (a ++ b) = row w d a ++ row w d b.
Proof. unfold row. rewrite map_app, concat_app. reflexivity. Qed.

Lemma no_newline_row w d es : no_newline (row w d es).
Proof.
  induction es as [|e es IH]; [constructor|]. unfold row. cbn [map concat]. apply no_newline_app; [|exact IH].
  constructor; [intros X; discriminate|]. apply no_newline_pad, no_newline_f.
Qed.

Lemma row_starts w d es t : starts_space (row w d es ++ newline :: t).
Proof. destruct es; reflexivity. Qed.

Lemma row_numbers w d es : 0 < d -> numbers (row w d es ++ [newline]) (map (rounded d) es).
Proof.
  intros Hd. unfold numbers. induction es as [|e es IH]; [reflexivity|].
  change (row w d (e :: es)) with ((blank :: pad w (fmt_f d e)) ++ row w d es). rewrite <- app_assoc. cbn [app].
  rewrite split_blank_pad; [|apply word_fmt_f|apply row_starts]. cbn [map_res map]. rewrite to_float_fmt by exact Hd. cbn [bind]. rewrite IH. reflexivity.
Qed.

Lemma write_energies_lines w d cols nbnd : 0 < d -> 0 < cols -> forall es n xs rest, n + length es = S nbnd -> es <> [] ->
  exists ls, lines (row w d xs ++ write_energies w d cols nbnd n es ++ rest) = ls ++ lines rest /\ energy_lines ls (map (rounded d) (xs ++ es)).
Proof.
  intros Hd Hc. induction es as [|e es IH]; intros n xs rest L Hne; [contradiction|]. cbn [length] in L.
  cbn [write_energies].
  assert (R : forall t, row w d xs ++ (blank :: pad w (fmt_f d e) ++ t) ++ rest = row w d (xs ++ [e]) ++ t ++ rest).
  { intros t. rewrite row_app. unfold row at 3. cbn [map concat]. rewrite app_nil_r. rewrite <- !app_assoc. cbn [app]. rewrite <- !app_assoc. reflexivity. }
  rewrite R.
  destruct ((n mod cols =? 0) || (n =? nbnd)) eqn:E.
  - change ((([newline] ++ write_energies w d cols nbnd (S n) es)) ++ rest) with (newline :: write_energies w d cols nbnd (S n) es ++ rest).
    rewrite lines_app by apply no_newline_row.
    assert (N : numbers (row w d (xs ++ [e]) ++ [newline]) (map (rounded d) (xs ++ [e]))) by (apply row_numbers; exact Hd).
    assert (Ne : map (rounded d) (xs ++ [e]) <> []) by (destruct xs; discriminate).
    destruct es as [|e' es].
    + cbn [write_energies app]. exists [row w d (xs ++ [e]) ++ [newline]]. split; [reflexivity|].
      rewrite <- (app_nil_r (map (rounded d) (xs ++ [e]))). constructor; [exact N|exact Ne|constructor].
    + destruct (IH (S n) [] rest ltac:(cbn [length] in *; lia) ltac:(discriminate)) as (ls & E1 & E2). cbn [row map concat app] in E1.
      exists ((row w d (xs ++ [e]) ++ [newline]) :: ls). split; [rewrite E1; reflexivity|].
      replace (xs ++ e :: e' :: es) with ((xs ++ [e]) ++ e' :: es) by (rewrite <- app_assoc; reflexivity). rewrite map_app. constructor; [exact N|exact Ne|exact E2].
  - cbn [app]. apply orb_false_iff in E. destruct E as [_ E]. apply Nat.eqb_neq in E.
    destruct es as [|e' es]; [cbn [length] in L; lia|].
    destruct (IH (S n) (xs ++ [e]) rest ltac:(cbn [length] in *; lia) ltac:(discriminate)) as (ls & E1 & E2). exists ls. split; [exact E1|].
    rewrite <- app_assoc in E2. exact E2.
Qed.

Definition rounded_point (k : point) : point := let '(x, y, z) := k in (rounded 6 x, rounded 6 y, rounded 6 z).

Lemma fmt_f_last d x : 0 < d -> exists t c, fmt_f d x = t ++ [c] /\ is_space c = false /\ c <> "*"%char.
Proof.
  intros Hd. unfold fmt_f. destruct d as [|d]; [lia|]. cbn [fraction_digits].
  set (n := scaled (S d) x). exists ((if (Qnum x <? 0)%Z then §"-" else []) ++ nonneg_to_text (n / 10 ^ Z.of_nat (S d)) ++ §"." ++ fraction_digits d (n / 10)), (chr (n mod 10)).
  assert (B : (0 <= n mod 10 < 10)%Z) by (apply Z.mod_pos_bound; lia).
  split; [rewrite <- !app_assoc; reflexivity|]. split; [apply solid_chr; exact B|].
  destruct (digit_cases _ B) as [->|[->|[->|[->|[->|[->|[->|[->|[->| ->]]]]]]]]]; discriminate.
Qed.

Lemma write_point_line k : exists l, (forall w d cols nbnd es rest, lines (write_point w d cols nbnd k es ++ rest) = l :: lines (write_energies w d cols nbnd 1 es ++ rest)) /\
  point_line l (rounded_point k).
Proof.
  destruct k as [[x y] z]. set (h := pad 20 (fmt_f 6 x) ++ blank :: pad 9 (fmt_f 6 y) ++ blank :: pad 9 (fmt_f 6 z)).
  exists (h ++ [newline]). split.
  - intros w d cols nbnd es rest. unfold write_point.
    replace (pad 20 (fmt_f 6 x) ++ blank :: pad 9 (fmt_f 6 y) ++ blank :: pad 9 (fmt_f 6 z) ++ newline :: write_energies w d cols nbnd 1 es) with (h ++ newline :: write_energies w d cols nbnd 1 es)
      by (unfold h; rewrite <- !app_assoc; cbn [app]; rewrite <- !app_assoc; reflexivity).
    rewrite <- app_assoc. cbn [app]. apply lines_app. unfold h. apply no_newline_app; [apply no_newline_pad, no_newline_f|].
    constructor; [intros X; discriminate|]. apply no_newline_app; [apply no_newline_pad, no_newline_f|]. constructor; [intros X; discriminate|]. apply no_newline_pad, no_newline_f.
  - destruct (fmt_f_last 6 z ltac:(lia)) as (t & c & Ez & Sc & Nc).
    assert (Eh : h = (pad 20 (fmt_f 6 x) ++ blank :: pad 9 (fmt_f 6 y) ++ blank :: repeat blank (9 - length (fmt_f 6 z)) ++ t) ++ [c]).
    { unfold h. unfold pad at 3. rewrite Ez at 2. rewrite <- !app_assoc. cbn [app]. rewrite <- !app_assoc. cbn [app]. rewrite <- !app_assoc. reflexivity. }
    assert (Sh : str_split h = [fmt_f 6 x; fmt_f 6 y; fmt_f 6 z]).
    { unfold h. rewrite split_pad; [|apply word_fmt_f|reflexivity]. f_equal. rewrite split_blank_pad; [|apply word_fmt_f|reflexivity]. f_equal.
      rewrite <- (app_nil_r (pad 9 (fmt_f 6 z))). rewrite split_blank_pad; [reflexivity|apply word_fmt_f|exact Logic.I]. }
    rewrite Eh in *. rewrite <- app_assoc. change ([c] ++ [newline]) with ([c] ++ [] ++ [newline]).
    apply (coordinates _ c [] [newline] (fmt_f 6 x) (fmt_f 6 y) (fmt_f 6 z) []); try assumption; try (apply to_float_fmt; lia).
    + constructor.
    + repeat constructor.
Qed.

Lemma write_points_content w d cols nbnd : 0 < d -> (0 < cols \/ nbnd = 0) -> forall ks bands, length bands = length ks -> Forall (fun es => length es = nbnd) bands ->
  content nbnd (lines (concat (map (fun kb => write_point w d cols nbnd (fst kb) (snd kb)) (combine ks bands)))) (map rounded_point ks) (map (map (rounded d)) bands).
Proof.
  intros Hd Hc. induction ks as [|k ks IH]; intros [|es bands] L F; try discriminate; cbn [combine map concat fst snd]; [constructor|].
  inversion F as [|? ? Le F']; subst. destruct (write_point_line k) as (l & El & Pl).
  rewrite El. destruct es as [|e es].
  - cbn [write_energies app]. change (l :: lines ?t) with (l :: [] ++ lines t). constructor; [exact Pl|constructor|reflexivity|]. apply IH; [injection L as ->; reflexivity|exact F'].
  - destruct Hc as [Hc|Hc]; [|discriminate].
    destruct (write_energies_lines w d cols (length (e :: es)) Hd Hc (e :: es) 1 [] (concat (map (fun kb => write_point w d cols (length (e :: es)) (fst kb) (snd kb)) (combine ks bands))) eq_refl ltac:(discriminate)) as (ls & E1 & E2).
    cbn [row map concat app] in E1, E2. rewrite E1. constructor; [exact Pl|exact E2|apply map_length|]. apply IH; [injection L as ->; reflexivity|exact F'].
Qed.
