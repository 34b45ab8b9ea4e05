(** Proofs about files with hoppings. *)
From Verif Require Import TextProofs HrModel HrSpec.
From Coq Require Import Qabs Lqa Permutation Sorted.
Local Open Scope nat_scope.

(** ** Reading *)
Lemma position_ok size a : a < size -> position size (Z.of_nat a + 1 - 1) = Ok a.
Proof. intros H. unfold position. replace (Z.of_nat a + 1 - 1)%Z with (Z.of_nat a) by lia. destruct (Z.leb_spec 0 (Z.of_nat a)); [|lia]. destruct (Z.ltb_spec (Z.of_nat a) (Z.of_nat size)); [|lia]. cbn [andb]. rewrite Nat2Z.id. reflexivity. Qed.

Lemma item_back_end {A} (front : list A) a b re im :
  item_back (front ++ [a; b; re; im]) 4 = Ok a /\ item_back (front ++ [a; b; re; im]) 3 = Ok b /\ item_back (front ++ [a; b; re; im]) 2 = Ok re /\ item_back (front ++ [a; b; re; im]) 1 = Ok im.
Proof. unfold item_back, item. rewrite rev_app_distr. cbn. auto. Qed.

Definition quotient (x : cx) (d : Q) : cx := ((fst x / d)%Q, (snd x / d)%Q).
Definition assign_all (d : Q) (es : list (nat * nat * cx)) (m : matrix) : matrix :=
  fold_left (fun m e => assign m (fst (fst e)) (snd (fst e)) (quotient (snd e) d)) es m.

Lemma read_hoppings_ok size d front : ~ (d == 0)%Q -> forall rows es m tmp f, Forall2 (element_row size front) rows es ->
  read_hoppings size (length es) d m tmp (rows ++ f) = Ok (assign_all d es m, match rev rows with [] => tmp | r :: _ => Some r end, f).
Proof.
  intros Hd rows es m tmp f H. revert m tmp. induction H as [|row e rows es He Hes IH]; intros m tmp; [reflexivity|].
  destruct He as (a & b & re & im & -> & La & Lb & Ea & Eb & Er & Ei). destruct (item_back_end front a b re im) as (I4 & I3 & I2 & I1).
  cbn [length read_hoppings app cols bind]. rewrite I2. cbn [bind]. rewrite Er. cbn [bind]. rewrite I1. cbn [bind]. rewrite Ei. cbn [bind].
  unfold divide. destruct (Qeq_bool d 0) eqn:Ed; [apply Qeq_bool_eq in Ed; contradiction|]. cbn [bind]. rewrite I4. cbn [bind]. rewrite Ea. cbn [bind]. rewrite I3. cbn [bind]. rewrite Eb. cbn [bind].
  rewrite (position_ok size _ La). cbn [bind]. rewrite (position_ok size _ Lb). cbn [bind]. rewrite IH. f_equal. f_equal. f_equal.
  cbn [rev]. destruct (rev rows) as [|r l]; reflexivity.
Qed.

Lemma assign_all_other d es : forall m a b, (forall x, ~ In (a, b, x) es) -> assign_all d es m a b = m a b.
Proof.
  unfold assign_all. induction es as [|[[a' b'] x'] es IH]; intros m a b H; [reflexivity|]. cbn [fold_left fst snd]. rewrite IH by (intros x Hx; apply (H x); right; exact Hx).
  unfold assign. destruct (Nat.eqb_spec a a'); [|reflexivity]. destruct (Nat.eqb_spec b b'); [|reflexivity]. subst. exfalso. apply (H x'). left. reflexivity.
Qed.

Lemma assign_all_in d es : forall m a b x, In (a, b, x) es -> (forall y, In (a, b, y) es -> y = x) -> assign_all d es m a b = Some (quotient x d).
Proof.
  induction es as [|[[a' b'] x'] es IH]; intros m a b x H U; [contradiction|]. unfold assign_all. cbn [fold_left fst snd]. fold (assign_all d es (assign m a' b' (quotient x' d))).
  assert (D : (exists y, In (a, b, y) es) \/ (forall y, ~ In (a, b, y) es)).
  { clear. induction es as [|[[a' b'] x'] es IH]; [right; intros y []|]. destruct IH as [(y & Hy)|IH]; [left; exists y; right; exact Hy|].
    destruct (Nat.eq_dec a' a), (Nat.eq_dec b' b); subst; try (left; exists x'; left; reflexivity); right; intros y [E|Hy]; try congruence; exact (IH y Hy). }
  destruct D as [(y & Hy)|D].
  - assert (y = x) by (apply U; right; exact Hy). subst. apply IH; [exact Hy|]. intros z Hz. apply U. right. exact Hz.
  - rewrite assign_all_other by exact D. destruct H as [H|H]; [|exfalso; exact (D x H)]. injection H as -> -> ->. unfold assign. rewrite !Nat.eqb_refl. reflexivity.
Qed.

Lemma to_cell_ok ws R : vector_words ws R -> exists zs, map_res to_int ws = Ok zs /\ to_cell zs = Ok R /\ length ws = 3.
Proof.
  destruct R as [[x y] z]. cbn. intros H. exists [x; y; z]. split; [exact H|]. split; [reflexivity|]. destruct ws as [|a [|b [|c [|e ws]]]]; cbn in H; try discriminate; try reflexivity.
  - destruct (to_int a); cbn in H; discriminate.
  - destruct (to_int a); cbn in H; [|discriminate]. destruct (to_int b); cbn in H; discriminate.
  - destruct (to_int a); cbn in H; [|discriminate]. destruct (to_int b); cbn in H; [|discriminate]. destruct (to_int c); cbn in H; [|discriminate]. destruct (to_int e); cbn in H; [|discriminate]. destruct (map_res to_int ws); cbn in H; discriminate.
Qed.

Definition block_result (divide : bool) (B : block) : cell * matrix :=
  (vector B, assign_all (if divide then degeneracy B else 1%Q) (elements B) (fun _ _ => None)).

Lemma block_result_ok divide size B : complete_block size B -> result_of divide size B (block_result divide B).
Proof.
  intros (_ & _ & U & _). split; [reflexivity|]. intros a b x H. cbn [block_result snd]. rewrite (assign_all_in _ _ _ a b x H) by (intros y Hy; exact (U a b y x Hy H)). destruct divide; reflexivity.
Qed.

Lemma complete_length size B : complete_block size B -> length (elements B) = size ^ 2.
Proof. intros (L & _). rewrite L. cbn. lia. Qed.

Lemma last_row size front rows es tmp : Forall2 (element_row size front) rows es -> 0 < length es ->
  exists r, (match rev rows with [] => tmp | r :: _ => Some r end) = Some r /\ firstn (length front) r = front.
Proof.
  intros H L. destruct rows as [|row rows] using rev_ind; [inversion H; subst; cbn in L; lia|]. clear IHrows. rewrite rev_app_distr. cbn [rev app]. exists row. split; [reflexivity|].
  apply Forall2_app_inv_l in H as (e1 & e2 & _ & H & _). inversion H as [|? e ? ? He]; subst. destruct He as (a & b & re & im & -> & _). rewrite firstn_app, Nat.sub_diag, firstn_O, firstn_all, app_nil_r. reflexivity.
Qed.

Lemma read_blocks_hr (divide : bool) size : 0 < size -> forall Bs rowss pre f,
  Forall2 (hr_block size) Bs rowss -> Forall (complete_block size) Bs ->
  read_cells false size (if divide then pre ++ map degeneracy Bs else map (fun _ => 1%Q) (pre ++ map degeneracy Bs)) (length pre) (length Bs) (concat rowss ++ f) = Ok (map (block_result divide) Bs).
Proof.
  intros Hs Bs rowss pre f H. revert pre. induction H as [|B rows Bs rowss HB _ IH]; intros pre HC; [reflexivity|]. apply Forall_cons_iff in HC as [CB HC].
  destruct HB as [front rows HV HR]. cbn [length read_cells concat bind map]. rewrite <- app_assoc. destruct (Nat.eqb_spec (size ^ 2) 0) as [E|_]; [cbn in E; nia|].
  set (nd := if divide then pre ++ degeneracy B :: map degeneracy Bs else map (fun _ => 1%Q) (pre ++ degeneracy B :: map degeneracy Bs)).
  assert (Ed : item nd (length pre) = Ok (if divide then degeneracy B else 1%Q)).
  { unfold item, nd. destruct divide; [rewrite nth_error_app2, Nat.sub_diag by lia; reflexivity|]. rewrite map_app, nth_error_app2 by (rewrite map_length; lia). rewrite map_length, Nat.sub_diag. reflexivity. }
  rewrite Ed. cbn [bind]. rewrite <- (complete_length size B CB). rewrite (read_hoppings_ok size _ front) by (exact HR || (destruct divide; [apply CB|discriminate])). cbn [bind].
  destruct (last_row size front rows (elements B) None HR) as (r & Er & Fr).
  { rewrite (complete_length size B CB). cbn. nia. }
  rewrite Er. destruct (to_cell_ok front (vector B) HV) as (zs & Ez & Ec & L3). rewrite <- L3, Fr, Ez. cbn [bind]. rewrite Ec. cbn [bind].
  specialize (IH (pre ++ [degeneracy B]) HC). rewrite app_length, <- app_assoc in IH. cbn [app length] in IH. rewrite Nat.add_1_r in IH. fold nd in IH. rewrite IH. reflexivity.
Qed.

Lemma read_blocks_tb (divide : bool) size : 0 < size -> forall Bs rowss pre f,
  Forall2 (tb_block size) Bs rowss -> Forall (complete_block size) Bs ->
  read_cells true size (if divide then pre ++ map degeneracy Bs else map (fun _ => 1%Q) (pre ++ map degeneracy Bs)) (length pre) (length Bs) (concat rowss ++ f) = Ok (map (block_result divide) Bs).
Proof.
  intros Hs Bs rowss pre f H. revert pre. induction H as [|B rows Bs rowss HB _ IH]; intros pre HC; [reflexivity|]. apply Forall_cons_iff in HC as [CB HC].
  destruct HB as [front rows HV HR]. cbn [length read_cells concat bind map cols app]. rewrite <- app_assoc. destruct (Nat.eqb_spec (size ^ 2) 0) as [E|_]; [cbn in E; nia|].
  destruct (to_cell_ok front (vector B) HV) as (zs & Ez & Ec & L3). rewrite Ez. cbn [bind]. rewrite Ec. cbn [bind].
  set (nd := if divide then pre ++ degeneracy B :: map degeneracy Bs else map (fun _ => 1%Q) (pre ++ degeneracy B :: map degeneracy Bs)).
  assert (Ed : item nd (length pre) = Ok (if divide then degeneracy B else 1%Q)).
  { unfold item, nd. destruct divide; [rewrite nth_error_app2, Nat.sub_diag by lia; reflexivity|]. rewrite map_app, nth_error_app2 by (rewrite map_length; lia). rewrite map_length, Nat.sub_diag. reflexivity. }
  rewrite Ed. cbn [bind]. rewrite <- (complete_length size B CB). rewrite (read_hoppings_ok size _ []) by (exact HR || (destruct divide; [apply CB|discriminate])). cbn [bind].
  specialize (IH (pre ++ [degeneracy B]) HC). rewrite app_length, <- app_assoc in IH. cbn [app length] in IH. rewrite Nat.add_1_r in IH. fold nd in IH. rewrite IH. reflexivity.
Qed.

Lemma map_res_app {A B} (f : A -> res B) l l' ys ys' : map_res f l = Ok ys -> map_res f l' = Ok ys' -> map_res f (l ++ l') = Ok (ys ++ ys').
Proof.
  revert ys. induction l as [|x l IH]; intros ys H H'; cbn in *; [injection H as <-; exact H'|]. destruct (f x); cbn in *; [|discriminate]. destruct (map_res f l) as [zs|]; cbn in *; [|discriminate].
  injection H as <-. rewrite (IH zs eq_refl H'). reflexivity.
Qed.

Lemma map_res_length {A B} (f : A -> res B) : forall l ys, map_res f l = Ok ys -> length ys = length l.
Proof. induction l as [|x l IH]; intros ys H; cbn in *; [injection H as <-; reflexivity|]. destruct (f x); cbn in *; [|discriminate]. destruct (map_res f l); cbn in *; [|discriminate]. injection H as <-. cbn. rewrite (IH _ eq_refl). reflexivity. Qed.

Lemma read_degeneracies_ok nrpts : forall chunks ds acc fuel f, Forall (fun c => c <> []) chunks -> map_res to_float (concat chunks) = Ok ds -> length acc + length ds = nrpts -> length chunks <= fuel ->
  read_degeneracies fuel nrpts acc (chunks ++ f) = Ok (acc ++ ds, f).
Proof.
  induction chunks as [|c chunks IH]; intros ds acc fuel f NE E L Hf.
  - cbn in E. injection E as <-. cbn in L. unfold read_degeneracies. destruct fuel; destruct (Nat.ltb_spec (length acc) nrpts); try lia; rewrite app_nil_r; reflexivity.
  - apply Forall_cons_iff in NE as [Nc NE]. cbn [concat] in E. destruct fuel as [|fuel]; [cbn in Hf; lia|].
    assert (S : exists d1 d2, map_res to_float c = Ok d1 /\ map_res to_float (concat chunks) = Ok d2 /\ ds = d1 ++ d2).
    { clear - E. revert ds E. induction c as [|x c IH]; intros ds E; [exists [], ds; auto|]. cbn [app map_res] in *. destruct (to_float x); cbn in *; [|discriminate]. destruct (map_res to_float (c ++ concat chunks)) as [zs|] eqn:Ez; cbn in *; [|discriminate].
      injection E as <-. destruct (IH zs eq_refl) as (d1 & d2 & E1 & E2 & ->). rewrite E1. cbn. exists (a :: d1), d2. auto. }
    destruct S as (d1 & d2 & E1 & E2 & ->). rewrite app_length in L. pose proof (map_res_length _ _ _ E1) as L1.
    assert (0 < length d1) by (destruct c; [congruence|cbn in L1; lia]).
    cbn [read_degeneracies]. destruct (Nat.ltb_spec (length acc) nrpts); [|lia]. cbn [app cols bind]. rewrite E1. cbn [bind]. rewrite (IH d2 (acc ++ d1) fuel f NE E2) by (rewrite ?app_length; cbn in Hf; lia). rewrite app_assoc. reflexivity.
Qed.

Lemma chunks_le (chunks : list (list text)) : Forall (fun c => c <> []) chunks -> length chunks <= length (concat chunks).
Proof. induction 1 as [|c l Hc _ IH]; [cbn; lia|]. cbn. rewrite app_length. destruct c; [congruence|cbn; lia]. Qed.

(** ** Contents of a file *)
Lemma read_content_ok (tb divide : bool) size Bs first vectors w1 ws1 w2 ws2 chunks rowss f :
  0 < size -> 2 < length first -> length vectors = (if tb then 3 else 0) ->
  to_int w1 = Ok (Z.of_nat size) -> to_int w2 = Ok (Z.of_nat (length Bs)) ->
  Forall (fun c => c <> []) chunks -> map_res to_float (concat chunks) = Ok (map degeneracy Bs) ->
  Forall2 (if tb then tb_block size else hr_block size) Bs rowss -> Forall (complete_block size) Bs ->
  read_content tb divide (first :: vectors ++ (w1 :: ws1) :: (w2 :: ws2) :: chunks ++ concat rowss ++ f) = Ok (map (block_result divide) Bs).
Proof.
  intros Hs Hf Hv E1 E2 NE Ed HB HC. unfold read_content. cbn [cols bind].
  destruct first as [|f0 [|f1 [|f2 first]]]; try (cbn in Hf; lia). change (item (f0 :: f1 :: f2 :: first) 2) with (@Ok text f2). cbn [bind].
  assert (L : length (concat chunks) = length Bs) by (rewrite <- (map_res_length _ _ _ Ed); apply map_length).
  assert (D : forall g, read_degeneracies (Z.to_nat (Z.of_nat (length Bs))) (Z.to_nat (Z.of_nat (length Bs))) [] (chunks ++ g) = Ok (map degeneracy Bs, g)).
  { intros g. rewrite Nat2Z.id. apply (read_degeneracies_ok _ chunks (map degeneracy Bs) []); [exact NE|exact Ed|cbn; apply map_length|]. rewrite <- L. apply chunks_le. exact NE. }
  assert (G : forall g, (do (ws, f) <- cols ((w1 :: ws1) :: (w2 :: ws2) :: chunks ++ g) ;; do w <- item ws 0 ;; do num_wann <- to_int w ;;
    do (ws, f) <- cols f ;; do w <- item ws 0 ;; do nrpts <- to_int w ;;
    do (ndegen, f) <- read_degeneracies (Z.to_nat nrpts) (Z.to_nat nrpts) [] f ;;
    let ndegen := if divide then ndegen else map (fun _ => 1%Q) ndegen in
    if ((nrpts <? 0) || (num_wann <? 0))%Z then Raise ValueError else read_cells tb (Z.to_nat num_wann) ndegen 0 (Z.to_nat nrpts) f)
    = read_cells tb size (if divide then map degeneracy Bs else map (fun _ => 1%Q) (map degeneracy Bs)) 0 (length Bs) g).
  { intros g. cbn [cols bind]. unfold item. cbn [nth_error bind]. rewrite E1. cbn [bind]. rewrite E2. cbn [bind]. rewrite D. cbn [bind]. cbv zeta.
    destruct (Z.ltb_spec (Z.of_nat (length Bs)) 0); [lia|]. destruct (Z.ltb_spec (Z.of_nat size) 0); [lia|]. cbn [orb]. rewrite !Nat2Z.id. reflexivity. }
  destruct tb.
  - destruct vectors as [|v1 [|v2 [|v3 [|v4 vectors]]]]; try discriminate. cbn [app cols bind] in *. etransitivity; [apply G|]. apply (read_blocks_tb divide size Hs Bs rowss [] f HB HC).
  - destruct vectors; [|discriminate]. cbn [app bind] in *. etransitivity; [apply G|]. apply (read_blocks_hr divide size Hs Bs rowss [] f HB HC).
Qed.

(** ** Writing *)
Lemma content_line l ws rest : no_newline l -> str_split (l ++ [newline]) = ws -> ws <> [] -> content (l ++ newline :: rest) = ws :: content rest.
Proof. intros H E N. unfold content. rewrite lines_app by exact H. cbn [map filter]. rewrite E. destruct ws; [congruence|reflexivity]. Qed.

Lemma starts_pad n w rest : (length w < n)%nat -> starts_space (pad n w ++ rest).
Proof. apply pad_starts. Qed.

Lemma fits_length z : fits_5d z -> length (fmt_d z) < 5.
Proof. intros H. unfold fits_5d in H. pose proof (fmt_d_length z 3 ltac:(lia)) as F. change (Z.of_nat 3) with 3%Z in F. assert (length (fmt_d z) <= 4) by (apply F; lia). lia. Qed.

Lemma round_div_le a b m : (0 < b)%Z -> (a <= m * b)%Z -> (round_div a b <= m)%Z.
Proof.
  intros Hb H. unfold round_div. pose proof (Z.div_mod a b ltac:(lia)) as E. pose proof (Z.mod_pos_bound a b Hb).
  destruct (Z.ltb_spec (2 * (a mod b)) b); [nia|]. destruct (Z.ltb_spec b (2 * (a mod b))); [nia|]. destruct (Z.even (a / b)); nia.
Qed.

Lemma fits_length_f x : fits_12f x -> length (fmt_f 6 x) < 12.
Proof.
  intros [L U]. unfold fmt_f. rewrite !app_length, fraction_length. cbn [str list_ascii_of_string length].
  pose proof (scaled_nonneg 6 x) as N. destruct x as [a b]. unfold Qle in L, U. cbn [Qnum Qden Qopp] in *.
  change (Z.of_nat 6) with 6%Z. change (10 ^ 6)%Z with 1000000%Z.
  assert (S : forall m, (Z.abs a * 1000000 <= m * Z.pos b)%Z -> (scaled 6 (a # b) <= m)%Z) by (intros m Hm; unfold scaled; cbn [Qnum Qden]; apply round_div_le; [lia|exact Hm]).
  destruct (Z.ltb_spec a 0).
  - cbn [length]. assert (length (nonneg_to_text (scaled 6 (a # b) / 1000000)) <= 3).
    { apply nonneg_length; [|lia]. change (10 ^ Z.of_nat 3)%Z with 1000%Z. split; [apply Z.div_pos; lia|]. apply Z.div_lt_upper_bound; [lia|]. specialize (S 999999999%Z). lia. }
    lia.
  - cbn [length]. assert (length (nonneg_to_text (scaled 6 (a # b) / 1000000)) <= 4).
    { apply nonneg_length; [|lia]. change (10 ^ Z.of_nat 4)%Z with 10000%Z. split; [apply Z.div_pos; lia|]. apply Z.div_lt_upper_bound; [lia|]. specialize (S 9999999999%Z). lia. }
    lia.
Qed.

Lemma split_hopping R a b h : fits_5d (snd (fst R)) -> fits_5d (snd R) -> (Z.of_nat a < 9999)%Z -> (Z.of_nat b < 9999)%Z -> fits_12f (fst h) -> fits_12f (snd h) ->
  str_split (hopping_line R a b h) = [fmt_d (fst (fst R)); fmt_d (snd (fst R)); fmt_d (snd R); fmt_d (Z.of_nat (a + 1)); fmt_d (Z.of_nat (b + 1)); fmt_f 6 (fst h); fmt_f 6 (snd h)].
Proof.
  intros Hy Hz Ha Hb Hr Hi. destruct R as [[x y] z]. cbn [fst snd] in *. unfold hopping_line.
  pose proof (fits_length y Hy). pose proof (fits_length z Hz). pose proof (fits_length (Z.of_nat (a + 1)) ltac:(unfold fits_5d; lia)). pose proof (fits_length (Z.of_nat (b + 1)) ltac:(unfold fits_5d; lia)).
  pose proof (fits_length_f _ Hr). pose proof (fits_length_f _ Hi).
  rewrite split_pad by (apply word_fmt_d || (apply pad_starts; assumption)). f_equal. rewrite split_pad by (apply word_fmt_d || (apply pad_starts; assumption)). f_equal.
  rewrite split_pad by (apply word_fmt_d || (apply pad_starts; assumption)). f_equal. rewrite split_pad by (apply word_fmt_d || (apply pad_starts; assumption)). f_equal.
  rewrite split_pad by (apply word_fmt_d || (apply pad_starts; assumption)). f_equal. rewrite split_pad by (apply word_fmt_f || (apply pad_starts; assumption)). f_equal.
  rewrite split_pad by (apply word_fmt_f || reflexivity). reflexivity.
Qed.

Lemma content_hopping R a b h rest : fits_5d (snd (fst R)) -> fits_5d (snd R) -> (Z.of_nat a < 9999)%Z -> (Z.of_nat b < 9999)%Z -> fits_12f (fst h) -> fits_12f (snd h) ->
  content (hopping_line R a b h ++ rest) = [fmt_d (fst (fst R)); fmt_d (snd (fst R)); fmt_d (snd R); fmt_d (Z.of_nat (a + 1)); fmt_d (Z.of_nat (b + 1)); fmt_f 6 (fst h); fmt_f 6 (snd h)] :: content rest.
Proof.
  intros. pose proof (split_hopping R a b h) as S. destruct R as [[x y] z]. unfold hopping_line in *.
  set (l := pad 5 (fmt_d x) ++ pad 5 (fmt_d y) ++ pad 5 (fmt_d z) ++ pad 5 (fmt_d (Z.of_nat (a + 1))) ++ pad 5 (fmt_d (Z.of_nat (b + 1))) ++ pad 12 (fmt_f 6 (fst h)) ++ pad 12 (fmt_f 6 (snd h))).
  assert (El : forall r, pad 5 (fmt_d x) ++ pad 5 (fmt_d y) ++ pad 5 (fmt_d z) ++ pad 5 (fmt_d (Z.of_nat (a + 1))) ++ pad 5 (fmt_d (Z.of_nat (b + 1))) ++ pad 12 (fmt_f 6 (fst h)) ++ pad 12 (fmt_f 6 (snd h)) ++ r = l ++ r) by (intros r; subst l; rewrite <- !app_assoc; reflexivity).
  rewrite El in S. rewrite El. rewrite <- app_assoc. cbn [app]. apply content_line; [|auto|discriminate].
  subst l. repeat (apply no_newline_app; [apply no_newline_pad; (apply no_newline_d || apply no_newline_f)|]). apply no_newline_pad, no_newline_f.
Qed.

Definition entries (size : nat) : list (nat * nat) := flat_map (fun b => map (fun a => (a, b)) (seq 0 size)) (seq 0 size).
Lemma in_entries size a b : In (a, b) (entries size) <-> a < size /\ b < size.
Proof.
  unfold entries. rewrite in_flat_map. split.
  - intros (b' & Hb & Hi). apply in_map_iff in Hi as (a' & E & Ha). injection E as <- <-. apply in_seq in Ha, Hb. lia.
  - intros [Ha Hb]. exists b. split; [apply in_seq; lia|]. apply in_map_iff. exists a. split; [reflexivity|apply in_seq; lia].
Qed.
Lemma entries_length size : length (entries size) = size * size.
Proof.
  unfold entries. enough (G : forall l, length (flat_map (fun b => map (fun a => (a, b)) (seq 0 size)) l) = length l * size) by (rewrite G, seq_length; reflexivity).
  induction l as [|b l IH]; [reflexivity|]. cbn [flat_map length]. rewrite app_length, IH, map_length, seq_length. lia.
Qed.

Definition row_of (R : cell) (H : nat -> nat -> cx) (ab : nat * nat) : list text :=
  [fmt_d (fst (fst R)); fmt_d (snd (fst R)); fmt_d (snd R); fmt_d (Z.of_nat (fst ab + 1)); fmt_d (Z.of_nat (snd ab + 1)); fmt_f 6 (fst (H (fst ab) (snd ab))); fmt_f 6 (snd (H (fst ab) (snd ab)))].

Lemma content_hoppings size R H rest : fits_5d (snd (fst R)) -> fits_5d (snd R) -> (Z.of_nat size <= 9999)%Z -> (forall a b, a < size -> b < size -> fits_12f (fst (H a b)) /\ fits_12f (snd (H a b))) ->
  content (hopping_lines size R H ++ rest) = map (row_of R H) (entries size) ++ content rest.
Proof.
  intros Hy Hz Hs HH. unfold hopping_lines.
  assert (E : flat_map (fun b => map (fun a => hopping_line R a b (H a b)) (seq 0 size)) (seq 0 size) = map (fun ab => hopping_line R (fst ab) (snd ab) (H (fst ab) (snd ab))) (entries size)).
  { unfold entries. generalize (seq 0 size) at 2 4. induction l as [|b l IH]; [reflexivity|]. cbn [flat_map]. rewrite map_app, map_map, IH. reflexivity. }
  rewrite E. clear E. assert (A : forall ab, In ab (entries size) -> fst ab < size /\ snd ab < size) by (intros [a b] Hab; apply in_entries; exact Hab).
  induction (entries size) as [|ab l IH]; [reflexivity|]. cbn [map concat]. rewrite <- app_assoc. destruct (A ab (or_introl eq_refl)) as [Ha Hb]. destruct (HH _ _ Ha Hb).
  rewrite content_hopping by (assumption || lia). rewrite IH by (intros x Hx; apply A; right; exact Hx). reflexivity.
Qed.

Lemma content_blocks size (R : nat -> cell) (H : nat -> nat -> nat -> cx) rest : (Z.of_nat size <= 9999)%Z -> forall order,
  (forall i, In i order -> fits_5d (snd (fst (R i))) /\ fits_5d (snd (R i)) /\ forall a b, a < size -> b < size -> fits_12f (fst (H i a b)) /\ fits_12f (snd (H i a b))) ->
  content (concat (map (fun i => hopping_lines size (R i) (H i)) order) ++ rest) = concat (map (fun i => map (row_of (R i) (H i)) (entries size)) order) ++ content rest.
Proof.
  intros Hs. induction order as [|i order IH]; intros A; [reflexivity|]. cbn [map concat]. rewrite <- !app_assoc. destruct (A i (or_introl eq_refl)) as (Hy & Hz & Hh).
  rewrite content_hoppings by assumption. rewrite IH by (intros j Hj; apply A; right; exact Hj). reflexivity.
Qed.

(** Degeneracies *)
Definition pads (l : list Z) : text := concat (map (fun d => pad 5 (fmt_d d)) l).

Lemma pads_no_newline l : no_newline (pads l).
Proof. unfold pads. induction l as [|d l IH]; [constructor|]. cbn [map concat]. apply no_newline_app; [apply no_newline_pad, no_newline_d|exact IH]. Qed.

Lemma pads_split l rest : Forall fits_5d l -> starts_space rest -> str_split (pads l ++ rest) = map fmt_d l ++ str_split rest.
Proof.
  intros H S. induction H as [|d l Hd Hl IH]; [reflexivity|]. unfold pads in *. cbn [map concat app]. rewrite <- app_assoc. rewrite split_pad; [rewrite IH; reflexivity|apply word_fmt_d|].
  destruct Hl as [|d' l Hd' _]; [exact S|]. cbn [map concat]. rewrite <- app_assoc. apply pad_starts, fits_length, Hd'.
Qed.

Lemma degeneracy_content total rest : forall l done n, l <> [] -> n + length l = S total -> Forall fits_5d (done ++ l) ->
  exists chunks, content (pads done ++ degeneracy_lines n total l ++ rest) = chunks ++ content rest /\ concat chunks = map fmt_d (done ++ l) /\ Forall (fun c => c <> []) chunks.
Proof.
  induction l as [|d l IH]; intros done n NE L F; [congruence|]. cbn [degeneracy_lines].
  assert (P : pads (done ++ [d]) = pads done ++ pad 5 (fmt_d d)) by (unfold pads; rewrite map_app, concat_app; cbn; rewrite app_nil_r; reflexivity).
  assert (F' : Forall fits_5d (done ++ [d])) by (apply Forall_app in F as [F1 F2]; apply Forall_app; split; [exact F1|constructor; [apply Forall_cons_iff in F2; apply F2|constructor]]).
  assert (X : forall r, content (pads (done ++ [d]) ++ newline :: r) = map fmt_d (done ++ [d]) :: content r).
  { intros r. apply content_line; [apply pads_no_newline| |destruct done; discriminate]. rewrite pads_split by (exact F' || reflexivity). rewrite split_end, app_nil_r. reflexivity. }
  destruct l as [|d' l].
  - cbn in L. destruct (Nat.eqb_spec n total); [|lia]. rewrite orb_true_r. cbn [degeneracy_lines]. rewrite <- !app_assoc. cbn [app]. rewrite app_assoc, <- P, X.
    exists [map fmt_d (done ++ [d])]. cbn. rewrite app_nil_r. split; [reflexivity|]. split; [reflexivity|]. constructor; [destruct done; discriminate|constructor].
  - destruct ((n mod 15 =? 0) || (n =? total)).
    + rewrite <- !app_assoc. rewrite app_assoc, <- P. cbn [app]. rewrite X. destruct (IH [] (S n) ltac:(discriminate) ltac:(cbn in *; lia)) as (chunks & E & C & N).
      { apply Forall_app in F as [_ F]. apply Forall_cons_iff in F. apply F. }
      exists (map fmt_d (done ++ [d]) :: chunks). unfold pads in E. cbn [map concat app] in E. rewrite E. split; [reflexivity|]. split; [cbn [concat]; rewrite C; rewrite <- map_app, <- app_assoc; reflexivity|]. constructor; [destruct done; discriminate|exact N].
    + cbn [app]. rewrite <- !app_assoc. rewrite app_assoc, <- P. destruct (IH (done ++ [d]) (S n) ltac:(discriminate) ltac:(cbn in *; lia)) as (chunks & E & C & N); [rewrite <- app_assoc; exact F|].
      exists chunks. rewrite E. split; [reflexivity|]. split; [rewrite C, <- app_assoc; reflexivity|exact N].
Qed.

(** ** Sorting *)
Lemma insert_perm x l : Permutation (insert_cell x l) (x :: l).
Proof. induction l as [|y l IH]; [reflexivity|]. cbn. destruct (cell_leb (snd x) (snd y)); [reflexivity|]. rewrite IH. apply perm_swap. Qed.

Lemma sort_perm l : Permutation (fold_right insert_cell [] l) l.
Proof. induction l as [|x l IH]; [reflexivity|]. cbn. rewrite insert_perm, IH. reflexivity. Qed.

Lemma lexsort_perm (R : list cell) : Permutation (lexsort R) (seq 0 (length R)).
Proof.
  unfold lexsort. rewrite (Permutation_map fst (sort_perm _)). assert (E : forall n (l : list cell), map fst (combine (seq n (length l)) l) = seq n (length l)) by (intros n l; revert n; induction l as [|x l IH]; intros n; [reflexivity|]; cbn; rewrite IH; reflexivity). rewrite E. reflexivity.
Qed.

Lemma cell_leb_le a b : cell_leb a b = true -> cell_le a b.
Proof. destruct a as [[x y] z], b as [[x' y'] z']. cbn. intros. lia. Qed.
Lemma cell_leb_not a b : cell_leb a b = false -> cell_le b a.
Proof. destruct a as [[x y] z], b as [[x' y'] z']. cbn. intros. lia. Qed.

Lemma insert_sorted x l : Sorted (fun a b => cell_le (snd a) (snd b)) l -> Sorted (fun a b : nat * cell => cell_le (snd a) (snd b)) (insert_cell x l).
Proof.
  induction 1 as [|y l HS IH HR]; [repeat constructor|]. cbn. destruct (cell_leb (snd x) (snd y)) eqn:E; [constructor; [constructor; assumption|constructor; apply cell_leb_le; exact E]|].
  constructor; [exact IH|]. apply cell_leb_not in E. destruct l as [|z l]; cbn; [constructor; exact E|]. destruct (cell_leb (snd x) (snd z)); constructor; [exact E|]. inversion HR; assumption.
Qed.

Lemma sort_sorted l : Sorted (fun a b : nat * cell => cell_le (snd a) (snd b)) (fold_right insert_cell [] l).
Proof. induction l as [|x l IH]; [constructor|]. cbn. apply insert_sorted, IH. Qed.

Lemma lexsort_sorted (R : list cell) : Sorted cell_le (map (fun i => nth i R (0, 0, 0)%Z) (lexsort R)).
Proof.
  unfold lexsort. rewrite map_map. pose proof (sort_sorted (combine (seq 0 (length R)) R)) as S. pose proof (sort_perm (combine (seq 0 (length R)) R)) as P.
  assert (E : forall x, In x (fold_right insert_cell [] (combine (seq 0 (length R)) R)) -> nth (fst x) R (0, 0, 0)%Z = snd x).
  { intros [i c] Hx. apply (Permutation_in _ P) in Hx. assert (G : forall l n i c, In (i, c) (combine (seq n (length l)) l) -> n <= i /\ nth (i - n) l (0, 0, 0)%Z = c).
    { clear. induction l as [|y l IH]; intros n i c H; [contradiction|]. cbn in H. destruct H as [H|H]; [injection H as <- <-; rewrite Nat.sub_diag; auto|]. destruct (IH _ _ _ H) as [L E]. split; [lia|]. replace (i - n) with (S (i - S n)) by lia. exact E. }
    destruct (G R 0 i c Hx) as [_ G']. rewrite Nat.sub_0_r in G'. exact G'. }
  revert S E. generalize (fold_right insert_cell [] (combine (seq 0 (length R)) R)). induction l as [|x l IH]; intros S E; [constructor|]. apply Sorted_inv in S as [S1 S2]. cbn [map]. constructor; [apply IH; [assumption|intros y Hy; apply E; right; exact Hy]|].
  destruct l as [|y l]; constructor. rewrite (E x (or_introl eq_refl)), (E y (or_intror (or_introl eq_refl))). inversion S2; assumption.
Qed.

(** ** Both directions *)
Lemma pad_cells R : Forall (fun r => length r <= 3) R -> map_res pad_cell R = Ok (map cell_of R).
Proof. induction 1 as [|r R Hr _ IH]; [reflexivity|]. cbn [map_res map]. rewrite IH. destruct r as [|x [|y [|z [|w r]]]]; cbn in Hr; try lia; reflexivity. Qed.

Lemma lookups_ok {A} (l : list A) d idx : (forall i, In i idx -> i < length l) -> lookups l idx = Ok (map (fun i => nth i l d) idx).
Proof.
  induction idx as [|i idx IH]; intros H; [reflexivity|]. cbn [lookups map]. rewrite (nth_error_nth' l d) by (apply H; left; reflexivity). rewrite IH by (intros j Hj; apply H; right; exact Hj). reflexivity.
Qed.

Lemma to_float_d z : exists q, to_float (fmt_d z) = Ok q /\ (q == inject_Z z)%Q.
Proof.
  unfold to_float. pose proof (strip_word [] (fmt_d z) [] ltac:(constructor) (word_fmt_d z) ltac:(constructor)) as Es. cbn [app] in Es. rewrite app_nil_r in Es. rewrite Es.
  unfold fmt_d. destruct (Z.ltb_spec z 0).
  - cbn [str list_ascii_of_string app sign]. change (Ascii.eqb "-" "-") with true. cbv iota. destruct (scan_nonneg (- z) 0 0 [] ltac:(lia)) as (m & Hm & E). rewrite app_nil_r in E. rewrite E. cbn [scan]. destruct m; [lia|]. cbn [Nat.add].
    eexists. split; [reflexivity|]. unfold power_of_ten, Qeq. cbn. lia.
  - rewrite <- (app_nil_r (nonneg_to_text z)), sign_nonneg by lia. destruct (scan_nonneg z 0 0 [] ltac:(lia)) as (m & Hm & E). rewrite E. cbn [scan]. destruct m; [lia|]. cbn [Nat.add].
    eexists. split; [reflexivity|]. unfold power_of_ten, Qeq. cbn. lia.
Qed.
