(** Proofs about files with electron-phonon coupling. *)
From Coq Require Import Reals Lra.
From Verif Require Import Text TextProofs FrcModel FrcProofs LatModel Num NumC EpmatModel.
Local Open Scope nat_scope.

(** ** Lines *)
Lemma line_joined l : is_line (joined l ++ [newline]) (map fmt_d l).
Proof.
  induction l as [|z l IH]; [apply line_end|]. destruct l as [|y l].
  - cbn [joined map]. apply line_word; [apply word_fmt_d|apply line_end].
  - change (joined (z :: y :: l)) with (fmt_d z ++ [blank] ++ joined (y :: l)). rewrite <- !app_assoc. cbn [map]. apply line_word; [apply word_fmt_d|].
    apply line_blanks; [discriminate|repeat constructor|exact IH].
Qed.

Definition vec_words (R : vec) : list text := map fmt_d [vx R; vy R; vz R].
Lemma line_vec R : is_line (vec_line R) (vec_words R).
Proof.
  unfold vec_line, vec_words. cbn [map]. apply line_pad; [apply word_fmt_d|].
  apply line_blanks; [discriminate|repeat constructor|]. apply line_pad; [apply word_fmt_d|].
  apply line_blanks; [discriminate|repeat constructor|]. apply line_pad; [apply word_fmt_d|apply line_end].
Qed.

Lemma ints l : map_res to_int (map fmt_d l) = Ok l.
Proof. induction l as [|z l IH]; [reflexivity|]. cbn [map map_res]. rewrite to_int_word, IH. reflexivity. Qed.

Lemma flat_map_one {A B} (f : A -> B) l : flat_map (fun x => [f x]) l = map f l.
Proof. induction l as [|x l IH]; [reflexivity|]. cbn. rewrite IH. reflexivity. Qed.

Definition block_rows (R : vec) (rows : nat) (row : nat -> list Z) : list (list text) :=
  vec_words R :: map (fun iw => map fmt_d (row iw)) (seq 0 rows).
Lemma lines_block R rows row : are_lines (block R rows row) (block_rows R rows row).
Proof.
  unfold block, block_rows. apply (lines_two _ _ [vec_words R]); [apply lines_one, line_vec|].
  rewrite <- (flat_map_one (fun iw => map fmt_d (row iw))). apply lines_concat. intros iw _. apply lines_one, line_joined.
Qed.

Lemma read_rows_ok cols row l : Forall (fun iw => length (row iw : list Z) = cols) l -> forall rest,
  read_rows (length l) cols (map (fun iw : nat => map fmt_d (row iw)) l ++ rest) = Ok (map (fun iw i => nth i (row iw) 0%Z) l, rest).
Proof.
  intros H rest. induction l as [|iw l IH]; [reflexivity|]. apply Forall_cons_iff in H as [H0 H]. cbn [length map app read_rows integers]. rewrite ints. cbn [bind].
  unfold assign_row. rewrite H0, Nat.eqb_refl. cbn [bind]. rewrite (IH H). reflexivity.
Qed.

Lemma read_vec_ok R rest : read_vec (vec_words R :: rest) = Ok (R, rest).
Proof.
  unfold read_vec. change (integers (Some 3) (vec_words R :: rest)) with (do l <- map_res to_int (map fmt_d [vx R; vy R; vz R]) ;; Ok (l, rest)).
  rewrite ints. cbn. destruct R; reflexivity.
Qed.

Lemma read_blocks_ok (R : nat -> vec) rows cols (row : nat -> nat -> list Z) l : (forall ir iw, length (row ir iw) = cols) -> forall rest,
  read_blocks (length l) rows cols (flat_map (fun ir => block_rows (R ir) rows (row ir)) l ++ rest) =
  Ok (map (fun ir => (R ir, map (fun iw i => nth i (row ir iw) 0%Z) (seq 0 rows))) l, rest).
Proof.
  intros H rest. induction l as [|ir l IH]; [reflexivity|]. cbn [length flat_map read_blocks map]. rewrite <- app_assoc. unfold block_rows at 1. cbn [app]. rewrite read_vec_ok. cbn [bind].
  pose proof (read_rows_ok cols (row ir) (seq 0 rows)) as E. rewrite seq_length in E. rewrite E; [|apply Forall_forall; intros; apply H]. cbn [bind]. rewrite IH. reflexivity.
Qed.

Definition header (a b dims dims2 : nat) : text :=
  fmt_d (Z.of_nat a) ++ §" 0 " ++ fmt_d (Z.of_nat b) ++ [blank] ++ fmt_d (Z.of_nat dims) ++ [blank] ++ fmt_d (Z.of_nat dims2).
Definition header_words (a b dims dims2 : nat) : list text := map fmt_d [Z.of_nat a; 0%Z; Z.of_nat b; Z.of_nat dims; Z.of_nat dims2].
Lemma line_header a b dims dims2 : is_line (header a b dims dims2 ++ [newline]) (header_words a b dims dims2).
Proof.
  unfold header, header_words. rewrite <- !app_assoc. cbn [map]. apply line_word; [apply word_fmt_d|].
  change (§" 0 ") with ([blank] ++ fmt_d 0%Z ++ [blank]). rewrite <- !app_assoc.
  apply line_blanks; [discriminate|repeat constructor|]. apply line_word; [apply word_fmt_d|].
  apply line_blanks; [discriminate|repeat constructor|]. apply line_word; [apply word_fmt_d|].
  apply line_blanks; [discriminate|repeat constructor|]. apply line_word; [apply word_fmt_d|].
  apply line_blanks; [discriminate|repeat constructor|]. apply line_word; [apply word_fmt_d|apply line_end].
Qed.

Section File.
  Variable Rk Rg : list vec.
  Variable dims dims2 : nat.
  Variable dk : nat -> nat -> nat -> Z.
  Variable dg : nat -> nat -> nat -> nat -> Z.
  Definition row_k ir iw := map (fun iw2 => dk iw2 iw ir) (seq 0 dims).
  Definition row_g ir iw := map (fun na => dg 0 iw na ir) (seq 0 dims2).
  Definition body : text :=
    concat (map (fun ir => block (nth ir Rk vzero) dims (row_k ir)) (seq 0 (length Rk))) ++
    concat (map (fun ir => block (nth ir Rg vzero) dims (row_g ir)) (seq 0 (length Rg))).
  Definition body_rows : list (list text) :=
    flat_map (fun ir => block_rows (nth ir Rk vzero) dims (row_k ir)) (seq 0 (length Rk)) ++
    flat_map (fun ir => block_rows (nth ir Rg vzero) dims (row_g ir)) (seq 0 (length Rg)).

  Lemma wigner_eq : wigner_text Rk Rg dims dims2 dk dg = (header (length Rk) (length Rg) dims dims2 ++ [newline]) ++ body.
  Proof. unfold wigner_text, header, body. rewrite <- !app_assoc. reflexivity. Qed.

  Lemma lines_body : are_lines body body_rows.
  Proof. apply lines_two; apply lines_concat; intros ir _; apply lines_block. Qed.

  Lemma wigner_words : words_of (wigner_text Rk Rg dims dims2 dk dg) = header_words (length Rk) (length Rg) dims dims2 :: body_rows.
  Proof.
    rewrite wigner_eq, <- (app_nil_r (_ ++ body)). pose proof (lines_two _ _ [_] _ (lines_one _ _ (line_header (length Rk) (length Rg) dims dims2)) lines_body []) as E.
    rewrite E. change (words_of []) with (@nil (list text)). rewrite app_nil_r. reflexivity.
  Qed.

  Lemma nth_seq_map {A} (f : nat -> A) n i d : i < n -> nth i (map f (seq 0 n)) d = f i.
  Proof. intros H. rewrite (nth_indep _ d (f 0)) by (rewrite map_length, seq_length; exact H). rewrite map_nth, seq_nth by exact H. reflexivity. Qed.

  Lemma map_nth_seq {A} (l : list A) d : map (fun i => nth i l d) (seq 0 (length l)) = l.
  Proof.
    induction l as [|x l IH]; [reflexivity|]. cbn [length seq map nth]. f_equal. rewrite <- seq_shift, map_map. exact IH.
  Qed.

  Theorem read_written : exists dk' dg', read_wigner (wigner_text Rk Rg dims dims2 dk dg) = Ok (Rk, dk', Rg, dg') /\
    k0 dk' = dims /\ k1 dk' = dims /\ g0 dg' = 1 /\ g1 dg' = dims /\ g2 dg' = dims2 /\
    (forall i j ir, i < dims -> j < dims -> ir < length Rk -> kdeg dk' i j ir = dk i j ir) /\
    (forall i j na ir, j < dims -> na < dims2 -> ir < length Rg -> gdeg dg' i j na ir = dg 0 j na ir).
  Proof.
    unfold read_wigner. rewrite wigner_words. cbn [integers]. unfold header_words. rewrite ints. cbn [bind existsb].
    replace (Z.of_nat (length Rk) <? 0)%Z with false by (symmetry; apply Z.ltb_ge; lia).
    replace (Z.of_nat (length Rg) <? 0)%Z with false by (symmetry; apply Z.ltb_ge; lia).
    replace (Z.of_nat dims <? 0)%Z with false by (symmetry; apply Z.ltb_ge; lia).
    replace (Z.of_nat dims2 <? 0)%Z with false by (symmetry; apply Z.ltb_ge; lia). cbn [orb Z.ltb Z.compare]. rewrite !Nat2Z.id. cbn [Z.to_nat].
    unfold body_rows. pose proof (read_blocks_ok (fun ir => nth ir Rk vzero) dims dims row_k (seq 0 (length Rk))) as Ek. rewrite seq_length in Ek.
    rewrite Ek; [|intros; unfold row_k; rewrite map_length, seq_length; reflexivity]. cbn [bind read_blocks].
    pose proof (read_blocks_ok (fun ir => nth ir Rg vzero) dims dims2 row_g (seq 0 (length Rg))) as Eg. rewrite seq_length in Eg.
    specialize (Eg ltac:(intros; unfold row_g; rewrite map_length, seq_length; reflexivity) []). rewrite app_nil_r in Eg. rewrite Eg. cbn [bind].
    rewrite !map_map. cbn [fst]. rewrite !map_nth_seq.
    eexists _, _. split; [reflexivity|]. cbn [k0 k1 g0 g1 g2 kdeg gdeg]. repeat split.
    - intros i j ir Hi Hj Hr. unfold entry. rewrite nth_seq_map by exact Hr. cbn [snd]. rewrite nth_seq_map by exact Hj. unfold row_k. rewrite nth_seq_map by exact Hi. reflexivity.
    - intros i j na ir Hj Hn Hr. unfold entry. rewrite nth_seq_map by exact Hr. cbn [snd]. rewrite nth_seq_map by exact Hj. unfold row_g. rewrite nth_seq_map by exact Hn. reflexivity.
  Qed.
End File.

(** ** Coupling *)
Lemma nth_flat_map_seq {A} (f : nat -> list A) n len i j d : (forall i, length (f i) = len) -> i < n -> j < len ->
  nth (i * len + j) (flat_map f (seq 0 n)) d = nth j (f i) d.
Proof.
  intros L Hi Hj. assert (G : forall s m k, k < m -> nth (k * len + j) (flat_map f (seq s m)) d = nth j (f (s + k)) d).
  { intros s m. revert s. induction m as [|m IH]; intros s k Hk; [lia|]. cbn [seq flat_map]. destruct k as [|k].
    - rewrite app_nth1 by (rewrite L; lia). rewrite Nat.add_0_r. reflexivity.
    - rewrite app_nth2 by (rewrite L; lia). rewrite L. replace (S k * len + j - len) with (k * len + j) by lia. rewrite IH by lia. f_equal. f_equal. lia. }
  exact (G 0 n i Hi).
Qed.
Lemma length_flat_map_seq {A} (f : nat -> list A) n len : (forall i, length (f i) = len) -> length (flat_map f (seq 0 n)) = n * len.
Proof. intros L. generalize 0 as s. induction n as [|n IH]; intros s; [reflexivity|]. cbn [seq flat_map]. rewrite app_length, L, IH. lia. Qed.

(** The written numbers of a lattice vector *)
Definition slab (c : crystal) (m : emodel) (g : nat) : list C :=
  flat_map (fun na => flat_map (fun i => flat_map (fun k => flat_map (fun b => map (fun a =>
    let x := edata m g (3 * na + i) k a b in
    if emass m then scale x (sqrt (M c na)) else x) (seq 0 (nel c))) (seq 0 (nel c))) (seq 0 (length (eRk m)))) (seq 0 3)) (seq 0 (nat_ c)).
Definition count (c : crystal) (m : emodel) : nat := 3 * nat_ c * length (eRk m) * nel c * nel c.

Lemma slab_length c m g : length (slab c m g) = count c m.
Proof.
  unfold slab, count. rewrite (length_flat_map_seq _ _ (3 * (length (eRk m) * (nel c * nel c)))); [lia|]. intros na.
  rewrite (length_flat_map_seq _ _ (length (eRk m) * (nel c * nel c))); [lia|]. intros i.
  rewrite (length_flat_map_seq _ _ (nel c * nel c)); [lia|]. intros k.
  rewrite (length_flat_map_seq _ _ (nel c)); [lia|]. intros b. rewrite map_length, seq_length. reflexivity.
Qed.

Lemma slab_nth c m g x k a b d : x < 3 * nat_ c -> k < length (eRk m) -> a < nel c -> b < nel c ->
  nth (((x * length (eRk m) + k) * nel c + b) * nel c + a) (slab c m g) d =
  (if emass m then scale (edata m g x k a b) (sqrt (M c (x / 3))) else edata m g x k a b).
Proof.
  intros Hx Hk Ha Hb. unfold slab. set (nk := length (eRk m)) in *. set (n := nel c) in *.
  pose proof (Nat.div_mod x 3 ltac:(lia)) as E. pose proof (Nat.mod_upper_bound x 3 ltac:(lia)) as U. assert (Hd : x / 3 < nat_ c) by lia. set (na := x / 3) in *. set (i := x mod 3) in *.
  replace (((x * nk + k) * n + b) * n + a) with (na * (3 * (nk * (n * n))) + (i * (nk * (n * n)) + (k * (n * n) + (b * n + a)))) by (rewrite E; ring).
  assert (B1 : b * n + a < n * n) by nia. assert (B2 : k * (n * n) + (b * n + a) < nk * (n * n)) by nia. assert (B3 : i * (nk * (n * n)) + (k * (n * n) + (b * n + a)) < 3 * (nk * (n * n))) by nia.
  rewrite (nth_flat_map_seq _ _ (3 * (nk * (n * n)))); [|intros; apply length_flat_map_seq; intros; apply length_flat_map_seq; intros; apply length_flat_map_seq; intros; rewrite map_length, seq_length; reflexivity|exact Hd|exact B3].
  rewrite (nth_flat_map_seq _ _ (nk * (n * n))); [|intros; apply length_flat_map_seq; intros; apply length_flat_map_seq; intros; rewrite map_length, seq_length; reflexivity|exact U|exact B2].
  rewrite (nth_flat_map_seq _ _ (n * n)); [|intros; apply length_flat_map_seq; intros; rewrite map_length, seq_length; reflexivity|exact Hk|exact B1].
  rewrite (nth_flat_map_seq _ _ n); [|intros; rewrite map_length, seq_length; reflexivity|exact Hb|exact Ha].
  rewrite nth_seq_map by exact Ha. cbv beta zeta. replace (3 * na + i) with x by lia. reflexivity.
Qed.

Lemma read_slabs_ok (f : nat -> list C) len rest l : (forall g, length (f g) = len) ->
  read_slabs (length l) len (flat_map f l ++ rest) = Ok (map f l).
Proof.
  intros L. induction l as [|g l IH]; [reflexivity|]. cbn [length flat_map read_slabs map]. rewrite <- app_assoc.
  replace (length (f g ++ flat_map f l ++ rest) <? len) with false by (symmetry; apply Nat.ltb_ge; rewrite app_length, L; lia).
  assert (E1 : skipn len (f g ++ flat_map f l ++ rest) = flat_map f l ++ rest) by (rewrite skipn_app, <- (L g), skipn_all, Nat.sub_diag; reflexivity).
  assert (E2 : firstn len (f g ++ flat_map f l ++ rest) = f g) by (rewrite firstn_app, <- (L g), Nat.sub_diag, firstn_O, firstn_all, app_nil_r; reflexivity).
  rewrite E1, E2, IH. reflexivity.
Qed.

Lemma read_coupling_ok c m rest : exists d, read_coupling (length (eRg m)) (3 * nat_ c) (length (eRk m)) (nel c) (to_epmatwp c m ++ rest) = Ok d /\
  forall g x k a b, g < length (eRg m) -> x < 3 * nat_ c -> k < length (eRk m) -> a < nel c -> b < nel c ->
  d g x k a b = if emass m then scale (edata m g x k a b) (sqrt (M c (x / 3))) else edata m g x k a b.
Proof.
  unfold read_coupling. change (to_epmatwp c m) with (flat_map (slab c m) (seq 0 (length (eRg m)))).
  pose proof (read_slabs_ok (slab c m) (count c m) rest (seq 0 (length (eRg m))) (slab_length c m)) as E. rewrite seq_length in E. unfold count in E. rewrite E. cbn [bind].
  eexists. split; [reflexivity|]. intros g x k a b Hg Hx Hk Ha Hb. cbv beta. rewrite nth_seq_map by exact Hg. apply slab_nth; assumption.
Qed.

Lemma scale_divide x r : r <> 0%R -> divide (scale x r) r = x.
Proof. intros H. destruct x as [u v]. unfold divide, scale, Re, Im. cbn [fst snd]. apply f_equal2; field; exact H. Qed.
Lemma divide_1 x : divide x 1 = x.
Proof. destruct x as [u v]. unfold divide, Re, Im. cbn [fst snd]. apply f_equal2; field. Qed.

(** ** Interrupted writing *)
Lemma read_slabs_short len : forall ng f, length f < ng * len -> read_slabs ng len f = Raise ValueError.
Proof.
  induction ng as [|ng IH]; intros f H; [lia|]. cbn [read_slabs]. destruct (length f <? len) eqn:E; [reflexivity|]. apply Nat.ltb_ge in E. rewrite IH; [reflexivity|]. rewrite skipn_length. lia.
Qed.

Lemma read_rows_need cols : forall rows f T f', read_rows rows cols f = Ok (T, f') -> length f = rows + length f'.
Proof.
  induction rows as [|rows IH]; intros f T f' E; [injection E as <- <-; reflexivity|]. cbn [read_rows] in E. destruct f as [|ws f]; [discriminate|]. cbn [integers] in E.
  destruct (map_res to_int ws) as [l|]; [|discriminate]. cbn [bind] in E. destruct (assign_row cols l) as [v|]; [|discriminate]. cbn [bind] in E.
  destruct (read_rows rows cols f) as [[T1 f1]|] eqn:E1; [|discriminate]. injection E as <- <-. apply IH in E1. cbn [length]. lia.
Qed.
Lemma read_blocks_need rows cols : forall n f l f', read_blocks n rows cols f = Ok (l, f') -> length f = n * S rows + length f'.
Proof.
  induction n as [|n IH]; intros f l f' E; [injection E as <- <-; reflexivity|]. cbn [read_blocks] in E. unfold read_vec in E. destruct f as [|ws f]; [discriminate|]. cbn [integers] in E.
  destruct (map_res to_int (firstn 3 ws)) as [z|]; [|discriminate]. cbn [bind] in E. destruct (assign_row 3 z) as [v|]; [|discriminate]. cbn [bind] in E.
  destruct (read_rows rows cols f) as [[T f1]|] eqn:E1; [|discriminate]. cbn [bind] in E. destruct (read_blocks n rows cols f1) as [[l2 f2]|] eqn:E2; [|discriminate]. injection E as <- <-.
  apply read_rows_need in E1. apply IH in E2. cbn [length]. lia.
Qed.

Lemma words_mono p s : forall cur, length (words_from cur p) <= length (words_from cur (p ++ s)).
Proof.
  assert (G : forall t cur, length (emit cur) <= length (words_from cur t)).
  { induction t as [|c t IH]; intros cur; [apply Nat.le_refl|]. cbn [words_from]. destruct (is_space c); [rewrite app_length; lia|]. specialize (IH (cur ++ [c])). destruct cur; cbn in *; lia. }
  induction p as [|c p IH]; intros cur; cbn [app words_from]; [apply G|]. destruct (is_space c); [rewrite !app_length; specialize (IH []); lia|apply IH].
Qed.
Lemma lines_mono p s : forall cur, length (lines_from cur p) <= length (lines_from cur (p ++ s)).
Proof.
  assert (G : forall t cur, length (emit cur) <= length (lines_from cur t)).
  { induction t as [|c t IH]; intros cur; [apply Nat.le_refl|]. cbn [lines_from]. destruct (Ascii.eqb c newline); [destruct cur; cbn; lia|]. specialize (IH (cur ++ [c])). destruct cur; cbn in *; lia. }
  induction p as [|c p IH]; intros cur; cbn [app lines_from]; [apply G|]. destruct (Ascii.eqb c newline); [cbn [length]; specialize (IH []); lia|apply IH].
Qed.
Lemma words_newline t : forall cur, words_from cur (t ++ [newline]) = words_from cur t.
Proof. induction t as [|c t IH]; intros cur; cbn [app words_from]; [change (is_space newline) with true; cbn; apply app_nil_r|]. destruct (is_space c); rewrite ?IH; reflexivity. Qed.
Lemma lines_single t : forall cur, no_newline t -> lines_from cur t = emit (cur ++ t).
Proof.
  induction t as [|c t IH]; intros cur H; cbn [lines_from]; [rewrite app_nil_r; reflexivity|]. apply Forall_cons_iff in H as [H0 H].
  destruct (Ascii.eqb c newline) eqn:E; [apply Ascii.eqb_eq in E; congruence|]. rewrite IH by exact H. rewrite <- app_assoc. reflexivity.
Qed.

Lemma app_prefix {A} (p s a b : list A) : p ++ s = a ++ b -> (exists q, a = p ++ q /\ s = q ++ b) \/ (exists q, p = a ++ q /\ b = q ++ s).
Proof.
  revert a. induction p as [|x p IH]; intros a E; [left; exists a; split; [reflexivity|exact E]|]. destruct a as [|y a]; cbn [app] in E.
  - right. exists (x :: p). split; [reflexivity|symmetry; exact E].
  - injection E as -> E. destruct (IH a E) as [(q & -> & ->)|(q & -> & ->)]; [left|right]; exists q; split; reflexivity.
Qed.

(** With one degeneracy of one per lattice vector, as written if [divide_ndegen] *)
Definition ones_block (R : vec) : text := vec_line R ++ §"1" ++ [newline].
Definition ones Rk Rg := wigner_text Rk Rg 1 1 (fun _ _ _ => 1%Z) (fun _ _ _ _ => 1%Z).
Lemma ones_body Rk Rg : body Rk Rg 1 1 (fun _ _ _ => 1%Z) (fun _ _ _ _ => 1%Z) = concat (map ones_block (Rk ++ Rg)).
Proof.
  unfold body. rewrite map_app, concat_app. apply f_equal2; symmetry; [rewrite <- (map_nth_seq Rk vzero) at 1|rewrite <- (map_nth_seq Rg vzero) at 1]; rewrite map_map; reflexivity.
Qed.
Lemma lines_ones l : are_lines (concat (map ones_block l)) (flat_map (fun R => [vec_words R; [§"1"]]) l).
Proof.
  apply lines_concat. intros R _. apply (lines_two _ _ [vec_words R] [[§"1"]]); [apply lines_one, line_vec|]. exact (lines_one _ _ (line_joined [1%Z])).
Qed.

Lemma wigner_interrupted Rk Rg p s : ones Rk Rg = p ++ s -> s <> [] -> read_wigner p = read_wigner (ones Rk Rg) \/ exists e, read_wigner p = Raise e.
Proof.
  intros E NE. unfold ones in E. rewrite wigner_eq, ones_body in E. set (h := header (length Rk) (length Rg) 1 1) in *. set (l := Rk ++ Rg) in *.
  pose proof (line_header (length Rk) (length Rg) 1 1) as LH. fold h in LH.
  assert (Nh : no_newline h). { destruct LH as [(h' & E' & N) _]. apply app_inj_tail in E' as [-> _]. exact N. }
  assert (Wh : str_split h = header_words (length Rk) (length Rg) 1 1). { destruct LH as [_ W]. unfold str_split in *. rewrite words_newline in W. exact W. }
  pose proof (wigner_words Rk Rg 1 1 (fun _ _ _ => 1%Z) (fun _ _ _ _ => 1%Z)) as WW. fold (ones Rk Rg) in WW.
  assert (Nl : length (body_rows Rk Rg 1 1 (fun _ _ _ => 1%Z) (fun _ _ _ _ => 1%Z)) = 2 * length l).
  { unfold body_rows, l. rewrite !app_length, (length_flat_map_seq _ _ 2), (length_flat_map_seq _ _ 2) by reflexivity. lia. }
  rewrite <- app_assoc in E. symmetry in E. apply app_prefix in E as [(q & Eh & _)|(q & -> & E)].
  - (* within the first line *)
    destruct q as [|c q].
    + rewrite app_nil_r in Eh. subst p. assert (Wp : words_of h = [header_words (length Rk) (length Rg) 1 1]).
      { unfold words_of, lines. rewrite lines_single by exact Nh. cbn [app]. rewrite <- Wh. destruct h; [discriminate Wh|reflexivity]. }
      destruct l as [|R l'] eqn:El.
      * left. unfold read_wigner. rewrite Wp, WW. destruct (body_rows _ _ _ _ _ _); [reflexivity|cbn in Nl; lia].
      * right. destruct (read_wigner h) as [w|e] eqn:Er; [|eauto]. exfalso. unfold read_wigner in Er. rewrite Wp in Er. cbn [integers] in Er. unfold header_words in Er. rewrite ints in Er. cbn [bind existsb] in Er.
        replace (Z.of_nat (length Rk) <? 0)%Z with false in Er by (symmetry; apply Z.ltb_ge; lia).
        replace (Z.of_nat (length Rg) <? 0)%Z with false in Er by (symmetry; apply Z.ltb_ge; lia). cbn [orb Z.ltb Z.compare Z.of_nat Pos.of_succ_nat] in Er. rewrite !Nat2Z.id in Er. cbn [Z.to_nat Pos.to_nat] in Er.
        destruct (read_blocks (length Rk) _ _ []) as [[lk f1]|] eqn:E1; [|discriminate]. cbn [bind read_blocks] in Er.
        destruct (read_blocks (length Rg) _ _ f1) as [[lg f2]|] eqn:E2; [|discriminate].
        apply read_blocks_need in E1, E2. cbn [length] in E1. assert (L : length l = S (length l')) by (rewrite El; reflexivity). unfold l in L. rewrite app_length in L. nia.
    + right. assert (P : exists q', header (length Rk) (length Rg) 1 1 = (p ++ q') ++ §"1" /\ length (str_split (p ++ q')) = 4).
      { set (u := fmt_d (Z.of_nat (length Rk)) ++ §" 0 " ++ fmt_d (Z.of_nat (length Rg)) ++ [blank] ++ fmt_d 1%Z ++ [blank]).
        assert (Eu : h = u ++ §"1"). { unfold h, header, u. rewrite <- !app_assoc. reflexivity. }
        assert (Hq : exists q', u = p ++ q'). { assert (Q : (p ++ (c :: q)) = u ++ §"1") by congruence. destruct (@exists_last _ (c :: q) ltac:(discriminate)) as (q' & z & Ez). rewrite Ez, app_assoc in Q. change (§"1") with (["1"%char]) in Q. apply app_inj_tail in Q as [Q _]. exists q'. symmetry. exact Q. }
        destruct Hq as [q' Hq]. exists q'. rewrite <- Hq. split; [exact Eu|].
        assert (Wu : str_split (u ++ [newline]) = map fmt_d [Z.of_nat (length Rk); 0%Z; Z.of_nat (length Rg); 1%Z]).
        { apply (proj2 (A := exists l, u ++ [newline] = l ++ [newline] /\ no_newline l)). change (is_line (u ++ [newline]) (map fmt_d [Z.of_nat (length Rk); 0%Z; Z.of_nat (length Rg); 1%Z])).
          unfold u. rewrite <- !app_assoc. change (§" 0 ") with ([blank] ++ fmt_d 0%Z ++ [blank]). rewrite <- !app_assoc. cbn [map].
          apply line_word; [apply word_fmt_d|]. apply line_blanks; [discriminate|repeat constructor|]. apply line_word; [apply word_fmt_d|].
          apply line_blanks; [discriminate|repeat constructor|]. apply line_word; [apply word_fmt_d|].
          apply line_blanks; [discriminate|repeat constructor|]. apply line_word; [apply word_fmt_d|]. apply line_blanks; [discriminate|repeat constructor|]. apply line_end. }
        unfold str_split in *. rewrite words_newline in Wu. rewrite Wu. reflexivity. }
      destruct P as (q' & _ & P). assert (Lp : length (str_split p) <= 4) by (rewrite <- P; apply words_mono).
      assert (Np : no_newline p). { rewrite Eh in Nh. apply Forall_app in Nh. apply Nh. }
      unfold read_wigner, words_of, lines. rewrite lines_single by exact Np. cbn [app]. destruct p as [|x p]; [exists StopIteration; reflexivity|]. cbn [emit map integers].
      destruct (map_res to_int (str_split (x :: p))) as [z|e1] eqn:Ez; [|exists e1; reflexivity]. cbn [bind].
      assert (Lz : length z = length (str_split (x :: p))).
      { revert Ez. clear. generalize (str_split (x :: p)). intros ws. revert z. induction ws as [|w ws IH]; intros z E; [injection E as <-; reflexivity|]. cbn [map_res] in E. destruct (to_int w); [|discriminate]. cbn [bind] in E. destruct (map_res to_int ws) as [zs|] eqn:E1; [|discriminate]. injection E as <-. cbn [length]. rewrite (IH zs eq_refl). reflexivity. }
      destruct z as [|z1 [|z2 [|z3 [|z4 [|z5 z]]]]]; try (exists ValueError; reflexivity). cbn [length] in Lz. lia.
  - (* after the first line *)
    destruct q as [|c q]; [cbn [app] in E; subst s; rewrite app_nil_r|].
    { (* the first line without its end, see above *)
      assert (Wp : words_of h = [header_words (length Rk) (length Rg) 1 1]).
      { unfold words_of, lines. rewrite lines_single by exact Nh. cbn [app]. rewrite <- Wh. destruct h; [discriminate Wh|reflexivity]. }
      destruct l as [|R l'] eqn:El.
      * left. unfold read_wigner. rewrite Wp, WW. destruct (body_rows _ _ _ _ _ _); [reflexivity|cbn in Nl; lia].
      * right. destruct (read_wigner h) as [w|e] eqn:Er; [|eauto]. exfalso. unfold read_wigner in Er. rewrite Wp in Er. cbn [integers] in Er. unfold header_words in Er. rewrite ints in Er. cbn [bind existsb] in Er.
        replace (Z.of_nat (length Rk) <? 0)%Z with false in Er by (symmetry; apply Z.ltb_ge; lia).
        replace (Z.of_nat (length Rg) <? 0)%Z with false in Er by (symmetry; apply Z.ltb_ge; lia). cbn [orb Z.ltb Z.compare Z.of_nat Pos.of_succ_nat] in Er. rewrite !Nat2Z.id in Er. cbn [Z.to_nat Pos.to_nat] in Er.
        destruct (read_blocks (length Rk) _ _ []) as [[lk f1]|] eqn:E1; [|discriminate]. cbn [bind read_blocks] in Er.
        destruct (read_blocks (length Rg) _ _ f1) as [[lg f2]|] eqn:E2; [|discriminate].
        apply read_blocks_need in E1, E2. cbn [length] in E1. assert (L : length l = S (length l')) by (rewrite El; reflexivity). unfold l in L. rewrite app_length in L. nia. }
    cbn [app] in E. injection E as <- E. 
    assert (Wq : words_of (h ++ newline :: q) = header_words (length Rk) (length Rg) 1 1 :: words_of q).
    { change (h ++ newline :: q) with (h ++ [newline] ++ q). rewrite app_assoc. exact (lines_one _ _ LH q). }
    assert (Need : forall w, read_wigner (h ++ newline :: q) = Ok w -> 2 * length l <= length (words_of q)).
    { intros w Er. unfold read_wigner in Er. rewrite Wq in Er. cbn [integers] in Er. unfold header_words in Er. rewrite ints in Er. cbn [bind existsb] in Er.
      replace (Z.of_nat (length Rk) <? 0)%Z with false in Er by (symmetry; apply Z.ltb_ge; lia).
      replace (Z.of_nat (length Rg) <? 0)%Z with false in Er by (symmetry; apply Z.ltb_ge; lia). cbn [orb Z.ltb Z.compare Z.of_nat Pos.of_succ_nat] in Er. rewrite !Nat2Z.id in Er. change (Z.to_nat 1) with 1 in Er. cbn [Z.to_nat] in Er.
      destruct (read_blocks (length Rk) _ _ (words_of q)) as [[lk f1]|] eqn:E1; [|discriminate]. cbn [bind read_blocks] in Er.
      destruct (read_blocks (length Rg) _ _ f1) as [[lg f2]|] eqn:E2; [|discriminate].
      apply read_blocks_need in E1, E2. unfold l. rewrite app_length. lia. }
    destruct (read_wigner (h ++ newline :: q)) as [w|e] eqn:Er; [|eauto]. left. rewrite <- Er. specialize (Need w eq_refl).
    destruct l as [|R0 l0] eqn:El using rev_ind.
    { cbn in E. destruct q; [|discriminate]. cbn in E. congruence. }
    clear IHl0. rewrite map_app, concat_app in E. cbn [map concat] in E. rewrite app_nil_r in E. unfold ones_block at 2 in E.
    set (r := concat (map ones_block l0) ++ vec_line R0). assert (E' : q ++ s = (r ++ §"1") ++ [newline]) by (unfold r; rewrite <- E, <- !app_assoc; reflexivity).
    assert (Lr : are_lines r (flat_map (fun R => [vec_words R; [§"1"]]) l0 ++ [vec_words R0])) by (apply lines_two; [apply lines_ones|apply lines_one, line_vec]).
    destruct (@exists_last _ s NE) as (s' & z & ->). rewrite app_assoc in E'. apply app_inj_tail in E' as [E' _]. destruct s' as [|y s'].
    + rewrite app_nil_r in E'. subst q. unfold read_wigner. rewrite Wq, WW. do 2 f_equal.
      rewrite (Lr (§"1")).
      assert (WB : words_of (body Rk Rg 1 1 (fun _ _ _ => 1%Z) (fun _ _ _ _ => 1%Z)) = body_rows Rk Rg 1 1 (fun _ _ _ => 1%Z) (fun _ _ _ _ => 1%Z)).
      { rewrite <- (app_nil_r (body _ _ _ _ _ _)). rewrite (lines_body _ _ _ _ _ _ []). apply app_nil_r. }
      rewrite <- WB, ones_body. fold l. rewrite El, <- (app_nil_r (concat _)), (lines_ones (l0 ++ [R0]) []), app_nil_r, flat_map_app. cbn [flat_map app]. rewrite <- app_assoc. reflexivity.
    + exfalso. destruct (@exists_last _ (y :: s') ltac:(discriminate)) as (s2 & z2 & Ez). rewrite Ez, app_assoc in E'. change (§"1") with (["1"%char]) in E'. apply app_inj_tail in E' as [E' _].
      assert (Lq : length (words_of q) <= length (words_of r)). { unfold words_of. rewrite !map_length, <- E'. apply lines_mono. }
      rewrite <- (app_nil_r r), (Lr []) in Lq. change (words_of []) with (@nil (list text)) in Lq. rewrite app_nil_r, app_length in Lq.
      assert (Lf : length (flat_map (fun R => [vec_words R; [§"1"]]) l0) = 2 * length l0) by (clear; induction l0 as [|R l IH]; [reflexivity|]; cbn [flat_map]; rewrite app_length, IH; cbn [length]; lia).
      rewrite Lf in Lq. rewrite app_length in Need. cbn [length] in *. lia.
Qed.
