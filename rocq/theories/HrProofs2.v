(** Writing and reading files with hoppings. *)
From Verif Require Import TextProofs HrModel HrSpec HrProofs.
From Coq Require Import Qabs Lqa Permutation Sorted.
Local Open Scope nat_scope.

Definition degq (d : Z) : Q := match to_float (fmt_d d) with Ok q => q | Raise _ => 0%Q end.
Lemma degq_ok d : to_float (fmt_d d) = Ok (degq d) /\ (degq d == inject_Z d)%Q.
Proof. unfold degq. destruct (to_float_d d) as (q & E & H). rewrite E. auto. Qed.

Lemma map_res_degq l : map_res to_float (map fmt_d l) = Ok (map degq l).
Proof. induction l as [|d l IH]; [reflexivity|]. cbn [map map_res]. rewrite (proj1 (degq_ok d)), IH. reflexivity. Qed.

Definition block_of (R : list cell) (nd : list Z) (size : nat) (H : nat -> nat -> nat -> cx) (i : nat) : block :=
  {| vector := nth i R (0, 0, 0)%Z; degeneracy := degq (nth i nd 1%Z);
     elements := map (fun ab => (fst ab, snd ab, (rounded 6 (fst (H i (fst ab) (snd ab))), rounded 6 (snd (H i (fst ab) (snd ab)))))) (entries size) |}.

Lemma block_complete R nd size H i : (1 <= nth i nd 1)%Z -> complete_block size (block_of R nd size H i).
Proof.
  intros Hd. split; [cbn [elements block_of]; rewrite map_length; apply entries_length|]. split; [|split].
  - intros a b Ha Hb. eexists. cbn [elements block_of]. apply in_map_iff. exists (a, b). split; [reflexivity|]. apply in_entries. auto.
  - intros a b x y Hx Hy. cbn [elements block_of] in *. apply in_map_iff in Hx as ([a1 b1] & E1 & _). apply in_map_iff in Hy as ([a2 b2] & E2 & _). cbn [fst snd] in *. injection E1 as -> -> <-. injection E2 as -> -> <-. reflexivity.
  - cbn [degeneracy block_of]. rewrite (proj2 (degq_ok _)). intros E. unfold Qeq in E. cbn in E. lia.
Qed.

Lemma block_rows R nd size H i : hr_block size (block_of R nd size H i) (map (row_of (nth i R (0, 0, 0)%Z) (H i)) (entries size)).
Proof.
  set (c := nth i R (0, 0, 0)%Z). apply (hr_block_intro size _ [fmt_d (fst (fst c)); fmt_d (snd (fst c)); fmt_d (snd c)]).
  - unfold vector_words. cbn [vector block_of]. fold c. destruct c as [[x y] z]. cbn [fst snd map_res]. rewrite !to_int_word. reflexivity.
  - cbn [elements block_of]. assert (A : forall ab, In ab (entries size) -> fst ab < size /\ snd ab < size) by (intros [a b] Hab; apply in_entries; exact Hab).
    induction (entries size) as [|[a b] l IH]; [constructor|]. cbn [map]. constructor; [|apply IH; intros x Hx; apply A; right; exact Hx].
    destruct (A (a, b) (or_introl eq_refl)) as [Ha Hb]. cbn [fst snd] in *. exists (fmt_d (Z.of_nat (a + 1))), (fmt_d (Z.of_nat (b + 1))), (fmt_f 6 (fst (H i a b))), (fmt_f 6 (snd (H i a b))). cbn [fst snd].
    rewrite !to_int_word, !to_float_fmt by lia. rewrite !Nat2Z.inj_add. repeat split; auto. unfold row_of. cbn [fst snd app]. rewrite !Nat2Z.inj_add. reflexivity.
Qed.

Lemma write_content day clock R size H ndegen : word day -> word clock ->
  Forall (fun r => length r <= 3) R -> (Z.of_nat size <= 9999)%Z ->
  let Rc := map cell_of R in
  let nd := match ndegen with Some l => l | None => repeat 1%Z (length R) end in
  length nd = length R -> Forall fits_5d nd ->
  Forall (fun c : cell => fits_5d (snd (fst c)) /\ fits_5d (snd c)) Rc ->
  (forall i a b, i < length R -> a < size -> b < size -> fits_12f (fst (H i a b)) /\ fits_12f (snd (H i a b))) ->
  exists t chunks, write_hrdat day clock R size H ndegen = Ok t /\
    content t = [§"written"; §"on"; day; §"at"; clock] :: [fmt_d (Z.of_nat size)] :: [fmt_d (Z.of_nat (length R))] :: chunks ++ concat (map (fun i => map (row_of (nth i Rc (0, 0, 0)%Z) (H i)) (entries size)) (lexsort Rc)) ++ [] /\
    Forall (fun c => c <> []) chunks /\ concat chunks = map fmt_d (map (fun i => nth i nd 1%Z) (lexsort Rc)).
Proof.
  intros Wd Wc HR Hs Rc nd Ln Fn Fc FH. unfold write_hrdat. rewrite pad_cells by exact HR. cbn [bind]. fold Rc. assert (LR : length Rc = length R) by apply map_length. rewrite LR. fold nd.
  pose proof (lexsort_perm Rc) as P. rewrite LR in P. assert (In_order : forall i, In i (lexsort Rc) <-> i < length R) by (intros i; rewrite P, in_seq; lia).
  rewrite (lookups_ok nd 1%Z) by (intros i Hi; rewrite Ln; apply In_order; exact Hi). cbn [bind].
  assert (Fd : Forall fits_5d (map (fun i => nth i nd 1%Z) (lexsort Rc))).
  { apply Forall_forall. intros d Hd. apply in_map_iff in Hd as (i & <- & Hi). rewrite Forall_forall in Fn. apply Fn, nth_In. rewrite Ln. apply In_order. exact Hi. }
  assert (Lo : length (lexsort Rc) = length R) by (rewrite P; apply seq_length).
  set (hops := concat (map (fun i => hopping_lines size (nth i Rc (0, 0, 0)%Z) (H i)) (lexsort Rc))).
  assert (D : exists chunks, content (degeneracy_lines 1 (length R) (map (fun i => nth i nd 1%Z) (lexsort Rc)) ++ hops) = chunks ++ content hops /\ concat chunks = map fmt_d (map (fun i => nth i nd 1%Z) (lexsort Rc)) /\ Forall (fun c => c <> []) chunks).
  { destruct (map (fun i => nth i nd 1%Z) (lexsort Rc)) as [|d l] eqn:E; [exists []; repeat split; constructor|].
    apply (degeneracy_content (length R) hops (d :: l) [] 1); [discriminate| |exact Fd]. rewrite <- E, map_length, Lo. reflexivity. }
  destruct D as (chunks & D1 & D2 & D3). eexists. exists chunks. split; [reflexivity|]. split; [|auto].
  assert (EH : content hops = concat (map (fun i => map (row_of (nth i Rc (0, 0, 0)%Z) (H i)) (entries size)) (lexsort Rc)) ++ []).
  { rewrite <- (app_nil_r hops). unfold hops. rewrite (content_blocks size (fun i => nth i Rc (0, 0, 0)%Z) H [] Hs); [reflexivity|].
    intros i Hi. apply In_order in Hi. rewrite Forall_forall in Fc. destruct (Fc (nth i Rc (0, 0, 0)%Z)) as [F1 F2]; [apply nth_In; lia|]. split; [exact F1|]. split; [exact F2|]. intros a b Ha Hb. apply FH; assumption. }
  rewrite <- EH, <- D1. clear - Wd Wc.
  set (h := §" written on " ++ day ++ §" at " ++ clock).
  replace (§" written on " ++ day ++ §" at " ++ clock ++ [newline] ++ pad 12 (fmt_d (Z.of_nat size)) ++ [newline] ++ pad 12 (fmt_d (Z.of_nat (length R))) ++ [newline] ++ degeneracy_lines 1 (length R) (map (fun i => nth i nd 1%Z) (lexsort Rc)) ++ hops)
    with (h ++ newline :: pad 12 (fmt_d (Z.of_nat size)) ++ newline :: pad 12 (fmt_d (Z.of_nat (length R))) ++ newline :: degeneracy_lines 1 (length R) (map (fun i => nth i nd 1%Z) (lexsort Rc)) ++ hops) by (unfold h; rewrite <- !app_assoc; reflexivity).
  rewrite (content_line h [§"written"; §"on"; day; §"at"; clock]).
  - f_equal. rewrite (content_line _ [fmt_d (Z.of_nat size)]); [f_equal|apply no_newline_pad, no_newline_d|rewrite split_pad by (apply word_fmt_d || reflexivity); reflexivity|discriminate].
    rewrite (content_line _ [fmt_d (Z.of_nat (length R))]); [reflexivity|apply no_newline_pad, no_newline_d|rewrite split_pad by (apply word_fmt_d || reflexivity); reflexivity|discriminate].
  - unfold h. apply no_newline_app; [repeat constructor; discriminate|]. apply no_newline_app; [apply no_newline_solid, Wd|]. apply no_newline_app; [repeat constructor; discriminate|apply no_newline_solid, Wc].
  - unfold h. rewrite <- !app_assoc. change (§" written on ") with ([blank] ++ §"written" ++ [blank] ++ §"on" ++ [blank]). rewrite <- !app_assoc.
    rewrite split_word; [f_equal|repeat constructor|split; [discriminate|repeat constructor]|reflexivity].
    rewrite split_word; [f_equal|repeat constructor|split; [discriminate|repeat constructor]|reflexivity].
    rewrite split_word; [f_equal|repeat constructor|exact Wd|reflexivity].
    change (§" at ") with ([blank] ++ §"at" ++ [blank]). rewrite <- !app_assoc.
    rewrite split_word; [f_equal|repeat constructor|split; [discriminate|repeat constructor]|reflexivity].
    rewrite split_word; [f_equal|repeat constructor|exact Wc|reflexivity].
  - discriminate.
Qed.

Lemma roundtrip day clock R size H ndegen tb divide : word day -> word clock ->
  Forall (fun r => length r <= 3) R -> 0 < size -> (Z.of_nat size <= 9999)%Z ->
  let Rc := map cell_of R in
  let nd := match ndegen with Some l => l | None => repeat 1%Z (length R) end in
  length nd = length R -> Forall (fun d => (1 <= d <= 9999)%Z) nd ->
  Forall (fun c : cell => fits_5d (snd (fst c)) /\ fits_5d (snd c)) Rc ->
  (forall i a b, i < length R -> a < size -> b < size -> fits_12f (fst (H i a b)) /\ fits_12f (snd (H i a b))) ->
  exists t, write_hrdat day clock R size H ndegen = Ok t /\ read_hrdat (Some t) tb divide = Ok (map (fun i => block_result divide (block_of Rc nd size H i)) (lexsort Rc)).
Proof.
  intros Wd Wc HR Hs0 Hs Rc nd Ln Fn Fc FH.
  destruct (write_content day clock R size H ndegen Wd Wc HR Hs) as (t & chunks & W & C & NE & CC); try assumption.
  { revert Fn. apply Forall_impl. unfold fits_5d. intros; lia. }
  fold Rc in C, CC. fold nd in CC. exists t. split; [exact W|]. unfold read_hrdat. rewrite C.
  set (Bs := map (block_of Rc nd size H) (lexsort Rc)).
  assert (LR : length Rc = length R) by apply map_length. pose proof (lexsort_perm Rc) as P. rewrite LR in P.
  assert (LB : length Bs = length R) by (unfold Bs; rewrite map_length, P; apply seq_length).
  etransitivity; [apply (read_content_ok false divide size Bs [§"written"; §"on"; day; §"at"; clock] [] (fmt_d (Z.of_nat size)) [] (fmt_d (Z.of_nat (length R))) [] chunks (map (fun i => map (row_of (nth i Rc (0, 0, 0)%Z) (H i)) (entries size)) (lexsort Rc)) [])|].
  - exact Hs0.
  - cbn. lia.
  - reflexivity.
  - apply to_int_word.
  - rewrite LB. apply to_int_word.
  - exact NE.
  - rewrite CC, map_res_degq. unfold Bs. rewrite !map_map. reflexivity.
  - unfold Bs. generalize (lexsort Rc). induction l as [|i l IH]; [constructor|]. cbn [map]. constructor; [apply block_rows|exact IH].
  - unfold Bs. apply Forall_forall. intros B HB. apply in_map_iff in HB as (i & <- & Hi). apply block_complete. rewrite P, in_seq in Hi. rewrite Forall_forall in Fn. apply Fn, nth_In. lia.
  - unfold Bs. rewrite map_map. reflexivity.
Qed.

Lemma rounded_six x : near6 (rounded 6 x) x.
Proof. unfold near6. rewrite Qabs_Qminus. exact (rounded_near 6 x). Qed.
