(** Proofs about MPIModel.v. *)
From Coq Require Import Permutation Sorted.
From Verif Require Import Common CommonProofs MPIModel.

(** ** distribute *)
Local Open Scope Z_scope.

Definition dsize (size chunks : Z) (i : nat) : Z :=
  size / chunks + (if Z.of_nat i <? size mod chunks then 1 else 0).

Lemma nth_error_repeat_lt {A} (x : A) n i : (i < n)%nat -> nth_error (repeat x n) i = Some x.
Proof. revert i; induction n; intros [|i] H; cbn; try lia; auto. apply IHn; lia. Qed.

Lemma nth_error_firstn' {A} (l : list A) n i :
  (i < n)%nat -> nth_error (firstn n l) i = nth_error l i.
Proof. revert n i; induction l; intros [|n] [|i] H; cbn; try lia; auto. apply IHl; lia. Qed.

Lemma nth_error_skipn' {A} (l : list A) n i :
  nth_error (skipn n l) i = nth_error l (n + i).
Proof. revert n; induction l; intros [|n]; cbn; auto. destruct i; auto. Qed.

Lemma distribute_sizes_Ok size chunks : 0 < chunks ->
  distribute_sizes size chunks =
  Ok (repeat (size / chunks + 1) (Z.to_nat (size mod chunks)) ++
      repeat (size / chunks) (Z.to_nat (chunks - size mod chunks))).
Proof.
  intros Hc. unfold distribute_sizes.
  destruct (Z.ltb_spec chunks 0); [lia|]. destruct (Z.eqb_spec chunks 0); [lia|].
  f_equal.
  assert (Hm := Z.mod_pos_bound size chunks Hc).
  set (m := Z.to_nat (size mod chunks)).
  replace (Z.to_nat chunks) with (m + Z.to_nat (chunks - size mod chunks))%nat by (unfold m; lia).
  rewrite repeat_app.
  replace m with (length (repeat (size / chunks) m)) at 1 by apply repeat_length.
  rewrite firstn_app, firstn_all, Nat.sub_diag, firstn_O, app_nil_r.
  replace m with (length (repeat (size / chunks) m)) at 2 by apply repeat_length.
  rewrite skipn_app, skipn_all, Nat.sub_diag, skipn_O. cbn [app]. f_equal.
  induction m as [|m IH]; cbn; f_equal; exact IH.
Qed.

Lemma cumsum_nth c sizes i :
  (i <= length sizes)%nat -> nth_error (cumsum_from c sizes) i = Some (c + sumZ (firstn i sizes)).
Proof.
  revert c i; induction sizes as [|s sizes IH]; intros c [|i] Hi; cbn in *; try lia.
  - f_equal; lia.
  - f_equal; lia.
  - rewrite IH by lia. f_equal. lia.
Qed.

Lemma cumsum_length c sizes : length (cumsum_from c sizes) = S (length sizes).
Proof. revert c; induction sizes as [|s sizes IH]; intros c; cbn; [reflexivity|]. f_equal. apply IH. Qed.

Lemma sumZ_nonneg l : Forall (fun x => 0 <= x) l -> 0 <= sumZ l.
Proof. induction 1; cbn; lia. Qed.

Lemma sumZ_firstn_S l i x : nth_error l i = Some x -> sumZ (firstn (S i) l) = sumZ (firstn i l) + x.
Proof.
  revert l; induction i as [|i IH]; intros [|y l] H; cbn in H; try discriminate.
  - injection H as ->. cbn. lia.
  - cbn [firstn sumZ] in *. rewrite (IH l H). lia.
Qed.

Lemma sumZ_firstn_mono l i j :
  Forall (fun x => 0 <= x) l -> (i <= j)%nat -> sumZ (firstn i l) <= sumZ (firstn j l).
Proof.
  intros Hl; revert i j; induction Hl as [|x l Hx Hl IH]; intros [|i] [|j] Hij; cbn [firstn sumZ]; try lia.
  - assert (H := sumZ_nonneg (firstn j l)). cbn.
    assert (0 <= sumZ (firstn j l)). { apply H. clear -Hl. revert j; induction Hl; intros [|j]; cbn; auto. }
    lia.
  - specialize (IH i j ltac:(lia)). lia.
Qed.

(** Each number below the total lies in exactly one of the consecutive slices. *)
Lemma slice_exists l x :
  Forall (fun x => 0 <= x) l -> 0 <= x < sumZ l ->
  exists r, (r < length l)%nat /\ sumZ (firstn r l) <= x < sumZ (firstn (S r) l).
Proof.
  intros Hl; revert x; induction Hl as [|y l Hy Hl IH]; intros x Hx; cbn in Hx; [lia|].
  destruct (Z.ltb_spec x y) as [Hlt|Hge].
  - exists 0%nat. cbn. lia.
  - destruct (IH (x - y)) as (r & Hr & Hb); [lia|].
    exists (S r). cbn [firstn sumZ length] in *. lia.
Qed.

Lemma slice_unique l x r s :
  Forall (fun x => 0 <= x) l ->
  sumZ (firstn r l) <= x < sumZ (firstn (S r) l) ->
  sumZ (firstn s l) <= x < sumZ (firstn (S s) l) -> r = s.
Proof.
  intros Hl Hr Hs.
  destruct (Nat.lt_trichotomy r s) as [H|[H|H]]; [|exact H|].
  - assert (Hm := sumZ_firstn_mono l (S r) s Hl ltac:(lia)). lia.
  - assert (Hm := sumZ_firstn_mono l (S s) r Hl ltac:(lia)). lia.
Qed.

Lemma distribute_spec size chunks : 0 <= size -> 0 < chunks ->
  exists sizes bounds,
    distribute size chunks = Ok (sizes, bounds) /\
    Z.of_nat (length sizes) = chunks /\
    sumZ sizes = size /\
    (forall i j si sj, nth_error sizes i = Some si -> nth_error sizes j = Some sj ->
       (i <= j)%nat -> 0 <= sj <= si /\ si <= sj + 1) /\
    length bounds = S (length sizes) /\
    nth_error bounds 0 = Some 0 /\
    nth_error bounds (length sizes) = Some size /\
    (forall i si, nth_error sizes i = Some si ->
       exists lo, nth_error bounds i = Some lo /\ nth_error bounds (S i) = Some (lo + si)) /\
    (forall x, 0 <= x < size -> exists! r, exists lo hi,
       nth_error bounds r = Some lo /\ nth_error bounds (S r) = Some hi /\ lo <= x < hi).
Proof.
  intros Hs Hc. unfold distribute. rewrite distribute_sizes_Ok by exact Hc. cbn [bind].
  set (m := Z.to_nat (size mod chunks)). set (k := Z.to_nat (chunks - size mod chunks)).
  set (sizes := repeat (size / chunks + 1) m ++ repeat (size / chunks) k).
  exists sizes, (cumsum_from 0 sizes).
  assert (Hm := Z.mod_pos_bound size chunks Hc).
  assert (Hq : 0 <= size / chunks) by (apply Z.div_pos; lia).
  assert (Hlen : length sizes = (m + k)%nat)
    by (unfold sizes; rewrite app_length, !repeat_length; reflexivity).
  assert (Hnn : Forall (fun x => 0 <= x) sizes).
  { apply Forall_app; split; apply Forall_forall; intros x Hx;
      apply repeat_spec in Hx; lia. }
  assert (Hsum : sumZ sizes = size).
  { unfold sizes. rewrite sumZ_app, !sumZ_repeat. unfold m, k.
    rewrite !Z2Nat.id by lia. rewrite (Z.div_mod size chunks) at 5 by lia. lia. }
  split; [reflexivity|]. split; [unfold m, k in Hlen; lia|]. split; [exact Hsum|].
  split.
  { intros i j si sj Hi Hj Hij. unfold sizes in Hi, Hj.
    assert (Hval : forall i s, nth_error (repeat (size / chunks + 1) m ++ repeat (size / chunks) k) i = Some s ->
      (s = size / chunks + 1 /\ (i < m)%nat) \/ (s = size / chunks /\ (m <= i)%nat)).
    { intros i' s Hn. destruct (Nat.lt_ge_cases i' m) as [Hlt|Hge].
      - rewrite nth_error_app1, nth_error_repeat_lt in Hn by (rewrite ?repeat_length; lia).
        injection Hn as <-. left; split; [reflexivity|exact Hlt].
      - rewrite nth_error_app2 in Hn by (rewrite repeat_length; lia).
        apply nth_error_In, repeat_spec in Hn. right; split; [exact Hn|exact Hge]. }
    destruct (Hval i si Hi) as [[-> ?]|[-> ?]]; destruct (Hval j sj Hj) as [[-> ?]|[-> ?]]; lia. }
  split; [apply cumsum_length|].
  split; [rewrite cumsum_nth by lia; reflexivity|].
  split.
  { rewrite cumsum_nth by lia. rewrite firstn_all, Hsum. reflexivity. }
  split.
  { intros i si Hi. assert (Hlt : (i < length sizes)%nat) by (apply nth_error_Some; congruence).
    exists (sumZ (firstn i sizes)). rewrite !cumsum_nth by lia.
    rewrite (sumZ_firstn_S _ _ _ Hi). split; f_equal; lia. }
  intros x Hx. rewrite <- Hsum in Hx.
  destruct (slice_exists sizes x Hnn Hx) as (r & Hr & Hb).
  exists r. split.
  - exists (0 + sumZ (firstn r sizes)), (0 + sumZ (firstn (S r) sizes)).
    rewrite !cumsum_nth by lia. repeat split; lia.
  - intros r' (lo & hi & Hlo & Hhi & Hb').
    assert (Hr' : (S r' < S (length sizes))%nat).
    { rewrite <- (cumsum_length 0 sizes). apply nth_error_Some. congruence. }
    rewrite cumsum_nth in Hlo, Hhi by lia.
    assert (El : lo = 0 + sumZ (firstn r' sizes)) by congruence.
    assert (Eh : hi = 0 + sumZ (firstn (S r') sizes)) by congruence.
    apply (slice_unique sizes x); [exact Hnn| |]; lia.
Qed.

Lemma distribute_errors size chunks : chunks <= 0 ->
  distribute size chunks = Raise (if chunks =? 0 then ZeroDivisionError else ValueError).
Proof.
  intros H. unfold distribute, distribute_sizes.
  destruct (Z.ltb_spec chunks 0); destruct (Z.eqb_spec chunks 0); cbn; auto; lia.
Qed.

Local Close Scope Z_scope.

(** ** Scatter and gather *)

Lemma scatter_gather {A B} (f : A -> B) counts data :
  sumN counts = length data ->
  exists parts, Scatterv counts data = Ok parts /\
    Gatherv counts (map (map f) parts) = Ok (map f data).
Proof.
  revert data; induction counts as [|c counts IH]; intros data H; cbn in H.
  - destruct data; [|discriminate]. exists []. split; reflexivity.
  - cbn [Scatterv]. destruct (Nat.leb_spec c (length data)) as [Hc|Hc]; [|lia].
    destruct (IH (skipn c data)) as (parts & HS & HG).
    { rewrite skipn_length. lia. }
    rewrite HS. cbn [bind]. exists (firstn c data :: parts). split; [reflexivity|].
    cbn [map Gatherv]. rewrite map_length, firstn_length_le, Nat.eqb_refl by exact Hc.
    rewrite HG. cbn [bind]. rewrite <- map_app, firstn_skipn. reflexivity.
Qed.

Lemma sumN_to_nat l : Forall (fun x => (0 <= x)%Z) l -> sumN (map Z.to_nat l) = Z.to_nat (sumZ l).
Proof.
  induction 1 as [|x l Hx Hl IH]; cbn [map sumN sumZ]; [reflexivity|].
  assert (H := sumZ_nonneg l Hl). lia.
Qed.

Lemma scatter_compute_gather_serial {A B} (f : A -> B) nproc data :
  (0 < nproc)%Z -> scatter_compute_gather f nproc data = Ok (map f data).
Proof.
  intros Hp. unfold scatter_compute_gather.
  destruct (distribute_spec (Z.of_nat (length data)) nproc ltac:(lia) Hp)
    as (sizes & bounds & -> & Hlen & Hsum & Hbal & _).
  cbn [bind].
  destruct (scatter_gather f (map Z.to_nat sizes) data) as (parts & -> & HG).
  { rewrite sumN_to_nat; [lia|]. apply Forall_forall. intros x Hx.
    apply In_nth_error in Hx. destruct Hx as [i Hi].
    destruct (Hbal i i x x Hi Hi ltac:(lia)). lia. }
  cbn [bind]. exact HG.
Qed.

(** ** Communicators *)

Lemma insert_key_front (key : nat -> nat) p c :
  (forall q, In q c -> key p <= key q) -> insert_key key p c = p :: c.
Proof.
  destruct c as [|q c]; cbn; [reflexivity|]. intros H.
  destruct (Nat.leb_spec (key p) (key q)); [reflexivity|].
  specialize (H q (or_introl eq_refl)). lia.
Qed.

Lemma sort_key_sorted (key : nat -> nat) c :
  StronglySorted (fun p q => key p <= key q) c -> sort_key key c = c.
Proof.
  induction 1 as [|p c Hs IH Hp]; cbn [sort_key fold_right]; [reflexivity|].
  change (fold_right (insert_key key) [] c) with (sort_key key c). rewrite IH.
  apply insert_key_front. rewrite Forall_forall in Hp. exact Hp.
Qed.

Lemma seq_sorted s n : StronglySorted lt (seq s n).
Proof.
  revert s; induction n as [|n IH]; intros s; cbn; constructor; [apply IH|].
  apply Forall_forall. intros x Hx. apply in_seq in Hx. lia.
Qed.

Lemma filter_sorted {A} (R : A -> A -> Prop) f l : StronglySorted R l -> StronglySorted R (filter f l).
Proof.
  induction 1 as [|x l Hs IH Hx]; cbn; [constructor|].
  destruct (f x); [constructor|]; auto.
  apply Forall_forall. intros y Hy. apply filter_In in Hy. rewrite Forall_forall in Hx. apply Hx, Hy.
Qed.

Lemma sorted_weaken {A} (R S : A -> A -> Prop) l :
  (forall x y, R x y -> S x y) -> StronglySorted R l -> StronglySorted S l.
Proof.
  intros HRS; induction 1 as [|x l Hs IH Hx]; constructor; auto.
  eapply Forall_impl; [|exact Hx]. auto.
Qed.

Lemma Split_world nproc color p :
  Split (world nproc) color (fun q => q) p =
  filter (fun q => color q =? color p) (world nproc).
Proof.
  unfold Split. apply sort_key_sorted. apply filter_sorted.
  apply (sorted_weaken lt); [lia|]. apply seq_sorted.
Qed.

Lemma In_Split_world nproc color p q :
  In q (Split (world nproc) color (fun q => q) p) <-> q < nproc /\ color q = color p.
Proof.
  rewrite Split_world, filter_In. unfold world. rewrite in_seq, Nat.eqb_eq. intuition lia.
Qed.

Lemma Split_world_eq nproc color p q :
  color p = color q ->
  Split (world nproc) color (fun q => q) p = Split (world nproc) color (fun q => q) q.
Proof. intros H. rewrite !Split_world, H. reflexivity. Qed.

(** The rank in a sorted communicator is the number of smaller members. *)
Lemma rank_in_sorted c p :
  StronglySorted lt c -> In p c ->
  rank_in c p = Some (length (filter (fun q => q <? p) c)).
Proof.
  unfold rank_in. induction 1 as [|x c Hs IH Hx]; intros Hp; [destruct Hp|].
  cbn [find_index]. destruct (Nat.eqb_spec p x) as [->|Hne].
  - cbn [filter]. rewrite Nat.ltb_irrefl.
    rewrite Forall_forall in Hx.
    replace (filter (fun q => q <? x) c) with (@nil nat); [reflexivity|].
    symmetry. clear -Hx. induction c as [|y c IH]; cbn; [reflexivity|].
    destruct (Nat.ltb_spec y x) as [Hlt|Hge].
    + specialize (Hx y (or_introl eq_refl)). lia.
    + apply IH. intros z Hz. apply Hx. right. exact Hz.
  - destruct Hp as [->|Hp]; [congruence|]. rewrite (IH Hp). cbn [option_map filter].
    rewrite Forall_forall in Hx. specialize (Hx p Hp).
    destruct (Nat.ltb_spec x p); [|lia]. reflexivity.
Qed.

Lemma filter_filter' {A} (f g : A -> bool) l :
  filter f (filter g l) = filter (fun x => f x && g x) l.
Proof.
  induction l as [|x l IH]; cbn; [reflexivity|].
  destruct (g x) eqn:Hg; cbn; destruct (f x); cbn; rewrite IH; reflexivity.
Qed.

Lemma filter_seq_below f s n p : s <= p <= s + n ->
  filter (fun q => (q <? p) && f q) (seq s n) = filter f (seq s (p - s)).
Proof.
  intros H. replace n with ((p - s) + (n - (p - s))) by lia.
  rewrite seq_app, filter_app.
  rewrite (filter_ext_in' _ f (seq s (p - s))).
  2: { intros x Hx. apply in_seq in Hx. destruct (Nat.ltb_spec x p); [reflexivity|lia]. }
  replace (filter (fun q => (q <? p) && f q) (seq (s + (p - s)) (n - (p - s)))) with (@nil nat).
  - apply app_nil_r.
  - symmetry. induction (seq (s + (p - s)) (n - (p - s))) as [|x l IH] eqn:E.
    + reflexivity.
    + assert (Hall : forall y, In y (x :: l) -> p <= y).
      { intros y Hy. rewrite <- E in Hy. apply in_seq in Hy. lia. }
      clear -Hall. induction (x :: l) as [|y m IH]; cbn; [reflexivity|].
      destruct (Nat.ltb_spec y p) as [Hlt|Hge].
      * specialize (Hall y (or_introl eq_refl)). lia.
      * cbn. apply IH. intros z Hz. apply Hall. right; exact Hz.
Qed.

Lemma Split_world_rank nproc color p : p < nproc ->
  rank_in (Split (world nproc) color (fun q => q) p) p =
  Some (length (filter (fun q => color q =? color p) (seq 0 p))).
Proof.
  intros Hp. rewrite Split_world.
  rewrite rank_in_sorted.
  - f_equal. rewrite filter_filter'. unfold world.
    f_equal. replace (seq 0 p) with (seq 0 (p - 0)) by (f_equal; lia).
    apply filter_seq_below. lia.
  - apply filter_sorted, seq_sorted.
  - apply filter_In. unfold world. rewrite in_seq, Nat.eqb_refl. split; [lia|reflexivity].
Qed.

(** Counting multiples and blocks. *)
Lemma count_mod n d r : 0 < d -> r < d ->
  length (filter (fun q => q mod d =? r) (seq 0 n)) = (n + (d - 1 - r)) / d.
Proof.
  intros Hd Hr. induction n as [|n IH].
  - cbn. symmetry. apply Nat.div_small. lia.
  - rewrite seq_S, filter_app, app_length, IH, Nat.add_0_l. cbn [filter].
    assert (E := Nat.div_mod n d ltac:(lia)).
    assert (Hm := Nat.mod_upper_bound n d ltac:(lia)).
    destruct (Nat.eqb_spec (n mod d) r) as [He|He]; cbn [length].
    + assert (H1 : (n + (d - 1 - r)) / d = n / d).
      { symmetry. apply Nat.div_unique with (r := d - 1); lia. }
      assert (H2 : (S n + (d - 1 - r)) / d = S (n / d)).
      { symmetry. apply Nat.div_unique with (r := 0); lia. }
      rewrite H1, H2. lia.
    + destruct (Nat.lt_ge_cases (n mod d) r) as [Hlt|Hge].
      * assert (H1 : (n + (d - 1 - r)) / d = n / d).
        { symmetry. apply Nat.div_unique with (r := n mod d + (d - 1 - r)); lia. }
        assert (H2 : (S n + (d - 1 - r)) / d = n / d).
        { symmetry. apply Nat.div_unique with (r := S (n mod d) + (d - 1 - r)); lia. }
        rewrite H1, H2. lia.
      * assert (H1 : (n + (d - 1 - r)) / d = S (n / d)).
        { symmetry. apply Nat.div_unique with (r := n mod d - r - 1); lia. }
        assert (H2 : (S n + (d - 1 - r)) / d = S (n / d)).
        { symmetry. apply Nat.div_unique with (r := n mod d - r); lia. }
        rewrite H1, H2. lia.
Qed.

Lemma count_div n d : 0 < d ->
  length (filter (fun q => q / d =? n / d) (seq 0 n)) = n mod d.
Proof.
  intros Hd.
  assert (E := Nat.div_mod n d ltac:(lia)).
  assert (Hm := Nat.mod_upper_bound n d ltac:(lia)).
  assert (Hseq : seq 0 n = seq 0 (d * (n / d) + n mod d)) by (f_equal; exact E).
  rewrite Hseq, seq_app, filter_app, app_length.
  assert (H1 : filter (fun q => q / d =? n / d) (seq 0 (d * (n / d))) = []).
  { apply (proj1 (length_zero_iff_nil _)).
    assert (Hf : filter (fun q => q / d =? n / d) (seq 0 (d * (n / d))) =
                 filter (fun _ => false) (seq 0 (d * (n / d)))).
    { apply filter_ext_in'. intros x Hx. apply in_seq in Hx.
      apply Nat.eqb_neq. intros He.
      assert (x / d < n / d) by (apply Nat.div_lt_upper_bound; lia). lia. }
    rewrite Hf. generalize (seq 0 (d * (n / d))). intros l; induction l; cbn; auto. }
  assert (H2 : filter (fun q => q / d =? n / d) (seq (0 + d * (n / d)) (n mod d)) =
               seq (0 + d * (n / d)) (n mod d)).
  { rewrite (filter_ext_in' _ (fun _ => true)).
    - generalize (seq (0 + d * (n / d)) (n mod d)). intros l; induction l; cbn; f_equal; auto.
    - intros x Hx. apply in_seq in Hx. apply Nat.eqb_eq.
      symmetry. apply Nat.div_unique with (r := x - d * (n / d)); lia. }
  rewrite H1, H2, seq_length. reflexivity.
Qed.

Lemma matrix_spec nproc size p : 0 < size -> p < nproc ->
  exists col row, matrix nproc size p = Ok (col, row) /\
    (forall q, In q col <-> q < nproc /\ q mod size = p mod size) /\
    (forall q, In q row <-> q < nproc /\ q / size = p / size) /\
    (forall q, In q col -> In q row -> q = p) /\
    rank_in col p = Some (p / size) /\
    rank_in row p = Some (p mod size) /\
    StronglySorted lt col /\ StronglySorted lt row.
Proof.
  intros Hs Hp. unfold matrix. destruct (Nat.eqb_spec size 0); [lia|].
  eexists _, _. split; [reflexivity|].
  split; [intros q; apply (In_Split_world nproc (fun q => q mod size))|]. split; [intros q; apply (In_Split_world nproc (fun q => q / size))|].
  split.
  { intros q Hc Hr. apply (In_Split_world nproc (fun q => q mod size)) in Hc. apply (In_Split_world nproc (fun q => q / size)) in Hr.
    rewrite (Nat.div_mod q size), (Nat.div_mod p size) by lia. destruct Hc as [_ ->], Hr as [_ ->]. reflexivity. }
  split.
  { rewrite Split_world_rank by exact Hp. f_equal.
    rewrite count_mod by (try apply Nat.mod_upper_bound; lia).
    assert (E := Nat.div_mod p size ltac:(lia)).
    assert (Hm := Nat.mod_upper_bound p size ltac:(lia)).
    symmetry. apply Nat.div_unique with (r := size - 1); lia. }
  split.
  { rewrite Split_world_rank by exact Hp. f_equal. apply count_div. exact Hs. }
  rewrite !Split_world. split; apply filter_sorted, seq_sorted.
Qed.

(** ** Nodes and images *)

Lemma node_rank_count nproc nd p : p < nproc ->
  node_rank nproc nd p = length (filter (fun q => nd q =? nd p) (seq 0 p)).
Proof. intros Hp. unfold node_rank, node_comm. rewrite Split_world_rank by exact Hp. reflexivity. Qed.

Lemma images_rank_count nproc nd p : p < nproc ->
  images_rank nproc nd p =
  length (filter (fun q => node_rank nproc nd q =? node_rank nproc nd p) (seq 0 p)).
Proof. intros Hp. unfold images_rank, images_comm. rewrite Split_world_rank by exact Hp. reflexivity. Qed.

Lemma filter_length_0 {A} (f : A -> bool) l :
  length (filter f l) = 0 <-> forall x, In x l -> f x = false.
Proof.
  induction l as [|x l IH]; cbn; [split; [intros _ y []|reflexivity]|].
  destruct (f x) eqn:E; cbn.
  - split; [discriminate|]. intros H. rewrite (H x (or_introl eq_refl)) in E. discriminate.
  - rewrite IH. split.
    + intros H y [<-|Hy]; auto.
    + intros H y Hy. apply H. right; exact Hy.
Qed.

(** A process leads its node iff no smaller rank lives there. *)
Lemma node_rank_0 nproc nd p : p < nproc ->
  node_rank nproc nd p = 0 <-> (forall q, q < p -> nd q <> nd p).
Proof.
  intros Hp. rewrite node_rank_count, filter_length_0 by exact Hp. split.
  - intros H q Hq. apply Nat.eqb_neq, H. apply in_seq. lia.
  - intros H q Hq. apply Nat.eqb_neq, H. apply in_seq in Hq. lia.
Qed.

Lemma leader_exists nproc nd p : p < nproc ->
  exists l, l < nproc /\ nd l = nd p /\ node_rank nproc nd l = 0.
Proof.
  induction p as [p IH] using (well_founded_induction lt_wf). intros Hp.
  destruct (existsb (fun q => nd q =? nd p) (seq 0 p)) eqn:E.
  - apply existsb_exists in E. destruct E as (q & Hq & He). apply in_seq in Hq.
    apply Nat.eqb_eq in He. destruct (IH q ltac:(lia) ltac:(lia)) as (l & Hl & Hn & H0).
    exists l. rewrite <- He. auto.
  - exists p. split; [exact Hp|]. split; [reflexivity|].
    apply node_rank_0; [exact Hp|]. intros q Hq He.
    assert (existsb (fun q => nd q =? nd p) (seq 0 p) = true).
    { apply existsb_exists. exists q. split; [apply in_seq; lia|apply Nat.eqb_eq, He]. }
    congruence.
Qed.

Lemma leader_unique nproc nd p q : p < nproc -> q < nproc ->
  node_rank nproc nd p = 0 -> node_rank nproc nd q = 0 -> nd p = nd q -> p = q.
Proof.
  intros Hp Hq H1 H2 He. rewrite node_rank_0 in H1, H2 by assumption.
  destruct (Nat.lt_trichotomy p q) as [H|[H|H]]; [|exact H|].
  - destruct (H2 p H He).
  - symmetry in He. destruct (H1 q H He).
Qed.

Lemma root_is_leader nproc nd : 0 < nproc -> node_rank nproc nd 0 = 0.
Proof. intros H. rewrite node_rank_count by exact H. reflexivity. Qed.

Lemma root_iff nproc nd p : p < nproc ->
  p = 0 <-> node_rank nproc nd p = 0 /\ images_rank nproc nd p = 0.
Proof.
  intros Hp. split.
  - intros ->. split; [apply root_is_leader; exact Hp|].
    rewrite images_rank_count by exact Hp. reflexivity.
  - intros [Hn Hi]. rewrite images_rank_count, filter_length_0 in Hi by exact Hp.
    destruct (Nat.eq_dec p 0) as [->|Hne]; [reflexivity|exfalso].
    specialize (Hi 0 ltac:(apply in_seq; lia)).
    rewrite Hn, root_is_leader in Hi by lia. discriminate.
Qed.

(** The communicator between the leaders: same for all of them, root first. *)
Definition leaders nproc nd : comm :=
  filter (fun q => node_rank nproc nd q =? 0) (world nproc).

Lemma images_leader nproc nd p :
  node_rank nproc nd p = 0 -> images_comm nproc nd p = leaders nproc nd.
Proof. intros H. unfold images_comm, leaders. rewrite Split_world, H. reflexivity. Qed.

Lemma leaders_head nproc nd : 0 < nproc -> exists c, leaders nproc nd = 0 :: c.
Proof.
  intros H. unfold leaders, world. destruct nproc as [|n]; [lia|]. cbn [seq filter].
  rewrite root_is_leader by lia. cbn. eauto.
Qed.
