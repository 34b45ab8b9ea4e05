(** Proofs about the pickle buffer, round-robin loops and coupling sampling. *)
From Coq Require Import Permutation Sorted.
From Verif Require Import Common CommonProofs MPIModel MPIProofs MPISharedProofs.

(** ** Buffer *)
Section Pickle.
  Context {obj byte : Type}.
  Variable pickle : obj -> list byte.
  Variable unpickle : list byte -> option obj.
  Hypothesis roundtrip : forall o, unpickle (pickle o) = Some o.

  Lemma lookup_store_same fs name (d : list byte) : lookup (store fs name d) name = Some d.
  Proof. unfold store. cbn. rewrite Nat.eqb_refl. reflexivity. Qed.

  Lemma lookup_store_other fs name other (d : list byte) :
    other <> name -> lookup (store fs name d) other = lookup fs other.
  Proof.
    intros Hne. unfold store. cbn. destruct (Nat.eqb_spec name other) as [|_]; [congruence|].
    induction fs as [|[n e] fs IH]; cbn; [reflexivity|].
    destruct (Nat.eqb_spec n name) as [->|Hn]; cbn.
    - destruct (Nat.eqb_spec name other); [congruence|]. exact IH.
    - destruct (n =? other); [reflexivity|exact IH].
  Qed.

  Lemma buffer_set_lookup buf o fs name :
    lookup (buffer_set pickle buf o fs) name =
    match buf with
    | Some n => if n =? name then Some (pickle o) else lookup fs name
    | None => lookup fs name
    end.
  Proof.
    destruct buf as [n|]; [|reflexivity]. unfold buffer_set, buffer_set_killed.
    rewrite firstn_all. destruct (Nat.eqb_spec n name) as [->|Hne].
    - apply lookup_store_same.
    - apply lookup_store_other. congruence.
  Qed.

  Lemma buffer_sets_unrelated h fs name :
    (forall x, In x h -> fst x <> Some name) ->
    lookup (buffer_sets pickle h fs) name = lookup fs name.
  Proof.
    unfold buffer_sets. revert fs. induction h as [|x h IH]; intros fs H; cbn [fold_left]; [reflexivity|].
    rewrite IH by (intros y Hy; apply H; right; exact Hy).
    rewrite buffer_set_lookup. specialize (H x (or_introl eq_refl)).
    destruct (fst x) as [n|]; [|reflexivity].
    destruct (Nat.eqb_spec n name); [congruence|reflexivity].
  Qed.

  Lemma buffer_last nproc h1 h2 name o fs :
    (forall x, In x h2 -> fst x <> Some name) ->
    buffer_get unpickle nproc (Some name)
      (buffer_sets pickle (h1 ++ (Some name, o) :: h2) fs) = Ok (repeat (Some o) nproc).
  Proof.
    intros H. unfold buffer_get.
    unfold buffer_sets. rewrite fold_left_app. cbn [fold_left fst snd].
    change (fold_left _ h2 ?x) with (buffer_sets pickle h2 x).
    rewrite buffer_sets_unrelated by exact H.
    rewrite buffer_set_lookup, Nat.eqb_refl, roundtrip. reflexivity.
  Qed.

  Lemma buffer_none nproc h name :
    (forall x, In x h -> fst x <> Some name) ->
    buffer_get unpickle nproc (Some name) (buffer_sets pickle h []) = Ok (repeat None nproc).
  Proof. intros H. unfold buffer_get. rewrite buffer_sets_unrelated by exact H. reflexivity. Qed.

  Lemma buffer_unnamed nproc o fs :
    buffer_get unpickle nproc None fs = Ok (repeat None nproc) /\
    buffer_set pickle None o fs = fs.
  Proof. split; reflexivity. Qed.

  Lemma buffer_killed nproc name o fs :
    unpickle [] = None ->
    buffer_get unpickle nproc (Some name) (buffer_set_killed pickle (Some name) o 0 fs) = Raise EOFError.
  Proof.
    intros H. unfold buffer_get, buffer_set_killed. rewrite lookup_store_same. cbn. rewrite H. reflexivity.
  Qed.

  Lemma buffer_killed_other nproc name other o k fs : other <> name ->
    buffer_get unpickle nproc (Some other) (buffer_set_killed pickle (Some name) o k fs) =
    buffer_get unpickle nproc (Some other) fs.
  Proof. intros H. unfold buffer_get, buffer_set_killed. rewrite lookup_store_other by exact H. reflexivity. Qed.
End Pickle.

(** ** Round robin *)
Lemma concat_map_app {A B} (f g : A -> list B) l :
  Permutation (concat (map (fun x => f x ++ g x) l)) (concat (map f l) ++ concat (map g l)).
Proof.
  induction l as [|x l IH]; cbn; [reflexivity|].
  rewrite IH, !app_assoc. apply Permutation_app_tail.
  rewrite <- !app_assoc. apply Permutation_app_head. apply Permutation_app_comm.
Qed.

Lemma concat_map_single {A} (x : A) c s n : s <= c < s + n ->
  concat (map (fun r => if c =? r then [x] else []) (seq s n)) = [x].
Proof.
  revert s; induction n as [|n IH]; intros s H; [lia|]. cbn [seq map concat].
  destruct (Nat.eqb_spec c s) as [->|Hne].
  - replace (concat _) with (@nil A); [reflexivity|].
    symmetry. assert (Hlt : forall r, In r (seq (S s) n) -> s <> r) by (intros r Hr; apply in_seq in Hr; lia).
    induction (seq (S s) n) as [|r l IHl]; cbn; [reflexivity|].
    destruct (Nat.eqb_spec s r) as [He|_]; [destruct (Hlt r (or_introl eq_refl) He)|].
    apply IHl. intros q Hq. apply Hlt. right; exact Hq.
  - apply IH. lia.
Qed.

Lemma classes_perm {A} (f : A -> nat) n xs :
  (forall x, In x xs -> f x < n) ->
  Permutation (concat (map (fun r => filter (fun x => f x =? r) xs) (seq 0 n))) xs.
Proof.
  induction xs as [|x xs IH]; intros H; cbn [filter].
  - induction (seq 0 n); cbn; auto.
  - rewrite (map_ext _ (fun r => (if f x =? r then [x] else []) ++ filter (fun x => f x =? r) xs))
      by (intros r; destruct (f x =? r); reflexivity).
    rewrite concat_map_app, concat_map_single by (specialize (H x (or_introl eq_refl)); lia).
    cbn. constructor. apply IH. intros y Hy. apply H. right; exact Hy.
Qed.

Lemma combine_seq_snd {A} (tasks : list A) s :
  map snd (combine (seq s (length tasks)) tasks) = tasks.
Proof. revert s; induction tasks as [|t tasks IH]; intros s; cbn; [reflexivity|]. f_equal. apply IH. Qed.

Lemma round_robin_perm {A} first nproc (tasks : list A) : 0 < nproc ->
  Permutation (concat (map (fun r => round_robin first nproc r tasks) (seq 0 nproc))) tasks.
Proof.
  intros Hn. unfold round_robin.
  rewrite <- (map_map (fun r => filter (fun x : nat * A => fst x mod nproc =? r) (combine (seq first (length tasks)) tasks)) (map snd)).
  rewrite <- concat_map.
  apply Permutation_trans with (map snd (combine (seq first (length tasks)) tasks));
    [apply Permutation_map|rewrite combine_seq_snd; reflexivity].
  apply (classes_perm (fun x => fst x mod nproc)).
  intros x _. apply Nat.mod_upper_bound. lia.
Qed.

Lemma fold_right_perm {A} (op : A -> A -> A) (e : A) :
  (forall x y z, op x (op y z) = op (op x y) z) -> (forall x y, op x y = op y x) ->
  forall l l', Permutation l l' -> fold_right op e l = fold_right op e l'.
Proof.
  intros Ha Hc l l' H. induction H; cbn; try congruence.
Qed.

Lemma fold_right_concat {A} (op : A -> A -> A) (e : A) :
  (forall x y z, op x (op y z) = op (op x y) z) -> (forall x, op e x = x) ->
  forall ls, fold_right op e (concat ls) = fold_right op e (map (fold_right op e) ls).
Proof.
  intros Ha He ls. induction ls as [|l ls IH]; cbn; [reflexivity|].
  rewrite <- IH. generalize (concat ls). intros m. induction l as [|x l IHl]; cbn; [symmetry; apply He|].
  rewrite IHl, Ha. reflexivity.
Qed.

(** ** Sampling *)
Lemma concat_seq (sizes : list Z) m :
  Forall (fun x => (0 <= x)%Z) sizes -> m <= length sizes ->
  concat (map (fun r => seq (Z.to_nat (sumZ (firstn r sizes)))
    (Z.to_nat (sumZ (firstn (S r) sizes)) - Z.to_nat (sumZ (firstn r sizes)))) (seq 0 m)) =
  seq 0 (Z.to_nat (sumZ (firstn m sizes))).
Proof.
  intros Hnn. induction m as [|m IH]; intros Hm; [reflexivity|].
  rewrite seq_S, map_app, concat_app, IH by lia. cbn [map concat Nat.add]. rewrite app_nil_r.
  assert (H0 : (0 <= sumZ (firstn m sizes))%Z).
  { change 0%Z with (sumZ (firstn 0 sizes)). apply sumZ_firstn_mono; [exact Hnn|lia]. }
  assert (H1 := sumZ_firstn_mono sizes m (S m) Hnn ltac:(lia)).
  set (a := sumZ (firstn m sizes)) in *. set (b := sumZ (firstn (S m) sizes)) in *.
  transitivity (seq 0 (Z.to_nat a) ++ seq (0 + Z.to_nat a) (Z.to_nat b - Z.to_nat a)); [reflexivity|].
  rewrite <- seq_app. f_equal. lia.
Qed.

Lemma matrix_rank_bound nproc nq p : 0 < nq -> p < nproc ->
  p mod nq < nproc.
Proof.
  intros Hq Hp. assert (H := Nat.mod_le p nq ltac:(lia)). lia.
Qed.

Lemma sample_mine_eq nproc nq p sizes bounds : 0 < nq -> p < nproc ->
  distribute (Z.of_nat nq) (Z.of_nat nproc) = Ok (sizes, bounds) ->
  sample_mine nproc nq p =
  Ok (seq (Z.to_nat (sumZ (firstn (p mod nq) sizes)))
    (Z.to_nat (sumZ (firstn (S (p mod nq)) sizes)) - Z.to_nat (sumZ (firstn (p mod nq) sizes)))).
Proof.
  intros Hq Hp Hd. unfold sample_mine. rewrite Hd. cbn [bind].
  destruct (matrix_spec nproc nq p Hq Hp) as (col & row & -> & _ & _ & _ & _ & Hr & _).
  cbn [bind]. rewrite Hr.
  destruct (distribute_spec (Z.of_nat nq) (Z.of_nat nproc) ltac:(lia) ltac:(lia))
    as (sizes' & bounds' & Hd' & Hlen & _).
  rewrite Hd in Hd'. injection Hd' as <- <-.
  unfold distribute in Hd. destruct (distribute_sizes _ _) as [sz|]; [|discriminate].
  cbn [bind] in Hd. injection Hd as -> <-.
  assert (Hb := matrix_rank_bound nproc nq p Hq Hp).
  rewrite !cumsum_nth by lia. rewrite !Z.add_0_l. reflexivity.
Qed.

Lemma row0 nproc nq : 0 < nq -> 0 < nproc ->
  exists col, matrix nproc nq 0 = Ok (col, seq 0 (Nat.min nq nproc)).
Proof.
  intros Hq Hn. unfold matrix. destruct (Nat.eqb_spec nq 0); [lia|].
  rewrite (Split_world nproc (fun q => q / nq)).
  eexists. f_equal. f_equal. unfold world.
  rewrite Nat.div_0_l by lia.
  replace nproc with (Nat.min nq nproc + (nproc - Nat.min nq nproc)) at 1 by lia.
  rewrite seq_app, filter_app.
  rewrite (filter_ext_in' _ (fun _ => true) (seq 0 (Nat.min nq nproc))).
  2: { intros x Hx. apply in_seq in Hx. rewrite Nat.div_small by lia. reflexivity. }
  rewrite (filter_ext_in' _ (fun _ => false) (seq (0 + _) _)).
  2: { intros x Hx. apply in_seq in Hx. apply Nat.eqb_neq.
       assert (0 < x / nq) by (apply Nat.div_str_pos; lia). lia. }
  rewrite <- (app_nil_r (seq 0 _)) at 2. f_equal.
  - generalize (seq 0 (Nat.min nq nproc)). intros l; induction l; cbn; f_equal; auto.
  - generalize (seq (0 + Nat.min nq nproc) (nproc - Nat.min nq nproc)).
    intros l; induction l; cbn; auto.
Qed.

Lemma distribute_min_sum nproc nq sizes bounds : 0 < nproc ->
  distribute (Z.of_nat nq) (Z.of_nat nproc) = Ok (sizes, bounds) ->
  Forall (fun x => (0 <= x)%Z) sizes /\ length sizes = nproc /\
  sumZ (firstn (Nat.min nq nproc) sizes) = Z.of_nat nq.
Proof.
  intros Hn Hd.
  destruct (distribute_spec (Z.of_nat nq) (Z.of_nat nproc) ltac:(lia) ltac:(lia))
    as (sizes' & bounds' & Hd' & Hlen & Hsum & Hbal & _).
  rewrite Hd in Hd'. injection Hd' as <- <-.
  assert (Hnn : Forall (fun x => (0 <= x)%Z) sizes).
  { apply Forall_forall. intros x Hx. apply In_nth_error in Hx. destruct Hx as [i Hi].
    destruct (Hbal i i x x Hi Hi ltac:(lia)). lia. }
  assert (Hlen' : length sizes = nproc) by lia.
  split; [exact Hnn|]. split; [exact Hlen'|].
  destruct (Nat.le_ge_cases nproc nq) as [Hle|Hge].
  - replace (Nat.min nq nproc) with (length sizes) by lia. rewrite firstn_all. exact Hsum.
  - replace (Nat.min nq nproc) with nq by lia.
    unfold distribute in Hd. rewrite distribute_sizes_Ok in Hd by lia. cbn [bind] in Hd.
    assert (Hs : sizes = repeat (Z.of_nat nq / Z.of_nat nproc + 1)%Z (Z.to_nat (Z.of_nat nq mod Z.of_nat nproc)) ++
      repeat (Z.of_nat nq / Z.of_nat nproc)%Z (Z.to_nat (Z.of_nat nproc - Z.of_nat nq mod Z.of_nat nproc))) by congruence.
    destruct (Nat.eq_dec nq nproc) as [->|Hne].
    + rewrite <- Hlen' at 1. rewrite firstn_all. exact Hsum.
    + rewrite Z.div_small, Z.mod_small in Hs by lia. rewrite Nat2Z.id in Hs.
      rewrite Hs, firstn_app, repeat_length, Nat.sub_diag, firstn_O, app_nil_r.
      rewrite firstn_all2 by (rewrite repeat_length; lia).
      rewrite sumZ_repeat. lia.
Qed.

Lemma sample_complete nproc nq : 0 < nq -> 0 < nproc ->
  exists col row mine, matrix nproc nq 0 = Ok (col, row) /\
    (forall p, p < nproc -> sample_mine nproc nq p = Ok (mine p)) /\
    (forall p, p < nproc -> mine p = mine (p mod nq)) /\
    concat (map mine row) = seq 0 nq.
Proof.
  intros Hq Hn. destruct (row0 nproc nq Hq Hn) as [col Hm].
  destruct (distribute_spec (Z.of_nat nq) (Z.of_nat nproc) ltac:(lia) ltac:(lia))
    as (sizes & bounds & Hd & _).
  destruct (distribute_min_sum nproc nq sizes bounds Hn Hd) as (Hnn & Hlen & Hsum).
  exists col, (seq 0 (Nat.min nq nproc)),
    (fun p => seq (Z.to_nat (sumZ (firstn (p mod nq) sizes)))
    (Z.to_nat (sumZ (firstn (S (p mod nq)) sizes)) - Z.to_nat (sumZ (firstn (p mod nq) sizes)))).
  split; [exact Hm|]. split; [intros p Hp; eapply sample_mine_eq; eassumption|].
  split; [intros p Hp; rewrite Nat.mod_mod by lia; reflexivity|].
  rewrite (map_ext_in _ (fun r => seq (Z.to_nat (sumZ (firstn r sizes)))
    (Z.to_nat (sumZ (firstn (S r) sizes)) - Z.to_nat (sumZ (firstn r sizes))))).
  - rewrite concat_seq by (auto; lia). rewrite Hsum, Nat2Z.id. reflexivity.
  - intros p Hp. apply in_seq in Hp. rewrite Nat.mod_small by lia. reflexivity.
Qed.

(** More processes than q points: a process with nothing to do returns before
    anything has been written. *)
Lemma sample_race nproc nq : 0 < nq -> nq < nproc ->
  sample_shared_prog nproc nq nq = [].
Proof.
  intros Hq Hn. unfold sample_shared_prog.
  destruct (matrix_spec nproc nq nq Hq Hn) as (col & row & -> & _ & _ & _ & Hc & _).
  destruct (sample_mine nproc nq nq); [|reflexivity].
  rewrite Hc, Nat.div_same by lia. reflexivity.
Qed.

(** At most as many processes as q points: everybody waits for everybody. *)
Section Sample.
  Variables (nproc nq : nat).
  Hypothesis Hn : 0 < nproc.
  Hypothesis Hle : nproc <= nq.
  Variable mine : nat -> list nat.
  Hypothesis Hmine : forall p, p < nproc -> sample_mine nproc nq p = Ok (mine p).

  Let W := world nproc.
  Let wr p : @instr (nat -> bool) :=
    Write (fun done q => orb (existsb (Nat.eqb q) (mine p)) (done q)).
  Let body p column : list (@instr (nat -> bool)) :=
    (if column =? p then [wr p] else []) ++ Barrier W.

  Lemma sample_prog_eq p : p < nproc ->
    sample_shared_prog nproc nq p = concat (map (body p) (seq 0 nproc)).
  Proof.
    intros Hp. unfold sample_shared_prog. assert (Hq : 0 < nq) by lia.
    destruct (matrix_spec nproc nq p Hq Hp) as (col & row & Hm & _ & Hr & _ & Hc & Hrr & _).
    rewrite Hm, Hmine, Hc, Hrr by exact Hp.
    rewrite Nat.div_small, Nat.mod_small by lia.
    assert (Hrow : row = W).
    { unfold matrix in Hm. destruct (Nat.eqb_spec nq 0); [lia|]. injection Hm as _ <-.
      rewrite (Split_world nproc (fun q => q / nq)). unfold W.
      rewrite (filter_ext_in' _ (fun _ => true)).
      - generalize (world nproc). intros l; induction l; cbn; f_equal; auto.
      - intros x Hx. unfold world in Hx. apply in_seq in Hx.
        rewrite !Nat.div_small by lia. reflexivity. }
    rewrite Hrow. unfold W at 2, world. rewrite seq_length. reflexivity.
  Qed.

  Definition is_enter (i : @instr (nat -> bool)) : bool :=
    match i with Enter c => comm_eqb c W | _ => false end.

  Definition enters (l : list (@instr (nat -> bool))) : nat := length (filter is_enter l).

  Lemma enters_app l1 l2 : enters (l1 ++ l2) = enters l1 + enters l2.
  Proof. unfold enters. rewrite filter_app, app_length. reflexivity. Qed.

  Lemma enters_body p columns : enters (concat (map (body p) columns)) = length columns.
  Proof.
    induction columns as [|c l IH]; cbn [map concat length]; [reflexivity|].
    rewrite enters_app, IH. unfold body. rewrite enters_app.
    replace (enters (if c =? p then [wr p] else [])) with 0 by (destruct (c =? p); reflexivity).
    unfold Barrier, enters. cbn [filter is_enter]. rewrite comm_eqb_refl. reflexivity.
  Qed.

  (** If all Enters are behind us, so is the Write. *)
  Lemma split_body p columns pre post : In p columns ->
    concat (map (body p) columns) = pre ++ post ->
    enters pre = length columns -> In (wr p) pre.
  Proof.
    revert pre; induction columns as [|c l IH]; intros pre Hin Heq He; [destruct Hin|].
    cbn [map concat length] in *.
    assert (Hlen : exists pre', pre = body p c ++ pre' \/ (exists suf, body p c = pre ++ suf /\ suf <> [])).
    { apply app_eq_app in Heq. destruct Heq as [m [[H1 H2]|[H1 H2]]].
      - destruct m as [|i m].
        + exists []. left. rewrite H1, !app_nil_r. reflexivity.
        + exists []. right. exists (i :: m). split; [exact H1|discriminate].
      - exists m. left. exact H1. }
    destruct Hlen as [pre' [->|(suf & Hb & Hs)]].
    - rewrite <- app_assoc in Heq. apply app_inv_head in Heq.
      rewrite enters_app in He.
      assert (Hb1 : enters (body p c) = 1).
      { assert (H := enters_body p [c]). cbn in H. rewrite app_nil_r in H. exact H. }
      destruct Hin as [->|Hin].
      + apply in_or_app. left. unfold body. rewrite Nat.eqb_refl. left. reflexivity.
      + apply in_or_app. right. apply IH; [exact Hin|exact Heq|lia].
    - assert (Hb1 : enters (body p c) = 1).
      { assert (H := enters_body p [c]). cbn in H. rewrite app_nil_r in H. exact H. }
      rewrite Hb, enters_app in Hb1.
      assert (l = []) by (destruct l; [reflexivity|cbn in He; lia]). subst l.
      destruct Hin as [->|[]]. unfold body in Hb. rewrite Nat.eqb_refl in Hb. cbn [app] in Hb.
      destruct pre as [|i pre]; [cbn in He; lia|]. injection Hb as <- _. left. reflexivity.
  Qed.

  Definition SInv (s : @state (nat -> bool)) : Prop :=
    (forall p, p < nproc -> exists pre,
       sample_shared_prog nproc nq p = pre ++ code s p /\
       entered s p W = enters pre /\
       (In (wr p) pre -> forall q, In q (mine p) -> mem s 0 q = true)) /\
    (forall p, p < nproc -> code s p = [] -> forall q, q < nproc -> nproc <= entered s q W).

  Lemma SInv_start m : SInv (start (sample_shared_prog nproc nq) m).
  Proof.
    split; cbn [start code entered mem].
    - intros p Hp. exists []. split; [reflexivity|]. split; [reflexivity|]. intros [].
    - intros p Hp He. exfalso. rewrite sample_prog_eq in He by exact Hp.
      assert (H := enters_body p (seq 0 nproc)). rewrite He, seq_length in H. cbn in H. lia.
  Qed.

  Lemma body_instr p i : p < nproc -> In i (sample_shared_prog nproc nq p) ->
    i = wr p \/ i = Enter W \/ i = Leave W.
  Proof.
    intros Hp. rewrite sample_prog_eq by exact Hp. intros Hi.
    apply in_concat in Hi. destruct Hi as (l & Hl & Hi). apply in_map_iff in Hl.
    destruct Hl as (c & <- & _). unfold body, Barrier in Hi.
    apply in_app_or in Hi. destruct Hi as [Hi|[<-|[<-|[]]]]; auto.
    destruct (c =? p); [destruct Hi as [<-|[]]; auto|destruct Hi].
  Qed.

  Lemma last_leave p : p < nproc -> exists pre, sample_shared_prog nproc nq p = pre ++ [Leave W].
  Proof.
    intros Hp. rewrite sample_prog_eq by exact Hp.
    replace nproc with (S (nproc - 1)) by lia. rewrite seq_S, map_app, concat_app.
    cbn [map concat]. rewrite app_nil_r. unfold body at 2, Barrier.
    exists (concat (map (body p) (seq 0 (nproc - 1))) ++ (if 0 + (nproc - 1) =? p then [wr p] else []) ++ [Enter W]).
    rewrite <- !app_assoc. reflexivity.
  Qed.

  Lemma SInv_step s s' p : SInv s -> p < nproc -> step (fun _ => 0) s p = Some s' -> SInv s'.
  Proof.
    intros [HI HD] Hp Hstep.
    destruct (HI p Hp) as (pre & Hpre & Hent & Hmem).
    unfold step in Hstep. destruct (code s p) as [|i rest] eqn:Hcode; [discriminate|].
    assert (Hi : i = wr p \/ i = Enter W \/ i = Leave W).
    { apply (body_instr p); [exact Hp|]. rewrite Hpre. apply in_or_app. right; left; reflexivity. }
    assert (Hpre' : sample_shared_prog nproc nq p = (pre ++ [i]) ++ rest)
      by (rewrite <- app_assoc; exact Hpre).
    destruct Hi as [-> | [-> | ->]]; unfold wr in Hstep.
    - (* write *)
      injection Hstep as <-. split; cbn [code entered mem].
      + intros q Hq. destruct (Nat.eq_dec q p) as [->|Hqp].
        * exists (pre ++ [wr p]). rewrite set1_same. split; [exact Hpre'|].
          split; [rewrite enters_app; cbn; lia|].
          intros _ x Hx. rewrite set1_same.
          replace (existsb (Nat.eqb x) (mine p)) with true; [reflexivity|].
          symmetry. apply existsb_exists. exists x. split; [exact Hx|apply Nat.eqb_refl].
        * destruct (HI q Hq) as (preq & H1 & H2 & H3). exists preq.
          rewrite set1_other by exact Hqp. split; [exact H1|]. split; [exact H2|].
          intros Hw x Hx. rewrite set1_same. rewrite (H3 Hw x Hx). apply orb_true_r.
      + intros q Hq Hdone. destruct (Nat.eq_dec q p) as [->|Hqp].
        * exfalso. rewrite set1_same in Hdone. subst rest.
          destruct (last_leave p Hp) as (pre2 & H2). rewrite Hpre in H2.
          change (wr p :: []) with ([] ++ [wr p]) in H2.
          apply app_inj_tail in H2. destruct H2 as [_ H2]. discriminate.
        * rewrite set1_other in Hdone by exact Hqp. apply (HD q Hq Hdone).
    - (* enter *)
      injection Hstep as <-. split; cbn [code entered mem].
      + intros q Hq. destruct (Nat.eq_dec q p) as [->|Hqp].
        * exists (pre ++ [Enter W]). rewrite !set1_same, setc_same. split; [exact Hpre'|].
          split. { rewrite enters_app, Hent. unfold enters at 3. cbn [filter is_enter].
            rewrite comm_eqb_refl. cbn. lia. }
          intros Hw. apply Hmem. apply in_app_or in Hw. destruct Hw as [Hw|[Hw|[]]]; [exact Hw|discriminate].
        * destruct (HI q Hq) as (preq & H1 & H2 & H3). exists preq.
          rewrite !set1_other by exact Hqp. split; [exact H1|]. split; [exact H2|exact H3].
      + intros q Hq Hdone r Hr.
        assert (Hq' : code s q = []).
        { destruct (Nat.eq_dec q p) as [->|Hqp].
          - exfalso. rewrite set1_same in Hdone. subst rest.
            destruct (last_leave p Hp) as (pre2 & H2). rewrite Hpre in H2.
            apply app_inj_tail in H2. destruct H2 as [_ H2]. discriminate.
          - rewrite set1_other in Hdone by exact Hqp. exact Hdone. }
        specialize (HD q Hq Hq' r Hr).
        destruct (Nat.eq_dec r p) as [->|Hrp]; [rewrite set1_same, setc_same; lia|rewrite set1_other by exact Hrp; exact HD].
    - (* leave *)
      destruct (forallb _ W) eqn:Hall; [|discriminate].
      injection Hstep as <-. split; cbn [code entered mem].
      + intros q Hq. destruct (Nat.eq_dec q p) as [->|Hqp].
        * exists (pre ++ [Leave W]). rewrite !set1_same. split; [exact Hpre'|].
          split. { rewrite enters_app, Hent. cbn. lia. }
          intros Hw. apply Hmem. apply in_app_or in Hw. destruct Hw as [Hw|[Hw|[]]]; [exact Hw|discriminate].
        * destruct (HI q Hq) as (preq & H1 & H2 & H3). exists preq.
          rewrite !set1_other by exact Hqp. split; [exact H1|]. split; [exact H2|exact H3].
      + intros q Hq Hdone r Hr. destruct (Nat.eq_dec q p) as [->|Hqp].
        * rewrite set1_same in Hdone. subst rest.
          rewrite forallb_forall in Hall. specialize (Hall r). cbn beta in Hall.
          assert (HrW : In r W) by (unfold W, world; apply in_seq; lia).
          apply Hall, Nat.leb_le in HrW.
          assert (He : enters (pre ++ [Leave W]) = nproc).
          { rewrite <- Hpre, sample_prog_eq, enters_body, seq_length by exact Hp. reflexivity. }
          rewrite enters_app in He. unfold enters at 2 in He. cbn in He. lia.
        * rewrite set1_other in Hdone by exact Hqp. apply (HD q Hq Hdone r Hr).
  Qed.

  Lemma SInv_run sched s s' : SInv s -> Forall (fun p => p < nproc) sched ->
    run (fun _ => 0) s sched = Some s' -> SInv s'.
  Proof.
    revert s; induction sched as [|p sched IH]; intros s HI HF Hrun; cbn in Hrun.
    - injection Hrun as <-. exact HI.
    - inversion_clear HF as [|? ? Hp HF'].
      destruct (step (fun _ => 0) s p) as [s1|] eqn:E; [|discriminate].
      apply (IH s1); [eapply SInv_step; eauto|exact HF'|exact Hrun].
  Qed.

  Lemma SInv_done s p q : SInv s -> p < nproc -> code s p = [] ->
    q < nproc -> forall x, In x (mine q) -> mem s 0 x = true.
  Proof.
    intros [HI HD] Hp Hdone Hq. specialize (HD p Hp Hdone q Hq).
    destruct (HI q Hq) as (pre & Hpre & Hent & Hmem). apply Hmem.
    rewrite sample_prog_eq in Hpre by exact Hq.
    apply (split_body q (seq 0 nproc) pre (code s q)); [apply in_seq; lia|exact Hpre|].
    rewrite seq_length.
    assert (H := enters_body q (seq 0 nproc)). rewrite Hpre, enters_app, seq_length in H. lia.
  Qed.
End Sample.

Lemma sample_shared_safe nproc nq m sched s p :
  0 < nproc -> nproc <= nq ->
  Forall (fun p => p < nproc) sched -> p < nproc ->
  run (fun _ => 0) (start (sample_shared_prog nproc nq) m) sched = Some s ->
  code s p = [] -> forall q, q < nq -> mem s 0 q = true.
Proof.
  intros Hn Hle HF Hp Hrun Hdone q Hq.
  destruct (sample_complete nproc nq ltac:(lia) Hn) as (col & row & mine & Hm & Hmine & _ & Hcat).
  assert (HI : SInv nproc nq mine s).
  { eapply SInv_run; eauto. apply SInv_start; auto. }
  assert (Hin : In q (concat (map mine row))) by (rewrite Hcat; apply in_seq; lia).
  apply in_concat in Hin. destruct Hin as (l & Hl & Hql). apply in_map_iff in Hl.
  destruct Hl as (r & <- & Hr).
  destruct (matrix_spec nproc nq 0 ltac:(lia) Hn) as (col' & row' & Hm' & _ & Hrow & _).
  rewrite Hm in Hm'. injection Hm' as <- <-.
  apply (SInv_done nproc nq Hn Hle mine Hmine s p r HI Hp Hdone); [apply Hrow, Hr|exact Hql].
Qed.
