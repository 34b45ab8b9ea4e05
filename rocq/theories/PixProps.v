(** C112: tiling and resampling of images. *)
From Coq Require Import Qabs Lia Lqa.
From Verif Require Import Common CommonProofs Text LinModel LinSpec LinProofs PixModel PixSpec PixProofs.
From Coq Require Import QArith Qround.
Local Open Scope Q_scope.

(** Images of the same size are arranged in rows and columns without gaps, from left to
    right and from top to bottom. The number of columns is the smallest divisor of the
    number of images that is not below the requested one or the square root. *)
Theorem C112_arrange : forall A (images : list (image A)) columns h w, images <> [] -> (forall a, In a images -> height a = h /\ width a = w) ->
  match columns with Some c => (0 < c)%Z | None => True end ->
  exists r rows cols, arrange images columns = Ok r /\
    (rows * cols = length images)%nat /\
    least_divisor (Z.of_nat (length images)) (match columns with Some c => Z.min c (Z.of_nat (length images)) | None => Z.sqrt (Z.of_nat (length images)) end) (Z.of_nat cols) /\
    height r = (rows * h)%nat /\ width r = (cols * w)%nat /\
    forall row col y x, (row < rows)%nat -> (col < cols)%nat -> (y < h)%nat -> (x < w)%nat ->
      exists a, nth_error images (row * cols + col) = Some a /\ pixel r (row * h + y) (col * w + x) = pixel a y x.
Proof.
  intros A images columns h w NE SZ HC. set (n := Z.of_nat (length images)). assert (Hn : (0 < n)%Z) by (unfold n; destruct images; [contradiction|cbn; lia]).
  set (m := match columns with Some c => Z.min c n | None => Z.sqrt n end). set (c0 := match columns with None => Z.sqrt n | Some c => c end).
  assert (Hm : (0 < m <= n)%Z).
  { unfold m. destruct columns as [c|]; [lia|]. split; [apply Z.sqrt_pos, Hn|]. apply Z.sqrt_le_lin. lia. }
  assert (C : exists c, (if (c0 <? n)%Z then next_divisor (Z.to_nat (n - c0)) n c0 else Ok n) = Ok c /\ least_divisor n m c /\ (c <= n)%Z).
  { destruct (Z.ltb_spec c0 n) as [L|L].
    - assert (E : m = c0) by (unfold m, c0 in *; destruct columns; [lia|reflexivity]). rewrite E in *. apply next_divisor_ok; lia.
    - exists n. split; [reflexivity|]. split; [|lia]. assert (E : m = n) by (unfold m, c0 in *; destruct columns; lia). rewrite E. split; [lia|]. split; [apply Z.divide_refl|]. intros c' H _ _. exact H. }
  destruct C as (c & EC & LD & Hcn). destruct LD as (L1 & L2 & L3). assert (Hc : (0 < c)%Z) by lia.
  set (cols := Z.to_nat c). set (rows := Z.to_nat (n / c)). assert (RC : (rows * cols = length images)%nat).
  { destruct L2 as [k Ek]. assert (E1 : (n / c = k)%Z) by (rewrite Ek; apply Z.div_mul; lia). unfold rows, cols. rewrite E1. rewrite <- Z2Nat.inj_mul by nia. rewrite <- Ek. unfold n. apply Nat2Z.id. }
  assert (Hcols : (0 < cols)%nat) by (unfold cols; lia).
  assert (Hrows : (0 < rows)%nat) by (destruct rows; [cbn in RC; unfold n in Hn; lia|lia]).
  set (row_ := fun row => slice (c * Z.of_nat row) (c * (Z.of_nat row + 1)) images).
  assert (RW : forall row, (row < rows)%nat -> length (row_ row) = cols /\ forall col, (col < cols)%nat -> nth_error (row_ row) col = nth_error images (row * cols + col)).
  { intros row Hr. unfold row_, slice. replace (Z.to_nat (c * (Z.of_nat row + 1) - c * Z.of_nat row)) with cols by (unfold cols; f_equal; lia).
    replace (Z.to_nat (c * Z.of_nat row)) with (row * cols)%nat by (unfold cols; nia). assert (row * cols + cols <= length images)%nat by nia. split.
    - rewrite firstn_length, skipn_length. lia.
    - intros col Hcol. rewrite <- (firstn_skipn (row * cols) images) at 2. rewrite nth_error_app2 by (rewrite firstn_length; lia). rewrite firstn_length, Nat.min_l by lia. replace (row * cols + col - row * cols)%nat with col by lia.
      generalize (skipn (row * cols) images) as l. generalize dependent col. clear. induction cols as [|k IH]; intros col H l; [lia|]. destruct l as [|y l]; [destruct col; reflexivity|]. destruct col; [reflexivity|]. cbn. apply IH. lia. }
  destruct (collect_ok (fun row => concatenate beside (row_ row)) (fun row r => height r = h /\ width r = (cols * w)%nat /\
    forall col y x, (col < cols)%nat -> (x < w)%nat -> exists a, nth_error images (row * cols + col) = Some a /\ pixel r y (col * w + x) = pixel a y x) (seq 0 rows)) as (parts & EP & FP).
  { intros row Hr. apply in_seq in Hr. destruct (RW row ltac:(lia)) as [RL RN]. destruct (concatenate_beside h w (row_ row)) as (r & Er & Hh & Hw & P).
    - intros E. rewrite E in RL. cbn in RL. lia.
    - apply Forall_forall. intros a I. apply SZ. unfold row_, slice in I. rewrite <- (firstn_skipn (Z.to_nat (c * Z.of_nat row)) images). apply in_or_app. right.
      set (l := skipn _ images) in *. rewrite <- (firstn_skipn (Z.to_nat (c * (Z.of_nat row + 1) - c * Z.of_nat row)) l). apply in_or_app. left. exact I.
    - exists r. split; [exact Er|]. split; [exact Hh|]. rewrite RL in Hw, P. split; [exact Hw|]. intros col y x Hcol Hx. destruct (P col y x Hcol Hx) as (a & Ea & V). exists a. split; [rewrite <- RN by exact Hcol; exact Ea|exact V]. }
  assert (a0 : image A) by (destruct images as [|a0 ?]; [contradiction|exact a0]).
  destruct (Forall2_seq_nth _ a0 rows 0 parts FP) as [PL PN].
  destruct (concatenate_below h (cols * w) parts) as (r & Er & Hw & Hh & P).
  - intros E. rewrite E in PL. cbn in PL. lia.
  - apply Forall_forall. intros a I. apply In_nth with (d := a) in I as (k & Hk & <-). rewrite PL in Hk. specialize (PN k Hk). rewrite (nth_indep _ _ a) in PN by lia. destruct PN as (E1 & E2 & _). split; assumption.
  - exists r, rows, cols. split.
    + unfold arrange. fold n. fold c0. rewrite EC. cbn [bind]. destruct (Z.eqb_spec c 0); [lia|]. fold rows. fold row_. change (fun row => concatenate beside (slice (c * Z.of_nat row) (c * (Z.of_nat row + 1)) images)) with (fun row => concatenate beside (row_ row)).
      rewrite EP. cbn [bind]. exact Er.
    + split; [exact RC|]. split; [unfold cols; rewrite Z2Nat.id by lia; split; [exact L1|split; [exact L2|exact L3]]|]. rewrite PL in Hh. split; [exact Hh|]. split; [exact Hw|].
      intros row col y x Hr Hcol Hy Hx. rewrite PL in P. destruct (P row y (col * w + x)%nat Hr Hy) as (a & Ea & V). specialize (PN row Hr). erewrite nth_error_nth in PN by exact Ea. destruct PN as (_ & _ & PN).
      destruct (PN col y x Hcol Hx) as (b & Eb & V'). exists b. split; [exact Eb|]. rewrite V. exact V'.
Qed.
Print Assumptions C112_arrange.

(** No images, no columns or a negative number of columns are errors. *)
Theorem C112_arrange_errors : forall A,
  (arrange (A := A) [] None = Raise ZeroDivisionError) /\
  (forall images, images <> [] -> arrange (A := A) images (Some 0%Z) = Raise ZeroDivisionError) /\
  (forall images c, (c < 0)%Z -> arrange (A := A) images (Some c) = Raise ValueError).
Proof.
  intros A. split; [reflexivity|]. split.
  - intros images H. unfold arrange. destruct images as [|a l]; [contradiction|]. cbn [length]. destruct (Z.ltb_spec 0 (Z.of_nat (S (length l)))); [|lia]. replace (Z.to_nat (Z.of_nat (S (length l)) - 0)) with (S (length l)) by lia. reflexivity.
  - intros images c H. unfold arrange. set (n := Z.of_nat (length images)). assert (0 <= n)%Z by (unfold n; lia). destruct (Z.ltb_spec c n); [|lia].
    destruct (next_divisor_negative n (Z.to_nat (n - c)) c H ltac:(lia)) as (c' & E & H'). rewrite E. cbn [bind]. destruct (Z.eqb_spec c' 0); [lia|].
    assert (n / c' <= 0)%Z. { destruct (Z.eq_dec n 0) as [->|]; [cbn; lia|]. pose proof (Z.mul_div_le (- n) (- c') ltac:(lia)) as G. rewrite Z.div_opp_opp in G by lia. pose proof (Z.mod_neg_bound n c' ltac:(lia)). pose proof (Z.div_mod n c' ltac:(lia)). nia. }
    replace (Z.to_nat (n / c')) with 0%nat by lia. reflexivity.
Qed.
Print Assumptions C112_arrange_errors.

Example C112_arrange_example : let a k := Img 1 1 (fun _ _ => k) in
  (exists r, arrange (map a (seq 0 6)) None = Ok r /\ height r = 3%nat /\ width r = 2%nat /\ pixel r 2 0 = 4%nat) /\
  (exists r, arrange (map a (seq 0 6)) (Some 4%Z) = Ok r /\ height r = 1%nat /\ width r = 6%nat).
Proof. cbn zeta. split; eexists; (split; [reflexivity|]); repeat split. Qed.

(** Blocks of columns are stretched or compressed. The distances determine the new columns
    of the given points, up to rounding; the first and last one are mapped to the first and
    last column of the new image. Between the points, the image is interpolated linearly.
    Every element of the new image is set. *)
Theorem C112_adjust : forall argsort image points distances width_ height_,
  rectangular image ->
  increasing (map Z.of_nat points) -> (forall p, In p points -> (p < length (hd [] image))%nat) ->
  (1 < length points)%nat -> length distances = length points -> (0 < width_)%nat ->
  let h := match height_ with Some h => h | None => length image end in
  (1 < h)%nat ->
  let d0 := hd 0 distances in
  let total := last distances 0 - d0 in
  let exact d := (d - d0) / total * inject_Z (Z.of_nat width_ - 1) in
  0 < total ->
  (forall i d d', nth_error distances i = Some d -> nth_error distances (S i) = Some d' -> exact d + 1 < exact d') ->
  exists new news, adjust_pixels argsort image points distances width_ height_ = Ok new /\
    Forall2 (fun d q => nearest (exact d) q) distances news /\ increasing news /\
    hd 0%Z news = 0%Z /\ last news 0%Z = (Z.of_nat width_ - 1)%Z /\
    (forall i p p' q q', nth_error points i = Some p -> nth_error points (S i) = Some p' -> nth_error news i = Some q -> nth_error news (S i) = Some q' ->
      forall y x, (y < h)%nat -> (q <= Z.of_nat x <= q')%Z -> exists v, new y x = Some v /\
        on_grid (at_ image) (inject_Z (Z.of_nat y * (Z.of_nat (length image) - 1)) / inject_Z (Z.of_nat h - 1)) (along (Z.of_nat p) (Z.of_nat p') q q' (Z.of_nat x)) v) /\
    (forall y x, (y < h)%nat -> (x < width_)%nat -> new y x <> None).
Proof.
  intros argsort image points distances width_ height_ HI IP BP LP LD HW h Hh d0 total exact HT ST.
  set (news := map (fun d => rnd (exact d)) distances).
  assert (NP : exists news', new_points distances width_ = Ok news' /\ Forall2 (fun d q => nearest (exact d) q) distances news').
  { unfold new_points. destruct distances as [|d ds]; [cbn in LD; lia|]. assert (El : last (map (fun x => x - d) (d :: ds)) 0 = total) by (rewrite (last_map (fun x => x - d) 0) by discriminate; reflexivity).
    rewrite El. destruct (Qeq_bool total 0) eqn:Q0; [apply Qeq_bool_iff in Q0; lra|]. eexists. split; [reflexivity|]. rewrite map_map.
    assert (G : forall l, Forall2 (fun x q => nearest (exact x) q) l (map (fun x => let r := (x - d) / total * inject_Z (Z.of_nat width_ - 1) in round_div (Qnum r) (Z.pos (Qden r))) l)).
    { induction l as [|x l IH]; [constructor|]. cbn [map]. constructor; [|exact IH]. apply (rnd_near (exact x)). }
    apply G. }
  destruct NP as (news' & EN & FN). assert (LN : length news' = length points). { rewrite <- LD. clear -FN. induction FN; cbn; congruence. }
  assert (NT : forall i d, nth_error distances i = Some d -> exists q, nth_error news' i = Some q /\ nearest (exact d) q).
  { revert FN. generalize exact as ex. clear. intros ex FN. induction FN as [|d q ds qs H _ IH]; intros [|i] x E; try discriminate; cbn [nth_error] in *; [injection E as <-; exists q; auto|apply IH, E]. }
  assert (NT' : forall i q, nth_error news' i = Some q -> exists d, nth_error distances i = Some d /\ nearest (exact d) q).
  { revert FN. generalize exact as ex. clear. intros ex FN. induction FN as [|d q ds qs H _ IH]; intros [|i] x E; try discriminate; cbn [nth_error] in *; [injection E as <-; exists d; auto|apply IH, E]. }
  assert (IN : increasing news').
  { assert (G : forall l, (forall i q q', nth_error l i = Some q -> nth_error l (S i) = Some q' -> (q < q')%Z) -> increasing l).
    { induction l as [|a [|b l] IH]; intros G; [exact I|exact I|]. split; [apply (G 0%nat a b); reflexivity|]. apply IH. intros i q q' E E'. apply (G (S i) q q' E E'). }
    apply G. intros i q q' E E'. destruct (NT' _ _ E) as (d & Ed & Nd). destruct (NT' _ _ E') as (d' & Ed' & Nd'). apply (nearest_lt _ _ _ _ Nd Nd' (ST i d d' Ed Ed')). }
  assert (H0 : hd 0%Z news' = 0%Z).
  { destruct distances as [|d ds]; [cbn in LD; lia|]. destruct (NT 0%nat d eq_refl) as (q & Eq & Nq). destruct news' as [|q' qs]; [discriminate|]. injection Eq as ->. cbn [hd]. apply (nearest_exact (exact d)); [|exact Nq]. unfold exact, d0. cbn [hd]. field. lra. }
  assert (HL : last news' 0%Z = (Z.of_nat width_ - 1)%Z).
  { destruct (exists_last (l := distances)) as (ds & d & Ed); [intros E; rewrite E in LD; cbn in LD; lia|]. destruct (exists_last (l := news')) as (qs & q & Eq); [intros E; rewrite E in LN; cbn in LN; lia|].
    assert (LL : length qs = length ds). { rewrite Ed in LD. rewrite Eq in LN. rewrite app_length in LD, LN. cbn in LD, LN. lia. }
    destruct (NT (length ds) d) as (q1 & E1 & N1); [rewrite Ed, nth_error_app2, Nat.sub_diag by lia; reflexivity|]. rewrite Eq, nth_error_app2, LL, Nat.sub_diag in E1 by lia. injection E1 as <-. rewrite Eq, last_last.
    apply (nearest_exact (exact d)); [|exact N1]. unfold exact. assert (ET : total == d - d0) by (unfold total; rewrite Ed, last_last; reflexivity). rewrite <- ET. field. lra. }
  assert (BN : forall q, In q news' -> (0 <= q < Z.of_nat width_)%Z).
  { intros q I. pose proof (increasing_last _ _ I IN). destruct news' as [|q0 qs]; [destruct I|]. cbn [hd] in H0. subst q0. destruct I as [<-|I]; [lia|]. pose proof (increasing_le _ _ _ IN I). lia. }
  destruct (blocks_ok argsort image h width_ HI Hh points news' (fun _ _ => None) LN IP BP IN BN) as (new & E & SG & _).
  exists new, news'. split; [unfold adjust_pixels; rewrite EN; cbn [bind]; exact E|]. split; [exact FN|]. split; [exact IN|]. split; [exact H0|]. split; [exact HL|]. split; [exact SG|].
  intros y x Hy Hx.
  assert (Cov : forall l, increasing l -> (1 < length l)%nat -> (hd 0%Z l <= Z.of_nat x <= last l 0%Z)%Z -> exists i q q', nth_error l i = Some q /\ nth_error l (S i) = Some q' /\ (q <= Z.of_nat x <= q')%Z).
  { induction l as [|a [|b l] IH]; intros I L B; [cbn in L; lia|cbn in L; lia|]. destruct I as [I1 I2]. cbn [hd] in B. destruct (Z.le_gt_cases (Z.of_nat x) b) as [G|G]; [exists 0%nat, a, b; split; [reflexivity|]; split; [reflexivity|lia]|].
    destruct l as [|c l]; [change (last [a; b] 0%Z) with b in B; lia|]. destruct (IH I2 ltac:(cbn; lia) ltac:(change (last (a :: b :: c :: l) 0%Z) with (last (b :: c :: l) 0%Z) in B; cbn [hd]; lia)) as (i & q & q' & E1 & E2 & E3). exists (S i), q, q'. auto. }
  destruct (Cov news' IN ltac:(lia) ltac:(lia)) as (i & q & q' & E1 & E2 & E3).
  assert (PI : forall k, (k < length points)%nat -> exists p, nth_error points k = Some p) by (intros k Hk; destruct (nth_error points k) eqn:EE; [eexists; reflexivity|apply nth_error_None in EE; lia]).
  assert (S i < length points)%nat by (rewrite <- LN; apply nth_error_Some; rewrite E2; discriminate).
  destruct (PI i ltac:(lia)) as (p & Ep). destruct (PI (S i) ltac:(lia)) as (p' & Ep'). destruct (SG i p p' q q' Ep Ep' E1 E2 y x Hy E3) as (v & Ev & _). rewrite Ev. discriminate.
Qed.
Print Assumptions C112_adjust.

(** At the given points, the columns remain what they were, unless the height changes. *)
Theorem C112_adjust_points : forall image h y p p' q q' x v, (1 < h)%nat -> h = length image -> (q < q')%Z -> (Z.of_nat x = q \/ Z.of_nat x = q') ->
  on_grid (at_ image) (inject_Z (Z.of_nat y * (Z.of_nat (length image) - 1)) / inject_Z (Z.of_nat h - 1)) (along (Z.of_nat p) (Z.of_nat p') q q' (Z.of_nat x)) v ->
  v == at_ image y (if Z.eq_dec (Z.of_nat x) q then p else p').
Proof.
  intros image h y p p' q q' x v Hh Eh Hq Hx G. rewrite <- Eh in G.
  assert (U : forall (c k : nat) (r : Q), 0 <= r < 1 -> inject_Z (Z.of_nat k) == inject_Z (Z.of_nat c) + r -> c = k /\ r == 0).
  { intros c k r Hr E. assert (B : inject_Z (Z.of_nat c) <= inject_Z (Z.of_nat k) < inject_Z (Z.of_nat c + 1)) by (rewrite inject_Z_plus; change (inject_Z 1) with 1; lra).
    destruct B as [B1 B2]. rewrite <- Zle_Qle in B1. rewrite <- Zlt_Qlt in B2. assert (c = k) as -> by lia. split; [reflexivity|lra]. }
  set (k := if Z.eq_dec (Z.of_nat x) q then p else p').
  assert (ET : along (Z.of_nat p) (Z.of_nat p') q q' (Z.of_nat x) == inject_Z (Z.of_nat k)).
  { unfold along, k. destruct (Z.eq_dec (Z.of_nat x) q) as [->|N].
    - rewrite Z.sub_diag. change (inject_Z 0) with 0. field. apply inj_nz. lia.
    - destruct Hx as [Hx|Hx]; [contradiction|]. rewrite Hx. assert (EP : inject_Z (Z.of_nat p' - Z.of_nat p) == inject_Z (Z.of_nat p') - inject_Z (Z.of_nat p)) by (unfold Z.sub; rewrite inject_Z_plus, inject_Z_opp; reflexivity). rewrite EP. field. apply inj_nz. lia. }
  assert (ES : inject_Z (Z.of_nat y * (Z.of_nat h - 1)) / inject_Z (Z.of_nat h - 1) == inject_Z (Z.of_nat y)) by (rewrite inject_Z_mult; field; apply inj_nz; lia).
  destruct G as (c & r & v0 & v1 & Hr & E & (c0 & r0 & H0 & E0 & V0) & _ & V). rewrite ES in E. rewrite ET in E0. destruct (U _ _ _ Hr E) as [-> Er]. destruct (U _ _ _ H0 E0) as [-> Er0].
  rewrite V, Er, V0, Er0. ring.
Qed.
Print Assumptions C112_adjust_points.

Definition strip3 : list (list Q) := [[0; 1; 4]; [2; 2; 8]].
Example C112_adjust_example : exists new, adjust_pixels (fun l => seq 0 (length l)) strip3 [0; 1; 2]%nat [5; 6; 8]%Q 7 None = Ok new /\ map (fun x => match new 0%nat x with Some v => Qred v | None => -1 end) (seq 0 7) = [0; 1 # 2; 1; 7 # 4; 5 # 2; 13 # 4; 4].
Proof. eexists. split; [vm_compute; reflexivity|]. reflexivity. Qed.
Example C112_adjust_hypotheses : rectangular strip3 /\ increasing (map Z.of_nat [0; 1; 2]%nat) /\
  forall i d d', nth_error [5; 6; 8] i = Some d -> nth_error [5; 6; 8] (S i) = Some d' -> (d - 5) / (8 - 5) * inject_Z (Z.of_nat 7 - 1) + 1 < (d' - 5) / (8 - 5) * inject_Z (Z.of_nat 7 - 1).
Proof.
  split; [split; [discriminate|]; split; [discriminate|]; repeat constructor|]. split; [cbn; lia|].
  intros [|[|[|i]]] d d' E E'; try discriminate; injection E as <-; injection E' as <-; reflexivity.
Qed.

(** Points that fall onto the same column of the new image are an error, and so are images
    with a single row. *)
Theorem C112_adjust_refuted : 
  (adjust_pixels (fun l => seq 0 (length l)) strip3 [0; 1; 2]%nat [0; 1; 100]%Q 7 None = Raise ValueError) /\
  (forall argsort row p p' points distances width_ news, new_points distances width_ = Ok news -> (exists q q' rest, news = q :: q' :: rest /\ 0 <= q <= q')%Z ->
    adjust_pixels argsort [row] (p :: p' :: points) distances width_ None = Raise ValueError).
Proof.
  split; [vm_compute; reflexivity|]. intros argsort row p p' points distances width_ news E (q & q' & rest & -> & Hq). unfold adjust_pixels. rewrite E. cbn [bind length blocks].
  destruct (Z.ltb_spec (q' - q + 1) 0); [lia|]. destruct (Z.ltb_spec q 0); [lia|]. reflexivity.
Qed.
Print Assumptions C112_adjust_refuted.
