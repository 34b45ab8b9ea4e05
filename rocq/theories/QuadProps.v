(** C110: files with quadrupole tensors and with q points. *)
From Coq Require Import Qabs Lia Lqa.
From Verif Require Import Text TextProofs HrProofs CoulModel CoulProofs QuadModel QuadSpec QuadProofs.
Local Open Scope nat_scope.

(** Quadrupole tensors: there are as many atoms as the largest number of an atom. For each
    atom and direction, the last line counts. The tensor is symmetric, and zero if there
    is no line. *)
Theorem C110_read : forall file header rows, lines file = header :: rows ->
  (forall line, In line rows -> blank_line line \/ exists n i v, lists_row line n i v) ->
  exists T, read_quadrupole_fmt file = Ok T /\
    (forall line n i v, In line rows -> lists_row line n i v -> n < length T) /\
    (T = [] \/ exists line n i v, In line rows /\ lists_row line n i v /\ length T = n + 1) /\
    forall n i, n < length T -> i < 3 ->
      (forall before line after v, rows = before ++ line :: after -> lists_row line n i v ->
        (forall line', In line' after -> ~ exists v', lists_row line' n i v') -> forall j k x, component v j k x -> nth n T zeros i j k = x) /\
      ((forall line, In line rows -> ~ exists v, lists_row line n i v) -> forall j k, nth n T zeros i j k = 0%Q).
Proof.
  intros file header rows E H. destruct (rows_ok rows [] H) as (T & ET & _ & A & M & V). exists T. split; [unfold read_quadrupole_fmt; rewrite E; exact ET|]. split; [exact A|]. split.
  - destruct M as [M|M]; [left; destruct T; [reflexivity|discriminate]|right; exact M].
  - intros n i _ _. destruct (V n i) as [V1 V2]. split; [exact V1|]. intros N j k. rewrite V2 by exact N. destruct n; reflexivity.
Qed.
Print Assumptions C110_read.

(** A line that does not consist of two integers and six numbers is an error, as is a file
    without any line. *)
Theorem C110_malformed : 
  (forall file header before line after, lines file = header :: before ++ line :: after ->
    (forall line, In line before -> blank_line line \/ exists n i v, lists_row line n i v) -> ~ blank_line line ->
    ~ (exists w1 w2 us z1 z2 xs, str_split line = w1 :: w2 :: us /\ length us = 6 /\ to_int w1 = Ok z1 /\ to_int w2 = Ok z2 /\ map_res to_float us = Ok xs) ->
    read_quadrupole_fmt file = Raise ValueError) /\
  read_quadrupole_fmt [] = Raise StopIteration.
Proof.
  split; [|reflexivity]. intros file header before line after E H B N. unfold read_quadrupole_fmt. rewrite E. apply rows_malformed; assumption.
Qed.
Print Assumptions C110_malformed.

(** Whatever tensor is written, the file can be read. The result is symmetric and agrees to
    ten decimals with the upper triangles, i.e., with the tensor if it is symmetric. *)
Theorem C110_round_trip : forall T, exists T', read_quadrupole_fmt (write_quadrupole_fmt T) = Ok T' /\ length T' = length T /\
  forall n i j k, n < length T -> i < 3 -> j <= k -> k < 3 ->
    close 10 (nth n T zeros i j k) (nth n T' zeros i j k) /\
    nth n T' zeros i k j = nth n T' zeros i j k /\
    (decimals 10 (nth n T zeros i j k) -> nth n T' zeros i j k == nth n T zeros i j k)%Q.
Proof.
  intros T. destruct (header_lines T) as (h & EL). destruct (rows_ok (all_lines 0 T) []) as (T' & E & _ & A & M & V).
  { intros line I. right. apply in_all_lines in I as (m & B & i & _ & Hi & ->). exists (0 + m), i, (voigt_rounded B i). apply line_row, Hi. }
  exists T'. split; [unfold read_quadrupole_fmt; rewrite EL; exact E|]. split.
  - apply Nat.le_antisymm.
    + destruct M as [M|(l & n & i & v & I & R & M)]; [cbn in M; lia|]. apply in_all_lines in I as (m & B & i' & EB & Hi & ->). apply (row_unique _ _ _ _ _ _ _ (line_row (0 + m) B i' Hi)) in R as [<- _].
      assert (m < length T) by (apply nth_error_Some; rewrite EB; discriminate). lia.
    + destruct (length T) as [|m] eqn:L; [lia|]. destruct (nth_error T m) as [B|] eqn:EB; [|apply nth_error_None in EB; lia].
      destruct (all_lines_split T 0 m B 0 EB ltac:(lia)) as (b & a & Eq & _). specialize (A (quadrupole_line (0 + m) B 0) (0 + m) 0 (voigt_rounded B 0)).
      specialize (A ltac:(rewrite Eq; apply in_elt) ltac:(apply line_row; lia)). lia.
  - intros n i j k Hn Hi Hj Hk. destruct (nth_error T n) as [B|] eqn:EB; [|apply nth_error_None in EB; lia]. rewrite (nth_error_nth _ _ zeros EB).
    destruct (all_lines_split T 0 n B i EB Hi) as (b & a & Eq & N). destruct (V n i) as [V1 _]. specialize (V1 b _ a (voigt_rounded B i) Eq (line_row n B i Hi) N).
    assert (G : nth n T' zeros i j k = rounded 10 (B i j k) /\ nth n T' zeros i k j = rounded 10 (B i j k)).
    { destruct k as [|[|[|?]]]; [| | |lia]; destruct j as [|[|[|?]]]; try lia; split; apply V1; constructor. }
    destruct G as [-> ->]. split; [apply rounded_near|]. split; [reflexivity|]. intros (m & D). apply (rounded_exact _ _ _ D).
Qed.
Print Assumptions C110_round_trip.

Definition example_atom : atom := fun i j k => Z.of_nat (i + j + k) # 7.
Example C110_round_trip_example : exists T', read_quadrupole_fmt (write_quadrupole_fmt [zeros; example_atom]) = Ok T' /\ length T' = 2 /\ nth 1 T' zeros 2 1 0 = (4285714286 # 10000000000)%Q.
Proof. eexists. split; [vm_compute; reflexivity|]. split; reflexivity. Qed.

Example C110_read_example : exists T, read_quadrupole_fmt (§"header" ++ newline :: §"2 1 1 2 3 4 5 6" ++ newline :: §" " ++ newline :: §"2 1 7 2 3 4 5 -.6" ++ [newline]) = Ok T /\
  length T = 2 /\ nth 1 T zeros 0 0 0 = 7%Q /\ nth 1 T zeros 0 1 2 = 4%Q /\ nth 1 T zeros 0 1 0 = (-6 # 10)%Q /\ nth 0 T zeros 0 0 0 = 0%Q.
Proof. eexists. split; [vm_compute; reflexivity|]. repeat split. Qed.

Example C110_malformed_example : read_quadrupole_fmt (§"header" ++ newline :: §"1 1 1 2 3 4 5" ++ [newline]) = Raise ValueError.
Proof.
  apply (proj1 C110_malformed _ (§"header" ++ [newline]) [] (§"1 1 1 2 3 4 5" ++ [newline]) []); [reflexivity|intros ? []|intros B; apply split_spaces in B; discriminate B|].
  intros (w1 & w2 & us & z1 & z2 & xs & E & L & _). injection E as _ _ <-. discriminate L.
Qed.

(** Asymmetric tensors are not restored. Atoms and directions that are not counted from
    one are accepted and overwrite the last ones. *)
Theorem C110_numbers_refuted :
  (exists T, read_quadrupole_fmt (§"header" ++ newline :: §"1 3 1 1 1 1 1 1" ++ newline :: §"0 0 2 2 2 2 2 2" ++ [newline]) = Ok T /\ length T = 1 /\ nth 0 T zeros 2 0 0 = 2%Q) /\
  (exists T T', read_quadrupole_fmt (write_quadrupole_fmt T) = Ok T' /\ length T = 1 /\ nth 0 T zeros 0 1 0 = 1%Q /\ (nth 0%nat T' zeros 0%nat 1%nat 0%nat == 0)%Q).
Proof.
  split; [eexists; split; [vm_compute; reflexivity|]; split; reflexivity|].
  exists [fun i j k => match i, j, k with 0, 1, 0 => 1%Q | _, _, _ => 0%Q end]. eexists. split; [vm_compute; reflexivity|]. repeat split.
Qed.
Print Assumptions C110_numbers_refuted.

(** Lists of q points: the mesh, the number of points, which is not checked, and the
    coordinates of the points *)
Theorem C110_q_read : forall file l1 l2 ls nq nQ q, lines file = l1 :: l2 :: ls -> integers l1 nq -> to_int l2 = Ok nQ -> Forall2 numbers ls q -> read_q file = Ok (nq, q).
Proof.
  intros file l1 l2 ls nq nQ q E I N F. unfold read_q. rewrite E, I. cbn [bind]. rewrite N. cbn [bind].
  replace (map_res _ ls) with (Ok q); [reflexivity|]. symmetry. clear E. induction F as [|l x ls q H _ IH]; [reflexivity|]. cbn [map_res]. rewrite H, IH. reflexivity.
Qed.
Print Assumptions C110_q_read.

Theorem C110_q_truncated : forall file, length (lines file) < 2 -> (forall l, In l (lines file) -> exists nq, integers l nq) -> read_q file = Raise StopIteration.
Proof.
  intros file L H. unfold read_q. destruct (lines file) as [|l [|? ?]]; [reflexivity| |cbn in L; lia]. destruct (H l (or_introl eq_refl)) as (nq & ->). reflexivity.
Qed.
Print Assumptions C110_q_truncated.

Theorem C110_q_round_trip : forall q nq, (0 <= nq < 1000)%Z -> (forall x y, In (x, y) q -> -9 <= y <= 99)%Q ->
  exists q', read_q (write_q q nq) = Ok ([nq; nq; 1]%Z, q') /\
    Forall2 (fun xy l => exists x y z, l = [x; y; z] /\ close 15 (fst xy) x /\ close 15 (snd xy) y /\ (z == 0)%Q) q q'.
Proof.
  intros q nq Hn H. exists (map (fun xy => [rounded 15 (fst xy); rounded 15 (snd xy); rounded 15 0]) q). split.
  - eapply C110_q_read; [apply q_lines| | |].
    + unfold integers. assert (L : length (fmt_d nq) < 4).
      { unfold fmt_d. destruct (Z.ltb_spec nq 0); [lia|]. pose proof (nonneg_length nq 3 ltac:(change (Z.of_nat 3) with 3%Z; lia) ltac:(lia)). lia. }
      rewrite split_pad; [|apply word_fmt_d|apply pad_starts, L]. rewrite split_pad; [|apply word_fmt_d|apply pad_starts; vm_compute; lia]. rewrite split_pad; [|apply word_fmt_d|exact eq_refl].
      rewrite split_end. cbn [map_res]. rewrite !to_int_word. reflexivity.
    + unfold pad. rewrite <- app_assoc. apply to_int_fmt; [apply spaces_blank|]. repeat constructor.
    + induction q as [|[x y] q IH]; [constructor|]. cbn [map]. constructor; [|apply IH; intros x' y' I; apply (H x' y'); right; exact I].
      apply q_line_read, narrow_ok, (H x y). left. reflexivity.
  - clear H. induction q as [|xy q IH]; [constructor|]. cbn [map]. constructor; [|exact IH]. do 3 eexists. split; [reflexivity|]. split; [apply rounded_near|]. split; [apply rounded_near|]. apply (rounded_exact 15 0 0). reflexivity.
Qed.
Print Assumptions C110_q_round_trip.

Example C110_q_round_trip_example : exists q', read_q (write_q [(0, 0); (0, 1 # 3); (- (1 # 2), 1)]%Q 12) = Ok ([12; 12; 1]%Z, q') /\ nth 1 q' [] = [0 # 1000000000000000; 333333333333333 # 1000000000000000; 0 # 1000000000000000]%Q.
Proof. eexists. split; [vm_compute; reflexivity|]. reflexivity. Qed.

Example C110_q_round_trip_hypotheses : (0 <= 12 < 1000)%Z /\ (forall x y, In (x, y) [(0, 0); (0, 1 # 3); (- (1 # 2), 1)]%Q -> (-9 <= y <= 99)%Q).
Proof. split; [lia|]. intros x y [E|[E|[E|[]]]]; injection E as <- <-; split; discriminate. Qed.

(** The columns of the file merge for large meshes and far points. *)
Theorem C110_q_refuted :
  (forall q nq q', (1000 <= nq)%Z -> read_q (write_q q nq) <> Ok ([nq; nq; 1]%Z, q')) /\
  (forall y, In y [100; -10]%Q -> read_q (write_q [(0, y)]%Q 1) = Raise ValueError).
Proof.
  split.
  - intros q nq q' Hn. unfold read_q. rewrite q_lines. destruct (map_res to_int _) as [l|] eqn:E; cbn [bind]; [|discriminate].
    assert (P : pad 4 (fmt_d nq) = fmt_d nq).
    { unfold pad. replace (4 - length (fmt_d nq)) with 0; [reflexivity|]. unfold fmt_d. destruct (Z.ltb_spec nq 0); [lia|]. 
      assert (G : forall fuel n w, (n < 10 ^ (Z.of_nat fuel + 1))%Z -> (10 ^ Z.of_nat w <= n)%Z -> w < length (digits fuel n)).
      { induction fuel as [|fuel IH]; intros n w Hf Hw; cbn [digits].
        - destruct w as [|w]; [cbn; lia|]. rewrite Nat2Z.inj_succ, Z.pow_succ_r in Hw by lia. pose proof (Z.pow_pos_nonneg 10 (Z.of_nat w) ltac:(lia) ltac:(lia)). change (10 ^ (Z.of_nat 0 + 1))%Z with 10%Z in Hf. lia.
        - destruct (Z.ltb_spec n 10).
          + destruct w as [|w]; [cbn; lia|]. rewrite Nat2Z.inj_succ, Z.pow_succ_r in Hw by lia. pose proof (Z.pow_pos_nonneg 10 (Z.of_nat w) ltac:(lia) ltac:(lia)). lia.
          + rewrite app_length. cbn [length]. destruct w as [|w]; [lia|]. rewrite Nat2Z.inj_succ, Z.pow_succ_r in Hw by lia. rewrite Nat2Z.inj_succ, <- Z.add_1_r, Z.pow_add_r in Hf by lia. change (10 ^ 1)%Z with 10%Z in Hf.
            pose proof (IH (n / 10)%Z w ltac:(apply Z.div_lt_upper_bound; lia) ltac:(apply Z.div_le_lower_bound; lia)). lia. }
      pose proof (G (fuel_of nq) nq 3 (fuel_enough nq ltac:(lia)) ltac:(change (10 ^ Z.of_nat 3)%Z with 1000%Z; lia)) as G3. unfold nonneg_to_text. lia. }
    rewrite P, app_assoc in E. pose proof (split_word [] (fmt_d nq ++ fmt_d nq) (pad 4 (fmt_d 1) ++ [newline])) as W. cbn [app] in W. rewrite W in E; clear W.
    + rewrite split_pad in E; [|apply word_fmt_d|exact eq_refl]. rewrite split_end in E. apply map_res_length in E. destruct (to_int _); cbn [bind]; [|discriminate]. destruct (map_res _ _); cbn [bind]; [|discriminate].
      intros F. injection F as -> _. discriminate E.
    + constructor.
    + destruct (word_fmt_d nq) as [N S]. split; [destruct (fmt_d nq); [contradiction|discriminate]|apply Forall_app; split; exact S].
    + apply pad_starts. vm_compute. lia.
  - intros y [<-|[<-|[]]]; vm_compute; reflexivity.
Qed.
Print Assumptions C110_q_refuted.

Example C110_q_truncated_example : read_q (§"6 6 1" ++ [newline]) = Raise StopIteration.
Proof. apply C110_q_truncated; [cbn; lia|]. intros l [<-|[]]. exists [6; 6; 1]%Z. reflexivity. Qed.
