(** C41: files with hoppings. *)
From Verif Require Import TextProofs HrModel HrSpec HrProofs HrProofs2.
From Coq Require Import Qabs Permutation Sorted.
Local Open Scope nat_scope.

(** What has been written is read back: the same lattice vectors (padded with zeros) in
    lexicographic order, and for each of them the matrix that was written, to six decimals,
    divided by the degeneracy if this is requested. This holds for any number of lattice
    vectors (also modulo 15), as long as the numbers fit into their columns. *)
Theorem C41_roundtrip :
  forall day clock R size H ndegen tb divide,
  proper_word day -> proper_word clock ->
  Forall (fun r => length r <= 3) R -> 0 < size -> (Z.of_nat size <= 9999)%Z ->
  Forall (fun r => fits_5d (nth 1 r 0%Z) /\ fits_5d (nth 2 r 0%Z)) R ->
  (forall i a b, i < length R -> a < size -> b < size -> fits_12f (fst (H i a b)) /\ fits_12f (snd (H i a b))) ->
  match ndegen with Some l => length l = length R /\ Forall (fun d => (1 <= d <= 9999)%Z) l | None => True end ->
  exists t data order,
    write_hrdat day clock R size H ndegen = Ok t /\ read_hrdat (Some t) tb divide = Ok data /\
    length data = length R /\ Permutation order (seq 0 (length R)) /\ Sorted cell_le (map fst data) /\
    forall n, n < length R ->
      let i := nth n order 0 in
      let d := match ndegen with Some l => if divide then inject_Z (nth i l 1%Z) else 1%Q | None => 1%Q end in
      let r := nth n data ((0, 0, 0)%Z, fun _ _ => None) in
      fst r = cell_of (nth i R []) /\
      forall a b, a < size -> b < size -> exists x, snd r a b = Some x /\ near6 (fst x * d) (fst (H i a b)) /\ near6 (snd x * d) (snd (H i a b)).
Proof.
  intros day clock R size H ndegen tb divide Wd Wc HR Hs0 Hs FR FH Fn.
  set (nd := match ndegen with Some l => l | None => repeat 1%Z (length R) end).
  assert (Ln : length nd = length R) by (unfold nd; destruct ndegen; [apply Fn|apply repeat_length]).
  assert (F1 : Forall (fun d => (1 <= d <= 9999)%Z) nd) by (unfold nd; destruct ndegen; [apply Fn|apply Forall_forall; intros d Hd; apply repeat_spec in Hd; lia]).
  destruct (roundtrip day clock R size H ndegen tb divide Wd Wc HR Hs0 Hs Ln F1) as (t & W & Rd).
  { apply Forall_forall. intros c Hc. apply in_map_iff in Hc as (r & <- & Hr). rewrite Forall_forall in FR. exact (FR r Hr). }
  { exact FH. }
  fold nd in Rd. pose proof (lexsort_perm (map cell_of R)) as P. rewrite map_length in P.
  exists t. eexists. exists (lexsort (map cell_of R)). split; [exact W|]. split; [exact Rd|]. split; [rewrite map_length, P; apply seq_length|]. split; [exact P|]. split.
  { rewrite map_map. apply (lexsort_sorted (map cell_of R)). }
  intros n Hn i d r. assert (Lo : length (lexsort (map cell_of R)) = length R) by (rewrite P; apply seq_length).
  assert (Hi : i < length R) by (assert (I : In i (lexsort (map cell_of R))) by (apply nth_In; lia); rewrite P, in_seq in I; lia).
  assert (Er : r = block_result divide (block_of (map cell_of R) nd size H i)).
  { unfold r. rewrite (nth_indep _ _ (block_result divide (block_of (map cell_of R) nd size H 0))) by (rewrite map_length; lia). rewrite (map_nth (fun i => block_result divide (block_of (map cell_of R) nd size H i))). reflexivity. }
  rewrite Er. assert (C : complete_block size (block_of (map cell_of R) nd size H i)) by (apply block_complete; rewrite Forall_forall in F1; apply F1, nth_In; lia).
  destruct (block_result_ok divide size _ C) as [V E]. split.
  { rewrite V. cbn [vector block_of]. rewrite (nth_indep _ _ (cell_of [])) by (rewrite map_length; lia). apply map_nth. }
  intros a b Ha Hb. eexists. split; [apply E; cbn [elements block_of]; apply in_map_iff; exists (a, b); split; [reflexivity|apply in_entries; auto]|]. cbn [fst snd].
  assert (D : ((if divide then degeneracy (block_of (map cell_of R) nd size H i) else 1) == d)%Q).
  { cbn [degeneracy block_of]. unfold d. destruct divide; [|destruct ndegen; reflexivity]. rewrite (proj2 (degq_ok _)). unfold nd. destruct ndegen; [reflexivity|]. rewrite nth_repeat. reflexivity. }
  assert (NZ : ~ (d == 0)%Q) by (rewrite <- D; destruct divide; [apply C|discriminate]).
  assert (G : forall y, near6 (rounded 6 y / (if divide then degeneracy (block_of (map cell_of R) nd size H i) else 1) * d) y).
  { intros y. unfold near6. setoid_replace (rounded 6 y / (if divide then degeneracy (block_of (map cell_of R) nd size H i) else 1) * d - y)%Q with (rounded 6 y - y)%Q by (rewrite D; field; exact NZ). apply rounded_six. }
  destruct divide; cbn [fst snd]; split; apply G.
Qed.
Print Assumptions C41_roundtrip.

(** Seventeen lattice vectors in one dimension, in descending order *)
Definition example_R : list (list Z) := map (fun i => [8 - Z.of_nat i]%Z) (seq 0 17).
Definition example_H (i a b : nat) : cx := ((Z.of_nat i - 20 # 3)%Q, (Z.of_nat a - 2 * Z.of_nat b # 7)%Q).
Example C41_roundtrip_example : exists t data order,
    write_hrdat §"16Nov2026" §"12:00:00" example_R 2 example_H (Some (map (fun i => 1 + Z.of_nat i)%Z (seq 0 17))) = Ok t /\ read_hrdat (Some t) None true = Ok data /\
    length data = 17 /\ Permutation order (seq 0 17) /\ Sorted cell_le (map fst data) /\
    forall n, n < 17 ->
      let i := nth n order 0 in
      let d := inject_Z (nth i (map (fun i => 1 + Z.of_nat i)%Z (seq 0 17)) 1%Z) in
      let r := nth n data ((0, 0, 0)%Z, fun _ _ => None) in
      fst r = cell_of (nth i example_R []) /\
      forall a b, a < 2 -> b < 2 -> exists x, snd r a b = Some x /\ near6 (fst x * d) (fst (example_H i a b)) /\ near6 (snd x * d) (snd (example_H i a b)).
Proof.
  apply (C41_roundtrip §"16Nov2026" §"12:00:00" example_R 2 example_H (Some (map (fun i => 1 + Z.of_nat i)%Z (seq 0 17))) None true).
  - split; [discriminate|repeat constructor].
  - split; [discriminate|repeat constructor].
  - repeat constructor.
  - lia.
  - lia.
  - repeat constructor; cbn; try discriminate; lia.
  - intros i a b Hi Ha Hb. change (length example_R) with 17 in Hi. unfold example_H, fits_12f, Qle. cbn [fst snd Qnum Qden Qopp]. lia.
  - split; [reflexivity|]. repeat constructor; cbn; lia.
Qed.

(** Files that were not written by this package are read correctly, too: with other number
    formats, line lengths and empty lines, and with further data at the end. The same result
    is obtained for a *_tb.dat file, which is used if there is no *_hr.dat file. *)
Theorem C41_read :
  forall (tb : bool) divide size Bs t first vectors w1 ws1 w2 ws2 chunks rowss rest,
  0 < size -> 2 < length first -> length vectors = (if tb then 3 else 0) ->
  to_int w1 = Ok (Z.of_nat size) -> to_int w2 = Ok (Z.of_nat (length Bs)) ->
  Forall (fun c => c <> []) chunks -> map_res to_float (concat chunks) = Ok (map degeneracy Bs) ->
  Forall2 (if tb then tb_block size else hr_block size) Bs rowss -> Forall (complete_block size) Bs ->
  content t = first :: vectors ++ (w1 :: ws1) :: (w2 :: ws2) :: chunks ++ concat rowss ++ rest ->
  exists data, (if tb then read_hrdat None (Some t) divide else read_hrdat (Some t) None divide) = Ok data /\ Forall2 (result_of divide size) Bs data.
Proof.
  intros tb divide size Bs t first vectors w1 ws1 w2 ws2 chunks rowss rest Hs Hf Hv E1 E2 NE Ed HB HC Ct. exists (map (block_result divide) Bs). split.
  - destruct tb; cbn [read_hrdat]; rewrite Ct; [apply (read_content_ok true divide size Bs first vectors w1 ws1 w2 ws2 chunks rowss rest)|apply (read_content_ok false divide size Bs first vectors w1 ws1 w2 ws2 chunks rowss rest)]; assumption.
  - clear - HC. induction HC as [|B Bs C _ IH]; [constructor|]. cbn [map]. constructor; [apply block_result_ok; exact C|exact IH].
Qed.
Print Assumptions C41_read.

Definition example_tb : text :=
  §" written on 16Nov2026 at 12:00:00" ++ [newline] ++ §"3 0 0" ++ [newline] ++ §"0 3 0" ++ [newline] ++ §"0 0 3" ++ [newline] ++ §"1" ++ [newline] ++ §"2" ++ [newline] ++ §"2 1" ++ [newline] ++ [newline] ++
  §"-1 0 0" ++ [newline] ++ §"1 1 0.5E+01 0." ++ [newline] ++ [newline] ++ §"0 0 0" ++ [newline] ++ §"1 1 -.25e0 0.0" ++ [newline] ++ [newline] ++ §"-1 0 0" ++ [newline].
Definition example_blocks : list block :=
  [{| vector := (-1, 0, 0)%Z; degeneracy := 2; elements := [(0, 0, (5, 0)%Q)] |}; {| vector := (0, 0, 0)%Z; degeneracy := 1; elements := [(0, 0, (-(25#100), 0#10)%Q)] |}].
Example C41_read_example : exists data, read_hrdat None (Some example_tb) true = Ok data /\ Forall2 (result_of true 1) example_blocks data.
Proof.
  assert (C : forall B, In B example_blocks -> complete_block 1 B).
  { intros B [<-|[<-|[]]]; (split; [reflexivity|]; split; [intros a b Ha Hb; assert (a = 0) by lia; assert (b = 0) by lia; subst; eexists; left; reflexivity|]; split; [|discriminate]; intros a b x y [Hx|[]] [Hy|[]]; congruence). }
  apply (C41_read true true 1 example_blocks example_tb [§"written"; §"on"; §"16Nov2026"; §"at"; §"12:00:00"] [[§"3"; §"0"; §"0"]; [§"0"; §"3"; §"0"]; [§"0"; §"0"; §"3"]] §"1" [] §"2" [] [[§"2"; §"1"]]
    [[[§"-1"; §"0"; §"0"]; [§"1"; §"1"; §"0.5E+01"; §"0."]]; [[§"0"; §"0"; §"0"]; [§"1"; §"1"; §"-.25e0"; §"0.0"]]] [[§"-1"; §"0"; §"0"]]); try reflexivity; try (cbn; lia); try (repeat constructor; discriminate).
  - repeat constructor; (eexists; eexists; eexists; eexists; cbn [app fst snd]; split; [reflexivity|repeat split; auto]).
  - repeat constructor; apply C; cbn; auto.
Qed.

(** Numbers that do not fit into their columns merge with the previous ones. An on-site
    energy of -1000 cannot be read. A lattice vector (0, 10000, 0) becomes (10000, 0, 1),
    without notice. *)
Theorem C41_wide_numbers_refuted :
  (exists t, write_hrdat §"16Nov2026" §"12:00:00" [[0; 0; 0]%Z] 1 (fun _ _ _ => (-(1000), 0)%Q) None = Ok t /\ read_hrdat (Some t) None true = Raise ValueError) /\
  (exists t m, write_hrdat §"16Nov2026" §"12:00:00" [[0; 10000; 0]%Z] 1 (fun _ _ _ => (1, 0)%Q) None = Ok t /\ read_hrdat (Some t) None true = Ok [((10000, 0, 1)%Z, m)]).
Proof. split; [eexists; split; [vm_compute; reflexivity|vm_compute; reflexivity]|]. eexists. eexists. split; [vm_compute; reflexivity|vm_compute; reflexivity]. Qed.
Print Assumptions C41_wide_numbers_refuted.

(** Lattice vectors with more than three components are rejected. *)
Theorem C41_dimensions :
  forall day clock R size H ndegen, Exists (fun r => 3 < length r) R -> write_hrdat day clock R size H ndegen = Raise ValueError.
Proof.
  intros day clock R size H ndegen E. unfold write_hrdat. assert (X : map_res pad_cell R = Raise ValueError); [|rewrite X; reflexivity].
  induction R as [|r R IH]; [inversion E|]. cbn [map_res]. destruct (Nat.lt_ge_cases 3 (length r)) as [L|L].
  - destruct r as [|x [|y [|z [|w r]]]]; cbn in L; try lia. reflexivity.
  - inversion E as [? ? L'|? ? E']; subst; [lia|]. rewrite (IH E'). destruct r as [|x [|y [|z [|w r]]]]; cbn in L; try lia; reflexivity.
Qed.
Print Assumptions C41_dimensions.

Example C41_dimensions_example : write_hrdat [] [] [[1; 2; 3; 4]%Z] 1 (fun _ _ _ => (0, 0)%Q) None = Raise ValueError.
Proof. apply C41_dimensions. constructor. cbn. lia. Qed.
