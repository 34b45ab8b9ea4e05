(** Properties of reading and writing files in XCrySDen format *)
From Coq Require Import Qabs Lia.
From Verif Require Import Text TextProofs TextE TextEProofs NmlModel NmlProofs TabProofs TabProofs2 GridModel GridSpec GridProofs GridProofs2 XsfModel XsfSpec XsfProofs XsfProofs2.
From Verif Require Import GridProps.
From Coq Require Import List QArith.
Import ListNotations.
Local Open Scope nat_scope.

(** ** C127 *)

(** Every file whose values are in the order of the format, with the first index as the fastest, is read
    correctly: origin, spanning vectors, atoms, shape and the value at each point. *)
Theorem C127_read_xsf c f n1 n2 n3 g : xsf_file c f -> f_n c = (n1, n2, n3) -> f_values c = first_fastest n1 n2 n3 g ->
  exists data, read_xsf false f = Ok (Xsf (f_origin c) [f_a1 c; f_a2 c; f_a3 c] (map fst (f_atoms c)) (map snd (f_atoms c)) (Z.of_nat n1, Z.of_nat n2, Z.of_nat n3) data) /\
    forall i j k, i < n1 -> j < n2 -> k < n3 -> data i j k = g i j k.
Proof.
  intros (wss & ld & post & H) En Ev. destruct (xsf_header false c wss ld post f H) as (Fs & Fr & Fo & E). rewrite E. rewrite En in *. unfold XsfProofs.points. cbn [fst snd].
  rewrite <- (first_fastest_length n1 n2 n3 g), <- Ev. rewrite map_app, (values_read _ _ Fs _ _ Fr). cbn [bind]. eexists. split; [reflexivity|]. intros i j k Hi Hj Hk. unfold of_nats, transposed. cbn [fst snd]. rewrite !Nat2Z.id, Ev. apply first_fastest_nth; assumption.
Qed.
Print Assumptions C127_read_xsf.

(** The header, whatever follows *)
Theorem C127_header c f : xsf_file c f ->
  exists data, read_xsf true f = Ok (Xsf (f_origin c) [f_a1 c; f_a2 c; f_a3 c] (map fst (f_atoms c)) (map snd (f_atoms c)) (Z.of_nat (fst (fst (f_n c))), Z.of_nat (snd (fst (f_n c))), Z.of_nat (snd (f_n c))) data).
Proof. intros (wss & ld & post & H). destruct (xsf_header true c wss ld post f H) as (Fs & Fr & Fo & E). eexists. exact E. Qed.
Print Assumptions C127_header.

(** Files without coordinates of atoms are rejected. *)
Theorem C127_no_atoms (only_header : bool) ls : Forall (other "PRIMCOORD") ls -> read_xsf only_header (file_of ls) = Raise StopIteration.
Proof.
  intros H. unfold read_xsf. rewrite lines_nl by (intros l J; rewrite Forall_forall in H; exact (proj1 (H _ J))). rewrite (skip_none _ _ primcoord H). reflexivity.
Qed.
Print Assumptions C127_no_atoms.

(** Files that end before all values have been read and files with a line that contains the last value
    and more are rejected. *)
Theorem C127_too_few c wss ld f : xsf_parts c wss ld [] f -> length (f_values c) < fst (fst (f_n c)) * snd (fst (f_n c)) * snd (f_n c) -> read_xsf false f = Raise StopIteration.
Proof.
  intros H L. destruct (xsf_header false _ _ _ _ _ H) as (Fs & Fr & Fo & E). rewrite E, app_nil_r, (values_few _ _ Fs _ _ Fr) by exact L. reflexivity.
Qed.
Print Assumptions C127_too_few.
Theorem C127_too_many c wss ws wss' ld post f : xsf_parts c (wss ++ ws :: wss') ld post f -> length (concat wss) < fst (fst (f_n c)) * snd (fst (f_n c)) * snd (f_n c) < length (concat wss) + length ws ->
  read_xsf false f = Raise IndexError.
Proof.
  intros H L. destruct (xsf_header false _ _ _ _ _ H) as (Fs & Fr & Fo & E). rewrite E, map_app, (values_many _ _ _ _ Fs _ _ Fr) by exact L. reflexivity.
Qed.
Print Assumptions C127_too_many.

(** The coordinates and the vectors that are written agree with those that are read up to half a unit of
    the last digit, and so do shape, symbols and number of atoms. *)
Definition agree (d : nat) (u v : vec) : Prop := printed d (fst (fst u)) (fst (fst v)) /\ printed d (snd (fst u)) (snd (fst v)) /\ printed d (snd u) (snd v).
Lemma agree_rounded d v : agree d v (rounded3 d v).
Proof. repeat split; apply printed_rounded. Qed.
(** Numbers in the data do not need more than 12 characters. *)
Definition short (x : Q) : Prop := length (fmt_e 5 x) < 13.
Lemma short_all l : forallb (fun x => length (fmt_e 5 x) <? 13) l = true -> Forall short l.
Proof. intros H. apply Forall_forall. intros x J. rewrite forallb_forall in H. apply Nat.ltb_lt, H, J. Qed.

Lemma read_written r0 a1 a2 a3 atoms n1 n2 n3 g : Forall (fun a => word (fst a)) atoms -> Forall short (in_order n1 n2 n3 g) ->
  read_xsf false (write_xsf false r0 a1 a2 a3 atoms n1 n2 n3 g) =
    Ok (Xsf (rounded3 6 r0) [rounded3 7 a1; rounded3 7 a2; rounded3 7 a3] (map fst atoms) (map (fun a => rounded3 7 (snd a)) atoms) (Z.of_nat n1, Z.of_nat n2, Z.of_nat n3)
      (transposed (Z.of_nat n1, Z.of_nat n2, Z.of_nat n3) (map (rounded_E 5) (in_order n1 n2 n3 g)))).
Proof.
  intros Fa Fx. destruct (xsf_written false r0 a1 a2 a3 atoms n1 n2 n3 g Fa (or_intror Fx)) as (wss & ld & post & H). destruct (xsf_header false _ _ _ _ _ H) as (Fs & Fr & Fo & E). rewrite E. cbn [f_n f_values f_origin f_a1 f_a2 f_a3 f_atoms written_field] in *. unfold XsfProofs.points, of_nats. cbn [fst snd].
  replace (n1 * n2 * n3) with (length (map (rounded_E 5) (in_order n1 n2 n3 g))) by (rewrite map_length, in_order_length; lia).
  rewrite map_app, (values_read _ _ Fs _ _ Fr). cbn [bind]. rewrite !map_map. reflexivity.
Qed.
Lemma index_lt n1 n2 n3 i j k : i < n1 -> j < n2 -> k < n3 -> (i * n2 + j) * n3 + k < n1 * (n2 * n3).
Proof.
  intros Hi Hj Hk. assert (A : i * n2 + j < n1 * n2) by (apply Nat.lt_le_trans with (S i * n2); [lia|apply Nat.mul_le_mono_r; lia]).
  rewrite Nat.mul_assoc. apply Nat.lt_le_trans with (S (i * n2 + j) * n3); [lia|apply Nat.mul_le_mono_r; lia].
Qed.
(** What is read from a file that has been written: the value at [i, j, k] is the one whose index in the
    order of the array in memory is the index of [i, j, k] in the order of the format. *)
Theorem C127_write_read_partial r0 a1 a2 a3 atoms n1 n2 n3 g : Forall (fun a => word (fst a)) atoms -> Forall short (in_order n1 n2 n3 g) ->
  exists r0' a1' a2' a3' tau' data, read_xsf false (write_xsf false r0 a1 a2 a3 atoms n1 n2 n3 g) = Ok (Xsf r0' [a1'; a2'; a3'] (map fst atoms) tau' (Z.of_nat n1, Z.of_nat n2, Z.of_nat n3) data) /\
    agree 6 r0 r0' /\ agree 7 a1 a1' /\ agree 7 a2 a2' /\ agree 7 a3 a3' /\ Forall2 (agree 7) (map snd atoms) tau' /\
    forall i j k i' j' k', i < n1 -> j < n2 -> k < n3 -> i' < n1 -> j' < n2 -> k' < n3 -> (k * n2 + j) * n1 + i = (i' * n2 + j') * n3 + k' ->
      (Qabs (g i' j' k' - data i j k) <= (1 # 200000) * Qabs (g i' j' k'))%Q.
Proof.
  intros Fa Fx. rewrite (read_written _ _ _ _ _ _ _ _ _ Fa Fx). do 6 eexists. split; [reflexivity|]. repeat (split; [apply agree_rounded|]). split.
  - clear. induction atoms as [|a l IH]; cbn [map]; constructor; [apply agree_rounded|exact IH].
  - intros i j k i' j' k' Hi Hj Hk Hi' Hj' Hk' E. unfold transposed. rewrite !Nat2Z.id, E. rewrite (nth_indep _ 0%Q (rounded_E 5 0)) by (rewrite map_length, in_order_length; apply index_lt; assumption). rewrite (map_nth (rounded_E 5)), in_order_nth by assumption.
    exact (rounded_E_near 5 (g i' j' k')).
Qed.
Print Assumptions C127_write_read_partial.

(** In particular, data on a line survive. *)
Theorem C127_lines r0 a1 a2 a3 atoms n1 n2 n3 g : Forall (fun a => word (fst a)) atoms -> Forall short (in_order n1 n2 n3 g) -> (n2 = 1 /\ n3 = 1) \/ (n1 = 1 /\ n3 = 1) \/ (n1 = 1 /\ n2 = 1) ->
  exists r, read_xsf false (write_xsf false r0 a1 a2 a3 atoms n1 n2 n3 g) = Ok r /\
    forall i j k, i < n1 -> j < n2 -> k < n3 -> (Qabs (g i j k - x_data r i j k) <= (1 # 200000) * Qabs (g i j k))%Q.
Proof.
  intros Fa Fx Hn. destruct (C127_write_read_partial r0 a1 a2 a3 atoms n1 n2 n3 g Fa Fx) as (r0' & a1' & a2' & a3' & tau' & data & E & _ & _ & _ & _ & _ & D). eexists. split; [exact E|]. intros i j k Hi Hj Hk. apply D; try assumption.
  destruct Hn as [[-> ->]|[[-> ->]|[-> ->]]]; lia.
Qed.
Print Assumptions C127_lines.

(** But in general, the data are not those that have been written: [write_xsf] writes the last index as
    the fastest, [read_xsf] (and the format) has the first index as the fastest. *)
Theorem C127_round_trip_refuted : exists n1 n2 n3 g i j k r, i < n1 /\ j < n2 /\ k < n3 /\ Forall short (in_order n1 n2 n3 g) /\
  read_xsf false (write_xsf false (0, 0, 0)%Q (1, 0, 0)%Q (0, 1, 0)%Q (0, 0, 1)%Q [] n1 n2 n3 g) = Ok r /\ x_n r = (Z.of_nat n1, Z.of_nat n2, Z.of_nat n3) /\
  (1 < Qabs (g i j k - x_data r i j k))%Q.
Proof.
  set (g := fun i j k : nat => inject_Z (Z.of_nat (5 * i + 2 * j + k))). exists 2, 2, 1, g, 0, 1, 0. eexists. split; [lia|]. split; [lia|]. split; [lia|].
  assert (Fx : Forall short (in_order 2 2 1 g)) by (apply short_all; vm_compute; reflexivity). split; [exact Fx|].
  split; [exact (read_written _ _ _ _ [] 2 2 1 g (Forall_nil _) Fx)|]. split; [reflexivity|]. vm_compute. reflexivity.
Qed.
Print Assumptions C127_round_trip_refuted.

(** Two atoms, 2 times 1 times 2 points, values on two lines *)
Definition xsf_lines (n : string) (post : list text) : list text := [str "CRYSTAL"; str " PRIMCOORD "; line_of ["2"; "1"]%string; line_of ["Na"; "0.0"; "0"; "0"]%string; line_of ["17"; "1"; "1.5"; "1"; "0.1"; "0"; "0"]%string;
  str "BEGIN_DATAGRID_3D_UNKNOWN"; line_of [n; "1"; "2"]%string; line_of ["0"; "0"; "0"]%string; line_of ["2"; "0"; "0"]%string; line_of ["0"; "2"; "0"]%string; line_of ["0"; "0"; "2"]%string;
  line_of ["1"; "2"; "3"]%string; line_of ["4"]%string] ++ post.
Definition xsf_field (n : nat) : field := Field (0, 0, 0)%Q (2, 0, 0)%Q (0, 2, 0)%Q (0, 0, 2)%Q [(str "Na", (0 # 10, 0, 0)%Q); (str "17", (1, 15 # 10, 1)%Q)] (n, 1, 2) [1; 2; 3; 4]%Q.
Ltac triple_tac l := exists (map str l); split; [apply (spaced_line l); words_tac|do 3 eexists; repeat split].
Lemma xsf_parts_ok w n post : word (str w) -> integer (str w) (Z.of_nat n) -> Forall single post ->
  xsf_parts (xsf_field n) [map str ["1"; "2"; "3"]%string; map str ["4"]%string] [line_of ["1"; "2"; "3"]%string; line_of ["4"]%string] post (file_of (xsf_lines w post)).
Proof.
  intros W J P. exists [str "CRYSTAL"], (str " PRIMCOORD "), (line_of ["2"; "1"]%string), [line_of ["Na"; "0.0"; "0"; "0"]%string; line_of ["17"; "1"; "1.5"; "1"; "0.1"; "0"; "0"]%string], [], (str "BEGIN_DATAGRID_3D_UNKNOWN"), (line_of [w; "1"; "2"]%string),
    (line_of ["0"; "0"; "0"]%string), (line_of ["2"; "0"; "0"]%string), (line_of ["0"; "2"; "0"]%string), (line_of ["0"; "0"; "2"]%string).
  split; [reflexivity|]. split.
  { constructor; [|constructor]. apply (not_keyword _ _ (str "CRYSTAL")); [apply one_word; split; [discriminate|repeat constructor]|discriminate]. }
  split. { apply (Spaced_word (str " ") (str "PRIMCOORD") [] (str " ")); [repeat constructor; discriminate|exact primcoord|reflexivity|apply Spaced_end; repeat constructor; discriminate]. }
  split. { exists (str "2"), [str "1"]. split; [apply (spaced_line ["2"; "1"]%string); words_tac|reflexivity]. }
  split.
  { constructor; [|constructor; [|constructor]].
    - exists (map str ["0.0"; "0"; "0"]%string), []. split; [apply (spaced_line ["Na"; "0.0"; "0"; "0"]%string); words_tac|do 3 eexists; repeat split].
    - exists (map str ["1"; "1.5"; "1"]%string), (map str ["0.1"; "0"; "0"]%string). split; [apply (spaced_line ["17"; "1"; "1.5"; "1"; "0.1"; "0"; "0"]%string); words_tac|do 3 eexists; repeat split]. }
  split; [constructor|]. split; [apply one_word, datagrid|]. split.
  { exists (str w), (str "1"), (str "2"). split; [apply (spaced_line [w; "1"; "2"]%string); constructor; [exact W|]; words_tac|split; [exact J|repeat split]]. }
  split; [triple_tac ["0"; "0"; "0"]%string|]. split; [triple_tac ["2"; "0"; "0"]%string|]. split; [triple_tac ["0"; "2"; "0"]%string|]. split; [triple_tac ["0"; "0"; "2"]%string|].
  split; [constructor; [apply spaced_line; words_tac|constructor; [apply spaced_line; words_tac|constructor]]|]. split; [repeat constructor|]. exact P.
Qed.
Ltac digit := split; [discriminate|repeat constructor].
Example C127_example : xsf_file (xsf_field 2) (file_of (xsf_lines "2" [str "END_DATAGRID_3D"])) /\ f_values (xsf_field 2) = first_fastest 2 1 2 (fun i j k => inject_Z (Z.of_nat (1 + i + 2 * k))) /\
  match read_xsf false (file_of (xsf_lines "2" [str "END_DATAGRID_3D"])) with Ok r => x_n r = (2, 1, 2)%Z /\ x_X r = [str "Na"; str "17"] /\ x_data r 1 0 0 = 2%Q /\ x_data r 0 0 1 = 3%Q | _ => False end.
Proof.
  split; [|split; [reflexivity|vm_compute; repeat split]]. do 3 eexists. apply xsf_parts_ok; [digit|reflexivity|]. constructor; [|constructor]. intros J. vm_compute in J. intuition discriminate.
Qed.
(** Six points instead of four, or two *)
Example C127_example_few : xsf_parts (xsf_field 3) [map str ["1"; "2"; "3"]%string; map str ["4"]%string] [line_of ["1"; "2"; "3"]%string; line_of ["4"]%string] [] (file_of (xsf_lines "3" [])) /\ length (f_values (xsf_field 3)) < 3 * 1 * 2.
Proof. split; [apply xsf_parts_ok; [digit|reflexivity|constructor]|cbn; lia]. Qed.
Example C127_example_many : xsf_parts (xsf_field 1) ([] ++ map str ["1"; "2"; "3"]%string :: [map str ["4"]%string]) [line_of ["1"; "2"; "3"]%string; line_of ["4"]%string] [] (file_of (xsf_lines "1" [])) /\ 0 < 1 * 1 * 2 < 0 + 3.
Proof. split; [apply xsf_parts_ok; [digit|reflexivity|constructor]|lia]. Qed.
Example C127_example_written : Forall (fun a : text * vec => word (fst a)) [(str "Na", (0, 0, 0)%Q)] /\ Forall short [-12345678 # 1; 1 # 3; 0]%Q /\
  match read_xsf false (write_xsf false (0, 0, 0)%Q (1, 0, 0)%Q (0, 1, 0)%Q (0, 0, 1)%Q [(str "Na", (0, 0, 0)%Q)] 1 1 7 (fun i j k => (Z.of_nat k - 3) # 2)) with
  | Ok r => x_X r = [str "Na"] /\ Qeq (x_data r 0 0 6) (3 # 2) /\ Qeq (x_data r 0 0 0) (-3 # 2) | _ => False end.
Proof. split; [constructor; [split; [discriminate|repeat constructor]|constructor]|]. split; [apply short_all; vm_compute; reflexivity|]. vm_compute. repeat split. Qed.
