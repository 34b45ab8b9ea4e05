(** Properties of reading supercell vectors of Wannier90 *)
From Coq Require Import Lia.
From Verif Require Import Text TextProofs GridModel GridSpec GridProofs XsfProofs WsvModel WsvSpec WsvProofs.
From Verif Require Import GridProps.
From Coq Require Import List.
Import ListNotations.
Local Open Scope nat_scope.

(** ** C128 *)

(** For each lattice vector and pair of orbitals, counted from 0, the dictionary holds the vectors from the
    last block for them, and nothing if there is none. *)
Theorem C128_read_wsvecdat bs f : wsvec_file bs [] f -> exists d, read_wsvecdat (Some f) = Ok (Some d, false) /\
  forall i j k a b vs, d (i, j, k, a, b) = Some vs <-> latest (i, j, k, a + 1, b + 1)%Z vs bs.
Proof.
  intros H. destruct (read_blocks _ _ _ H) as (fuel & _ & E). exists (fill bs (fun _ => None)). split; [rewrite E; destruct fuel; reflexivity|]. intros i j k a b vs. split; [|apply fill_latest].
  intros J. destruct (in_dec key_dec (i, j, k, a + 1, b + 1)%Z (map fst bs)) as [I|N]; [|rewrite fill_not in J by exact N; discriminate].
  destruct (latest_or _ _ I) as (vs' & L). rewrite (fill_latest _ _ _ _ _ _ _ _ L) in J. injection J as <-. exact L.
Qed.
Print Assumptions C128_read_wsvecdat.

(** If no lattice vector and pair of orbitals occurs twice, as in files of Wannier90, these are all blocks. *)
Theorem C128_all bs f : wsvec_file bs [] f -> NoDup (map fst bs) -> exists d, read_wsvecdat (Some f) = Ok (Some d, false) /\
  forall i j k a b vs, d (i, j, k, a, b) = Some vs <-> In ((i, j, k, a + 1, b + 1)%Z, vs) bs.
Proof.
  intros H N. destruct (C128_read_wsvecdat _ _ H) as (d & E & D). exists d. split; [exact E|]. intros i j k a b vs. rewrite D. split.
  - intros (u & v & -> & _). apply in_or_app. right. left. reflexivity.
  - intros J. apply in_split in J as (u & v & ->). exists u, v. split; [reflexivity|]. rewrite map_app in N. cbn [map fst] in N. apply NoDup_remove_2 in N. intros J. apply N, in_or_app. right. exact J.
Qed.
Print Assumptions C128_all.

(** Files that end within a block, however many complete blocks they have, are rejected. *)
Theorem C128_truncated bs b ls ls' f : wsvec_file bs ls f -> block_lines b (ls ++ ls') -> ls <> [] -> ls' <> [] -> read_wsvecdat (Some f) = Raise StopIteration.
Proof.
  intros H B N N'. destruct (read_blocks _ _ _ H) as (fuel & L & E). rewrite E. clear E. destruct b as [[[[[i j] k] m] n] vs]. destruct B as (l & ws & c & w & lvs & wss & B & S1 & I1 & S2 & I2 & S3 & I3).
  destruct ls as [|l0 ls]; [congruence|]. cbn [app] in B. injection B as -> B. destruct fuel as [|fuel]; [cbn [length] in L; lia|].
  cbn [map ws_loop]. rewrite (spaced_nl _ _ S1), (integers _ _ I1). cbn [bind five]. destruct ls as [|c0 ls]; [reflexivity|]. cbn [app] in B. injection B as -> B.
  cbn [map next bind]. rewrite (count_read _ _ _ S2 I2). cbn [bind]. rewrite Nat2Z.id, (vectors_few _ _ _ S3 I3 ls ls' (eq_sym B) N'). reflexivity.
Qed.
Print Assumptions C128_truncated.

(** So are those with a line of other than five words (for example an empty one) where a block should start. *)
Theorem C128_malformed bs ws l rest f : wsvec_file bs (l :: rest) f -> spaced ws l -> length ws <> 5 -> read_wsvecdat (Some f) = Raise ValueError.
Proof.
  intros H S0 N. destruct (read_blocks _ _ _ H) as (fuel & L & E). rewrite E. destruct fuel as [|fuel]; [cbn [length] in L; lia|]. cbn [map ws_loop]. rewrite (spaced_nl _ _ S0).
  destruct (map_all to_int ws) as [zs|e] eqn:M; cbn [bind]; [|rewrite (map_all_error _ _ M); reflexivity]. apply map_all_length in M. rewrite <- M in N.
  destruct zs as [|z1 [|z2 [|z3 [|z4 [|z5 [|z6 zs]]]]]]; try reflexivity. cbn [length] in N. congruence.
Qed.
Print Assumptions C128_malformed.

(** Without a file, there are no vectors but a warning; an empty file is rejected. *)
Theorem C128_missing : read_wsvecdat None = Ok (None, true) /\ read_wsvecdat (Some []) = Raise StopIteration.
Proof. split; reflexivity. Qed.
Print Assumptions C128_missing.

Definition wsv_blocks : list block := [((0, 0, -1, 1, 2)%Z, [[0; 0; 0]; [0; 0; 3]]%Z); ((0, 0, 1, 2, 1)%Z, [[0; 0; -3]]%Z)].
Definition wsv_lines : list text := [line_of ["0"; "0"; "-1"; "1"; "2"]%string; line_of ["2"]%string; line_of ["0"; "0"; "0"]%string; line_of ["0"; "0"; "3"]%string;
  line_of ["0"; "0"; "1"; "2"; "1"]%string; line_of ["1"]%string; line_of ["0"; "0"; "-3"]%string].
Ltac block_tac a b := exists (line_of a), (map str a), (line_of b); eexists; do 2 eexists; split; [reflexivity|];
  split; [apply spaced_line; words_tac|]; split; [repeat constructor|]; split; [apply (spaced_line b); words_tac|]; split; [reflexivity|];
  split; [repeat (first [apply Forall2_nil|apply Forall2_cons; [apply spaced_line; words_tac|]])|repeat constructor].
Lemma wsv_1 : block_lines (hd ((0, 0, 0, 0, 0)%Z, []) wsv_blocks) (firstn 4 wsv_lines).
Proof. block_tac ["0"; "0"; "-1"; "1"; "2"]%string ["2"]%string. Qed.
Lemma wsv_2 : block_lines ((0, 0, 1, 2, 1)%Z, [[0; 0; -3]]%Z) (skipn 4 wsv_lines).
Proof. block_tac ["0"; "0"; "1"; "2"; "1"]%string ["1"]%string. Qed.
Definition wsv_top : text := str "## written on 16Nov2026".
Lemma wsv_single : single wsv_top. Proof. intros J. vm_compute in J. intuition discriminate. Qed.
Example C128_example : wsvec_file wsv_blocks [] (file_of (wsv_top :: wsv_lines)) /\ NoDup (map fst wsv_blocks) /\
  match read_wsvecdat (Some (file_of (wsv_top :: wsv_lines))) with
  | Ok (Some d, false) => d (0, 0, -1, 0, 1)%Z = Some [[0; 0; 0]; [0; 0; 3]]%Z /\ d (0, 0, 1, 1, 0)%Z = Some [[0; 0; -3]]%Z /\ d (0, 0, 1, 2, 1)%Z = None | _ => False end.
Proof.
  split; [|split; [repeat constructor; cbn; intuition discriminate|vm_compute; repeat split]].
  exists wsv_top, [firstn 4 wsv_lines; skipn 4 wsv_lines]. split; [reflexivity|]. split; [exact wsv_single|]. split; [constructor; [exact wsv_1|constructor; [exact wsv_2|constructor]]|constructor].
Qed.
(** The last line is missing, or there is an empty line in the end. *)
Example C128_example_truncated : exists ls ls' f, wsvec_file [hd ((0, 0, 0, 0, 0)%Z, []) wsv_blocks] ls f /\ block_lines ((0, 0, 1, 2, 1)%Z, [[0; 0; -3]]%Z) (ls ++ ls') /\ ls <> [] /\ ls' <> [].
Proof.
  exists (firstn 2 (skipn 4 wsv_lines)), (skipn 6 wsv_lines), (file_of (wsv_top :: firstn 6 wsv_lines)). split; [|split; [exact wsv_2|split; discriminate]].
  exists wsv_top, [firstn 4 wsv_lines]. split; [reflexivity|]. split; [exact wsv_single|]. split; [constructor; [exact wsv_1|constructor]|].
  constructor; [apply (spaced_single (map str ["0"; "0"; "1"; "2"; "1"]%string)), spaced_line; words_tac|]. constructor; [apply (spaced_single (map str ["1"]%string)), spaced_line; words_tac|constructor].
Qed.
Example C128_example_malformed : exists f, wsvec_file [hd ((0, 0, 0, 0, 0)%Z, []) wsv_blocks] [[]] f /\ spaced [] [] /\ @length text [] <> 5.
Proof.
  exists (file_of (wsv_top :: firstn 4 wsv_lines ++ [[]])). split; [|split; [apply Spaced_end; constructor|discriminate]].
  exists wsv_top, [firstn 4 wsv_lines]. split; [reflexivity|]. split; [exact wsv_single|]. split; [constructor; [exact wsv_1|constructor]|constructor; [intros []|constructor]].
Qed.
