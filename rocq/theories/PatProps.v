(** Properties of reading displacement patterns *)
From Coq Require Import Lia.
From Verif Require Import Text TextProofs TabProofs2 GridModel GridSpec GridProofs XsfProofs WsvProofs XmlModel PatModel PatSpec PatProofs.
From Verif Require Import GridProofs GridProps.
From Coq Require Import List.
Import ListNotations.
Local Open Scope nat_scope.

(** ** C129 *)

(** The file for the q point with the index [iq], counted from 0, has the number [iq + 1]. It contains
    [nrep] patterns with [nrep] elements each. *)
Definition provides (file : Z -> option text) (nrep : nat) (count : Z -> Z) (m : Z -> list (list Q)) (iq : Z) : Prop :=
  exists f rest, file (iq + 1)%Z = Some f /\ patterns_file (count iq) (m iq) rest f /\ length (m iq) = nrep /\ Forall (fun row => length row = nrep) (m iq).
Lemma provides_read file nrep count m iq : provides file nrep count m iq -> exists f, file (iq + 1)%Z = Some f /\ pat_file nrep f = Ok (m iq, negb (Z.of_nat nrep =? count iq)%Z).
Proof.
  intros (f & rest & E & H & L & F). exists f. split; [exact E|]. rewrite (file_read nrep 0 _ _ _ _ H F) by lia. cbn [pat_rows bind]. rewrite app_nil_r. reflexivity.
Qed.
Lemma read_app file nrep count m q q' : Forall (provides file nrep count m) q ->
  read_patterns file (q ++ q') nrep = do (ps, ws) <- read_patterns file q' nrep ;; Ok (map m q ++ ps, map (fun iq => negb (Z.of_nat nrep =? count iq)%Z) q ++ ws).
Proof.
  induction 1 as [|iq q H _ IH]; cbn [app map read_patterns]; [destruct (read_patterns file q' nrep) as [[ps ws]|]; reflexivity|].
  destruct (provides_read _ _ _ _ _ H) as (f & -> & ->). cbn [bind]. rewrite IH. destruct (read_patterns file q' nrep) as [[ps ws]|]; reflexivity.
Qed.

(** For all selected q points, in any order, the patterns from their files are returned, and there is a
    warning if and only if the file says that the number of representations is different. *)
Theorem C129_read_patterns file nrep count m q : Forall (provides file nrep count m) q ->
  exists warnings, read_patterns file q nrep = Ok (map m q, warnings) /\ Forall2 (fun iq w => w = true <-> count iq <> Z.of_nat nrep) q warnings.
Proof.
  intros H. exists (map (fun iq => negb (Z.of_nat nrep =? count iq)%Z) q). split.
  - rewrite <- (app_nil_r q) at 1. rewrite (read_app _ _ _ _ _ _ H). cbn [read_patterns bind]. rewrite !app_nil_r. reflexivity.
  - clear. induction q as [|iq q IH]; cbn [map]; constructor; [|exact IH]. destruct (Z.eqb_spec (Z.of_nat nrep) (count iq)); cbn [negb]; split; congruence.
Qed.
Print Assumptions C129_read_patterns.

(** A file that does not exist *)
Theorem C129_missing file nrep count m q iq q' : Forall (provides file nrep count m) q -> file (iq + 1)%Z = None -> read_patterns file (q ++ iq :: q') nrep = Raise FileNotFoundError.
Proof. intros H E. rewrite (read_app _ _ _ _ _ _ H). cbn [read_patterns]. rewrite E. reflexivity. Qed.
Print Assumptions C129_missing.

(** A file with fewer patterns than requested, or with a number of representations but nothing else *)
Theorem C129_too_few file nrep count m q iq q' c rows rest f : Forall (provides file nrep count m) q -> file (iq + 1)%Z = Some f ->
  patterns_file c rows rest f -> Forall (fun row => length row = nrep) rows -> length rows < nrep -> Forall (silent "<DISPLACEMENT_PATTERN ") rest ->
  read_patterns file (q ++ iq :: q') nrep = Raise StopIteration.
Proof.
  intros H E P L N R. rewrite (read_app _ _ _ _ _ _ H). cbn [read_patterns]. rewrite E. rewrite (file_read nrep (S (nrep - length rows - 1)) _ _ _ _ P L) by lia.
  cbn [pat_rows]. rewrite (goto_none _ _ tag_2 R). destruct nrep; [lia|]. reflexivity.
Qed.
Print Assumptions C129_too_few.

(** A file without number of representations *)
Theorem C129_no_number file nrep count m q iq q' ls : Forall (provides file nrep count m) q -> file (iq + 1)%Z = Some (file_of ls) -> Forall (silent "<NUMBER_IRR_REP ") ls ->
  read_patterns file (q ++ iq :: q') nrep = Raise StopIteration.
Proof.
  intros H E R. rewrite (read_app _ _ _ _ _ _ H). cbn [read_patterns]. rewrite E. unfold pat_file. rewrite lines_nl by (intros l J; exact (proj1 (proj1 (Forall_forall _ _) R _ J))). rewrite (goto_none _ _ tag_1 R). reflexivity.
Qed.
Print Assumptions C129_no_number.

Definition pat_text (x y : string) : list text := [str "<IRREPS_INFO>"; str "  <NUMBER_IRR_REP type=""integer"">"; line_of ["2"]%string; str "  </NUMBER_IRR_REP>";
  str "  <DISPLACEMENT_PATTERN type=""complex"">"; str "1.0, 0.0"; str x; str "  </DISPLACEMENT_PATTERN>"; str "  <DISPLACEMENT_PATTERN type=""complex"">"; str y; str " -1.0 "; str "  </DISPLACEMENT_PATTERN>"].
Ltac no_occur := split; [apply single_str; reflexivity|intros (a & b & J); assert (X : ProjModel.contains (str "<DISPLACEMENT_PATTERN ") (a ++ str "<DISPLACEMENT_PATTERN " ++ b) = true) by (apply ProjReadProofs.contains_spec; exists a, b; reflexivity); rewrite <- J in X; vm_compute in X; discriminate].
Lemma pat_number : silent "<NUMBER_IRR_REP " (str "<IRREPS_INFO>").
Proof. split; [apply single_str; reflexivity|]. intros (a & b & J). assert (X : ProjModel.contains (str "<NUMBER_IRR_REP ") (a ++ str "<NUMBER_IRR_REP " ++ b) = true) by (apply ProjReadProofs.contains_spec; exists a, b; reflexivity). rewrite <- J in X. vm_compute in X. discriminate. Qed.
Lemma pat_line g w g' more x : gap (str g) -> word (str w) -> ~ In ","%char (str w) -> gap (str g') -> real (str w) x -> (more = [] \/ exists t, more = ","%char :: t) -> single (str g ++ str w ++ str g' ++ more) -> complex_line x (str g ++ str w ++ str g' ++ more).
Proof. intros. split; [assumption|]. exists (str g), (str w), (str g'), more. split; [reflexivity|]. repeat (split; [assumption|]). assumption. Qed.
Ltac pat_tac g w g' more := apply (pat_line g w g' more); [repeat constructor; discriminate|split; [discriminate|repeat constructor]|intros X; vm_compute in X; intuition discriminate|repeat constructor; discriminate|reflexivity|first [left; reflexivity|right; eexists; reflexivity]|intros X; vm_compute in X; intuition discriminate].
Definition pat_q (iq : Z) : list (list Q) := if (iq =? 0)%Z then [[10 # 10; 0 # 10]; [3 # 100; -10 # 10]] else [[10 # 10; 5 # 10]; [0 # 10; -10 # 10]].
Definition pat_files (n : Z) : option text :=
  if (n =? 1)%Z then Some (file_of (pat_text "0.0" "0.03, -1")) else if (n =? 2)%Z then Some (file_of (pat_text " 0.5 , 2" "0.0,0.0")) else None.
Example C129_example : Forall (provides pat_files 2 (fun _ => 2%Z) pat_q) [1; 0]%Z /\ read_patterns pat_files [1; 0]%Z 2 = Ok ([pat_q 1; pat_q 0], [false; false]).
Proof.
  split; [|vm_compute; reflexivity]. constructor; [|constructor; [|constructor]].
  - eexists; exists [str "  </DISPLACEMENT_PATTERN>"]. split; [reflexivity|]. split; [|split; [reflexivity|repeat constructor]].
    exists [str "<IRREPS_INFO>"], (str "  <NUMBER_IRR_REP type=""integer"">"), (line_of ["2"]%string), (str "2"), [firstn 4 (skipn 3 (pat_text " 0.5 , 2" "0.0,0.0")); firstn 4 (skipn 7 (pat_text " 0.5 , 2" "0.0,0.0"))].
    split; [reflexivity|]. split; [constructor; [exact pat_number|constructor]|]. split; [apply single_str; reflexivity|]. split; [exists (str "  "), (str "type=""integer"">"); reflexivity|]. split; [apply (spaced_line ["2"]%string); words_tac|]. split; [reflexivity|].
    split; [|constructor; [apply single_str; reflexivity|constructor]]. constructor; [|constructor; [|constructor]].
    + exists [str "  </NUMBER_IRR_REP>"], (str "  <DISPLACEMENT_PATTERN type=""complex"">"), [str "1.0, 0.0"; str " 0.5 , 2"]. split; [reflexivity|]. split; [constructor; [no_occur|constructor]|]. split; [apply single_str; reflexivity|]. split; [exists (str "  "), (str "type=""complex"">"); reflexivity|].
      constructor; [pat_tac ""%string "1.0"%string ""%string (str ", 0.0")|constructor; [pat_tac " "%string "0.5"%string " "%string (str ", 2")|constructor]].
    + exists [str "  </DISPLACEMENT_PATTERN>"], (str "  <DISPLACEMENT_PATTERN type=""complex"">"), [str "0.0,0.0"; str " -1.0 "]. split; [reflexivity|]. split; [constructor; [no_occur|constructor]|]. split; [apply single_str; reflexivity|]. split; [exists (str "  "), (str "type=""complex"">"); reflexivity|].
      constructor; [pat_tac ""%string "0.0"%string ""%string (str ",0.0")|constructor; [pat_tac " "%string "-1.0"%string " "%string (@nil ascii)|constructor]].
  - eexists; exists [str "  </DISPLACEMENT_PATTERN>"]. split; [reflexivity|]. split; [|split; [reflexivity|repeat constructor]].
    exists [str "<IRREPS_INFO>"], (str "  <NUMBER_IRR_REP type=""integer"">"), (line_of ["2"]%string), (str "2"), [firstn 4 (skipn 3 (pat_text "0.0" "0.03, -1")); firstn 4 (skipn 7 (pat_text "0.0" "0.03, -1"))].
    split; [reflexivity|]. split; [constructor; [exact pat_number|constructor]|]. split; [apply single_str; reflexivity|]. split; [exists (str "  "), (str "type=""integer"">"); reflexivity|]. split; [apply (spaced_line ["2"]%string); words_tac|]. split; [reflexivity|].
    split; [|constructor; [apply single_str; reflexivity|constructor]]. constructor; [|constructor; [|constructor]].
    + exists [str "  </NUMBER_IRR_REP>"], (str "  <DISPLACEMENT_PATTERN type=""complex"">"), [str "1.0, 0.0"; str "0.0"]. split; [reflexivity|]. split; [constructor; [no_occur|constructor]|]. split; [apply single_str; reflexivity|]. split; [exists (str "  "), (str "type=""complex"">"); reflexivity|].
      constructor; [pat_tac ""%string "1.0"%string ""%string (str ", 0.0")|constructor; [pat_tac ""%string "0.0"%string ""%string (@nil ascii)|constructor]].
    + exists [str "  </DISPLACEMENT_PATTERN>"], (str "  <DISPLACEMENT_PATTERN type=""complex"">"), [str "0.03, -1"; str " -1.0 "]. split; [reflexivity|]. split; [constructor; [no_occur|constructor]|]. split; [apply single_str; reflexivity|]. split; [exists (str "  "), (str "type=""complex"">"); reflexivity|].
      constructor; [pat_tac ""%string "0.03"%string ""%string (str ", -1")|constructor; [pat_tac " "%string "-1.0"%string " "%string (@nil ascii)|constructor]].
Qed.
(** A file that breaks off after the number of representations, and one without it *)
Example C129_example_few : patterns_file 2 [] [str "  </NUMBER_IRR_REP>"] (file_of (firstn 4 (pat_text "0.0" "0.0"))) /\ Forall (silent "<DISPLACEMENT_PATTERN ") [str "  </NUMBER_IRR_REP>"] /\ Forall (silent "<NUMBER_IRR_REP ") [str "<IRREPS_INFO>"].
Proof.
  split; [|split; [constructor; [no_occur|constructor]|constructor; [exact pat_number|constructor]]].
  exists [str "<IRREPS_INFO>"], (str "  <NUMBER_IRR_REP type=""integer"">"), (line_of ["2"]%string), (str "2"), []. split; [reflexivity|]. split; [constructor; [exact pat_number|constructor]|]. split; [apply single_str; reflexivity|]. split; [exists (str "  "), (str "type=""integer"">"); reflexivity|]. split; [apply (spaced_line ["2"]%string); words_tac|]. split; [reflexivity|]. split; [constructor|constructor; [apply single_str; reflexivity|constructor]].
Qed.
