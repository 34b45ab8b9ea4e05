(** Properties of reading frequencies and couplings from the output of EPW *)
From Coq Require Import Lia.
From Verif Require Import Text TextProofs EpwoModel EpwoSpec TabProofs TabProofs2 GridProofs EpwoProofs.
From Verif Require Import GridProps.
From Coq Require Import List QArith.
Import ListNotations.
Local Open Scope nat_scope.

(** ** C125 *)

(** From every complete output, whatever other lines there are in between, all frequencies and all
    couplings are read into the right places, and nothing is left uninitialized. *)
Theorem C125_prtgkk nq nmodes nk nbnd W G l : complete nq nmodes nk nbnd W G l -> 0 < nk -> 0 < nbnd ->
  exists w g, read_prtgkk nq nmodes nk nbnd (output_of l) = Ok (w, g) /\
    (forall iq nu, iq < nq -> nu < nmodes -> w iq nu = Some (W iq nu)) /\
    (forall iq nu ik i j, iq < nq -> nu < nmodes -> ik < nk -> i < nbnd -> j < nbnd -> g iq nu ik i j = Some (G iq nu ik i j)).
Proof.
  intros (ik' & P & E0) Hk Hb. unfold read_prtgkk, output_of. rewrite lines_nl by exact (progress_single _ _ _ _ _ _ _ _ _ _ _ P).
  destruct (parts_read _ _ _ _ _ _ _ _ _ _ _ P [] (fun _ _ => None) (fun _ _ _ _ _ => None)) as (w & g & E & [S1 S2] & _ & A & _); [split; discriminate|].
  rewrite app_nil_r in E. exists w, g. split; [exact E|]. split.
  - intros iq nu Hq Hn. destruct (A iq 0 0 0 nu) as [B _]; try assumption; [unfold in_between; lia|]. destruct (w iq nu) as [x|] eqn:X; [|congruence]. f_equal. apply S1, X.
  - intros iq nu ik i j Hq Hn Hk' Hi Hj. destruct (A iq ik j i nu) as [_ B]; try assumption; [unfold in_between; lia|]. destruct (g iq nu ik i j) as [x|] eqn:X; [|congruence]. f_equal. apply S2, X.
Qed.
Print Assumptions C125_prtgkk.

(** Output that stops between tables, or that has fewer q or k points than announced, is accepted: what
    has been written is read, the other couplings remain uninitialized. *)
Theorem C125_incomplete_accepted nq nmodes nk nbnd W G l iq' ik' : progress nq nmodes nk nbnd W G 0 0 l iq' ik' ->
  exists w g, read_prtgkk nq nmodes nk nbnd (output_of l) = Ok (w, g) /\
    forall iq nu ik i j, nu < nmodes -> ik < nk -> i < nbnd -> j < nbnd ->
      (S iq < iq' \/ (S iq = iq' /\ ik < ik') -> w iq nu = Some (W iq nu) /\ g iq nu ik i j = Some (G iq nu ik i j)) /\
      (iq' <= iq \/ (S iq = iq' /\ ik' <= ik) -> g iq nu ik i j = None).
Proof.
  intros P. unfold read_prtgkk, output_of. rewrite lines_nl by exact (progress_single _ _ _ _ _ _ _ _ _ _ _ P).
  destruct (parts_read _ _ _ _ _ _ _ _ _ _ _ P [] (fun _ _ => None) (fun _ _ _ _ _ => None)) as (w & g & E & [S1 S2] & _ & A & U); [split; discriminate|].
  rewrite app_nil_r in E. exists w, g. split; [exact E|]. intros iq nu ik i j Hn Hk Hi Hj. split.
  - intros Lt. destruct (A iq ik j i nu) as [B1 B2]; try assumption; [unfold in_between; lia|]. split.
    + destruct (w iq nu) as [x|] eqn:X; [|congruence]. f_equal. apply S1, X.
    + destruct (g iq nu ik i j) as [x|] eqn:X; [|congruence]. f_equal. apply S2, X.
  - intros Lt. apply U. unfold in_between. lia.
Qed.
Print Assumptions C125_incomplete_accepted.

(** Output that ends within a table (after the two lines above it) is rejected, never read in part. *)
Theorem C125_truncated nq nmodes nk nbnd W G l iq ik t h1 h2 table : progress nq nmodes nk nbnd W G 0 0 l (S iq) ik -> iq < nq -> ik < nk ->
  single t -> single h1 -> single h2 -> begins "     ik = " t -> Forall (fun r => exists x y, table_line x y r) table -> length table < nbnd * nbnd * nmodes ->
  read_prtgkk nq nmodes nk nbnd (output_of (l ++ [Kblock t h1 h2 table])) = Raise StopIteration.
Proof.
  intros P Hq Hk St S1 S2 Bk F L. unfold read_prtgkk, output_of. rewrite flat_map_app. rewrite lines_nl.
  2:{ intros u J. apply in_app_or in J as [J|J]; [exact (progress_single _ _ _ _ _ _ _ _ _ _ _ P _ J)|]. cbn in J. rewrite app_nil_r in J. destruct J as [<-|[<-|[<-|J]]]; try assumption.
      rewrite Forall_forall in F. destruct (F u J) as (x & y & ws & a & b & Su & _). exact (spaced_single _ _ Su). }
  rewrite map_app.
  destruct (parts_read _ _ _ _ _ _ _ _ _ _ _ P (map nl (flat_map part_lines [Kblock t h1 h2 table])) (fun _ _ => None) (fun _ _ _ _ _ => None)) as (w & g & E & _); [split; discriminate|].
  etransitivity; [exact E|]. cbn [flat_map part_lines app map prtgkk]. rewrite app_nil_r.
  assert (Bq : ~ begins "     iq = " t) by (intros B; exact (iq_not_ik _ B Bk)).
  rewrite (begins_no _ t iq_nl St Bq), (begins_yes _ t ik_nl St Bk). cbn [ik_of requests prtgkk].
  replace (Z.of_nat (S iq) - 1)%Z with (Z.of_nat iq) by lia. replace (Z.of_nat ik - 1 + 1)%Z with (Z.of_nat ik) by lia.
  apply too_short; try assumption. rewrite loops_length; [exact L|exact W|exact G].
Qed.
Print Assumptions C125_truncated.

(** Output with data for more q points or more k points than announced is rejected. *)
Theorem C125_excess nq nmodes nk nbnd W G l iq ik t h1 h2 r rest more : progress nq nmodes nk nbnd W G 0 0 l (S iq) ik -> iq = nq \/ ik = nk ->
  single t -> single h1 -> single h2 -> begins "     ik = " t -> (exists x y, table_line x y r) -> Forall single more -> 0 < nbnd -> 0 < nmodes ->
  Forall single rest -> read_prtgkk nq nmodes nk nbnd (output_of (l ++ [Kblock t h1 h2 (r :: rest)] ++ map Line more)) = Raise IndexError.
Proof.
  intros P Hqk St S1 S2 Bk (x & y & ws & a & b & Sr & Ra & Rb) Fm Hb Hn Fr. unfold read_prtgkk, output_of. rewrite !flat_map_app. rewrite lines_nl.
  2:{ intros u J. apply in_app_or in J as [J|J]; [exact (progress_single _ _ _ _ _ _ _ _ _ _ _ P _ J)|]. apply in_app_or in J as [J|J].
      - cbn in J. rewrite app_nil_r in J. destruct J as [<-|[<-|[<-|[<-|J]]]]; try assumption; [exact (spaced_single _ _ Sr)|]. rewrite Forall_forall in Fr. exact (Fr _ J).
      - rewrite Forall_forall in Fm. apply in_flat_map in J as (q & J1 & J2). apply in_map_iff in J1 as (v & <- & Jv). destruct J2 as [<-|[]]. exact (Fm _ Jv). }
  rewrite map_app.
  destruct (parts_read _ _ _ _ _ _ _ _ _ _ _ P (map nl (flat_map part_lines [Kblock t h1 h2 (r :: rest)] ++ flat_map part_lines (map Line more))) (fun _ _ => None) (fun _ _ _ _ _ => None)) as (w & g & E & _); [split; discriminate|].
  etransitivity; [exact E|]. clear E. set (R' := flat_map part_lines (map Line more)). cbn [flat_map part_lines app map prtgkk].
  assert (Bq : ~ begins "     iq = " t) by (intros B; exact (iq_not_ik _ B Bk)).
  rewrite (begins_no _ t iq_nl St Bq), (begins_yes _ t ik_nl St Bk). cbn [ik_of requests prtgkk].
  replace (Z.of_nat (S iq) - 1)%Z with (Z.of_nat iq) by lia. replace (Z.of_nat ik - 1 + 1)%Z with (Z.of_nat ik) by lia.
  destruct nbnd as [|nb]; [lia|]. destruct nmodes as [|nm]; [lia|]. unfold loops. cbn [seq flat_map map app prtgkk]. rewrite (spaced_nl _ _ Sr), end2. cbn [bind]. unfold real in Ra, Rb. rewrite Ra. cbn [bind].
  unfold index at 1. destruct (Z.leb_spec 0 (Z.of_nat iq)); [|lia]. destruct (Z.ltb_spec (Z.of_nat iq) (Z.of_nat nq)); cbn [andb bind].
  - rewrite end1. cbn [bind]. rewrite Rb. cbn [bind]. unfold index. destruct (Z.leb_spec 0 (Z.of_nat ik)); [|lia]. destruct (Z.ltb_spec (Z.of_nat ik) (Z.of_nat nk)); [lia|]. cbn [andb].
    destruct (Z.leb_spec (- Z.of_nat nk) (Z.of_nat ik)); destruct (Z.ltb_spec (Z.of_nat ik) 0); try lia; reflexivity.
  - destruct (Z.leb_spec (- Z.of_nat nq) (Z.of_nat iq)); destruct (Z.ltb_spec (Z.of_nat iq) 0); try lia; reflexivity.
Qed.
Print Assumptions C125_excess.

(** Output with a k point before the first q point is rejected. *)
Theorem C125_no_q nq nmodes nk nbnd W G l t more : progress nq nmodes nk nbnd W G 0 0 l 0 0 -> single t -> begins "     ik = " t -> Forall single more ->
  read_prtgkk nq nmodes nk nbnd (output_of (l ++ map Line (t :: more))) = Raise UnboundLocalError.
Proof.
  intros P St Bk Fm. unfold read_prtgkk, output_of. rewrite flat_map_app. rewrite lines_nl.
  2:{ intros u J. apply in_app_or in J as [J|J]; [exact (progress_single _ _ _ _ _ _ _ _ _ _ _ P _ J)|].
      rewrite Forall_forall in Fm. apply in_flat_map in J as (q & J1 & J2). apply in_map_iff in J1 as (v & <- & Jv). destruct J2 as [<-|[]]. destruct Jv as [<-|Jv]; [exact St|exact (Fm _ Jv)]. }
  rewrite map_app.
  destruct (parts_read _ _ _ _ _ _ _ _ _ _ _ P (map nl (flat_map part_lines (map Line (t :: more)))) (fun _ _ => None) (fun _ _ _ _ _ => None)) as (w & g & E & _); [split; discriminate|].
  etransitivity; [exact E|]. cbn [flat_map part_lines app map prtgkk].
  assert (Bq : ~ begins "     iq = " t) by (intros B; exact (iq_not_ik _ B Bk)).
  rewrite (begins_no _ t iq_nl St Bq), (begins_yes _ t ik_nl St Bk). reflexivity.
Qed.
Print Assumptions C125_no_q.

(** The range-separation parameter: the number after the last L at the beginning of a line, nothing if
    there is no such line. *)
Definition is_note (r : remark) : Prop := match r with Note _ _ => True | _ => False end.
Lemma remark_single r : good_remark r -> single (remark_line r).
Proof. destruct r; intros [S0 _]; exact (spaced_single _ _ S0). Qed.
Theorem C125_L l d more t x notes : Forall good_remark l -> good_remark (Lvalue d more t) -> real d x -> Forall good_remark notes -> Forall is_note notes ->
  read_L (file_of (map remark_line (l ++ Lvalue d more t :: notes))) = Ok (Some x).
Proof.
  intros Hl Hv R Hn N. unfold read_L.
  assert (A : Forall good_remark (l ++ Lvalue d more t :: notes)) by (apply Forall_app; split; [exact Hl|constructor; assumption]).
  rewrite lines_nl. 2:{ intros u J. apply in_map_iff in J as (r & <- & J). rewrite Forall_forall in A. exact (remark_single _ (A _ J)). }
  rewrite remarks_read by exact A. f_equal. unfold last_of. rewrite fold_left_app. cbn [fold_left]. unfold real in R. rewrite R.
  clear -N. induction N as [|[ws u|] notes H _ IH]; [reflexivity|exact IH|destruct H].
Qed.
Print Assumptions C125_L.
Theorem C125_no_L notes : Forall good_remark notes -> Forall is_note notes -> read_L (file_of (map remark_line notes)) = Ok None.
Proof.
  intros A N. unfold read_L. rewrite lines_nl. 2:{ intros u J. apply in_map_iff in J as (r & <- & J). rewrite Forall_forall in A. exact (remark_single _ (A _ J)). }
  rewrite remarks_read by exact A. f_equal. clear -N. induction N as [|[ws u|] notes H _ IH]; [reflexivity|exact IH|destruct H].
Qed.
Print Assumptions C125_no_L.
(** A line that consists of L only is rejected. *)
Theorem C125_L_only l t rest : Forall good_remark l -> spaced [str "L"] t -> Forall single rest -> read_L (file_of (map remark_line l ++ t :: rest)) = Raise IndexError.
Proof.
  intros A St Fr. unfold read_L. rewrite lines_nl.
  2:{ intros u J. apply in_app_or in J as [J|[<-|J]]; [|exact (spaced_single _ _ St)|rewrite Forall_forall in Fr; exact (Fr _ J)]. apply in_map_iff in J as (r & <- & J). rewrite Forall_forall in A. exact (remark_single _ (A _ J)). }
  rewrite map_app. generalize (@None Q). induction l as [|[ws u|d more u] l IH]; intros L.
  - cbn [map app search_L]. rewrite (spaced_nl _ _ St), NmlProofs.teqb_refl. reflexivity.
  - apply Forall_cons_iff in A as [[S0 N] A]. cbn [map remark_line app search_L]. rewrite (spaced_nl _ _ S0). destruct ws as [|w ws]; [apply IH, A|].
    destruct (NmlModel.teqb w §"L") eqn:E; [apply NmlProofs.teqb_eq in E; subst w; exfalso; exact (N ws eq_refl)|apply IH, A].
  - apply Forall_cons_iff in A as [[S0 (x & R)] A]. cbn [map remark_line app search_L]. rewrite (spaced_nl _ _ S0), NmlProofs.teqb_refl. unfold real in R. rewrite R. cbn [bind]. apply IH, A.
Qed.
Print Assumptions C125_L_only.

(** One q point, one k point, two bands, two modes *)
Definition row (w g : string) : text := line_of ["1"; "1"; "1"; "9.5"; w; g]%string.
Definition some_table : list text := [row "3" "10"; row "4" "11"; row "3" "20"; row "4" "21"; row "3" "30"; row "4" "31"; row "3" "40"; row "4" "41"].
Definition some_output : list part := [Line (str "     Electron-phonon vertex |g| (meV)"); Line []; Qline (str "     iq =         1 coord.:   0.0 0.0 0.0"); Kblock (str "     ik =         1 coord.:   0.0 0.0 0.0") (str " ibnd jbnd") (str "-----") some_table; Line (str "-----")].
Definition some_w (iq nu : nat) : Q := match nu with O => 3 | _ => 4 end%Q.
Definition some_g (iq nu ik i j : nat) : Q := match j, i, nu with
  | O, O, O => 10 | O, O, _ => 11 | O, _, O => 20 | O, _, _ => 21 | _, O, O => 30 | _, O, _ => 31 | _, _, O => 40 | _, _, _ => 41 end%Q.
Lemma row_ok w g x y : word (str w) -> word (str g) -> real (str w) x -> real (str g) y -> table_line x y (row w g).
Proof.
  intros Ww Wg Rw Rg. exists (map str ["1"; "1"; "1"; "9.5"]%string), (str w), (str g). split; [|split; assumption].
  apply (spaced_line ["1"; "1"; "1"; "9.5"; w; g]%string). apply Forall_cons; [split; [discriminate|repeat constructor]|]. apply Forall_cons; [split; [discriminate|repeat constructor]|]. apply Forall_cons; [split; [discriminate|repeat constructor]|].
  apply Forall_cons; [split; [discriminate|repeat constructor]|]. apply Forall_cons; [exact Ww|]. apply Forall_cons; [exact Wg|apply Forall_nil].
Qed.
Ltac row_tac := apply row_ok; [split; [discriminate|repeat constructor]|split; [discriminate|repeat constructor]|reflexivity|reflexivity].
Ltac single_tac := let J := fresh in intros J; vm_compute in J; intuition discriminate.
Ltac begins_no := let u := fresh in let E := fresh in intros (u & E); vm_compute in E; discriminate.
Lemma some_table_ok : table_of 2 2 (some_w 0) (fun j i nu => some_g 0 nu 0 i j) some_table.
Proof.
  split; [reflexivity|]. intros j i nu Hj Hi Hn.
  destruct j as [|[|]]; [| |lia]; (destruct i as [|[|]]; [| |lia]); (destruct nu as [|[|]]; [| |lia]); row_tac.
Qed.
Example C125_example : complete 1 2 1 2 some_w some_g some_output /\
  match read_prtgkk 1 2 1 2 (output_of some_output) with Ok (w, g) => w 0 1 = Some 4%Q /\ g 0 0 0 0 1 = Some 30%Q /\ g 0 0 0 1 0 = Some 20%Q | _ => False end.
Proof.
  split; [|vm_compute; repeat split]. exists 1. split; [|right; reflexivity]. unfold some_output.
  apply Progress_line; [single_tac|begins_no|begins_no|]. apply Progress_line; [intros []|begins_no|begins_no|].
  apply Progress_q; [single_tac|exists (str "        1 coord.:   0.0 0.0 0.0"); reflexivity|left; reflexivity|].
  apply Progress_k; [single_tac|single_tac|single_tac|exists (str "        1 coord.:   0.0 0.0 0.0"); reflexivity|lia|lia|exact some_table_ok|].
  apply Progress_line; [single_tac|begins_no|begins_no|]. apply Progress_none.
Qed.
Example C125_example_errors :
  read_prtgkk 1 2 1 2 (output_of [Qline (str "     iq = 1"); Kblock (str "     ik = 1") [] [] (firstn 7 some_table)]) = Raise StopIteration /\
  read_prtgkk 1 2 1 2 (output_of [Qline (str "     iq = 1"); Kblock (str "     ik = 1") [] [] some_table; Kblock (str "     ik = 2") [] [] some_table]) = Raise IndexError /\
  read_prtgkk 1 2 1 2 (output_of [Kblock (str "     ik = 1") [] [] some_table]) = Raise UnboundLocalError /\
  good_remark (Lvalue (str "7.5") [str "bohr"] (line_of ["L"; "7.5"; "bohr"]%string)) /\ good_remark (Note [str "Length"; str "L"] (line_of ["Length"; "L"]%string)) /\
  read_L (file_of [line_of ["Length"; "L"]%string; line_of ["L"; "7.5"; "bohr"]%string; []]) = Ok (Some (75 # 10)%Q).
Proof.
  split; [vm_compute; reflexivity|]. split; [vm_compute; reflexivity|]. split; [vm_compute; reflexivity|]. split; [|split; [|vm_compute; reflexivity]].
  - split; [apply (spaced_line ["L"; "7.5"; "bohr"]%string); words_tac|]. exists (75 # 10)%Q. vm_compute. reflexivity.
  - split; [apply (spaced_line ["Length"; "L"]%string); words_tac|]. intros ws' E. vm_compute in E. discriminate.
Qed.
