(** Properties C120 and C121: energy contributions and tables in output files. *)
From Coq Require Import Qabs Lia.
From Verif Require Import Text TextProofs NmlModel NmlProofs TabModel TabSpec TabProofs TabProofs2 TabProofs3.
From Verif Require XmlProofs.
From Coq Require Import List.
Import ListNotations.
Local Open Scope nat_scope.

(** ** C120: energy contributions *)

(** Whatever the file: a dictionary with the value in the last line that begins with the word for
    the respective quantity, and nothing else *)
Theorem C120_last file : (forall l w name n, In l (lines file) -> In (w, name, n) quantities -> first_token l w -> n < length (tokens l)) ->
  exists d, read_energy_contributions file = Ok d /\
    forall name v, dget d name = Some v <-> exists w n, In (w, name, n) quantities /\ last_line (lines file) w n v.
Proof.
  intros H. destruct (contributions_all (lines file) [] []) as (d & E & S).
  - apply Forall_forall. intros l J w name n. apply H, J.
  - intros name v. split; [discriminate|]. intros (w & n & _ & (l1 & l & l2 & X & _)). destruct l1; discriminate.
  - exists d. split; [exact E|exact S].
Qed.
Print Assumptions C120_last.

(** Lines without value are refused. *)
Theorem C120_short file l w name n : In l (lines file) -> In (w, name, n) quantities -> first_token l w -> length (tokens l) <= n ->
  read_energy_contributions file = Raise IndexError.
Proof.
  intros J Q X L. apply contributions_short. intros A. rewrite Forall_forall in A. specialize (A l J w name n Q X). lia.
Qed.
Print Assumptions C120_short.

(** Output of pw.x: the last energy of each kind, with all digits, whatever its size *)
Theorem C120_pw l : (forall t, In (Other t) l -> quiet t) ->
  exists d, read_energy_contributions (file_of (map entry_line l)) = Ok d /\
    (forall k x, last_energy l k x -> exists v y, dget d (name k) = Some v /\ to_float v = Ok y /\ printed 8 x y) /\
    (forall n v, dget d n = Some v -> exists k x, n = name k /\ last_energy l k x).
Proof.
  intros H. unfold read_energy_contributions. rewrite entries_lines by exact H.
  destruct (contributions_all (map (fun e => nl (entry_line e)) l) [] [] (energy_enough l H)) as (d & E & S).
  - intros n v. split; [discriminate|]. intros (w & m & _ & (l1 & y & l2 & X & _)). destruct l1; discriminate.
  - exists d. split; [exact E|]. split.
    + intros k x L. exists (fmt_f 8 x), (rounded 8 x). split; [|split; [apply to_float_fmt; lia|apply printed_rounded]]. apply S. exists (word_of k), (place k). split; [apply kind_in|]. apply (last_line_energy l k (fmt_f 8 x) H). exists x. split; [exact L|reflexivity].
    + intros n v X. apply S in X. destruct X as (w & m & Q & L). destruct (kind_all w n m Q) as (k & -> & -> & ->). apply (last_line_energy l k v H) in L. destruct L as (x & L & _). exists k, x. split; [reflexivity|exact L].
Qed.
Print Assumptions C120_pw.

(** Two iterations, with the title of a section in between and a large energy without blanks *)
Definition c120_log : list entry :=
  [Energy Xc (-1 # 2); Other §"     Contributions of bands: one-electron part"; Other []; Energy Xc (-3 # 8); Energy Total (-123456789012 # 1); Energy Smearing (-1 # 1000)].
Example C120_example : (forall t, In (Other t) c120_log -> quiet t) /\
  match read_energy_contributions (file_of (map entry_line c120_log)) with
  | Ok d => d = [(§"xc", §"-0.37500000"); (§"total", §"-123456789012.00000000"); (§"smearing", §"-0.00100000")]
  | _ => False
  end.
Proof.
  split; [|vm_compute; reflexivity].
  assert (G : forall t, forallb (fun c => negb (Ascii.eqb c newline)) t = true -> match tokens t with [] => true | w :: _ => negb (existsb (fun q => teqb (fst (fst q)) w) quantities) end = true -> quiet t).
  { intros t A B. split.
    - intros J. rewrite forallb_forall in A. specialize (A _ J). discriminate A.
    - intros w n m J (ws & E). rewrite E in B. apply Bool.negb_true_iff in B. enough (existsb (fun q => teqb (fst (fst q)) w) quantities = true) by congruence. apply existsb_exists. exists (w, n, m). split; [exact J|apply teqb_refl]. }
  intros t J. unfold c120_log in J. cbn [In] in J. repeat (destruct J as [J|J]; [first [discriminate J|injection J as <-; apply G; vm_compute; reflexivity]|]). contradiction.
Qed.

(** ** C121: tables *)

(** The positions of all symmetry points, in order *)
Theorem C121_symmetry_points l : (forall m, In m l -> good_mark m) ->
  exists xs, read_symmetry_points (file_of (map mark_line l)) = Ok xs /\ Forall2 (printed 4) (positions l) xs.
Proof.
  intros H. exists (map (rounded 4) (positions l)). split.
  - unfold read_symmetry_points. rewrite marks_lines by exact H. apply points_all, H.
  - induction (positions l); constructor; [apply printed_rounded|assumption].
Qed.
Print Assumptions C121_symmetry_points.

(** Energies for Wannier90 in any order *)
Theorem C121_eig nb nk e l : complete nb nk e l -> (forall n k x, In (n, k, x) l -> fits 18 12 x) -> (Z.of_nat nk < 10 ^ 4)%Z ->
  exists eig, read_eig nb nk (file_of (map eig_line l)) = Ok eig /\ forall n k, n < nb -> k < nk -> exists x, eig n k = Some x /\ printed 12 (e n k) x.
Proof.
  intros [C1 C2] Fx K. unfold read_eig. rewrite eig_file.
  destruct (eig_all nb nk e K l) with (eig := fun (_ _ : nat) => @None Q) as (eig & E & S).
  - intros n k x J. destruct (C1 n k x J) as (A & B & D). split; [exact A|split; [exact B|split; [exact D|exact (Fx n k x J)]]].
  - exists eig. split; [exact E|]. intros n k N L. exists (rounded 12 (e n k)). split; [apply (proj1 (S n k)), C2; assumption|apply printed_rounded].
Qed.
Print Assumptions C121_eig.

(** With ten thousand k points or more, no file can be read: numbers are not separated. *)
Theorem C121_eig_refuted nb nk e l : complete nb nk e l -> (forall n k x, In (n, k, x) l -> fits 18 12 x) -> 0 < nb -> (10 ^ 4 <= Z.of_nat nk < 10 ^ 5)%Z ->
  read_eig nb nk (file_of (map eig_line l)) = Raise ValueError.
Proof.
  intros [C1 C2] Fx N K. unfold read_eig. rewrite eig_file. apply eig_fails with (e := e); [apply K| |].
  - intros n k x J. destruct (C1 n k x J) as (A & B & D). split; [exact A|split; [exact B|split; [exact D|exact (Fx n k x J)]]].
  - exists 1, nk, (e 0 (nk - 1)). split; [|apply K]. replace nk with (S (nk - 1)) at 1 by lia. apply C2; lia.
Qed.
Print Assumptions C121_eig_refuted.

(** Bands for Gnuplot: k points once, energies with the band as second index *)
Theorem C121_bands_plot k e : (forall b, In b e -> length b = length k /\ forall x, In x b -> fits 10 4 x) -> 2 <= length e * length k ->
  exists k' e', read_bands_plot (file_of (plot_lines k e)) (length e) = Ok (k', e') /\ Forall2 (printed 4) k k' /\ length e' = length k /\
    forall i n, i < length k -> n < length e -> exists b x, nth_error e n = Some b /\ nth_error b i = Some x /\ exists b' x', nth_error e' i = Some b' /\ length b' = length e /\ nth_error b' n = Some x' /\ printed 4 x x'.
Proof.
  intros H L. destruct e as [|b0 e0] eqn:Ee; [cbn in L; lia|]. rewrite <- Ee in *. assert (Hl : forall b, In b e -> length b = length k) by (intros b J; apply H, J).
  assert (Fl := flat_length k e Hl). eexists. eexists. split; [|split; [|split]].
  - unfold read_bands_plot. rewrite plot_file, table_all by (intros b x J; apply (H b J)). cbn [bind]. rewrite columns_pairs by (rewrite Fl; exact L). cbn [bind].
    destruct (Nat.eqb_spec (length e) 0) as [Z|_]; [rewrite Ee in Z; discriminate|]. cbv zeta. rewrite !map_length, Fl. rewrite (Nat.mul_comm (length e) (length k)), Nat.div_mul by (rewrite Ee; discriminate).
    rewrite (Nat.mul_comm (length e) (length k)), Nat.eqb_refl. reflexivity.
  - rewrite firstn_map, Ee, flat_fst by (apply Hl; rewrite Ee; left; reflexivity). clear. induction k; constructor; [apply printed_rounded|assumption].
  - rewrite map_length, seq_length. reflexivity.
  - intros i n Hi Hn. destruct (nth_error e n) as [b|] eqn:Eb; [|apply nth_error_None in Eb; lia]. assert (Jb := nth_error_In _ _ Eb). destruct (nth_error b i) as [x|] eqn:Ex; [|apply nth_error_None in Ex; rewrite (Hl b Jb) in Ex; lia].
    exists b, x. split; [reflexivity|]. split; [exact Ex|]. eexists. exists (rounded 4 x). split; [apply map_nth_error; rewrite (nth_error_nth' _ 0) by (rewrite seq_length; exact Hi); rewrite seq_nth by exact Hi; reflexivity|].
    split; [rewrite map_length, seq_length; reflexivity|]. split; [|apply printed_rounded].
    rewrite (map_nth_error _ n (seq 0 (length e)) (d := n)); [|rewrite (nth_error_nth' _ 0) by (rewrite seq_length; exact Hn); rewrite seq_nth by exact Hn; reflexivity].
    f_equal. cbn [Nat.add]. rewrite flat_snd by exact Hl. rewrite (nth_indep _ 0%Q (rounded 4 0%Q)); [rewrite map_nth, nth_concat; [|exact Hl|exact Hn|exact Hi]|].
    + rewrite (nth_error_nth _ _ [] Eb), (nth_error_nth _ _ 0%Q Ex). reflexivity.
    + rewrite map_length, <- (flat_snd k e Hl), map_length, Fl. nia.
Qed.
Print Assumptions C121_bands_plot.

(** One band at one point is not read. *)
Theorem C121_one_point_refuted k e : fits 10 4 e -> read_bands_plot (file_of (plot_lines [k] [[e]])) 1 = Raise IndexError.
Proof.
  intros H. unfold read_bands_plot. rewrite plot_file, table_all; [reflexivity|]. intros b x [<-|[]] [<-|[]]. exact H.
Qed.
Print Assumptions C121_one_point_refuted.

(** A wrong number of bands that does not divide the number of lines is refused. *)
Theorem C121_wrong_bands k e n : (forall b, In b e -> length b = length k /\ forall x, In x b -> fits 10 4 x) -> 2 <= length e * length k -> 0 < n -> ~ Nat.divide n (length e * length k) ->
  read_bands_plot (file_of (plot_lines k e)) n = Raise ValueError.
Proof.
  intros H L N D. assert (Fl := flat_length k e (fun b J => proj1 (H b J))). unfold read_bands_plot. rewrite plot_file, table_all by (intros b x J; apply (H b J)). cbn [bind]. rewrite columns_pairs by (rewrite Fl; exact L). cbn [bind].
  destruct (Nat.eqb_spec n 0) as [Z|_]; [lia|]. cbv zeta. rewrite !map_length, Fl. destruct (Nat.eqb_spec (n * (length e * length k / n)) (length e * length k)) as [E|_]; [|reflexivity].
  exfalso. apply D. exists (length e * length k / n). rewrite <- E at 1. apply Nat.mul_comm.
Qed.
Print Assumptions C121_wrong_bands.

(** Pairs of distances and matrix elements: all lines with two words, in order *)
Theorem C121_decay l : (forall d, In d l -> good_decay d) ->
  exists R H, read_decayH (file_of (map decay_line l)) = Ok (R, H) /\
    Forall2 (fun rh x => to_float (fst rh) = Ok (fst x) /\ to_float (snd rh) = Ok (snd x)) (flat_map (fun d => match d with Comment _ => [] | Decay r h => [(r, h)] end) l) (combine R H) /\ length R = length H.
Proof.
  intros G. unfold read_decayH. rewrite decay_file by exact G.
  enough (X : forall R0 H0, exists R H, decay_lines R0 H0 (map (fun d => nl (decay_line d)) l) = Ok (R0 ++ R, H0 ++ H) /\
    Forall2 (fun rh x => to_float (fst rh) = Ok (fst x) /\ to_float (snd rh) = Ok (snd x)) (flat_map (fun d => match d with Comment _ => [] | Decay r h => [(r, h)] end) l) (combine R H) /\ length R = length H) by exact (X [] []).
  induction l as [|d l IH]; intros R0 H0.
  - exists [], []. rewrite !app_nil_r. repeat split. constructor.
  - assert (G' : forall d, In d l -> good_decay d) by (intros d' J; apply G; right; exact J). pose proof (G d (or_introl eq_refl)) as Gd. cbn [map decay_lines flat_map]. destruct d as [t|r h].
    + cbn [decay_line]. rewrite split_nl_same. destruct Gd as [_ Gd]. destruct (IH G' R0 H0) as (R & H & E & X). exists R, H. split; [|exact X]. destruct (str_split t) as [|a [|b [|c ws]]]; try exact E. exfalso. apply Gd. reflexivity.
    + destruct Gd as (W & V & (x & Ex) & (y & Ey)). rewrite split_decay by assumption. rewrite Ex, Ey. cbn [bind]. destruct (IH G' (R0 ++ [x]) (H0 ++ [y])) as (R & H & E & X & N). exists (x :: R), (y :: H). split; [rewrite E, <- !app_assoc; reflexivity|].
      cbn [app combine length]. split; [constructor; [split; assumption|exact X]|congruence].
Qed.
Print Assumptions C121_decay.

(** A path with two points; two bands at three k points, in reverse order; two bands at two points;
    a header and two lines *)
Example C121_example :
  (forall m, In m [Text §"     Reading data"; Point (0, 0, 0)%Q 0%Q; Point (1 # 2, 0, 0)%Q (1 # 3)%Q] -> good_mark m) /\
  match read_symmetry_points (file_of (map mark_line [Text §"     Reading data"; Point (0, 0, 0)%Q 0%Q; Point (1 # 2, 0, 0)%Q (1 # 3)%Q])) with
  | Ok [x; y] => (x == 0)%Q /\ (y == 3333 # 10000)%Q
  | _ => False
  end /\
  complete 2 3 (fun n k => inject_Z (Z.of_nat (10 * n + k))) (map (fun x => (S (fst x), S (snd x), inject_Z (Z.of_nat (10 * fst x + snd x)))) [(1, 2); (1, 1); (1, 0); (0, 2); (0, 1); (0, 0)]) /\
  (forall b, In b [[1; 2]; [-1; -2]]%Q -> length b = length [0; 1]%Q /\ forall x, In x b -> fits 10 4 x) /\
  match read_bands_plot (file_of (plot_lines [0; 1] [[1; 2]; [-1; -2]]))%Q 2 with
  | Ok (k, e) => map Qred k = [0; 1]%Q /\ map (map Qred) e = [[1; -1]; [2; -2]]%Q
  | _ => False
  end /\
  (forall d, In d [Comment §"# R [Ang] H [Ry]"; Decay §"0.5" §"1e-3"; Decay §"1.0" §"-2"] -> good_decay d).
Proof.
  split; [|split; [|split; [|split; [|split]]]].
  - intros m J. cbn [In] in J. destruct J as [<-|[<-|[<-|[]]]]; [|vm_compute; lia|vm_compute; lia]. split.
    + intros J. cbn in J. repeat (destruct J as [J|J]; [discriminate J|]). contradiction.
    + intros X. apply WinProofs.contains_iff in X. vm_compute in X. discriminate X.
  - vm_compute. split; reflexivity.
  - split.
    + intros n k x J. cbn [map In fst snd] in J. repeat (destruct J as [J|J]; [injection J as <- <- <-; repeat split; lia|]). contradiction.
    + intros n k N K. destruct n as [|[|n]]; [| |lia]; (destruct k as [|[|[|k]]]; [| | |lia]); cbn; tauto.
  - intros b J. cbn [In] in J. destruct J as [<-|[<-|[]]]; (split; [reflexivity|]); intros x J; cbn [In] in J; destruct J as [<-|[<-|[]]]; vm_compute; lia.
  - vm_compute. split; reflexivity.
  - intros d J. cbn [In] in J. destruct J as [<-|[<-|[<-|[]]]].
    + split; [|vm_compute; lia]. intros J. cbn in J. repeat (destruct J as [J|J]; [discriminate J|]). contradiction.
    + repeat split; try discriminate; try (repeat constructor); eexists; vm_compute; reflexivity.
    + repeat split; try discriminate; try (repeat constructor); eexists; vm_compute; reflexivity.
Qed.
