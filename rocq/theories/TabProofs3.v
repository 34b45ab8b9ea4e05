(** Proofs about tables. *)
From Coq Require Import Qabs Lia.
From Verif Require Import Text TextProofs NmlModel NmlProofs TabModel TabSpec TabProofs TabProofs2.
From Verif Require ProjModel XmlModel XmlProofs PwoProofs PwoProofs3.
From Coq Require Import List.
Import ListNotations.
Local Open Scope nat_scope.

(** ** Bands for Gnuplot *)
Lemma partition_none c t : Forall (fun d => Ascii.eqb d c = false) t -> XmlModel.partition c t = (t, None).
Proof. induction 1 as [|d t H _ IH]; [reflexivity|]. cbn [XmlModel.partition]. rewrite H, IH. reflexivity. Qed.
Lemma F_hash w d x : Forall (fun c => Ascii.eqb c "#" = false) (F w d x).
Proof.
  unfold F, pad. apply Forall_app. split; [apply Forall_forall; intros c J; apply repeat_spec in J; subst c; reflexivity|].
  apply fmt_f_all; [|reflexivity|reflexivity]. intros k K. destruct (digit_cases k K) as [->|[->|[->|[->|[->|[->|[->|[->|[->| ->]]]]]]]]]; reflexivity.
Qed.
Lemma words_plot k e : fits 10 4 e -> str_split (uncommented (nl (plot_line (k, e)))) = [fmt_f 4 k; fmt_f 4 e].
Proof.
  intros H. unfold uncommented, nl, plot_line. cbn [fst snd]. rewrite partition_none.
  - cbn [fst]. rewrite <- app_assoc. rewrite PwoProofs.split_F by (apply PwoProofs.starts_F, H). rewrite PwoProofs.split_F by reflexivity. reflexivity.
  - rewrite !Forall_app. repeat split; try apply F_hash. constructor; [reflexivity|constructor].
Qed.
Definition pair_row (ke : Q * Q) : list Q := [rounded 4 (fst ke); rounded 4 (snd ke)].
Lemma table_plot rows rest : (forall k e, In (k, e) rows -> fits 10 4 e) -> table (map nl (map plot_line rows) ++ rest) = do r <- table rest ;; Ok (map pair_row rows ++ r).
Proof.
  induction rows as [|[k e] rows IH]; intros H.
  - cbn [map app]. destruct (table rest); reflexivity.
  - cbn [map app table]. rewrite words_plot by exact (H k e (or_introl eq_refl)). cbn [map_res]. rewrite !to_float_fmt by lia. cbn [bind]. rewrite IH by (intros k' e' J; apply (H k' e'); right; exact J). destruct (table rest); reflexivity.
Qed.
Lemma table_all k e : (forall b x, In b e -> In x b -> fits 10 4 x) -> table (map nl (plot_lines k e)) = Ok (map pair_row (flat_map (fun b => combine k b) e)).
Proof.
  unfold plot_lines. induction e as [|b e IH]; intros H; [reflexivity|]. cbn [flat_map]. rewrite !map_app, <- app_assoc. rewrite table_plot.
  - change (map nl [[]]) with [[newline]]. cbn [app table]. change (str_split (uncommented [newline])) with (@nil text). rewrite IH by (intros b' x J; apply H; right; exact J). reflexivity.
  - intros k' x J. apply (H b x (or_introl eq_refl)). apply in_combine_r in J. exact J.
Qed.
Lemma columns_pairs l : 2 <= length l -> two_columns (map pair_row l) = Ok (Some (map (rounded 4) (map fst l), map (rounded 4) (map snd l))).
Proof.
  intros H. destruct l as [|x [|y l]]; [cbn in H; lia|cbn in H; lia|]. unfold two_columns.
  assert (E : forall l, map_res (fun r => match r with [k; e] => Ok (k, e) | _ => Raise ValueError end) (map pair_row l) = Ok (map (fun ke => (rounded 4 (fst ke), rounded 4 (snd ke))) l)).
  { clear. intros l. rewrite (XmlProofs.map_res_all _ (fun r => (nth 0 r 0%Q, nth 1 r 0%Q))); [rewrite map_map; reflexivity|]. intros r J. apply in_map_iff in J as (x & <- & _). reflexivity. }
  transitivity (do kes <- map_res (fun r => match r with [k; e] => Ok (k, e) | _ => Raise ValueError end) (map pair_row (x :: y :: l)) ;; Ok (Some (map fst kes, map snd kes))); [reflexivity|].
  rewrite E. cbn [bind]. rewrite !map_map. reflexivity.
Qed.
Lemma flat_length {A} (k : list A) {B} (e : list (list B)) : (forall b, In b e -> length b = length k) -> length (flat_map (fun b => combine k b) e) = length e * length k.
Proof. induction e as [|b e IH]; intros H; [reflexivity|]. cbn [flat_map length Nat.mul]. rewrite app_length, combine_length, (H b (or_introl eq_refl)), Nat.min_id, IH; [reflexivity|]. intros b' J. apply H. right. exact J. Qed.
Lemma combine_fst {A B} : forall (k : list A) (b : list B), length b = length k -> map fst (combine k b) = k.
Proof. induction k as [|x k IH]; intros [|y b] H; try reflexivity; try discriminate. cbn [combine map fst]. f_equal. apply IH. cbn in H. lia. Qed.
Lemma combine_snd {A B} : forall (k : list A) (b : list B), length b = length k -> map snd (combine k b) = b.
Proof. induction k as [|x k IH]; intros [|y b] H; try reflexivity; try discriminate. cbn [combine map snd]. f_equal. apply IH. cbn in H. lia. Qed.
Lemma flat_snd {A B} (k : list A) (e : list (list B)) : (forall b, In b e -> length b = length k) -> map snd (flat_map (fun b => combine k b) e) = concat e.
Proof. induction e as [|b e IH]; intros H; [reflexivity|]. cbn [flat_map concat]. rewrite map_app, combine_snd by (apply H; left; reflexivity). f_equal. apply IH. intros b' J. apply H. right. exact J. Qed.
Lemma flat_fst {A B} (k : list A) b (e : list (list B)) : length b = length k -> firstn (length k) (map fst (flat_map (fun b => combine k b) (b :: e))) = k.
Proof. intros H. cbn [flat_map]. rewrite map_app, combine_fst by exact H. rewrite firstn_app, firstn_all, Nat.sub_diag. cbn. apply app_nil_r. Qed.
Lemma nth_concat {A} (d : A) np : forall e n i, (forall b, In b e -> length b = np) -> n < length e -> i < np -> nth (n * np + i) (concat e) d = nth i (nth n e []) d.
Proof.
  induction e as [|b e IH]; intros n i H N L; [cbn in N; lia|]. cbn [concat]. pose proof (H b (or_introl eq_refl)) as Hb. destruct n as [|n].
  - rewrite app_nth1 by (cbn; lia). reflexivity.
  - rewrite app_nth2 by (cbn; lia). cbn [nth]. rewrite <- (IH n i); [f_equal; cbn; lia|intros b' J; apply H; right; exact J|cbn in N; lia|exact L].
Qed.
Lemma single_plot x : single (plot_line x).
Proof. apply single_app; apply single_F. Qed.
Lemma plot_file k e : lines (file_of (plot_lines k e)) = map nl (plot_lines k e).
Proof.
  apply lines_file. intros l J. unfold plot_lines in J. apply in_flat_map in J as (b & _ & J). apply in_app_iff in J as [J|[<-|[]]]; [|intros []]. apply in_map_iff in J as (x & <- & _). apply single_plot.
Qed.

(** ** Decay of the Hamiltonian *)
Lemma split_nl_same t : str_split (nl t) = str_split t.
Proof. unfold nl. rewrite PwoProofs.split_cut by reflexivity. cbn. apply app_nil_r. Qed.
Lemma split_decay r h : word r -> word h -> str_split (nl (decay_line (Decay r h))) = [r; h].
Proof.
  intros W V. rewrite split_nl_same. cbn [decay_line]. rewrite (split_word §"  " r) by first [exact W|reflexivity|repeat constructor].
  rewrite <- (app_nil_r h) at 1. rewrite (split_word §"  " h) by first [exact V|exact Logic.I|repeat constructor]. reflexivity.
Qed.
Lemma decay_file l : (forall d, In d l -> good_decay d) -> lines (file_of (map decay_line l)) = map (fun d => nl (decay_line d)) l.
Proof.
  intros H. rewrite lines_file, map_map; [reflexivity|]. intros y J. apply in_map_iff in J as (d & <- & J). specialize (H d J). destruct d as [t|r h]; [apply H|]. destruct H as (W & V & _). cbn [decay_line].
  repeat apply single_app; first [apply single_str; reflexivity|apply no_newline_single, no_newline_solid; first [apply W|apply V]].
Qed.
