From Coq Require Import Lia.
From Verif Require Import Text TextProofs TextE TextEProofs NmlModel NmlProofs TabProofs TabProofs2 GridModel GridSpec GridProofs GridProofs2 XsfModel XsfSpec XsfProofs.
From Coq Require Import List.
Import ListNotations.
Local Open Scope nat_scope.

Lemma gap_blanks n : gap (repeat blank n).
Proof. induction n; cbn [repeat]; constructor; [split; [reflexivity|discriminate]|assumption]. Qed.
Lemma spaced_pad n w ws t : word w -> starts_space t -> spaced ws t -> spaced (w :: ws) (pad n w ++ t).
Proof. intros W St Sp. unfold pad. rewrite <- app_assoc. apply Spaced_word; [apply gap_blanks|exact W|exact St|exact Sp]. Qed.
Lemma spaced_blank ws t : spaced ws t -> spaced ws (§" " ++ t).
Proof. intros H. destruct H as [s G|s w ws t G W St H]; [apply Spaced_end|rewrite app_assoc; apply Spaced_word; try assumption]; (constructor; [split; [reflexivity|discriminate]|exact G]). Qed.
Lemma spaced_end : spaced [] [].
Proof. apply Spaced_end. constructor. Qed.
Lemma spaced_snoc ws t g w : spaced ws t -> gap g -> g <> [] -> word w -> spaced (ws ++ [w]) (t ++ g ++ w).
Proof.
  intros H G N W. induction H as [s Hs|s v ws t Hs Hv St H IH].
  - cbn [app]. replace (s ++ g ++ w) with ((s ++ g) ++ w ++ []) by (rewrite app_nil_r, app_assoc; reflexivity). apply Spaced_word; [apply Forall_app; split; assumption|exact W|exact Logic.I|exact spaced_end].
  - cbn [app]. rewrite <- !app_assoc. apply Spaced_word; [exact Hs|exact Hv| |exact IH]. destruct t; [|exact St]. destruct g as [|c g]; [congruence|]. inversion G as [|? ? [C _]]; subst. exact C.
Qed.

Definition three_line (w d : nat) (v : vec) : text := pad w (fmt_f d (fst (fst v))) ++ §" " ++ pad 11 (fmt_f d (snd (fst v))) ++ §" " ++ pad 11 (fmt_f d (snd v)).
Definition rounded3 (d : nat) (v : vec) : vec := (rounded d (fst (fst v)), rounded d (snd (fst v)), rounded d (snd v)).
Lemma three_nl w d v : three w d v = three_line w d v ++ [newline].
Proof. unfold three, three_line. rewrite <- !app_assoc. reflexivity. Qed.
Lemma three_spaced w d v : spaced [fmt_f d (fst (fst v)); fmt_f d (snd (fst v)); fmt_f d (snd v)] (three_line w d v).
Proof.
  unfold three_line. apply spaced_pad; [apply word_fmt_f|reflexivity|]. apply spaced_blank. apply spaced_pad; [apply word_fmt_f|reflexivity|]. apply spaced_blank.
  rewrite <- (app_nil_r (pad 11 _)). apply spaced_pad; [apply word_fmt_f|exact Logic.I|exact spaced_end].
Qed.
Lemma three_ok w d v : 0 < d -> triple_line (rounded3 d v) (three_line w d v).
Proof. intros Hd. eexists. split; [apply three_spaced|]. do 3 eexists. split; [reflexivity|]. unfold real. rewrite !to_float_fmt by exact Hd. repeat split. Qed.
Definition atom_text (a : text * vec) : text := ljust 5 (fst a) ++ §" " ++ three_line 11 7 (snd a).
Lemma atom_nl a : xsf_atom a = atom_text a ++ [newline].
Proof. unfold xsf_atom, atom_text. rewrite three_nl, <- !app_assoc. reflexivity. Qed.
Lemma atom_ok a : word (fst a) -> species_line (fst a, rounded3 7 (snd a)) (atom_text a).
Proof.
  intros W. eexists _, []. rewrite app_nil_r. cbn [fst snd]. split.
  - unfold atom_text, ljust. rewrite <- app_assoc. change (fst a ++ ?x) with ([] ++ fst a ++ x). apply Spaced_word; [constructor|exact W|destruct (5 - length (fst a)); reflexivity|].
    assert (Hg : forall n ws t, spaced ws t -> spaced ws (repeat blank n ++ t)) by (intros n; induction n as [|n IH]; intros ws t H; [exact H|exact (spaced_blank _ _ (IH ws t H))]).
    apply Hg, spaced_blank, three_spaced.
  - do 3 eexists. split; [reflexivity|]. unfold real. rewrite !to_float_fmt by lia. repeat split.
Qed.

Lemma values_written size : forall data i cur cw, i + length data = S size -> Forall (fun x => length (fmt_e 5 x) < 13) data -> spaced cw cur -> (data <> [] \/ (cur = [] /\ cw = [])) ->
  exists ld wss, cur ++ xsf_values size i data = file_of ld /\ Forall2 spaced wss ld /\ concat wss = cw ++ map (fmt_e 5) data.
Proof.
  induction data as [|x data IH]; intros i cur cw L F Sp D.
  - destruct D as [D|[-> ->]]; [congruence|]. exists [], []. repeat split. constructor.
  - apply Forall_cons_iff in F as [Fx F]. cbn [xsf_values].
    assert (Sp' : spaced (cw ++ [fmt_e 5 x]) (cur ++ pad 13 (fmt_e 5 x))).
    { unfold pad. apply spaced_snoc; [exact Sp|apply gap_blanks| |apply word_fmt_e]. destruct (13 - length (fmt_e 5 x)) eqn:E; [lia|discriminate]. }
    cbn [length] in L. destruct ((i mod 6 =? 0) || (i =? size)) eqn:E.
    + destruct (IH (S i) [] []) as (ld & wss & E1 & E2 & E3); [lia|exact F|exact spaced_end|right; split; reflexivity|].
      exists ((cur ++ pad 13 (fmt_e 5 x)) :: ld), ((cw ++ [fmt_e 5 x]) :: wss). split.
      * cbn [app] in E1. unfold file_of in *. cbn [map concat]. rewrite <- E1. rewrite <- !app_assoc. reflexivity.
      * split; [constructor; assumption|]. cbn [concat map]. rewrite E3, <- app_assoc. reflexivity.
    + apply Bool.orb_false_iff in E as [_ E]. apply Nat.eqb_neq in E.
      destruct (IH (S i) (cur ++ pad 13 (fmt_e 5 x)) (cw ++ [fmt_e 5 x])) as (ld & wss & E1 & E2 & E3); [lia|exact F|exact Sp'|left; intros ->; cbn in L; lia|].
      exists ld, wss. split; [rewrite <- E1, <- app_assoc; reflexivity|]. split; [exact E2|]. rewrite E3, <- app_assoc. reflexivity.
Qed.
Lemma flat_in_order n1 n2 n3 g : flat n1 n2 n3 g = in_order n1 n2 n3 g.
Proof. reflexivity. Qed.
Lemma file_cons l ls : file_of (l :: ls) = l ++ [newline] ++ file_of ls.
Proof. unfold file_of. cbn [map concat]. rewrite <- app_assoc. reflexivity. Qed.
Lemma file_app ls ms : file_of (ls ++ ms) = file_of ls ++ file_of ms.
Proof. unfold file_of. rewrite map_app, concat_app. reflexivity. Qed.
Lemma one_word s : word (str s) -> keyword s (str s).
Proof. intros W. unfold keyword. rewrite <- (app_nil_r (str s)) at 2. change (spaced [str s] ([] ++ str s ++ [])). apply Spaced_word; [constructor|exact W|exact Logic.I|exact spaced_end]. Qed.
Lemma not_keyword s l w : spaced [w] l -> w <> str s -> other s l.
Proof. intros Sp N. split; [exact (spaced_single _ _ Sp)|]. intros K. apply N. pose proof (spaced_nl _ _ Sp) as E. pose proof (spaced_nl _ _ K) as E'. rewrite E in E'. injection E' as E'. exact E'. Qed.

Lemma printed_values l : Forall2 real (map (fmt_e 5) l) (map (rounded_E 5) l).
Proof. induction l as [|x l IH]; cbn [map]; constructor; [apply to_float_e; lia|exact IH]. Qed.
Definition written_field (r0 a1 a2 a3 : vec) (atoms : list (text * vec)) (n1 n2 n3 : nat) (values : list Q) : field :=
  Field (rounded3 6 r0) (rounded3 7 a1) (rounded3 7 a2) (rounded3 7 a3) (map (fun a => (fst a, rounded3 7 (snd a))) atoms) (n1, n2, n3) (map (rounded_E 5) values).
Lemma xsf_written (only_header : bool) r0 a1 a2 a3 atoms n1 n2 n3 g : Forall (fun a => word (fst a)) atoms -> (only_header = true \/ Forall (fun x => length (fmt_e 5 x) < 13) (in_order n1 n2 n3 g)) ->
  xsf_file (written_field r0 a1 a2 a3 atoms n1 n2 n3 (if only_header then [] else in_order n1 n2 n3 g)) (write_xsf only_header r0 a1 a2 a3 atoms n1 n2 n3 g).
Proof.
  intros Fa Fx.
  assert (V : exists ld wss, (if only_header then [] else xsf_values (n1 * (n2 * n3)) 1 (flat n1 n2 n3 g)) = file_of ld /\ Forall2 spaced wss ld /\ concat wss = map (fmt_e 5) (if only_header then [] else in_order n1 n2 n3 g)).
  { destruct only_header; [exists [], []; repeat split; constructor|]. destruct Fx as [Fx|Fx]; [discriminate|]. rewrite flat_in_order.
    destruct (values_written (n1 * (n2 * n3)) (in_order n1 n2 n3 g) 1 [] []) as (ld & wss & E1 & E2 & E3); [rewrite in_order_length; lia|exact Fx|exact spaced_end|right; split; reflexivity|]. exists ld, wss. repeat split; assumption. }
  destruct V as (ld & wss & E1 & E2 & E3).
  exists wss, ld, [str "END_DATAGRID_3D"; str "END_BLOCK_DATAGRID_3D"], [], (str "PRIMCOORD"), (pad 6 (fmt_d (Z.of_nat (length atoms))) ++ §"  1"), (map atom_text atoms), [str "BEGIN_BLOCK_DATAGRID_3D"; str "3D_field"], (str "BEGIN_DATAGRID_3D_UNKNOWN"),
    (pad 6 (fmt_d (Z.of_nat n1)) ++ §" " ++ pad 5 (fmt_d (Z.of_nat n2)) ++ §" " ++ pad 5 (fmt_d (Z.of_nat n3))), (three_line 12 6 r0), (three_line 12 7 a1), (three_line 12 7 a2), (three_line 12 7 a3).
  split.
  { unfold write_xsf. rewrite E1. cbn [app]. rewrite !file_cons, file_app. cbn [app]. rewrite !file_cons. rewrite file_app, !file_cons, !three_nl. rewrite <- !app_assoc.
    assert (A : concat (map xsf_atom atoms) = file_of (map atom_text atoms)) by (unfold file_of; rewrite map_map; f_equal; apply map_ext, atom_nl). rewrite A. reflexivity. }
  split; [constructor|]. split; [apply one_word, primcoord|]. split.
  { exists (fmt_d (Z.of_nat (length atoms))), [str "1"]. split.
    - apply spaced_pad; [apply word_fmt_d|reflexivity|]. apply spaced_blank. change (§" 1") with (§" " ++ §"1"). apply spaced_blank. apply (one_word "1"). split; [discriminate|repeat constructor].
    - cbn [f_atoms written_field]. rewrite map_length. unfold integer. apply to_int_word. }
  split.
  { cbn [f_atoms written_field]. clear -Fa. induction Fa as [|a l W _ IH]; cbn [map]; constructor; [apply atom_ok, W|exact IH]. }
  split.
  { constructor; [|constructor; [|constructor]].
    - apply (not_keyword _ _ (str "BEGIN_BLOCK_DATAGRID_3D")); [apply one_word; split; [discriminate|repeat constructor]|discriminate].
    - apply (not_keyword _ _ (str "3D_field")); [apply one_word; split; [discriminate|repeat constructor]|discriminate]. }
  split; [apply one_word, datagrid|]. split.
  { do 3 eexists. split.
    - apply spaced_pad; [apply word_fmt_d|reflexivity|]. apply spaced_blank. apply spaced_pad; [apply word_fmt_d|reflexivity|]. apply spaced_blank. rewrite <- (app_nil_r (pad 5 _)). apply spaced_pad; [apply word_fmt_d|exact Logic.I|exact spaced_end].
    - unfold integer. rewrite !to_int_word. repeat split. }
  split; [apply three_ok; lia|]. split; [apply three_ok; lia|]. split; [apply three_ok; lia|]. split; [apply three_ok; lia|]. split; [exact E2|]. split; [|constructor; [apply (single_str "END_DATAGRID_3D"); reflexivity|constructor; [apply (single_str "END_BLOCK_DATAGRID_3D"); reflexivity|constructor]]].
  rewrite E3. cbn [f_values written_field]. apply printed_values.
Qed.
