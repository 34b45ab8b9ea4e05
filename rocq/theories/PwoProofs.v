(** Proofs about the output of pw.x: words in lines. *)
From Coq Require Import Lia.
From Verif Require Import Common CommonProofs Text TextProofs QuadProofs NmlModel XmlProofs PwoModel PwoSpec.
From Verif Require ProjModel QeModel WinProofs.
Local Open Scope nat_scope.

(** ** Parts of texts *)
Lemma prefix_app p : forall x b, QeModel.prefix x p = false -> QeModel.prefix p (x ++ b) = QeModel.prefix p x.
Proof.
  induction p as [|c p IH]; intros [|y x] b H; try reflexivity; try discriminate H.
  cbn [QeModel.prefix app] in *. rewrite Ascii.eqb_sym in H. destruct (Ascii.eqb c y); cbn [andb] in *; [apply IH; exact H|reflexivity].
Qed.
Lemma prefix_same p : forall t, ProjModel.prefix p t = QeModel.prefix p t.
Proof. induction p as [|c p IH]; intros [|d t]; try reflexivity; cbn; rewrite ?IH; reflexivity. Qed.

(** No end of [a] is the beginning of [p]. *)
Fixpoint boundary (p a : text) : bool := match a with [] => true | _ :: a' => negb (QeModel.prefix a p) && boundary p a' end.
Lemma contains_cut p a b : p <> [] -> boundary p a = true -> ProjModel.contains p (a ++ b) = ProjModel.contains p a || ProjModel.contains p b.
Proof.
  intros N. induction a as [|c a IH]; intros H.
  - cbn. destruct p; [contradiction|reflexivity].
  - cbn [boundary] in H. apply andb_prop in H. destruct H as [H1 H2]. apply Bool.negb_true_iff in H1.
    cbn [ProjModel.contains app]. rewrite (IH H2), !prefix_same, (prefix_app p (c :: a) b H1 : QeModel.prefix p (c :: a ++ b) = _), Bool.orb_assoc. reflexivity.
Qed.

(** Numbers and blanks *)
Definition numeric (c : ascii) : Prop := is_space c = true \/ c = "-"%char \/ c = "."%char \/ exists d, (0 <= d < 10)%Z /\ c = chr d.
Definition letter (p : text) : bool :=
  match p with [] => false | c :: _ => negb (is_space c || existsb (Ascii.eqb c) (§"-.0123456789")) end.
Lemma letter_not p c : letter (c :: p) = true -> ~ numeric c.
Proof.
  cbn [letter]. intros H. apply Bool.negb_true_iff, Bool.orb_false_iff in H. destruct H as [H1 H2]. intros [N|[N|[N|(d & D & N)]]].
  - congruence.
  - subst c. discriminate H2.
  - subst c. discriminate H2.
  - subst c. dig D; discriminate H2.
Qed.
Lemma contains_skip p w t : letter p = true -> Forall numeric w -> ProjModel.contains p (w ++ t) = ProjModel.contains p t.
Proof.
  intros L N. induction N as [|c w C N IH]; [reflexivity|]. destruct p as [|d p]; [discriminate L|].
  cbn [app ProjModel.contains ProjModel.prefix]. destruct (Ascii.eqb d c) eqn:E.
  - apply Ascii.eqb_eq in E. subst c. exfalso. apply (letter_not p d L C).
  - cbn [andb orb]. exact IH.
Qed.
Lemma numeric_F w d x : Forall numeric (F w d x).
Proof.
  unfold F, pad. apply Forall_app. split.
  - induction (w - length (fmt_f d x)); constructor; [left; reflexivity|exact IHn].
  - apply fmt_f_all; [intros; right; right; right; eauto|right; left; reflexivity|right; right; left; reflexivity].
Qed.
Lemma numeric_I w z : Forall numeric (I w z).
Proof.
  unfold I, pad. apply Forall_app. split.
  - induction (w - length (fmt_d z)); constructor; [left; reflexivity|exact IHn].
  - apply fmt_d_all; [intros; right; right; right; eauto|right; left; reflexivity].
Qed.
Lemma contains_F p w d x t : letter p = true -> ProjModel.contains p (F w d x ++ t) = ProjModel.contains p t.
Proof. intros L. apply contains_skip; [exact L|apply numeric_F]. Qed.
Lemma contains_I p w z t : letter p = true -> ProjModel.contains p (I w z ++ t) = ProjModel.contains p t.
Proof. intros L. apply contains_skip; [exact L|apply numeric_I]. Qed.
Lemma contains_Fs p w d xs t : letter p = true -> ProjModel.contains p (concat (map (F w d) xs) ++ t) = ProjModel.contains p t.
Proof. intros L. induction xs as [|x xs IH]; [reflexivity|]. cbn [map concat]. rewrite <- app_assoc, contains_F by exact L. exact IH. Qed.

(** ** What is found in a line *)
Definition nl (t : text) : text := t ++ [newline].
Definition phrases : list string :=
  ["number of electrons"; "number of Kohn-Sham states"; "number of k points"; "the Fermi energy is";
   "highest occupied, lowest unoccupied level"; "highest occupied level"; "End of self-consistent calculation"]%string.
Definition beginnings : list string := ["!"; "     number of k points="; "     number of Kohn-Sham"; "     End of"]%string.
Definition signature (l : text) : list bool * list bool := (map (fun s => has s l) phrases, map (fun s => starts s l) beginnings).

Ltac cut := rewrite contains_cut by (first [discriminate|reflexivity]).
Ltac hastac := unfold has; rewrite <- ?app_assoc; repeat first [rewrite contains_F by reflexivity|rewrite contains_I by reflexivity|rewrite contains_Fs by reflexivity|cut]; reflexivity.
Lemma prefix_shorter p a b : length p <= length a -> QeModel.prefix p (a ++ b) = QeModel.prefix p a.
Proof. revert a. induction p as [|c p IH]; intros [|d a] H; try reflexivity; cbn [length] in H; try lia. cbn [QeModel.prefix app]. rewrite IH by lia. reflexivity. Qed.
Ltac startstac := unfold starts; rewrite <- ?app_assoc; first [rewrite prefix_app by reflexivity; reflexivity|rewrite prefix_shorter by (vm_compute; lia); reflexivity|reflexivity].
Ltac sigtac := unfold signature, phrases, beginnings; cbn [map]; f_equal; repeat (apply f_equal2; [first [hastac|startstac]|]); try reflexivity.

Ltac joined a b := rewrite (app_assoc (str a)); change (str a ++ §" smearing, width (Ry)=") with (str b).
Section Lines.
  Local Opaque F I.
  Lemma sig_electrons x : signature (nl (electrons_line x)) = ([true; false; false; false; false; false; false], [false; false; false; false]).
  Proof. unfold nl, electrons_line. sigtac. Qed.
  Lemma sig_states x : signature (nl (states_line x)) = ([false; true; false; false; false; false; false], [false; false; true; false]).
  Proof. unfold nl, states_line. sigtac. Qed.
  Lemma sig_points n s : (forall name width, s = Some (name, width) -> In name names) ->
    signature (nl (points_line n s)) = ([false; false; true; false; false; false; false], [false; true; false; false]).
  Proof.
    intros H. unfold nl, points_line. destruct s as [[name width]|].
    - specialize (H _ _ eq_refl). cbn [In names] in H.
      destruct H as [<-|[<-|[<-|[<-|[]]]]]; [joined "gaussian"%string "gaussian smearing, width (Ry)="%string|joined "Methfessel-Paxton"%string "Methfessel-Paxton smearing, width (Ry)="%string
        |joined "Marzari-Vanderbilt"%string "Marzari-Vanderbilt smearing, width (Ry)="%string|joined "Fermi-Dirac"%string "Fermi-Dirac smearing, width (Ry)="%string]; sigtac.
    - sigtac.
  Qed.
  Lemma sig_point n k : signature (nl (point_line n k)) = ([false; false; false; false; false; false; false], [false; false; false; false]).
  Proof. destruct k as [[[x y] z] w]. unfold nl, point_line. sigtac. Qed.
  Lemma sig_end : signature (nl end_line) = ([false; false; false; false; false; false; true], [false; false; false; true]).
  Proof. reflexivity. Qed.
  Lemma sig_total x : signature (nl (total_line x)) = ([false; false; false; false; false; false; false], [true; false; false; false]).
  Proof. unfold nl, total_line. sigtac. Qed.
  Lemma sig_level l : signature (nl (level_line l)) = (match l with
    | Fermi _ => [false; false; false; true; false; false; false]
    | Highest _ => [false; false; false; false; false; true; false]
    | Highest_lowest _ _ => [false; false; false; false; true; false; false] end, [false; false; false; false]).
  Proof. destruct l; unfold nl, level_line; sigtac. Qed.
  Lemma sig_empty : signature (nl []) = ([false; false; false; false; false; false; false], [false; false; false; false]).
  Proof. reflexivity. Qed.
End Lines.

Lemma numeric_line e : Forall numeric (nl (energy_line e)).
Proof.
  unfold nl, energy_line. rewrite !Forall_app. split; [split|].
  - repeat constructor.
  - induction e as [|x e IH]; [constructor|]. cbn [map concat]. apply Forall_app. split; [apply numeric_F|exact IH].
  - repeat constructor.
Qed.
Lemma starts_numeric s t : existsb (fun c => letter [c]) (str s) = true -> Forall numeric t -> starts s t = false.
Proof.
  intros L N. unfold starts. destruct (QeModel.prefix (str s) t) eqn:E; [|reflexivity]. exfalso. apply WinProofs.prefix_iff in E. destruct E as (u & ->).
  apply Forall_app in N. destruct N as [N _]. apply existsb_exists in L. destruct L as (c & J & L). rewrite Forall_forall in N. apply (letter_not [] c L), N, J.
Qed.
Lemma sig_energy e : signature (nl (energy_line e)) = ([false; false; false; false; false; false; false], [false; false; false; false]).
Proof.
  unfold signature, phrases, beginnings. cbn [map].
  rewrite !starts_numeric by (reflexivity || apply numeric_line).
  f_equal. unfold nl, energy_line. repeat (apply f_equal2; [hastac|]). reflexivity.
Qed.

(** Other lines *)
Lemma quiet_has t k s : quiet t -> In k keywords -> (exists u, str s = str k ++ u) -> ~ In newline (str s) -> has s (nl t) = false.
Proof.
  intros [Q1 Q2] K (u & E) N. unfold has. destruct (ProjModel.contains (str s) (nl t)) eqn:C; [|reflexivity]. exfalso.
  apply WinProofs.contains_iff in C. destruct C as (x & y & C). unfold nl in C. destruct y as [|c y] using rev_ind.
  - rewrite app_nil_r in C. destruct (str s) as [|c w] eqn:W using rev_ind.
    + destruct (str k) as [|c0 k0] eqn:Ek; [|discriminate E]. apply (Q2 k K). rewrite Ek. exists [], t. reflexivity.
    + rewrite app_assoc in C. apply app_inj_tail in C. destruct C as [_ <-]. apply N. apply in_or_app. right. left. reflexivity.
  - rewrite !app_assoc in C. apply app_inj_tail in C. destruct C as [C _]. apply (Q2 k K). exists x, (u ++ y). rewrite C, E, <- !app_assoc. reflexivity.
Qed.
Lemma quiet_starts t k s : quiet t -> In k keywords -> (exists a u, str s = a ++ str k ++ u) -> ~ In newline (str s) -> starts s (nl t) = false.
Proof.
  intros [Q1 Q2] K (a & u & E) N. unfold starts. destruct (QeModel.prefix (str s) (nl t)) eqn:C; [|reflexivity]. exfalso.
  apply WinProofs.prefix_iff in C. destruct C as (y & C). unfold nl in C. destruct y as [|c y] using rev_ind.
  - rewrite app_nil_r in C. apply N. rewrite <- C. apply in_or_app. right. left. reflexivity.
  - rewrite app_assoc in C. apply app_inj_tail in C. destruct C as [C _]. apply (Q2 k K). exists a, (u ++ y). rewrite C, E, <- !app_assoc. reflexivity.
Qed.
Ltac nonl := let H := fresh in intros H; repeat (destruct H as [H|H]; [discriminate H|]); exact H.
Lemma sig_quiet t : quiet t -> signature (nl t) = ([false; false; false; false; false; false; false], [false; false; false; false]).
Proof.
  intros Q. unfold signature, phrases, beginnings. cbn [map].
  rewrite (quiet_has t "number of electrons" _ Q) by first [solve [cbn; tauto]|solve [exists []; reflexivity]|nonl].
  rewrite (quiet_has t "number of Kohn-Sham" "number of Kohn-Sham states" Q) by first [solve [cbn; tauto]|solve [exists §" states"; reflexivity]|nonl].
  rewrite (quiet_has t "number of k points" _ Q) by first [solve [cbn; tauto]|solve [exists []; reflexivity]|nonl].
  rewrite (quiet_has t "the Fermi energy is" _ Q) by first [solve [cbn; tauto]|solve [exists []; reflexivity]|nonl].
  rewrite (quiet_has t "highest occupied" "highest occupied, lowest unoccupied level" Q) by first [solve [cbn; tauto]|solve [exists §", lowest unoccupied level"; reflexivity]|nonl].
  rewrite (quiet_has t "highest occupied" "highest occupied level" Q) by first [solve [cbn; tauto]|solve [exists §" level"; reflexivity]|nonl].
  rewrite (quiet_has t "End of" "End of self-consistent calculation" Q) by first [solve [cbn; tauto]|solve [exists §" self-consistent calculation"; reflexivity]|nonl].
  rewrite (quiet_starts t "!" _ Q) by first [solve [cbn; tauto]|solve [exists [], []; reflexivity]|nonl].
  rewrite (quiet_starts t "number of k points" _ Q) by first [solve [cbn; tauto]|solve [exists §"     ", §"="; reflexivity]|nonl].
  rewrite (quiet_starts t "number of Kohn-Sham" _ Q) by first [solve [cbn; tauto]|solve [exists §"     ", []; reflexivity]|nonl].
  rewrite (quiet_starts t "End of" _ Q) by first [solve [cbn; tauto]|solve [exists §"     ", []; reflexivity]|nonl].
  reflexivity.
Qed.

(** ** Words *)
Lemma split_cut a b : starts_space b -> str_split (a ++ b) = str_split a ++ str_split b.
Proof.
  unfold str_split. intros H. generalize (@nil ascii) at 1 2. induction a as [|c a IH]; intros cur.
  - cbn [app words_from]. destruct b as [|c b]; cbn [words_from emit app].
    + rewrite app_nil_r. reflexivity.
    + cbn in H. rewrite H. reflexivity.
  - cbn [app words_from]. destruct (is_space c); [rewrite <- app_assoc|]; rewrite IH; reflexivity.
Qed.
Lemma split_after a b : is_space (last a blank) = true -> str_split (a ++ b) = str_split a ++ str_split b.
Proof.
  destruct a as [|c a] using rev_ind; [reflexivity|]. rewrite last_last. intros H. rewrite <- app_assoc. cbn [app].
  rewrite (split_cut a (c :: b)) by exact H. rewrite (split_cut a [c]) by exact H. rewrite <- app_assoc. f_equal.
  unfold str_split. cbn [words_from]. rewrite H. reflexivity.
Qed.
Lemma starts_F w d x rest : fits w d x -> starts_space (F w d x ++ rest).
Proof. apply pad_starts. Qed.
Lemma starts_I w z rest : length (fmt_d z) < w -> starts_space (I w z ++ rest).
Proof. apply pad_starts. Qed.
Lemma split_F w d x rest : starts_space rest -> str_split (F w d x ++ rest) = fmt_f d x :: str_split rest.
Proof. apply split_pad, word_fmt_f. Qed.
Lemma split_I w z rest : starts_space rest -> str_split (I w z ++ rest) = fmt_d z :: str_split rest.
Proof. apply split_pad, word_fmt_d. Qed.
Lemma split_nl : str_split [newline] = [].
Proof. reflexivity. Qed.
Lemma nl_starts : starts_space [newline].
Proof. reflexivity. Qed.

Lemma words_electrons x : exists a, str_split (nl (electrons_line x)) = a ++ [fmt_f 2 x].
Proof. exists (str_split §"     number of electrons       = "). unfold nl, electrons_line. rewrite <- app_assoc, split_after, split_F by reflexivity. reflexivity. Qed.
Lemma words_states n : str_split (nl (states_line n)) = [§"number"; §"of"; §"Kohn-Sham"; §"states="; fmt_d (Z.of_nat n)].
Proof. unfold nl, states_line. rewrite <- app_assoc, split_after, split_I by reflexivity. reflexivity. Qed.
Lemma words_points n s : (Z.of_nat n < 10 ^ 5)%Z -> (forall name width, s = Some (name, width) -> In name names /\ fits 8 4 width) ->
  str_split (nl (points_line n s)) = [§"number"; §"of"; §"k"; §"points="; fmt_d (Z.of_nat n)] ++
    match s with Some (name, width) => [str name; §"smearing,"; §"width"; §"(Ry)="; fmt_f 4 width] | None => [] end.
Proof.
  intros H S. unfold nl, points_line. rewrite <- !app_assoc. rewrite split_cut.
  2: { apply starts_I. assert (L := fmt_d_length (Z.of_nat n) 4). lia. }
  destruct s as [[name width]|].
  - specialize (S _ _ eq_refl). destruct S as [J Fw]. rewrite <- !app_assoc, split_I by reflexivity.
    cbn [In names] in J. destruct J as [<-|[<-|[<-|[<-|[]]]]]; rewrite ?app_assoc, <- (app_assoc _ (F 8 4 width)), split_cut by (apply starts_F; exact Fw);
      rewrite split_F by reflexivity; reflexivity.
  - cbn [app]. rewrite split_I by reflexivity. reflexivity.
Qed.
Lemma words_level_fermi e : str_split (nl (level_line (Fermi e))) = [§"the"; §"Fermi"; §"energy"; §"is"; fmt_f 4 e; §"ev"].
Proof. unfold nl, level_line. rewrite <- !app_assoc, split_after, split_F by reflexivity. reflexivity. Qed.
Lemma words_level_highest e : str_split (nl (level_line (Highest e))) = [§"highest"; §"occupied"; §"level"; §"(ev):"; fmt_f 4 e].
Proof. unfold nl, level_line. rewrite <- !app_assoc, split_after, split_F by reflexivity. reflexivity. Qed.
Lemma words_level_both e e' : fits 10 4 e' -> str_split (nl (level_line (Highest_lowest e e'))) = [§"highest"; §"occupied,"; §"lowest"; §"unoccupied"; §"level"; §"(ev):"; fmt_f 4 e; fmt_f 4 e'].
Proof. intros H. unfold nl, level_line. rewrite <- !app_assoc, split_after by reflexivity. rewrite split_F by (apply starts_F, H). rewrite split_F by reflexivity. reflexivity. Qed.
Lemma words_total e : fits 17 8 e -> exists a, str_split (nl (total_line e)) = a ++ [fmt_f 8 e; §"Ry"].
Proof.
  intros H. exists (str_split §"!    total energy              ="). unfold nl, total_line. rewrite <- !app_assoc, split_cut by (apply starts_F, H). rewrite split_F by reflexivity. reflexivity.
Qed.
Lemma words_energy e : (forall x, In x e -> fits 9 4 x) -> str_split (nl (energy_line e)) = map (fmt_f 4) e.
Proof.
  intros H. unfold nl, energy_line. rewrite <- app_assoc, split_after by reflexivity. cbn [app]. change (str_split §"  ") with (@nil text). cbn [app].
  induction e as [|x e IH]; [reflexivity|]. cbn [map concat]. rewrite <- app_assoc, split_F.
  - f_equal. apply IH. intros y J. apply H. right. exact J.
  - destruct e as [|y e]; [reflexivity|]. cbn [map concat]. rewrite <- app_assoc. apply starts_F, H. right. left. reflexivity.
Qed.
Lemma word_more w s : word w -> solid s -> word (w ++ s).
Proof. intros [N S] T. split; [destruct w; [contradiction|discriminate]|apply Forall_app; split; assumption]. Qed.
Lemma words_point n x y z w : (Z.of_nat n < 10 ^ 4)%Z -> fits 12 7 x -> fits 12 7 y -> fits 12 7 z -> fits 12 7 w ->
  str_split (nl (point_line n (x, y, z, w))) = [§"k("; fmt_d (Z.of_nat n) ++ §")"; §"="; §"("; fmt_f 7 x; fmt_f 7 y; fmt_f 7 z ++ §"),"; §"wk"; §"="; fmt_f 7 w].
Proof.
  intros H X Y Z W. unfold nl, point_line. rewrite <- !app_assoc. rewrite split_cut.
  2: { apply starts_I. assert (L := fmt_d_length (Z.of_nat n) 3). lia. }
  unfold I at 1, pad. change §") = (" with (§")" ++ §" = ("). rewrite <- !app_assoc, (app_assoc (fmt_d _)), split_word.
  2: apply spaces_blank. 2: { apply word_more; [apply word_fmt_d|repeat constructor]. } 2: reflexivity.
  rewrite (split_cut §" = (") by (apply starts_F, X). rewrite split_F by (apply starts_F, Y). rewrite split_F by (apply starts_F, Z).
  unfold F at 1, pad. change §"), wk =" with (§")," ++ §" wk ="). rewrite <- !app_assoc, (app_assoc (fmt_f 7 z)), split_word.
  2: apply spaces_blank. 2: { apply word_more; [apply word_fmt_f|repeat constructor]. } 2: reflexivity.
  rewrite (split_cut §" wk =") by (apply starts_F, W). rewrite split_F by reflexivity. reflexivity.
Qed.
