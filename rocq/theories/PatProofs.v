From Coq Require Import Lia.
From Verif Require Import Text TextProofs NmlProofs GridModel GridSpec GridProofs GridProofs2 XsfProofs WsvProofs ProjReadProofs XmlModel XmlProofs PatModel PatSpec.
From Verif Require Import GridProofs.
From Coq Require Import List.
Import ListNotations.
Local Open Scope nat_scope.

Lemma exists_last_or {A} (l : list A) : l = [] \/ exists l' x, l = l' ++ [x].
Proof. destruct l as [|x l] using rev_ind; [left; reflexivity|right; exists l, x; reflexivity]. Qed.
Lemma silent_no s l : (exists p, str s = p ++ [blank]) -> silent s l -> ProjModel.contains (str s) (nl l) = false.
Proof.
  intros (p & E) [_ N]. destruct (ProjModel.contains (str s) (nl l)) eqn:C; [|reflexivity]. exfalso. apply contains_spec in C as (a & b & C). unfold nl in C. destruct (exists_last_or b) as [->|(b' & c & ->)].
  - rewrite app_nil_r, E, app_assoc in C. apply app_inj_tail in C as [_ C]. discriminate.
  - rewrite !app_assoc in C. apply app_inj_tail in C as [C _]. apply N. exists a, b'. rewrite C, <- app_assoc. reflexivity.
Qed.
Lemma occurs_yes s l : occurs s l -> ProjModel.contains (str s) (nl l) = true.
Proof. intros (a & b & ->). apply contains_spec. exists a, (b ++ [newline]). unfold nl. rewrite <- !app_assoc. reflexivity. Qed.
Lemma goto_tag s pre tag rest : (exists p, str s = p ++ [blank]) -> Forall (silent s) pre -> occurs s tag -> snd (goto (str s) (map nl pre ++ nl tag :: rest)) = rest.
Proof.
  intros E F O. rewrite goto_skip, goto_here; [reflexivity|apply occurs_yes, O|]. apply Forall_map. eapply Forall_impl; [|exact F]. intros l. apply silent_no, E.
Qed.
Lemma goto_none s pre : (exists p, str s = p ++ [blank]) -> Forall (silent s) pre -> goto (str s) (map nl pre) = (None, []).
Proof.
  intros E F. rewrite <- (app_nil_r (map nl pre)), goto_skip; [reflexivity|]. apply Forall_map. eapply Forall_impl; [|exact F]. intros l. apply silent_no, E.
Qed.
Lemma tag_1 : exists p, str "<NUMBER_IRR_REP " = p ++ [blank]. Proof. exists (str "<NUMBER_IRR_REP"). reflexivity. Qed.
Lemma tag_2 : exists p, str "<DISPLACEMENT_PATTERN " = p ++ [blank]. Proof. exists (str "<DISPLACEMENT_PATTERN"). reflexivity. Qed.

Lemma float_word g w r x : spaces g -> word w -> spaces r -> real w x -> to_float (g ++ w ++ r) = Ok x.
Proof.
  intros G W G' J. unfold real, to_float in *. rewrite strip_word by assumption. replace (strip w) with w in J; [exact J|]. symmetry. rewrite <- (app_nil_r w) at 1. apply (strip_word [] w []); [constructor|exact W|constructor].
Qed.
Lemma no_comma g : gap g -> Forall (fun d => d <> ","%char) g.
Proof. intros G. eapply Forall_impl; [|exact (gap_spaces _ G)]. cbv beta. intros c H ->. discriminate. Qed.
Lemma element_read x l : complex_line x l -> pat_element (nl l) = Ok x.
Proof.
  intros (_ & g & w & g' & more & -> & G & W & N & G' & J & M). unfold pat_element, nl, split_at. rewrite <- !app_assoc.
  assert (Nw : Forall (fun d => d <> ","%char) w) by (apply Forall_forall; intros c I ->; exact (N I)).
  rewrite split_from_no by exact (no_comma _ G). rewrite split_from_no by exact Nw. rewrite split_from_no by exact (no_comma _ G'). cbn [app]. destruct M as [->|(t & ->)].
  - cbn [app split_from hd]. replace (Ascii.eqb newline ",") with false by reflexivity. cbn [hd]. rewrite <- !app_assoc. apply float_word; [apply gap_spaces, G|exact W|apply Forall_app; split; [apply gap_spaces, G'|repeat constructor]|exact J].
  - cbn [app split_from]. rewrite Ascii.eqb_refl. cbn [hd]. rewrite <- !app_assoc. apply float_word; [apply gap_spaces, G|exact W|apply gap_spaces, G'|exact J].
Qed.
Lemma row_read row : forall lx rest, Forall2 complex_line row lx -> pat_row (length row) (map nl lx ++ rest) = Ok (row, rest).
Proof.
  induction row as [|x row IH]; intros lx rest H; inversion H as [|? l ? lx' H1 H2]; subst; [reflexivity|]. cbn [length pat_row map app next bind]. rewrite (element_read _ _ H1). cbn [bind]. rewrite (IH _ _ H2). reflexivity.
Qed.
Lemma rows_read nrep rows : forall lss rest more, Forall2 pattern_lines rows lss -> Forall (fun row => length row = nrep) rows ->
  pat_rows (length rows + more) nrep (map nl (concat lss ++ rest)) = do rs <- pat_rows more nrep (map nl rest) ;; Ok (rows ++ rs).
Proof.
  induction rows as [|row rows IH]; intros lss rest more H L; inversion H as [|? ls ? lss' H1 H2]; subst.
  - cbn [length Nat.add concat app]. destruct (pat_rows more nrep (map nl rest)); reflexivity.
  - destruct H1 as (pre & tag & lx & -> & F & _ & O & X). inversion L as [|? ? L1 L2]; subst. cbn [length Nat.add pat_rows concat]. rewrite <- !app_assoc, map_app. cbn [app map]. rewrite (goto_tag _ _ _ _ tag_2 F O). cbv zeta.
    rewrite map_app, (row_read _ _ _ X). cbn [bind]. rewrite (IH _ _ _ H2 L2). destruct (pat_rows more (length row) (map nl rest)); reflexivity.
Qed.
Lemma pattern_single rows lss : Forall2 pattern_lines rows lss -> Forall single (concat lss).
Proof.
  induction 1 as [|row ls rows lss H _ IH]; [constructor|]. cbn [concat]. apply Forall_app. split; [|exact IH]. destruct H as (pre & tag & lx & -> & F & T & _ & X).
  apply Forall_app. split; [eapply Forall_impl; [|exact F]; intros l [J _]; exact J|]. constructor; [exact T|]. clear -X. induction X as [|x l ? ? [J _] _ IH]; constructor; assumption.
Qed.
Lemma file_read nrep more count rows rest f : patterns_file count rows rest f -> Forall (fun row => length row = nrep) rows -> nrep = length rows + more ->
  pat_file nrep f = do rs <- pat_rows more nrep (map nl rest) ;; Ok (rows ++ rs, negb (Z.of_nat nrep =? count)%Z).
Proof.
  intros (pre & tag & l & w & lss & -> & F & T & O & S0 & J & H & R) L E. unfold pat_file. rewrite lines_nl.
  - rewrite map_app. cbn [map]. rewrite (goto_tag _ _ _ _ tag_1 F O). cbv zeta. cbn [next bind]. rewrite (count_read _ _ _ S0 J). cbn [bind]. rewrite E at 1. rewrite (rows_read _ _ _ _ _ H L). destruct (pat_rows more nrep (map nl rest)); reflexivity.
  - intros t I1. apply in_app_or in I1 as [I1|[<-|[<-|I1]]]; [exact (proj1 (proj1 (Forall_forall _ _) F _ I1))|exact T|exact (spaced_single _ _ S0)|]. apply in_app_or in I1 as [I1|I1]; [exact (proj1 (Forall_forall _ _) (pattern_single _ _ H) _ I1)|exact (proj1 (Forall_forall _ _) R _ I1)].
Qed.
