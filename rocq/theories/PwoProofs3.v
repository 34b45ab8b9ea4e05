(** Proofs about the output of pw.x: complete files. *)
From Coq Require Import Lia.
From Verif Require Import Common CommonProofs Text TextProofs QuadProofs NmlModel XmlProofs PwoModel PwoSpec PwoProofs PwoProofs2.
From Verif Require ProjModel QeModel.
Local Open Scope nat_scope.

Definition calm (ls : list text) : Prop := Forall (fun l => signature l = nothing) ls.
Definition point_lines (r : run) : list text := map (fun x => point_line (fst x) (snd x)) (combine (seq 1 (length (points r))) (points r)).

Lemma in_newline t : ~ In newline t -> no_newline t.
Proof. intros H. apply Forall_forall. intros c J ->. exact (H J). Qed.
Lemma no_newline_F w d x : no_newline (F w d x).
Proof. apply no_newline_pad, no_newline_f. Qed.
Lemma no_newline_I w z : no_newline (I w z).
Proof. apply no_newline_pad, no_newline_d. Qed.
Lemma no_newline_str s : forallb (fun c => negb (Ascii.eqb c newline)) (str s) = true -> no_newline (str s).
Proof. intros H. rewrite forallb_forall in H. apply Forall_forall. intros c J E. specialize (H c J). subst c. discriminate H. Qed.
Ltac nonew := repeat first [apply no_newline_F|apply no_newline_I|apply no_newline_app|apply no_newline_str; reflexivity].

Section Run.
  Variable r : run.
  Hypothesis G : good r.

  Lemma quiet_of l t : In l [o0 r; o1 r; o2 r; [header r]; o3 r; map fst (bands r); o4 r; o5 r; o6 r] -> In t l -> quiet t.
  Proof.
    intros J K. apply (good_others r G). rewrite !in_app_iff. cbn [In]. rewrite !in_app_iff.
    cbn [In] in J. repeat (destruct J as [<-|J]; [cbn [In] in K; tauto|]). contradiction.
  Qed.
  Lemma calm_of l : In l [o0 r; o1 r; o2 r; [header r]; o3 r; map fst (bands r); o4 r; o5 r; o6 r] -> calm (map nl l).
  Proof. intros J. apply Forall_forall. intros t K. apply in_map_iff in K. destruct K as (u & <- & K). apply sig_quiet. eapply quiet_of; eassumption. Qed.
  Lemma calm_points : calm (map nl (point_lines r)).
  Proof. apply Forall_forall. intros t K. apply in_map_iff in K. destruct K as (u & <- & K). apply in_map_iff in K. destruct K as (x & <- & K). apply sig_point. Qed.
  Lemma calm_blocks : calm (flat_map block_lines (bands r)).
  Proof.
    apply Forall_forall. intros t K. apply in_flat_map in K. destruct K as ([u e] & J & K). unfold block_lines in K. cbn [fst snd block map app In] in K.
    destruct K as [<-|[<-|[<-|K]]]; [apply sig_empty| |apply sig_empty|].
    - apply sig_quiet. apply (quiet_of (map fst (bands r))); [cbn; tauto|]. apply in_map_iff. exists (u, e). split; [reflexivity|exact J].
    - apply in_map_iff in K. destruct K as (l & <- & K). unfold band_lines in K. apply in_map_iff in K. destruct K as (c & <- & K). apply sig_energy.
  Qed.

  Lemma line_ok t : In t (output r) -> no_newline t.
  Proof.
    assert (Q : forall l t, In l [o0 r; o1 r; o2 r; [header r]; o3 r; map fst (bands r); o4 r; o5 r; o6 r] -> In t l -> no_newline t)
      by (intros l u J K; apply in_newline; apply (quiet_of l u J K)).
    unfold output. rewrite !in_app_iff. cbn [In].
    intros [H|[[<-|[]]|[H|[[<-|[]]|[H|[[<-|[<-|[]]]|[H|[H|[[<-|[]]|[H|[H|[[<-|[]]|[H|[[<-|[]]|H]]]]]]]]]]]]]].
    - apply (Q (o0 r)); [cbn; tauto|exact H].
    - unfold electrons_line. nonew.
    - apply (Q (o1 r)); [cbn; tauto|exact H].
    - unfold states_line. nonew.
    - apply (Q (o2 r)); [cbn; tauto|exact H].
    - unfold points_line. destruct (smearing r) as [[name width]|] eqn:S; [|nonew; constructor].
      destruct (good_smearing r G _ _ S) as [N _]. nonew. cbn [In names] in N. destruct N as [<-|[<-|[<-|[<-|[]]]]]; apply no_newline_str; reflexivity.
    - apply (Q [header r]); [cbn; tauto|left; reflexivity].
    - apply in_map_iff in H. destruct H as ([n [[[x y] z] w]] & <- & H). unfold point_line. cbn [fst snd]. nonew.
    - apply (Q (o3 r)); [cbn; tauto|exact H].
    - apply no_newline_str. reflexivity.
    - apply in_flat_map in H. destruct H as ([u e] & J & H). cbn [fst snd block app In] in H. destruct H as [<-|[<-|[<-|H]]]; [constructor| |constructor|].
      + apply (Q (map fst (bands r))); [cbn; tauto|]. apply in_map_iff. exists (u, e). split; [reflexivity|exact J].
      + unfold band_lines in H. apply in_map_iff in H. destruct H as (c & <- & H). unfold energy_line. nonew.
        induction c as [|x c IH]; [constructor|]. cbn [map concat]. apply no_newline_app; [apply no_newline_F|]. clear -c. induction c as [|x c IH]; [constructor|]. cbn [map concat]. apply no_newline_app; [apply no_newline_F|exact IH].
    - apply (Q (o4 r)); [cbn; tauto|exact H].
    - unfold level_line. destruct (fermi r); nonew.
    - apply (Q (o5 r)); [cbn; tauto|exact H].
    - unfold total_line. nonew.
    - apply (Q (o6 r)); [cbn; tauto|exact H].
  Qed.

  Definition all_lines : list text :=
    map nl (o0 r) ++ nl (electrons_line (electrons r)) :: map nl (o1 r) ++ nl (states_line (nbnd r)) :: map nl (o2 r) ++
    nl (points_line (length (points r)) (smearing r)) :: nl (header r) :: map nl (point_lines r) ++ map nl (o3 r) ++
    nl end_line :: flat_map block_lines (bands r) ++ map nl (o4 r) ++ nl (level_line (fermi r)) :: map nl (o5 r) ++ nl (total_line (total r)) :: map nl (o6 r).
  Lemma map_flat bs : map nl (flat_map (fun b => block (fst b) (snd b)) bs) = flat_map block_lines bs.
  Proof. induction bs as [|b bs IH]; [reflexivity|]. cbn [flat_map]. rewrite map_app, IH. reflexivity. Qed.
  Lemma lines_output : lines (output_file r) = all_lines.
  Proof.
    unfold output_file. rewrite <- (app_nil_r (concat _)), lines_concat.
    - cbn [lines lines_from emit]. change (lines []) with (@nil text). rewrite app_nil_r. change (map (fun l => l ++ [newline]) (output r)) with (map nl (output r)).
      unfold output, all_lines. rewrite !map_app, map_flat. cbn [map app]. reflexivity.
    - intros t J. apply in_map_iff in J. destruct J as (l & <- & J). exists l. split; [reflexivity|apply line_ok, J].
  Qed.

  Ltac calms := first [apply calm_points|apply calm_blocks|apply calm_of; cbn; tauto].

  (** ** read_Fermi_level *)
  Lemma calm_levels ls : calm ls -> Forall no_level ls.
  Proof. intros H. eapply Forall_impl; [|exact H]. intros l E. cbn beta in E. unfold nothing in E. apply sig_all in E. destruct E as (_ & _ & _ & E1 & _ & E2 & _). split; [exact E1|exact E2]. Qed.
  Lemma fermi_read : read_Fermi_level (output_file r) = Ok (match fermi r with Fermi e => Some (rounded 4 e) | Highest e => Some (rounded 4 e) | Highest_lowest _ _ => None end).
  Proof.
    unfold read_Fermi_level. rewrite lines_output. unfold all_lines.
    rewrite fermi_all by (apply calm_levels; calms).
    rewrite (fermi_none _ _ _ _ _ (sig_electrons _)) by reflexivity.
    rewrite fermi_all by (apply calm_levels; calms).
    rewrite (fermi_none _ _ _ _ _ (sig_states _)) by reflexivity.
    rewrite fermi_all by (apply calm_levels; calms).
    rewrite (fermi_none _ _ _ _ _ (sig_points _ _ (fun n w E => proj1 (good_smearing r G n w E)))) by reflexivity.
    assert (Ch : signature (nl (header r)) = nothing) by (assert (C := calm_of [header r] ltac:(cbn; tauto)); apply (Forall_inv C)).
    rewrite (fermi_skip _ _ _ Ch).
    rewrite fermi_all by (apply calm_levels; calms). rewrite fermi_all by (apply calm_levels; calms).
    rewrite (fermi_none _ _ _ _ _ sig_end) by reflexivity.
    rewrite fermi_all by (apply calm_levels; calms). rewrite fermi_all by (apply calm_levels; calms).
    assert (R : forall x, fermi_level x (map nl (o5 r) ++ nl (total_line (total r)) :: map nl (o6 r)) = Ok x).
    { intros x. rewrite fermi_all by (apply calm_levels; calms). rewrite (fermi_none _ _ _ _ _ (sig_total _)) by reflexivity.
      rewrite <- (app_nil_r (map nl (o6 r))), fermi_all by (apply calm_levels; calms). reflexivity. }
    assert (S := sig_level (fermi r)). destruct (fermi r) as [e|e|e e']; apply sig_all in S; destruct S as (_ & _ & _ & S1 & _ & S2 & _); cbn [fermi_level]; rewrite S1.
    - rewrite words_level_fermi. unfold back, item. cbn [rev app nth_error bind]. rewrite to_float_fmt by lia. apply R.
    - rewrite S2, words_level_highest. unfold back, item. cbn [rev app nth_error bind]. rewrite to_float_fmt by lia. apply R.
    - rewrite S2. apply R.
  Qed.

  (** ** read_pwo *)
  Variable Ry : Q.
  Definition levels : list (list Q) := map (fun b => map (rounded 4) (snd b)) (bands r).
  Definition reference : option Q :=
    match fermi r with Fermi e => Some (rounded 4 e) | Highest _ => None | Highest_lowest e e' => Some ((rounded 4 e + (rounded 4 e' + 0)) / 2)%Q end.
  Lemma loop_read : loop Ry (Pwo None None None None None None false) all_lines =
    Ok (Pwo (Some (rounded 2 (electrons r))) (Some (Z.of_nat (nbnd r))) (Some (Z.of_nat (length (bands r)))) reference (Some (rounded 8 (total r) * Ry)%Q) (Some levels) true).
  Proof.
    unfold all_lines. rewrite loop_skips by calms. rewrite loop_electrons, loop_skips by calms. rewrite loop_states, loop_skips by calms.
    rewrite loop_points by first [apply (good_count r G)|apply (good_smearing r G)].
    assert (Ch : signature (nl (header r)) = nothing) by (assert (C := calm_of [header r] ltac:(cbn; tauto)); apply (Forall_inv C)).
    rewrite (loop_skip _ _ _ _ Ch). rewrite loop_skips by calms. rewrite loop_skips by calms.
    rewrite <- (good_number r G), loop_end by apply (good_bands r G). rewrite loop_skips by calms.
    assert (R : forall Ne Ns Nk eF E e given, loop Ry (Pwo Ne Ns Nk eF E e given) (map nl (o5 r) ++ nl (total_line (total r)) :: map nl (o6 r)) = Ok (Pwo Ne Ns Nk eF (Some (rounded 8 (total r) * Ry)%Q) e given)).
    { intros. rewrite loop_skips by calms. rewrite loop_total by apply (good_total r G). rewrite <- (app_nil_r (map nl (o6 r))), loop_skips by calms. reflexivity. }
    assert (L := good_level r G). unfold reference. destruct (fermi r) as [e|e|e e'].
    - rewrite loop_fermi. apply R.
    - rewrite loop_highest. apply R.
    - rewrite loop_both by exact L. apply R.
  Qed.
  Lemma levels_rectangular : rectangular levels = true.
  Proof.
    assert (B := good_bands r G). unfold levels. destruct (bands r) as [|[t e] bs]; [reflexivity|]. cbn [map rectangular snd]. apply forallb_forall. intros x J.
    apply in_map_iff in J. destruct J as ([t' e'] & <- & J). cbn [snd]. rewrite !map_length. apply Nat.eqb_eq.
    rewrite (proj1 (B t e (or_introl eq_refl))). apply (B t' e'). right. exact J.
  Qed.
  Lemma pwo_read : read_pwo Ry (output_file r) = match reference with
    | Some eF => Ok (Some (map (map (fun x => x - eF)%Q) levels), Some (rounded 2 (electrons r)), Some (rounded 8 (total r) * Ry)%Q)
    | None => Raise UnboundLocalError end.
  Proof.
    unfold read_pwo. rewrite lines_output. assert (L := loop_read). unfold loop in L. rewrite L. cbn [bind p_given p_eF p_e p_Ne p_E].
    destruct reference; [|reflexivity]. rewrite levels_rectangular. reflexivity.
  Qed.

  (** ** read_eps_nk_from_qe_pwo *)
  Lemma last_index_at s l B : starts s l = true -> Forall (fun l => starts s l = false) B -> forall A n found, last_index s n found (A ++ l :: B) = Some (n + length A).
  Proof.
    intros H HB. assert (K : forall B n found, Forall (fun l => starts s l = false) B -> last_index s n found B = found).
    { clear B HB. intros B n found HB. revert n. induction HB as [|x B Hx _ IH]; intros n; [reflexivity|]. cbn [last_index]. rewrite Hx. apply IH. }
    induction A as [|a A IH]; intros n found.
    - cbn [app last_index length]. rewrite H, K by exact HB. f_equal. lia.
    - cbn [app last_index length]. rewrite IH. f_equal. lia.
  Qed.
  Lemma item_at {A} (l1 l2 : list A) n : item (l1 ++ l2) (length l1 + n) = item l2 n.
  Proof. unfold item. rewrite nth_error_app2 by lia. replace (length l1 + n - length l1) with n by lia. reflexivity. Qed.
  Lemma item_in {A} (l1 l2 : list A) n x : nth_error l1 n = Some x -> item (l1 ++ l2) n = Ok x.
  Proof. intros H. unfold item. rewrite nth_error_app1 by (apply nth_error_Some; congruence). rewrite H. reflexivity. Qed.
  Lemma map_res_seq {A B} (g : nat -> res B) (h : A -> B) : forall l k, (forall i x, nth_error l i = Some x -> g (k + i) = Ok (h x)) -> map_res g (seq k (length l)) = Ok (map h l).
  Proof.
    induction l as [|x l IH]; intros k H; [reflexivity|]. cbn [length seq map_res map]. assert (H0 := H 0 x eq_refl). rewrite Nat.add_0_r in H0. rewrite H0. cbn [bind].
    rewrite (IH (S k)); [reflexivity|]. intros i y J. replace (S k + i) with (k + S i) by lia. apply H. exact J.
  Qed.
  Lemma item_flat {A B} (f : A -> list B) m rest : forall l i x j y, (forall x, In x l -> length (f x) = m) -> nth_error l i = Some x -> nth_error (f x) j = Some y -> item (flat_map f l ++ rest) (m * i + j) = Ok y.
  Proof.
    induction l as [|x0 l IH]; intros i x j y L H J; [destruct i; discriminate|]. cbn [flat_map]. rewrite <- app_assoc. destruct i as [|i].
    - injection H as ->. rewrite Nat.mul_0_r. apply item_in. exact J.
    - cbn [nth_error] in H. replace (m * S i + j) with (length (f x0) + (m * i + j)) by (rewrite (L x0 (or_introl eq_refl)); lia). rewrite item_at. eapply IH; [|exact H|exact J]. intros z K. apply L. right. exact K.
  Qed.
  Lemma calm_starts s ls : In s ["     number of k points="; "     number of Kohn-Sham"; "     End of"]%string -> calm ls -> Forall (fun l => starts s l = false) ls.
  Proof. intros J H. eapply Forall_impl; [|exact H]. intros l E. cbn beta in E. unfold nothing in E. apply sig_all in E. destruct E as (_ & _ & _ & _ & _ & _ & _ & _ & E1 & E2 & E3). cbn [In] in J. destruct J as [<-|[<-|[<-|[]]]]; [exact E1|exact E2|exact E3]. Qed.

  Lemma drop2_app t : drop2 (t ++ §"),") = t.
  Proof. unfold drop2. rewrite app_length. change (length §"),") with 2. replace (length t + 2 - 2) with (length t) by lia. rewrite firstn_app, firstn_all, Nat.sub_diag. cbn [firstn]. apply app_nil_r. Qed.
  Definition rounded_k (k : Q * Q * Q * Q) : Q * Q * Q * Q := let '(x, y, z, w) := k in (rounded 7 x, rounded 7 y, rounded 7 z, rounded 7 w).
  Lemma nth_error_combine_seq {A} : forall (l : list A) s i x, nth_error l i = Some x -> nth_error (combine (seq s (length l)) l) i = Some (s + i, x).
  Proof.
    induction l as [|y l IH]; intros s i x H; [destruct i; discriminate|]. cbn [length seq combine]. destruct i as [|i].
    - injection H as ->. rewrite Nat.add_0_r. reflexivity.
    - cbn [nth_error] in *. rewrite (IH (S s) i x H). f_equal. f_equal. lia.
  Qed.
  Lemma k_point_line n k : (Z.of_nat n < 10 ^ 4)%Z -> In k (points r) -> k_point (nl (point_line n k)) = Ok (rounded_k k).
  Proof.
    intros H J. destruct k as [[[x y] z] w]. destruct (good_points r G x y z w J) as (X & Y & Z & W). unfold k_point. rewrite words_point by assumption.
    rewrite drop2_app. rewrite !to_float_fmt by lia. reflexivity.
  Qed.

  Lemma k_energies_read rest ik b : nth_error (bands r) ik = Some b ->
    k_energies (flat_map block_lines (bands r) ++ rest) 3 ((nbnd r + 7) / 8) (nbnd r) ik = Ok (map (rounded 4) (snd b)).
  Proof.
    intros H. destruct b as [t e]. assert (J : In (t, e) (bands r)) by (eapply nth_error_In; exact H). destruct (good_bands r G t e J) as [L Fe]. cbn [snd].
    unfold k_energies.
    assert (Ls : seq 0 ((nbnd r + 7) / 8) = seq 0 (length (chunks e))) by (rewrite chunks_length, L; reflexivity). rewrite Ls.
    rewrite (map_res_seq _ (fun c => nl (energy_line c)) (chunks e) 0).
    - cbn [bind]. unfold assign_row.
      assert (E : flat_map str_split (map (fun c => nl (energy_line c)) (chunks e)) = map (fmt_f 4) e).
      { rewrite <- (map_concat_chunks (fmt_f 4) e). assert (K : forall cs, (forall c, In c cs -> In c (chunks e)) -> flat_map str_split (map (fun c => nl (energy_line c)) cs) = flat_map (map (fmt_f 4)) cs).
        { induction cs as [|c cs IH]; intros K; [reflexivity|]. cbn [map flat_map]. rewrite words_energy, IH; [reflexivity| |].
          - intros c' K'. apply K. right. exact K'.
          - intros x K'. apply Fe. eapply chunks_in; [apply K; left; reflexivity|exact K']. }
        apply K. intros c K'. exact K'. }
      rewrite E, read_words by lia. cbn [bind]. rewrite map_length, L, Nat.eqb_refl. reflexivity.
    - intros i c K. rewrite Nat.add_0_l.
      replace (3 + i + ((nbnd r + 7) / 8 + 3) * ik) with (((nbnd r + 7) / 8 + 3) * ik + (3 + i)) by ring.
      apply (item_flat block_lines ((nbnd r + 7) / 8 + 3) rest (bands r) ik (t, e)).
      + intros [t' e'] J'. unfold block_lines, block, band_lines. cbn [fst snd]. rewrite map_length, app_length, map_length, chunks_length, (proj1 (good_bands r G t' e' J')). cbn [length]. lia.
      + exact H.
      + unfold block_lines, block, band_lines. cbn [fst snd map app Nat.add nth_error]. rewrite map_map. apply map_nth_error with (f := fun c => nl (energy_line c)). exact K.
  Qed.
  Lemma k_energies_shift A ls start sl n ik : k_energies (A ++ ls) (length A + start) sl n ik = k_energies ls start sl n ik.
  Proof.
    unfold k_energies. f_equal. enough (E : forall l, map_res (fun istate => item (A ++ ls) (length A + start + istate + (sl + 3) * ik)) l = map_res (fun istate => item ls (start + istate + (sl + 3) * ik)) l) by apply E.
    induction l as [|i l IH]; [reflexivity|]. cbn [map_res]. rewrite IH. replace (length A + start + i + (sl + 3) * ik) with (length A + (start + i + (sl + 3) * ik)) by lia. rewrite item_at. reflexivity.
  Qed.
  Lemma eps_read known name width mu : smearing r = Some (name, width) -> known (str name) = true -> (Z.of_nat (length (points r)) < 10 ^ 4)%Z ->
    read_Fermi_level (output_file r) = Ok (Some mu) ->
    read_eps Ry known (output_file r) = Ok (levels, map rounded_k (points r), str name, mu, (rounded 4 width * Ry)%Q).
  Proof.
    intros S K N M. unfold read_eps. rewrite lines_output, M.
    assert (W := words_points (length (points r)) (smearing r) (good_count r G) (good_smearing r G)).
    assert (Sp := sig_points (length (points r)) (smearing r) (fun n w E => proj1 (good_smearing r G n w E))). apply sig_all in Sp. destruct Sp as (_ & _ & _ & _ & _ & _ & _ & _ & Sp1 & Sp2 & Sp3).
    assert (Ss := sig_states (nbnd r)). apply sig_all in Ss. destruct Ss as (_ & _ & _ & _ & _ & _ & _ & _ & Ss1 & Ss2 & Ss3). assert (Se := sig_end). apply sig_all in Se. destruct Se as (_ & _ & _ & _ & _ & _ & _ & _ & Se1 & Se2 & Se3).
    assert (St := sig_total (total r)). apply sig_all in St. destruct St as (_ & _ & _ & _ & _ & _ & _ & _ & St1 & St2 & St3).
    assert (Sl : forall s, In s ["     number of k points="; "     number of Kohn-Sham"; "     End of"]%string -> starts s (nl (level_line (fermi r))) = false).
    { intros s J. assert (Sl := sig_level (fermi r)). cbn [In] in J. destruct (fermi r); (apply sig_all in Sl; destruct Sl as (_ & _ & _ & _ & _ & _ & _ & _ & Sl1 & Sl2 & Sl3); destruct J as [<-|[<-|[<-|[]]]]; [exact Sl1|exact Sl2|exact Sl3]). }
    assert (Ch : signature (nl (header r)) = nothing) by (assert (C := calm_of [header r] ltac:(cbn; tauto)); apply (Forall_inv C)). unfold nothing in Ch. apply sig_all in Ch. destruct Ch as (_ & _ & _ & _ & _ & _ & _ & _ & Ch1 & Ch2 & Ch3).
    (* the line with the number of k points *)
    set (T := map nl (o4 r) ++ nl (level_line (fermi r)) :: map nl (o5 r) ++ nl (total_line (total r)) :: map nl (o6 r)).
    assert (FT : forall s, In s ["     number of k points="; "     number of Kohn-Sham"; "     End of"]%string -> Forall (fun l => starts s l = false) T).
    { intros s J. unfold T. apply Forall_app. split; [apply calm_starts; [exact J|calms]|]. constructor; [apply Sl, J|]. apply Forall_app. split; [apply calm_starts; [exact J|calms]|].
      constructor; [|apply calm_starts; [exact J|calms]]. cbn [In] in J. destruct J as [<-|[<-|[<-|[]]]]; [exact St1|exact St2|exact St3]. }
    set (B := map nl (o3 r) ++ nl end_line :: flat_map block_lines (bands r) ++ T).
    assert (FB : forall s, In s ["     number of k points="; "     number of Kohn-Sham"]%string -> Forall (fun l => starts s l = false) B).
    { intros s J. assert (J' : In s ["     number of k points="; "     number of Kohn-Sham"; "     End of"]%string) by (cbn [In] in J |- *; tauto).
      unfold B. apply Forall_app. split; [apply calm_starts; [exact J'|calms]|]. constructor; [cbn [In] in J; destruct J as [<-|[<-|[]]]; [exact Se1|exact Se2]|].
      apply Forall_app. split; [apply calm_starts; [exact J'|calms]|]. apply FT, J'. }
    set (A1 := map nl (o0 r) ++ nl (electrons_line (electrons r)) :: map nl (o1 r)).
    set (A2 := A1 ++ nl (states_line (nbnd r)) :: map nl (o2 r)).
    set (A3 := A2 ++ nl (points_line (length (points r)) (smearing r)) :: nl (header r) :: map nl (point_lines r) ++ map nl (o3 r)).
    assert (D2 : all_lines = A2 ++ nl (points_line (length (points r)) (smearing r)) :: nl (header r) :: map nl (point_lines r) ++ B).
    { unfold all_lines, A2, A1, B, T. rewrite <- !app_assoc. cbn [app]. rewrite <- ?app_assoc. reflexivity. }
    assert (D1 : all_lines = A1 ++ nl (states_line (nbnd r)) :: map nl (o2 r) ++ nl (points_line (length (points r)) (smearing r)) :: nl (header r) :: map nl (point_lines r) ++ B).
    { rewrite D2. unfold A2. rewrite <- !app_assoc. reflexivity. }
    assert (D3 : all_lines = A3 ++ nl end_line :: flat_map block_lines (bands r) ++ T).
    { rewrite D2. unfold A3, B. rewrite <- !app_assoc. cbn [app]. rewrite <- ?app_assoc. reflexivity. }
    fold all_lines. clearbody A1 A2 A3 B T.
    assert (I1 : last_index "     number of k points=" 0 None all_lines = Some (length A2)).
    { rewrite D2. apply (last_index_at _ _ _ Sp1). constructor; [exact Ch1|]. apply Forall_app. split; [apply calm_starts; [cbn; tauto|calms]|apply FB; cbn; tauto]. }
    assert (I2 : last_index "     number of Kohn-Sham" 0 None all_lines = Some (length A1)).
    { rewrite D1. apply (last_index_at _ _ _ Ss2). apply Forall_app. split; [apply calm_starts; [cbn; tauto|calms]|]. constructor; [exact Sp2|]. constructor; [exact Ch2|]. apply Forall_app. split; [apply calm_starts; [cbn; tauto|calms]|apply FB; cbn; tauto]. }
    assert (I3 : last_index "     End of" 0 None all_lines = Some (length A3)).
    { rewrite D3. apply (last_index_at _ _ _ Se3). apply Forall_app. split; [apply calm_starts; [cbn; tauto|calms]|apply FT; cbn; tauto]. }
    rewrite I1, I2, I3. cbn [bound bind]. clear I1 I2 I3 FT FB Sl Sp1 Sp2 Sp3 Ss1 Ss2 Ss3 Se1 Se2 Se3 St1 St2 St3 Ch1 Ch2 Ch3.
    assert (L1 : item all_lines (length A2) = Ok (nl (points_line (length (points r)) (smearing r)))) by (rewrite D2, <- (Nat.add_0_r (length A2)), item_at; reflexivity).
    rewrite L1. cbn [bind]. rewrite W, S. unfold item at 1 2 3. cbn [app nth_error bind]. rewrite to_int_word. cbn [bind]. rewrite (to_float_fmt 4 width (Nat.lt_0_succ 3)). cbn [bind].
    destruct (Z.ltb_spec (Z.of_nat (length (points r))) 0) as [Z1|_]; [lia|]. rewrite Nat2Z.id.
    rewrite (map_res_seq _ rounded_k (points r) 0).
    2: { intros i k J. cbn [Nat.add]. rewrite D2. rewrite <- Nat.add_assoc, item_at. cbn [Nat.add]. unfold item at 1. cbn [nth_error]. change (match nth_error (map nl (point_lines r) ++ B) i with Some x => Ok x | None => Raise IndexError end) with (item (map nl (point_lines r) ++ B) i).
      rewrite (item_in _ _ i (nl (point_line (1 + i) k))).
      - cbn [bind]. apply k_point_line; [|eapply nth_error_In; exact J]. assert (i < length (points r)) by (apply nth_error_Some; congruence). lia.
      - apply map_nth_error. unfold point_lines. apply (map_nth_error (fun x => point_line (fst x) (snd x)) i _ (nth_error_combine_seq (points r) 1 i k J)). }
    cbn [bind].
    assert (L2 : item all_lines (length A1) = Ok (nl (states_line (nbnd r)))) by (rewrite D1, <- (Nat.add_0_r (length A1)), item_at; reflexivity).
    rewrite L2. cbn [bind]. rewrite words_states. unfold item at 1. cbn [nth_error bind]. rewrite to_int_word. cbn [bind].
    destruct (Z.ltb_spec (Z.of_nat (nbnd r)) 0) as [Z1|_]; [lia|]. rewrite Nat2Z.id, ceil8_model, <- (good_number r G).
    rewrite (map_res_seq _ (fun b => map (rounded 4) (snd b)) (bands r) 0).
    - cbn [bind]. rewrite K. reflexivity.
    - intros i b J. cbn [Nat.add]. destruct ((nbnd r + 7) / 8 =? 0) eqn:E0.
      + apply Nat.eqb_eq in E0. assert (Z0 := proj1 (ceil8 (nbnd r))). rewrite E0 in Z0. destruct b as [t e]. assert (Le := proj1 (good_bands r G t e (nth_error_In _ _ J))).
        destruct e; [|cbn [length] in Le; lia]. cbn [length] in Le. rewrite <- Le. reflexivity.
      + rewrite D3. replace (length A3 + 4) with (length (A3 ++ [nl end_line]) + 3) by (rewrite app_length; cbn [length]; lia).
        change (A3 ++ nl end_line :: ?x) with (A3 ++ [nl end_line] ++ x). rewrite (app_assoc A3), k_energies_shift. apply k_energies_read. exact J.
  Qed.
End Run.
