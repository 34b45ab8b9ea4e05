(** Proofs about the output of pw.x: the loops over lines. *)
From Coq Require Import Lia.
From Verif Require Import Common CommonProofs Text TextProofs QuadProofs NmlModel XmlProofs PwoModel PwoSpec PwoProofs.
From Verif Require ProjModel QeModel.
Local Open Scope nat_scope.

(** ** Lists *)
Lemma concat_chunks_from {A} : forall n (l : list A), concat (map (fun i => firstn 8 (skipn (8 * i) l)) (seq 0 n)) = firstn (8 * n) l.
Proof.
  induction n as [|n IH]; intros l; [reflexivity|]. rewrite seq_S, map_app, concat_app, IH. cbn [map concat Nat.add]. rewrite app_nil_r.
  replace (8 * S n) with (8 * n + 8) by lia.
  destruct (le_lt_dec (length l) (8 * n)) as [L|L].
  - rewrite (skipn_all2 l) by exact L. rewrite !(firstn_all2 l) by lia. rewrite app_nil_r. reflexivity.
  - rewrite <- (firstn_skipn (8 * n) l) at 3. rewrite firstn_app, firstn_length_le by lia.
    replace (8 * n + 8 - 8 * n) with 8 by lia. rewrite (firstn_all2 (firstn (8 * n) l)); [reflexivity|rewrite firstn_length; lia].
Qed.
Lemma ceil8 n : n <= 8 * ((n + 7) / 8) /\ forall i, i < (n + 7) / 8 -> 8 * i < n.
Proof. assert (D := Nat.div_mod (n + 7) 8 ltac:(lia)). assert (M := Nat.mod_upper_bound (n + 7) 8 ltac:(lia)). split; intros; nia. Qed.
Lemma ceil8_model n : n / 8 + (if n mod 8 =? 0 then 0 else 1) = (n + 7) / 8.
Proof.
  assert (D := Nat.div_mod (n + 7) 8 ltac:(lia)). assert (M := Nat.mod_upper_bound (n + 7) 8 ltac:(lia)).
  assert (D' := Nat.div_mod n 8 ltac:(lia)). assert (M' := Nat.mod_upper_bound n 8 ltac:(lia)).
  destruct (n mod 8 =? 0) eqn:E; [apply Nat.eqb_eq in E|apply Nat.eqb_neq in E]; nia.
Qed.
Lemma concat_chunks {A} (l : list A) : concat (chunks l) = l.
Proof. unfold chunks. rewrite concat_chunks_from. apply firstn_all2. apply (proj1 (ceil8 (length l))). Qed.
Lemma chunks_length {A} (l : list A) : length (chunks l) = (length l + 7) / 8.
Proof. unfold chunks. rewrite map_length, seq_length. reflexivity. Qed.
Lemma chunks_nonempty {A} (l : list A) c : In c (chunks l) -> c <> [].
Proof.
  unfold chunks. rewrite in_map_iff. intros (i & <- & J) E. apply in_seq in J. assert (L := proj2 (ceil8 (length l)) i ltac:(lia)).
  apply (f_equal (@length A)) in E. rewrite firstn_length, skipn_length in E. cbn [length] in E. lia.
Qed.
Lemma chunks_in {A} (l : list A) c x : In c (chunks l) -> In x c -> In x l.
Proof. intros H J. rewrite <- (concat_chunks l). apply in_concat. exists c. split; assumption. Qed.
Lemma map_concat_chunks {A B} (f : A -> B) l : flat_map (map f) (chunks l) = map f l.
Proof. rewrite <- (concat_chunks l) at 2. rewrite concat_map, flat_map_concat_map. reflexivity. Qed.

Lemma read_words d e : 0 < d -> map_res to_float (map (fmt_f d) e) = Ok (map (rounded d) e).
Proof.
  intros H. induction e as [|x e IH]; [reflexivity|]. cbn [map map_res]. rewrite to_float_fmt by exact H. cbn [bind]. rewrite IH. reflexivity.
Qed.
Lemma back_last {A} (l : list A) x : back (l ++ [x]) 0 = Ok x.
Proof. unfold back, item. rewrite rev_app_distr. reflexivity. Qed.
Lemma back_last2 {A} (l : list A) x y : back (l ++ [x; y]) 1 = Ok x.
Proof. unfold back, item. rewrite rev_app_distr. reflexivity. Qed.

(** ** Kinds of lines *)
Definition nothing : list bool * list bool := ([false; false; false; false; false; false; false], [false; false; false; false]).
Lemma sig_split l h b : signature l = (h, b) ->
  [has "number of electrons" l; has "number of Kohn-Sham states" l; has "number of k points" l; has "the Fermi energy is" l;
    has "highest occupied, lowest unoccupied level" l; has "highest occupied level" l; has "End of self-consistent calculation" l] = h /\
  [starts "!" l; starts "     number of k points=" l; starts "     number of Kohn-Sham" l; starts "     End of" l] = b.
Proof. intros H. apply (f_equal fst) in H as H1. apply (f_equal snd) in H as H2. split; [exact H1|exact H2]. Qed.
Lemma sig_all l a b c d e f g h i j k : signature l = ([a; b; c; d; e; f; g], [h; i; j; k]) ->
  has "number of electrons" l = a /\ has "number of Kohn-Sham states" l = b /\ has "number of k points" l = c /\ has "the Fermi energy is" l = d /\
  has "highest occupied, lowest unoccupied level" l = e /\ has "highest occupied level" l = f /\ has "End of self-consistent calculation" l = g /\
  starts "!" l = h /\ starts "     number of k points=" l = i /\ starts "     number of Kohn-Sham" l = j /\ starts "     End of" l = k.
Proof. intros H. apply sig_split in H. destruct H as [H1 H2]. injection H1 as -> -> -> -> -> -> ->. injection H2 as -> -> -> ->. repeat split; reflexivity. Qed.
Ltac sigs H := apply sig_all in H; destruct H as (? & ? & ? & ? & ? & ? & ? & ? & ? & ? & ?).
Ltac use := repeat match goal with E : has _ _ = _ |- _ => rewrite E; clear E | E : starts _ _ = _ |- _ => rewrite E; clear E end.

(** ** The Fermi level *)
Lemma fermi_skip l eF ls : signature l = nothing -> fermi_level eF (l :: ls) = fermi_level eF ls.
Proof. intros H. sigs H. cbn [fermi_level]. use. reflexivity. Qed.
Lemma fermi_none l eF ls h b : signature l = (h, b) -> nth 3 h true = false -> nth 5 h true = false -> fermi_level eF (l :: ls) = fermi_level eF ls.
Proof. intros H A B. apply sig_split in H. destruct H as [<- _]. cbn in A, B. cbn [fermi_level]. rewrite A, B. reflexivity. Qed.
Definition no_level (l : text) : Prop := has "the Fermi energy is" l = false /\ has "highest occupied level" l = false.
Lemma fermi_all ls : Forall no_level ls -> forall eF ls', fermi_level eF (ls ++ ls') = fermi_level eF ls'.
Proof. induction 1 as [|l ls [A B] H IH]; intros eF ls'; [reflexivity|]. cbn [app fermi_level]. rewrite A, B. apply IH. Qed.

(** ** The energies in eV *)
Section Fill.
  Lemma fill_chunks cs : forall pre rest, (forall c, In c cs -> c <> [] /\ forall x, In x c -> fits 9 4 x) ->
    fill (Z.of_nat (length (concat (pre ++ cs)))) (map (rounded 4) (concat pre)) (map (fun c => nl (energy_line c)) cs ++ rest) = Done (map (rounded 4) (concat (pre ++ cs))) rest.
  Proof.
    induction cs as [|c cs IH]; intros pre rest H.
    - rewrite app_nil_r. cbn [map app]. assert (E : (Z.of_nat (length (concat pre)) <=? Z.of_nat (length (map (rounded 4) (concat pre))))%Z = true) by (rewrite map_length; apply Z.leb_refl).
      destruct rest as [|l rest]; cbn [fill]; rewrite E; reflexivity.
    - destruct (H c (or_introl eq_refl)) as [N Fc]. cbn [map app fill].
      assert (E : (Z.of_nat (length (concat (pre ++ c :: cs))) <=? Z.of_nat (length (map (rounded 4) (concat pre))))%Z = false).
      { apply Z.leb_gt. rewrite map_length, concat_app, app_length. cbn [concat]. rewrite app_length. destruct c; [contradiction|]. cbn [length]. lia. }
      rewrite E, words_energy, read_words by (exact Fc || lia). rewrite <- map_app. replace (concat pre ++ c) with (concat (pre ++ [c])) by (rewrite concat_app; cbn; rewrite app_nil_r; reflexivity).
      replace (pre ++ c :: cs) with ((pre ++ [c]) ++ cs) by (rewrite <- app_assoc; reflexivity). apply IH. intros c' J. apply H. right. exact J.
  Qed.
  Lemma fill_row e rest : (forall x, In x e -> fits 9 4 x) -> fill (Z.of_nat (length e)) [] (map nl (band_lines e) ++ rest) = Done (map (rounded 4) e) rest.
  Proof.
    intros H. assert (G := fill_chunks (chunks e) [] rest). cbn [app concat map] in G. rewrite concat_chunks in G. unfold band_lines. rewrite map_map. apply G.
    intros c J. split; [eapply chunks_nonempty; exact J|]. intros x K. apply H. eapply chunks_in; eassumption.
  Qed.
  Definition block_lines (b : text * list Q) : list text := map nl (block (fst b) (snd b)).
  Lemma blocks_read bs : forall n acc rest, (forall t e, In (t, e) bs -> length e = n /\ forall x, In x e -> fits 9 4 x) ->
    blocks (length bs) (Some (Z.of_nat n)) acc (flat_map block_lines bs ++ rest) = Done (acc ++ map (fun b => map (rounded 4) (snd b)) bs) rest.
  Proof.
    induction bs as [|[t e] bs IH]; intros n acc rest H.
    - cbn. rewrite app_nil_r. reflexivity.
    - destruct (H t e (or_introl eq_refl)) as [L Fe]. cbn [length flat_map]. unfold block_lines at 1. cbn [fst snd block map app]. rewrite <- app_assoc.
      cbn [blocks]. rewrite <- L, fill_row by exact Fe. rewrite L, IH by (intros t' e' J; apply (H t' e'); right; exact J). rewrite <- app_assoc. reflexivity.
  Qed.
  Lemma fill_shorter Ns : forall ls row x ls', fill Ns row ls = Done x ls' \/ fill Ns row ls = Caught x ls' -> length ls' <= length ls.
  Proof.
    induction ls as [|l ls IH]; intros row x ls'; cbn [fill]; destruct (Ns <=? Z.of_nat (length row))%Z.
    - intros [H|H]; [injection H as _ <-; lia|discriminate].
    - intros [H|H]; discriminate.
    - intros [H|H]; [injection H as _ <-; lia|discriminate].
    - destruct (map_res to_float (str_split l)); intros H; [apply IH in H; cbn [length]; lia|]. destruct H as [H|H]; [discriminate|]. injection H as _ <-. cbn [length]. lia.
  Qed.
  Lemma blocks_shorter Ns : forall n e ls x ls', blocks n Ns e ls = Done x ls' \/ blocks n Ns e ls = Caught x ls' -> length ls' <= length ls.
  Proof.
    induction n as [|n IH]; intros e ls x ls' H; cbn [blocks] in H.
    - destruct H as [H|H]; [injection H as _ <-; lia|discriminate].
    - destruct ls as [|l1 [|l2 [|l3 ls]]]; try (destruct H; discriminate). destruct Ns as [Ns|]; [|destruct H; discriminate].
      destruct (fill Ns [] ls) as [row ls''|row ls''|] eqn:E; [| |destruct H; discriminate].
      + apply IH in H. assert (G := fill_shorter Ns ls [] row ls'' (or_introl E)). cbn [length]. lia.
      + destruct H as [H|H]; [discriminate|]. injection H as _ <-. assert (G := fill_shorter Ns ls [] row ls'' (or_intror E)). cbn [length]. lia.
  Qed.
End Fill.

(** ** The loop of read_pwo *)
Section Loop.
  Variable Ry : Q.
  Lemma pwo_fuel : forall fuel fuel' p ls, length ls <= fuel -> length ls <= fuel' -> pwo_lines Ry fuel p ls = pwo_lines Ry fuel' p ls.
  Proof.
    induction fuel as [|fuel IH]; intros fuel' p ls H H'.
    - destruct ls; [|cbn [length] in H; lia]. destruct fuel'; reflexivity.
    - destruct ls as [|l ls]; [destruct fuel'; reflexivity|]. destruct fuel' as [|fuel']; [cbn [length] in H'; lia|]. cbn [length] in H, H'.
      cbn [pwo_lines]. destruct p as [Ne Ns Nk eF E e given].
      assert (A : forall p, pwo_lines Ry fuel p ls = pwo_lines Ry fuel' p ls) by (intros; apply IH; lia).
      repeat match goal with |- (if ?b then _ else _) = _ => destruct b end; try (apply A).
      + destruct (back (str_split l) 0) as [w|]; cbn [bind]; [|reflexivity]. destruct (to_float w); cbn [bind]; [apply A|reflexivity].
      + destruct (back (str_split l) 0) as [w|]; cbn [bind]; [|reflexivity]. destruct (to_int w); cbn [bind]; [apply A|reflexivity].
      + destruct (item (str_split l) 4) as [w|]; cbn [bind]; [|reflexivity]. destruct (to_int w); cbn [bind]; [apply A|reflexivity].
      + destruct (back (str_split l) 1) as [w|]; cbn [bind]; [|reflexivity]. destruct (to_float w); cbn [bind]; [apply A|reflexivity].
      + destruct (map_res to_float _); cbn [bind]; [apply A|reflexivity].
      + destruct (back (str_split l) 1) as [w|]; cbn [bind]; [|reflexivity]. destruct (to_float w); cbn [bind]; [apply A|reflexivity].
      + destruct Nk as [n|]; [|reflexivity]. destruct (blocks (Z.to_nat n) Ns [] ls) as [x ls'|x ls'|] eqn:B; [| |reflexivity].
        * assert (G := blocks_shorter _ _ _ _ _ _ (or_introl B)). apply IH; lia.
        * assert (G := blocks_shorter _ _ _ _ _ _ (or_intror B)). apply IH; lia.
  Qed.
  (** The loop, with enough fuel *)
  Definition loop (p : pwo) (ls : list text) : res pwo := pwo_lines Ry (length ls) p ls.

  Ltac start := intros; match goal with H : signature _ = _ |- _ => try unfold nothing in H; sigs H end; unfold loop; cbn [length pwo_lines]; use.
  Lemma loop_nil p : loop p [] = Ok p.
  Proof. reflexivity. Qed.
  Lemma loop_skip p l ls : signature l = nothing -> loop p (l :: ls) = loop p ls.
  Proof. start. destruct p. reflexivity. Qed.
  Lemma loop_skips p ls ls' : Forall (fun l => signature l = nothing) ls -> loop p (ls ++ ls') = loop p ls'.
  Proof. induction 1 as [|l ls H _ IH]; [reflexivity|]. cbn [app]. rewrite loop_skip by exact H. exact IH. Qed.
  Lemma loop_electrons Ne Ns Nk eF E e given x ls :
    loop (Pwo Ne Ns Nk eF E e given) (nl (electrons_line x) :: ls) = loop (Pwo (Some (rounded 2 x)) Ns Nk eF E e given) ls.
  Proof.
    pose proof (sig_electrons x) as H. start. destruct (words_electrons x) as [a ->]. rewrite back_last. cbn [bind]. rewrite to_float_fmt by lia. reflexivity.
  Qed.
  Lemma loop_states Ne Ns Nk eF E e given n ls :
    loop (Pwo Ne Ns Nk eF E e given) (nl (states_line n) :: ls) = loop (Pwo Ne (Some (Z.of_nat n)) Nk eF E e given) ls.
  Proof. assert (H := sig_states n). start. rewrite words_states. unfold back, item. cbn [rev app nth_error bind]. rewrite to_int_word. reflexivity. Qed.
  Lemma loop_points Ne Ns Nk eF E e given n s ls : (Z.of_nat n < 10 ^ 5)%Z -> (forall name width, s = Some (name, width) -> In name names /\ fits 8 4 width) ->
    loop (Pwo Ne Ns Nk eF E e given) (nl (points_line n s) :: ls) = loop (Pwo Ne Ns (Some (Z.of_nat n)) eF E e given) ls.
  Proof.
    intros A B. assert (H := sig_points n s (fun name width E => proj1 (B name width E))). start. rewrite words_points by assumption. unfold item. cbn [app nth_error bind]. rewrite to_int_word. reflexivity.
  Qed.
  Lemma loop_fermi Ne Ns Nk eF E e given x ls :
    loop (Pwo Ne Ns Nk eF E e given) (nl (level_line (Fermi x)) :: ls) = loop (Pwo Ne Ns Nk (Some (rounded 4 x)) E e given) ls.
  Proof.
    assert (H := sig_level (Fermi x)). cbn iota in H. start. rewrite words_level_fermi. unfold back, item. cbn [rev app nth_error bind]. rewrite to_float_fmt by lia. reflexivity.
  Qed.
  Lemma loop_highest p x ls : loop p (nl (level_line (Highest x)) :: ls) = loop p ls.
  Proof. assert (H := sig_level (Highest x)). cbn iota in H. start. destruct p. reflexivity. Qed.
  Lemma loop_both Ne Ns Nk eF E e given x y ls : fits 10 4 y ->
    loop (Pwo Ne Ns Nk eF E e given) (nl (level_line (Highest_lowest x y)) :: ls) = loop (Pwo Ne Ns Nk (Some ((rounded 4 x + (rounded 4 y + 0)) / 2)%Q) E e given) ls.
  Proof.
    intros B. assert (H := sig_level (Highest_lowest x y)). cbn iota in H. start. rewrite words_level_both by exact B. cbn [rev app firstn map_res]. rewrite !to_float_fmt by lia. reflexivity.
  Qed.
  Lemma loop_total Ne Ns Nk eF E e given x ls : fits 17 8 x ->
    loop (Pwo Ne Ns Nk eF E e given) (nl (total_line x) :: ls) = loop (Pwo Ne Ns Nk eF (Some (rounded 8 x * Ry)%Q) e given) ls.
  Proof.
    intros B. assert (H := sig_total x). start. destruct (words_total x B) as [a ->]. rewrite back_last2. cbn [bind]. rewrite to_float_fmt by lia. reflexivity.
  Qed.
  Lemma loop_end Ne n eF E e given bs ls : (forall t e, In (t, e) bs -> length e = n /\ forall x, In x e -> fits 9 4 x) ->
    loop (Pwo Ne (Some (Z.of_nat n)) (Some (Z.of_nat (length bs))) eF E e given) (nl end_line :: flat_map block_lines bs ++ ls) =
    loop (Pwo Ne (Some (Z.of_nat n)) (Some (Z.of_nat (length bs))) eF E (Some (map (fun b => map (rounded 4) (snd b)) bs)) true) ls.
  Proof.
    intros B. assert (H := sig_end). start. rewrite Nat2Z.id, (blocks_read bs n) by exact B. cbn [app]. apply pwo_fuel; [rewrite app_length|]; lia.
  Qed.
End Loop.
