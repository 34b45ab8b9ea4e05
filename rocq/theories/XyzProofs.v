(** Proofs about trajectories. *)
From Verif Require Import TextProofs XyzModel XyzSpec.
From Coq Require Import Qabs Lqa.
Local Open Scope nat_scope.

Section Proofs.
Variable fmt_g : Q -> text.
Hypothesis fmt_g_line : forall x, no_newline (fmt_g x).

Definition vround (p : vec) : vec := let '(x, y, z) := p in (rounded 9 x, rounded 9 y, rounded 9 z).

(** ** One line *)
Lemma split_atom_line X x y z : word X -> str_split (atom_line X (x, y, z)) = [X; fmt_f 9 x; fmt_f 9 y; fmt_f 9 z].
Proof using Type.
  clear. intros H. unfold atom_line. rewrite split_pad by (exact H || reflexivity). f_equal.
  rewrite split_blank_pad by (apply word_fmt_f || reflexivity). f_equal. rewrite split_blank_pad by (apply word_fmt_f || reflexivity). f_equal.
  rewrite split_blank_pad by (apply word_fmt_f || reflexivity). reflexivity.
Qed.

Lemma read_atom_line d na X p u X' r' :
  word X -> nth_error (atoms d) na = Some X' -> nth_error (r d) na = Some r' ->
  read_atom d na (atom_line X p) u = Ok (if list_eq_dec Ascii.ascii_dec X X' then set_at na (vsub (vround p) r') u else u).
Proof using Type.
  clear. intros W EX Er. destruct p as [[x y] z]. unfold read_atom. rewrite split_atom_line by exact W. rewrite EX. destruct (list_eq_dec _ _ _); [|reflexivity].
  cbn [firstn map_res]. rewrite !to_float_fmt by lia. cbn [bind]. rewrite Er. reflexivity.
Qed.

Lemma atom_line_lines X p rest : word X -> lines (atom_line X p ++ rest) = atom_line X p :: lines rest.
Proof using Type.
  clear. intros [_ W]. destruct p as [[x y] z]. unfold atom_line.
  set (l := pad 8 X ++ blank :: pad 15 (fmt_f 9 x) ++ blank :: pad 15 (fmt_f 9 y) ++ blank :: pad 15 (fmt_f 9 z)).
  replace (pad 8 X ++ blank :: pad 15 (fmt_f 9 x) ++ blank :: pad 15 (fmt_f 9 y) ++ blank :: pad 15 (fmt_f 9 z) ++ [newline]) with (l ++ [newline]).
  2: { subst l. rewrite <- !app_assoc. cbn [app]. rewrite <- !app_assoc. cbn [app]. rewrite <- !app_assoc. reflexivity. }
  rewrite <- app_assoc. cbn [app]. apply lines_app. subst l.
  apply no_newline_app; [apply no_newline_pad, no_newline_solid, W|]. constructor; [discriminate|].
  apply no_newline_app; [apply no_newline_pad, no_newline_f|]. constructor; [discriminate|].
  apply no_newline_app; [apply no_newline_pad, no_newline_f|]. constructor; [discriminate|]. apply no_newline_pad, no_newline_f.
Qed.

Lemma atom_lines_lines Xps rest : Forall (fun Xp => word (fst Xp)) Xps ->
  lines (concat (map (fun Xp => atom_line (fst Xp) (snd Xp)) Xps) ++ rest) = map (fun Xp => atom_line (fst Xp) (snd Xp)) Xps ++ lines rest.
Proof using Type. clear. induction 1 as [|Xp l H _ IH]; [reflexivity|]. cbn [map concat app]. rewrite <- app_assoc, atom_line_lines by exact H. rewrite IH. reflexivity. Qed.

(** ** One frame *)
Definition pos_of (d : driver) (u : list vec) : list vec := map (fun ru => vadd (fst ru) (snd ru)) (combine (r d) u).
Definition atom_rows (d : driver) (u : list vec) : list text := map (fun Xp => atom_line (fst Xp) (snd Xp)) (combine (atoms d) (pos_of d u)).
Definition frame_lines (d : driver) (u : list vec) : list text :=
  (fmt_d (Z.of_nat (nat_ d)) ++ [newline]) :: comment_line fmt_g d :: atom_rows d u.

Lemma names_combine d u : proper d -> Forall (fun Xp : text * vec => word (fst Xp)) (combine (atoms d) (pos_of d u)).
Proof using Type.
  clear. intros [_ _ N]. apply Forall_forall. intros [X p] H. apply in_combine_l in H. rewrite Forall_forall in N. exact (N X H).
Qed.

Lemma comment_shape d : exists t, no_newline t /\ comment_line fmt_g d = t ++ [newline].
Proof using fmt_g_line.
  exists (§"# CELL{H}:" ++ concat (map (fun x => blank :: fmt_g x) (cell d))). split; [|unfold comment_line; rewrite <- app_assoc; reflexivity].
  apply no_newline_app; [repeat constructor; discriminate|]. induction (cell d) as [|x l IH]; [constructor|]. cbn [map concat]. apply no_newline_app; [constructor; [discriminate|apply fmt_g_line]|exact IH].
Qed.

Lemma frame_lines_eq d u rest : proper d -> lines (frame fmt_g d u ++ rest) = frame_lines d u ++ lines rest.
Proof using fmt_g_line.
  intros P. unfold frame. fold (pos_of d u). rewrite <- !app_assoc. cbn [app]. rewrite lines_app by apply no_newline_d. unfold frame_lines. cbn [app]. f_equal.
  destruct (comment_shape d) as (t & Ht & E). rewrite E, <- app_assoc. cbn [app]. rewrite lines_app by exact Ht. f_equal.
  apply atom_lines_lines, names_combine, P.
Qed.

(** Displacements after reading *)
Fixpoint absorb (Xs Xs' : list text) (ps rs us : list vec) : list vec :=
  match Xs, Xs', ps, rs, us with
  | X :: Xs, X' :: Xs', p :: ps, r :: rs, u :: us => (if list_eq_dec Ascii.ascii_dec X X' then vsub (vround p) r else u) :: absorb Xs Xs' ps rs us
  | _, _, _, _, _ => us
  end.

Lemma set_at_app {A} (l : list A) x y l' : set_at (length l) x (l ++ y :: l') = l ++ x :: l'.
Proof using Type. clear. induction l as [|z l IH]; [reflexivity|]. cbn. rewrite IH. reflexivity. Qed.

Lemma nth_error_pre {A} (l : list A) x l' : nth_error (l ++ x :: l') (length l) = Some x.
Proof using Type. clear. induction l; [reflexivity|assumption]. Qed.

Lemma read_rows d : forall Xs ps preX Xs' prer rs done us ls,
  Forall word Xs -> atoms d = preX ++ Xs' -> r d = prer ++ rs -> length preX = length done -> length prer = length done ->
  length Xs' = length Xs -> length ps = length Xs -> length rs = length Xs -> length us = length Xs ->
  read_atoms d (length done) (length Xs) (map (fun Xp => atom_line (fst Xp) (snd Xp)) (combine Xs ps) ++ ls) (done ++ us) = (ls, done ++ absorb Xs Xs' ps rs us, None).
Proof using Type.
  clear. induction Xs as [|X Xs IH]; intros ps preX Xs' prer rs done us ls W EX Er L1 L2 L3 L4 L5 L6; destruct Xs' as [|X' Xs'], ps as [|p ps], rs as [|r0 rs], us as [|u us]; try (cbn in *; lia).
  - cbn. reflexivity.
  - cbn [combine map app length read_atoms fst snd absorb]. apply Forall_cons_iff in W as [WX W].
    rewrite (read_atom_line d (length done) X p (done ++ u :: us) X' r0 WX) by ((rewrite EX, <- L1; apply nth_error_pre) || (rewrite Er, <- L2; apply nth_error_pre)).
    replace (if list_eq_dec ascii_dec X X' then set_at (length done) (vsub (vround p) r0) (done ++ u :: us) else done ++ u :: us) with (done ++ (if list_eq_dec ascii_dec X X' then vsub (vround p) r0 else u) :: us) by (destruct (list_eq_dec ascii_dec X X'); [rewrite set_at_app|]; reflexivity).
    set (u' := if list_eq_dec ascii_dec X X' then vsub (vround p) r0 else u).
    specialize (IH ps (preX ++ [X']) Xs' (prer ++ [r0]) rs (done ++ [u']) us ls W). rewrite !app_length, <- !app_assoc in IH. cbn [app length] in *. rewrite !Nat.add_1_r in IH. apply IH; assumption || lia.
Qed.

Lemma pos_length d u : proper d -> length u = nat_ d -> length (pos_of d u) = nat_ d.
Proof using Type. clear. intros [_ L _] H. unfold pos_of. rewrite map_length, combine_length. lia. Qed.

Lemma absorb_length : forall Xs Xs' ps rs us, length (absorb Xs Xs' ps rs us) = length us.
Proof using Type. clear. induction Xs as [|X Xs IH]; destruct Xs', ps, rs, us; cbn; try reflexivity. rewrite IH. reflexivity. Qed.

Lemma read_frame d d' u v ls : proper d -> proper d' -> nat_ d = nat_ d' -> length u = nat_ d -> length v = nat_ d ->
  read_atoms d' 0 (nat_ d') (atom_rows d u ++ ls) v = (ls, absorb (atoms d) (atoms d') (pos_of d u) (r d') v, None).
Proof using Type.
  clear. intros P P' E Lu Lv. destruct P' as [A' R' N']. pose proof P as [A R N].
  pose proof (read_rows d' (atoms d) (pos_of d u) [] (atoms d') [] (r d') [] v ls) as H. rewrite (pos_length d u P Lu) in H. cbn [length app] in H. rewrite A, E in H.
  unfold atom_rows. apply H; try reflexivity; try lia. exact N.
Qed.

(** ** Several frames *)
Lemma read_frames_app d d' : proper d -> proper d' -> nat_ d = nat_ d' -> forall us v ls fuel,
  Forall (fun u => length u = nat_ d) us -> length v = nat_ d -> length (concat (map (frame_lines d) us) ++ ls) <= fuel ->
  exists fuel', length ls <= fuel' /\ read_frames fuel d' (concat (map (frame_lines d) us) ++ ls) v = read_frames fuel' d' ls (fold_left (fun v u => absorb (atoms d) (atoms d') (pos_of d u) (r d') v) us v).
Proof using Type.
  clear fmt_g_line. intros P P' E. induction us as [|u us IH]; intros v ls fuel Hu Lv Hf.
  - exists fuel. split; [exact Hf|reflexivity].
  - apply Forall_cons_iff in Hu as [Lu Hu]. cbn [map concat] in *. unfold frame_lines at 1. unfold frame_lines at 1 in Hf. rewrite <- app_assoc in *. cbn [app length] in *.
    destruct fuel as [|fuel]; [lia|]. cbn [read_frames]. rewrite to_int_line. rewrite E, Z.eqb_refl, <- E.
    rewrite E, read_frame by (assumption || lia). rewrite app_length in Hf.
    destruct (IH (absorb (atoms d) (atoms d') (pos_of d u) (r d') v) ls fuel Hu ltac:(rewrite absorb_length; exact Lv) ltac:(lia)) as (f' & Hf' & Er). exists f'. split; [exact Hf'|exact Er].
Qed.

Lemma read_frames_all d d' us v : proper d -> proper d' -> nat_ d = nat_ d' ->
  Forall (fun u => length u = nat_ d) us -> length v = nat_ d ->
  read_frames (length (lines (concat (map (frame fmt_g d) us)))) d' (lines (concat (map (frame fmt_g d) us))) v
  = (fold_left (fun v u => absorb (atoms d) (atoms d') (pos_of d u) (r d') v) us v, None).
Proof using fmt_g_line.
  intros P P' E Hu Lv.
  assert (L : lines (concat (map (frame fmt_g d) us)) = concat (map (frame_lines d) us) ++ []).
  { clear Hu. induction us as [|u us IH]; [reflexivity|]. cbn [map concat]. rewrite frame_lines_eq by exact P. rewrite IH, <- app_assoc. reflexivity. }
  rewrite L. destruct (read_frames_app d d' P P' E us v [] _ Hu Lv (Nat.le_refl _)) as (f & _ & R). rewrite R. destruct f; reflexivity.
Qed.

Lemma absorb_absorb : forall Xs Xs' ps ps' rs us, length ps = length ps' -> absorb Xs Xs' ps rs (absorb Xs Xs' ps' rs us) = absorb Xs Xs' ps rs us.
Proof using Type.
  clear. induction Xs as [|X Xs IH]; intros Xs' ps ps' rs us L; destruct Xs', ps, ps', rs, us; cbn in *; try reflexivity; try discriminate. destruct (list_eq_dec ascii_dec X t); rewrite IH by lia; reflexivity.
Qed.

Lemma absorb_last Xs Xs' d rs us u v : proper d -> Forall (fun u => length u = nat_ d) us -> length u = nat_ d ->
  fold_left (fun v u => absorb Xs Xs' (pos_of d u) rs v) (us ++ [u]) v = absorb Xs Xs' (pos_of d u) rs v.
Proof using Type.
  clear. intros P Hu Lu. revert v. induction us as [|u' us IH]; intros v; [reflexivity|]. apply Forall_cons_iff in Hu as [Lu' Hu]. cbn [app fold_left]. rewrite IH by exact Hu.
  apply absorb_absorb. rewrite !pos_length; auto.
Qed.

Lemma write_history_frames d h u a file : (file = None \/ Exists (fun ua => snd ua = false) (h ++ [(u, a)])) ->
  exists us, write_history fmt_g d (h ++ [(u, a)]) file = Some (concat (map (frame fmt_g d) (us ++ [u]))) /\ incl us (map fst h).
Proof using Type.
  clear. intros H. unfold write_history. revert u a H. induction h as [|[u' a'] h IH] using rev_ind; intros u a H.
  - cbn. exists []. cbn. rewrite app_nil_r. split; [|easy]. unfold to_xyz. destruct a; [|reflexivity]. destruct H as [->|H]; [reflexivity|]. inversion H; subst; cbn in *; [congruence|]. inversion H1.
  - rewrite fold_left_app. cbn [fold_left fst snd]. destruct a.
    + destruct (IH u' a') as (us & E & I). { destruct H as [->|H]; [left; reflexivity|]. right. apply Exists_app in H as [H|H]; [exact H|]. inversion H; subst; cbn in *; [discriminate|]. inversion H1. }
      exists (us ++ [u']). rewrite E. unfold to_xyz. split; [rewrite map_app, (map_app _ (us ++ [u'])), concat_app; cbn; rewrite ?app_nil_r; rewrite ?map_app, ?concat_app; cbn; rewrite ?app_nil_r; reflexivity|].
      rewrite map_app. apply incl_app; [apply incl_appl; exact I|apply incl_appr; cbn; apply incl_refl].
    + exists []. unfold to_xyz. cbn. rewrite app_nil_r. split; [reflexivity|easy].
Qed.

Lemma from_xyz_history d d' h u a file us :
  proper d -> proper d' -> nat_ d = nat_ d' -> Forall (fun ua => length (fst ua) = nat_ d) (h ++ [(u, a)]) ->
  (file = None \/ Exists (fun ua => snd ua = false) (h ++ [(u, a)])) -> us <> [] -> length (hd [] us) = nat_ d ->
  from_xyz d' (write_history fmt_g d (h ++ [(u, a)]) file) us = (map (fun _ => absorb (atoms d) (atoms d') (pos_of d u) (r d') (hd [] us)) us, None).
Proof using fmt_g_line.
  intros P P' E Hh HF NE L. destruct us as [|v others]; [congruence|]. cbn [hd] in L |- *. destruct (write_history_frames d h u a file HF) as (us & Ew & I). rewrite Ew. unfold from_xyz.
  apply Forall_app in Hh as [Hh Hl]. apply Forall_cons_iff in Hl as [Lu _]. cbn [fst] in Lu.
  assert (Hu : Forall (fun u => length u = nat_ d) us) by (apply Forall_forall; intros w Hw; apply I, in_map_iff in Hw as ([w' b] & <- & Hw); rewrite Forall_forall in Hh; exact (Hh _ Hw)).
  rewrite read_frames_all by (assumption || (apply Forall_app; auto)). rewrite absorb_last by assumption. reflexivity.
Qed.

(** ** Meaning of the result *)
Lemma near_rounded x r : near x (r + (rounded 9 x - r)).
Proof using Type.
  clear. unfold near. setoid_replace (x - (r + (rounded 9 x - r)))%Q with (x - rounded 9 x)%Q by ring. exact (rounded_near 9 x).
Qed.

Lemma absorb_nth : forall Xs Xs' ps rs us i, length Xs' = length Xs -> length ps = length Xs -> length rs = length Xs -> length us = length Xs -> i < length Xs ->
  nth i (absorb Xs Xs' ps rs us) origin = if list_eq_dec Ascii.ascii_dec (nth i Xs []) (nth i Xs' []) then vsub (vround (nth i ps origin)) (nth i rs origin) else nth i us origin.
Proof using Type.
  clear. induction Xs as [|X Xs IH]; intros Xs' ps rs us i L1 L2 L3 L4 Hi; destruct Xs', ps, rs, us; cbn in L1, L2, L3, L4, Hi; try lia. destruct i; [reflexivity|]. cbn [absorb nth]. apply IH; lia.
Qed.

Lemma pos_nth d u i : proper d -> length u = nat_ d -> i < nat_ d -> nth i (pos_of d u) origin = vadd (nth i (r d) origin) (nth i u origin).
Proof using Type.
  clear. intros [_ L _] Lu Hi. unfold pos_of. rewrite (nth_indep _ origin (vadd (fst (origin, origin)) (snd (origin, origin)))) by (rewrite map_length, combine_length; lia).
  rewrite (map_nth (fun ru => vadd (fst ru) (snd ru)) (combine (r d) u) (origin, origin) i). rewrite combine_nth by lia. reflexivity.
Qed.

Lemma absorb_restored d d' u v i : proper d -> proper d' -> nat_ d = nat_ d' -> length u = nat_ d -> length v = nat_ d -> i < nat_ d ->
  atom_restored d u d' v (absorb (atoms d) (atoms d') (pos_of d u) (r d') v) i.
Proof using Type.
  clear. intros P P' E Lu Lv Hi. pose proof P as [A R _]. destruct P' as [A' R' _]. unfold atom_restored.
  rewrite absorb_nth by (rewrite ?(pos_length d u P Lu); lia). destruct (list_eq_dec _ _ _); [|reflexivity]. rewrite pos_nth by assumption.
  destruct (vadd (nth i (r d) origin) (nth i u origin)) as [[x y] z], (nth i (r d') origin) as [[a b] c]. unfold vround, vsub, vadd, vnear. repeat split; apply near_rounded.
Qed.

Lemma absorb_exact d u v i : proper d -> length u = nat_ d -> length v = nat_ d -> i < nat_ d ->
  vnine (vadd (nth i (r d) origin) (nth i u origin)) -> veq (nth i (absorb (atoms d) (atoms d) (pos_of d u) (r d) v) origin) (nth i u origin).
Proof using Type.
  clear. intros P Lu Lv Hi H9. pose proof P as [A R _]. rewrite absorb_nth by (rewrite ?(pos_length d u P Lu); lia). destruct (list_eq_dec _ _ _); [|congruence]. rewrite pos_nth by assumption.
  destruct (nth i (r d) origin) as [[a b] c], (nth i u origin) as [[x y] z]. unfold vround, vsub, vadd, veq, vnine in *. destruct H9 as ((m1 & E1) & (m2 & E2) & (m3 & E3)).
  repeat split; [rewrite (rounded_exact 9 _ m1 E1)|rewrite (rounded_exact 9 _ m2 E2)|rewrite (rounded_exact 9 _ m3 E3)]; ring.
Qed.

(** ** Files that do not fit *)
Lemma from_xyz_count d d' h u a file us :
  proper d -> nat_ d <> nat_ d' ->
  (file = None \/ Exists (fun ua => snd ua = false) (h ++ [(u, a)])) -> us <> [] ->
  from_xyz d' (write_history fmt_g d (h ++ [(u, a)]) file) us = (map (fun _ => hd [] us) us, None).
Proof using fmt_g_line.
  intros P NE HF NN. destruct us as [|v others]; [congruence|]. destruct (write_history_frames d h u a file HF) as (us & Ew & I). rewrite Ew. unfold from_xyz.
  assert (S : exists u0 us0, us ++ [u] = u0 :: us0) by (destruct us; cbn; eauto). destruct S as (u0 & us0 & ->). cbn [map concat]. rewrite frame_lines_eq by exact P. unfold frame_lines. cbn [app length read_frames].
  rewrite to_int_line. destruct (Z.eqb_spec (Z.of_nat (nat_ d)) (Z.of_nat (nat_ d'))); [lia|]. reflexivity.
Qed.

(** ** Incomplete files: whole lines missing at the end *)
Lemma read_rows_short d : forall Xs ps preX Xs' prer rs done us k,
  Forall word Xs -> atoms d = preX ++ Xs' -> r d = prer ++ rs -> length preX = length done -> length prer = length done ->
  length Xs' = length Xs -> length ps = length Xs -> length rs = length Xs -> length us = length Xs -> k < length Xs ->
  exists v, read_atoms d (length done) (length Xs) (firstn k (map (fun Xp => atom_line (fst Xp) (snd Xp)) (combine Xs ps))) (done ++ us) = ([], v, Some StopIteration).
Proof using Type.
  clear. induction Xs as [|X Xs IH]; intros ps preX Xs' prer rs done us k W EX Er L1 L2 L3 L4 L5 L6 Hk; destruct Xs' as [|X' Xs'], ps as [|p ps], rs as [|r0 rs], us as [|u us]; try (cbn in *; lia).
  destruct k as [|k]; [cbn; eauto|]. cbn [combine map firstn length read_atoms fst snd]. apply Forall_cons_iff in W as [WX W].
  rewrite (read_atom_line d (length done) X p (done ++ u :: us) X' r0 WX) by ((rewrite EX, <- L1; apply nth_error_pre) || (rewrite Er, <- L2; apply nth_error_pre)).
  replace (if list_eq_dec ascii_dec X X' then set_at (length done) (vsub (vround p) r0) (done ++ u :: us) else done ++ u :: us) with (done ++ (if list_eq_dec ascii_dec X X' then vsub (vround p) r0 else u) :: us) by (destruct (list_eq_dec ascii_dec X X'); [rewrite set_at_app|]; reflexivity).
  set (u' := if list_eq_dec ascii_dec X X' then vsub (vround p) r0 else u).
  specialize (IH ps (preX ++ [X']) Xs' (prer ++ [r0]) rs (done ++ [u']) us k W). rewrite !app_length, <- !app_assoc in IH. cbn [app length] in *. rewrite !Nat.add_1_r in IH. apply IH; assumption || lia.
Qed.

Lemma frame_lines_length d u : proper d -> length u = nat_ d -> length (frame_lines d u) = nat_ d + 2.
Proof using Type. clear fmt_g_line. intros P Lu. unfold frame_lines, atom_rows. cbn [length]. rewrite map_length, combine_length, pos_length by assumption. destruct P as [A _ _]. lia. Qed.

Lemma read_short d us u v k fuel : proper d -> Forall (fun u => length u = nat_ d) us -> length u = nat_ d -> length v = nat_ d ->
  0 < k < nat_ d + 2 -> length (concat (map (frame_lines d) us) ++ firstn k (frame_lines d u)) <= fuel ->
  exists w, read_frames fuel d (concat (map (frame_lines d) us) ++ firstn k (frame_lines d u)) v = (w, Some StopIteration).
Proof using Type.
  clear fmt_g_line. intros P Hu Lu Lv Hk Hf. destruct (read_frames_app d d P P eq_refl us v _ fuel Hu Lv Hf) as (f & Hf' & E). rewrite E. clear E Hf.
  set (v' := fold_left _ us v). assert (Lv' : length v' = nat_ d).
  { subst v'. clear - Hu Lv. revert v Lv. induction us as [|u us IH]; intros v Lv; [exact Lv|]. apply Forall_cons_iff in Hu as [_ Hu]. cbn [fold_left]. apply (IH Hu). rewrite absorb_length. exact Lv. }
  clearbody v'. unfold frame_lines in *. destruct k as [|[|k]]; [lia| |].
  - cbn [firstn length] in *. destruct f as [|f]; [lia|]. cbn [read_frames]. rewrite to_int_line. rewrite Z.eqb_refl. eauto.
  - cbn [firstn length] in *. destruct f as [|f]; [lia|]. cbn [read_frames]. rewrite to_int_line. rewrite Z.eqb_refl.
    pose proof P as [A R N]. destruct (read_rows_short d (atoms d) (pos_of d u) [] (atoms d) [] (r d) [] v' k) as (w & E); try reflexivity; try (rewrite ?(pos_length d u P Lu); lia); [exact N|].
    cbn [length app] in E. rewrite A in E. unfold atom_rows. rewrite E. eauto.
Qed.

End Proofs.

(** ** Incomplete files *)
Lemma lines_from_cut t : forall cur rest, lines_from cur ((t ++ [newline]) ++ rest) = lines_from cur (t ++ [newline]) ++ lines rest.
Proof.
  induction t as [|c t IH]; intros cur rest; cbn [app lines_from].
  - rewrite Ascii.eqb_refl. reflexivity.
  - destruct (Ascii.eqb c newline); [cbn [app]; f_equal|]; apply IH.
Qed.

Lemma lines_nonempty t : t <> [] -> lines t <> [].
Proof.
  intros H. destruct t as [|c t]; [congruence|]. unfold lines. cbn [lines_from]. destruct (Ascii.eqb c newline); [discriminate|]. cbn [app].
  assert (G : forall t cur, cur <> [] -> lines_from cur t <> []).
  { clear. induction t as [|c t IH]; intros cur H; cbn [lines_from]; [destruct cur; [congruence|discriminate]|]. destruct (Ascii.eqb c newline); [discriminate|]. apply IH. destruct cur; discriminate. }
  apply G. discriminate.
Qed.

Lemma from_xyz_cut fmt_g (Hg : forall x, no_newline (fmt_g x)) d hist u t rest vs :
  proper d -> Forall (fun u => length u = nat_ d) hist -> length u = nat_ d -> Forall (fun v => length v = nat_ d) vs -> vs <> [] ->
  frame fmt_g d u = (t ++ [newline]) ++ rest -> rest <> [] ->
  exists w, from_xyz d (Some (concat (map (frame fmt_g d) hist) ++ t ++ [newline])) vs = (w :: tl vs, Some StopIteration).
Proof.
  intros P Hh Lu Hv NE E NR. destruct vs as [|v others]; [congruence|]. apply Forall_cons_iff in Hv as [Lv _]. unfold from_xyz.
  assert (L : lines (concat (map (frame fmt_g d) hist) ++ t ++ [newline]) = concat (map (frame_lines fmt_g d) hist) ++ lines (t ++ [newline])).
  { clear Hh. induction hist as [|u0 hist IH]; [reflexivity|]. cbn [map concat]. rewrite <- app_assoc, frame_lines_eq by assumption. rewrite IH, <- app_assoc. reflexivity. }
  assert (F : frame_lines fmt_g d u = lines (t ++ [newline]) ++ lines rest).
  { pose proof (frame_lines_eq fmt_g Hg d u [] P) as X. rewrite E in X. change (lines []) with (@nil text) in X. rewrite !app_nil_r in X. rewrite <- X. apply lines_from_cut. }
  assert (K : lines (t ++ [newline]) = firstn (length (lines (t ++ [newline]))) (frame_lines fmt_g d u)) by (rewrite F, firstn_app, Nat.sub_diag, firstn_O, firstn_all, app_nil_r; reflexivity).
  pose proof (frame_lines_length fmt_g d u P Lu) as FL. rewrite F, app_length in FL. pose proof (lines_nonempty (t ++ [newline]) ltac:(destruct t; discriminate)). pose proof (lines_nonempty rest NR).
  assert (0 < length (lines (t ++ [newline]))) by (destruct (lines (t ++ [newline])); [congruence|cbn; lia]). assert (0 < length (lines rest)) by (destruct (lines rest); [congruence|cbn; lia]).
  rewrite L. destruct (read_short fmt_g d hist u v (length (lines (t ++ [newline]))) (length (concat (map (frame_lines fmt_g d) hist) ++ lines (t ++ [newline]))) P Hh Lu Lv ltac:(lia)) as (w & R).
  { rewrite <- K. lia. }
  rewrite <- K in R. rewrite R. exists w. reflexivity.
Qed.
