(** Proofs about XmlModel.v *)
From Coq Require Import Qabs Lqa Lia.
From Verif Require Import Common CommonProofs Text TextProofs TextE TextEProofs MPIModel MPIProofs CoulModel QuadProofs XmlModel XmlSpec.
From Verif Require ProjModel ProjReadProofs.
Local Open Scope nat_scope.
Notation contains := ProjModel.contains.

(** ** k points *)
Lemma product_bound (u v U V : Q) : (Qabs u <= U -> Qabs v <= V -> Qabs (u * v) <= U * V)%Q.
Proof.
  intros A B. rewrite Qabs_Qmult. pose proof (Qabs_nonneg u). pose proof (Qabs_nonneg v). nra.
Qed.

Lemma round_near (y : Q) (k : Z) : (Qabs (y - inject_Z k) < 1 # 2)%Q -> round_div (Qnum y) (Zpos (Qden y)) = k.
Proof.
  intros H. pose proof (round_div_near (Qnum y) (Zpos (Qden y)) ltac:(lia)) as R. destruct y as [a b]. cbn [Qnum Qden] in *. set (r := round_div a (Z.pos b)) in *.
  unfold Qlt, Qabs, Qminus, Qplus, Qopp, inject_Z in H. cbn [Qnum Qden] in H. rewrite Pos.mul_1_r in H. nia.
Qed.

Lemma bound_sum (k1 k2 N : Q) (x y : Q) : (0 <= k1 -> k1 <= N -> 0 <= k2 -> k2 <= N -> Qabs x <= 2 -> Qabs y <= 2 -> Qabs (k1 * x + k2 * y) <= 4 * N)%Q.
Proof.
  intros A1 B1 A2 B2 X Y. apply Qabs_Qle_condition in X, Y. apply Qabs_Qle_condition. split; nra.
Qed.

Section Component.
  Variables (a b1 b2 : Q * Q) (nk k1 k2 kk : nat) (c1 c2 : Q).
  Hypotheses (Ma : moderate a) (M1 : moderate b1) (M2 : moderate b2) (C1 : close (scalar a b1) c1) (C2 : close (scalar a b2) c2).
  Hypotheses (Hk1 : k1 < nk) (Hk2 : k2 < nk) (HN : (Z.of_nat nk <= 1000000)%Z).
  Hypothesis HK : (inject_Z (Z.of_nat kk) == c1 * inject_Z (Z.of_nat k1) + c2 * inject_Z (Z.of_nat k2))%Q.
  Hypothesis Hkk : kk < nk.

  Lemma component_ok : component nk [rounded_E 15 (fst (k_point b1 b2 nk k1 k2)); rounded_E 15 (snd (k_point b1 b2 nk k1 k2))] a = Ok kk.
  Proof.
    unfold component, k_point. cbn [fst snd]. set (N := inject_Z (Z.of_nat nk)). set (x1 := inject_Z (Z.of_nat k1)) in *. set (x2 := inject_Z (Z.of_nat k2)) in *.
    assert (N1 : (1 <= N)%Q) by (unfold N; change 1%Q with (inject_Z 1); rewrite <- Zle_Qle; lia). assert (N2 : (N <= 1000000)%Q) by (unfold N; change (1000000)%Q with (inject_Z 1000000); rewrite <- Zle_Qle; lia).
    assert (P1 : (0 <= x1)%Q) by (unfold x1; change 0%Q with (inject_Z 0); rewrite <- Zle_Qle; lia). assert (P2 : (0 <= x2)%Q) by (unfold x2; change 0%Q with (inject_Z 0); rewrite <- Zle_Qle; lia).
    assert (L1 : (x1 <= N)%Q) by (unfold x1, N; rewrite <- Zle_Qle; lia). assert (L2 : (x2 <= N)%Q) by (unfold x2, N; rewrite <- Zle_Qle; lia).
    assert (E : forall u v, (Qabs u <= 2 -> Qabs v <= 2 -> exists d, Qabs d <= 1 # 100000000 /\ rounded_E 15 ((x1 * u + x2 * v) / N) * N == x1 * u + x2 * v + d)%Q).
    { intros u v U V. pose proof (bound_sum x1 x2 N u v P1 L1 P2 L2 U V) as B. set (s := (x1 * u + x2 * v)%Q) in *. set (kx := (s / N)%Q). pose proof (rounded_E_near 15 kx) as R.
      change (2 * Z.to_pos (10 ^ Z.of_nat 15))%positive with 2000000000000000%positive in R.
      exists ((rounded_E 15 kx - kx) * N)%Q. assert (EN : (kx * N == s)%Q) by (unfold kx; field; intros X; rewrite X in N1; lra). split; [|rewrite <- EN; ring].
      assert (K4 : (Qabs kx <= 4)%Q). { apply Qabs_Qle_condition in B. apply Qabs_Qle_condition. split; nra. }
      apply Qabs_Qle_condition. assert (R' : (Qabs (kx - rounded_E 15 kx) <= 1 # 100000000000000)%Q) by (eapply Qle_trans; [exact R|]; lra). apply Qabs_Qle_condition in R'. split; nra. }
    destruct Ma as [Ma1 Ma2], M1 as [M11 M12], M2 as [M21 M22]. destruct (E _ _ M11 M21) as (dx & Dx & Ex). destruct (E _ _ M12 M22) as (dy & Dy & Ey).
    set (rx := rounded_E 15 ((x1 * fst b1 + x2 * fst b2) / N)) in *. set (ry := rounded_E 15 ((x1 * snd b1 + x2 * snd b2) / N)) in *.
    set (y := ((rx * fst a + ry * snd a) * N)%Q).
    assert (EY : (y - inject_Z (Z.of_nat kk) == (scalar a b1 - c1) * x1 + (scalar a b2 - c2) * x2 + dx * fst a + dy * snd a)%Q).
    { unfold y. rewrite HK. transitivity (rx * N * fst a + ry * N * snd a - (c1 * x1 + c2 * x2))%Q; [ring|]. rewrite Ex, Ey. unfold scalar. ring. }
    rewrite (round_near y (Z.of_nat kk)).
    - rewrite Z.mod_small by lia. rewrite Nat2Z.id. reflexivity.
    - rewrite EY. clear EY. pose proof (product_bound _ _ _ _ Dx Ma1) as Q1. pose proof (product_bound _ _ _ _ Dy Ma2) as Q2. unfold close in C1, C2. apply Qabs_Qle_condition in C1, C2, Q1, Q2. apply Qabs_Qlt_condition. split; nra.
  Qed.
End Component.

(** ** Lines *)
Lemma contains_skip c p a t : Forall (fun d => d <> c) a -> contains (c :: p) (a ++ t) = contains (c :: p) t.
Proof.
  induction 1 as [|d a Hd H IH]; [reflexivity|]. cbn [app ProjModel.contains ProjModel.prefix]. rewrite IH. destruct (Ascii.eqb_spec c d) as [->|]; [contradiction|reflexivity].
Qed.
Lemma contains_here p a b : contains p (a ++ p ++ b) = true.
Proof. apply ProjReadProofs.contains_spec. exists a, b. reflexivity. Qed.

Lemma goto_skip p pre ls : Forall (fun l => contains p l = false) pre -> goto p (pre ++ ls) = goto p ls.
Proof. induction 1 as [|l pre Hl H IH]; [reflexivity|]. cbn [app goto]. rewrite Hl. exact IH. Qed.
Lemma goto_here p l ls : contains p l = true -> goto p (l :: ls) = (Some l, ls).
Proof. intros H. cbn [goto]. rewrite H. reflexivity. Qed.

Lemma chr_not c : (forall d, (0 <= d < 10)%Z -> chr d <> c) -> forall z, c <> "-"%char -> Forall (fun d => d <> c) (fmt_d z).
Proof. intros H z Hc. apply fmt_d_all; [exact H|congruence]. Qed.
Lemma digit_not_lt d : (0 <= d < 10)%Z -> chr d <> "<"%char.
Proof. intros H. destruct (digit_cases d H) as [->|[->|[->|[->|[->|[->|[->|[->|[->| ->]]]]]]]]]; discriminate. Qed.
Lemma digit_not_comma d : (0 <= d < 10)%Z -> chr d <> ","%char.
Proof. intros H. destruct (digit_cases d H) as [->|[->|[->|[->|[->|[->|[->|[->|[->| ->]]]]]]]]]; discriminate. Qed.
Lemma digit_not_newline d : (0 <= d < 10)%Z -> chr d <> newline.
Proof. intros H. destruct (digit_cases d H) as [->|[->|[->|[->|[->|[->|[->|[->|[->| ->]]]]]]]]]; discriminate. Qed.

Definition nl (l : text) : text := l ++ [newline].

Lemma lines_unlines ls : Forall no_newline ls -> lines (unlines ls) = map nl ls.
Proof.
  intros H. unfold unlines. rewrite <- (app_nil_r (concat _)). rewrite (lines_concat (map (fun l => l ++ [newline]) ls) []).
  - rewrite app_nil_r. reflexivity.
  - intros t I. apply in_map_iff in I as (l & <- & I). exists l. split; [reflexivity|]. rewrite Forall_forall in H. apply H, I.
Qed.

(** ** Matrix elements *)
Definition round2 (v : cx) : cx := (rounded_E 15 (fst v), rounded_E 15 (snd v)).

Lemma split_from_no c : forall a cur t, Forall (fun d => d <> c) a -> split_from c cur (a ++ t) = split_from c (cur ++ a) t.
Proof.
  induction a as [|d a IH]; intros cur t H; [rewrite app_nil_r; reflexivity|]. cbn [app split_from]. destruct (Ascii.eqb_spec d c) as [->|]; [pose proof (Forall_inv H); contradiction|].
  rewrite IH by exact (Forall_inv_tail H). rewrite <- app_assoc. reflexivity.
Qed.

Lemma E23_all (P : ascii -> Prop) x : (forall d, (0 <= d < 10)%Z -> P (chr d)) -> P "-"%char -> P "+"%char -> P "."%char -> P "E"%char -> P blank -> Forall P (fmt_E23 x).
Proof.
  intros. unfold fmt_E23, pad. apply Forall_app. split; [apply Forall_forall; intros c I; apply repeat_spec in I; subst; assumption|apply fmt_E_all; assumption].
Qed.

Lemma no_newline_E23 x : no_newline (fmt_E23 x).
Proof. apply E23_all; try discriminate. apply digit_not_newline. Qed.

Lemma float_E23 x r : spaces r -> to_float (fmt_E23 x ++ r) = Ok (rounded_E 15 x).
Proof. intros H. unfold fmt_E23, pad. rewrite <- app_assoc. apply to_float_E; [lia|apply spaces_blank|exact H]. Qed.

Lemma float_E15 x : to_float (fmt_E 15 x) = Ok (rounded_E 15 x).
Proof. pose proof (to_float_E 15 x [] [] ltac:(lia) ltac:(constructor) ltac:(constructor)) as H. cbn [app] in H. rewrite app_nil_r in H. exact H. Qed.

Lemma complex_line v : complex_of true (nl (element_line v)) = Ok (round2 v).
Proof.
  unfold complex_of, nl, element_line, split_at. rewrite <- !app_assoc. rewrite split_from_no by (apply E23_all; try discriminate; apply digit_not_comma). cbn [str list_ascii_of_string app split_from]. change (Ascii.eqb "," ",") with true. cbv iota.
  rewrite split_from_no by (apply E23_all; try discriminate; apply digit_not_comma). cbn [app split_from]. change (Ascii.eqb newline ",") with false. cbv iota. cbn [map_res].
  rewrite <- (app_nil_r (fmt_E23 (fst v))). rewrite float_E23 by constructor. cbn [bind]. rewrite float_E23 by repeat constructor. reflexivity.
Qed.

Lemma k_line_words x y z : str_split (nl (fmt_E23 x ++ §" " ++ fmt_E23 y ++ §" " ++ fmt_E23 z)) = [fmt_E 15 x; fmt_E 15 y; fmt_E 15 z].
Proof.
  unfold nl, fmt_E23. rewrite <- !app_assoc. rewrite split_pad; [|apply word_fmt_E|reflexivity]. change (§" ") with [blank]. cbn [app]. rewrite split_blank_pad; [|apply word_fmt_E|reflexivity]. rewrite split_blank_pad; [|apply word_fmt_E|reflexivity].
  reflexivity.
Qed.

Section File.
  Variables (a1 a2 b1 b2 : Q * Q) (nk nbands : nat) (g : matrices) (sel : nat -> option nat).
  Hypotheses (RC : reciprocal a1 a2 b1 b2) (HN : (Z.of_nat nk <= 1000000)%Z).

  Definition step (k1 k2 : nat) (acc : matrices) (ji : nat * nat) : matrices :=
    match sel (fst ji), sel (snd ji) with Some n, Some m => set acc k1 k2 m n (round2 (g k1 k2 (snd ji) (fst ji))) | _, _ => acc end.

  Lemma elements_ok k1 k2 rest : forall ps acc,
    elements true k1 k2 (map (fun ji => (sel (fst ji), sel (snd ji))) ps) acc (map (fun ji => nl (element_line (g k1 k2 (snd ji) (fst ji)))) ps ++ rest) = Ok (fold_left (step k1 k2) ps acc, rest).
  Proof using Type.
    induction ps as [|[j i] ps IH]; intros acc; [reflexivity|]. cbn [map app elements next bind fst snd fold_left]. unfold step at 2. cbn [fst snd].
    destruct (sel j) as [n|]; [|apply IH]. destruct (sel i) as [m|]; [|apply IH]. rewrite complex_line. cbn [bind]. apply IH.
  Qed.

  Lemma list_prod_map {A B} (f : A -> B) : forall l l', list_prod (map f l) (map f l') = map (fun ji => (f (fst ji), f (snd ji))) (list_prod l l').
  Proof using Type. induction l as [|x l IH]; intros l'; [reflexivity|]. cbn [map list_prod]. rewrite IH, map_app, !map_map. reflexivity. Qed.
  Lemma list_prod_flat {A B C} (f : A -> B -> C) : forall l l', flat_map (fun x => map (f x) l') l = map (fun xy => f (fst xy) (snd xy)) (list_prod l l').
  Proof using Type. induction l as [|x l IH]; intros l'; [reflexivity|]. cbn [flat_map list_prod]. rewrite IH, map_app, map_map. reflexivity. Qed.

  Notation ps := (list_prod (seq 0 nbands) (seq 0 nbands)).
  Notation block ik k := (map nl (k_block b1 b2 nk nbands g ik (fst k) (snd k))).

  Lemma kx_read k1 k2 : k1 < nk -> k2 < nk -> component nk (firstn 2 [rounded_E 15 (fst (k_point b1 b2 nk k1 k2)); rounded_E 15 (snd (k_point b1 b2 nk k1 k2)); rounded_E 15 0]) a1 = Ok k1 /\
    component nk (firstn 2 [rounded_E 15 (fst (k_point b1 b2 nk k1 k2)); rounded_E 15 (snd (k_point b1 b2 nk k1 k2)); rounded_E 15 0]) a2 = Ok k2.
  Proof using RC HN.
    intros H1 H2. destruct RC as (A1 & A2 & B1 & B2 & C11 & C12 & C21 & C22). cbn [firstn]. split.
    - apply (component_ok a1 b1 b2 nk k1 k2 k1 1 0); try assumption. ring.
    - apply (component_ok a2 b1 b2 nk k1 k2 k2 0 1); try assumption. ring.
  Qed.

  Lemma tail_lines ik : Forall (fun l => contains §"<COORDINATES_XK" l = false) (map nl [§"      </PARTIAL_ELPH>"; §"    </K_POINT." ++ fmt_d (Z.of_nat ik) ++ §">"]).
  Proof using Type.
    repeat constructor. unfold nl. rewrite <- !app_assoc. change (§"<COORDINATES_XK") with ("<"%char :: §"COORDINATES_XK"). cbn [str list_ascii_of_string app ProjModel.contains ProjModel.prefix Ascii.eqb Bool.eqb orb andb].
    rewrite contains_skip; [reflexivity|]. apply chr_not; [apply digit_not_lt|discriminate].
  Qed.
  Lemma head_line ik : contains §"<COORDINATES_XK" (nl (§"    <K_POINT." ++ fmt_d (Z.of_nat ik) ++ §">")) = false.
  Proof using Type.
    unfold nl. rewrite <- !app_assoc. change (§"<COORDINATES_XK") with ("<"%char :: §"COORDINATES_XK"). cbn [str list_ascii_of_string app ProjModel.contains ProjModel.prefix Ascii.eqb Bool.eqb orb andb].
    rewrite contains_skip; [reflexivity|]. apply chr_not; [apply digit_not_lt|discriminate].
  Qed.

  Lemma k_points_ok (ik : nat * nat -> nat) rest : forall ks pre acc, Forall (fun l => contains §"<COORDINATES_XK" l = false) pre -> (forall k, In k ks -> fst k < nk /\ snd k < nk) ->
    k_points true a1 a2 nk (map (fun ji => (sel (fst ji), sel (snd ji))) ps) (length ks) acc (pre ++ flat_map (fun k => block (ik k) k) ks ++ rest) =
    Ok (fold_left (fun acc k => fold_left (step (fst k) (snd k)) ps acc) ks acc).
  Proof using RC HN.
    induction ks as [|[k1 k2] ks IH]; intros pre acc Hpre HK; [reflexivity|]. destruct (HK (k1, k2) ltac:(left; reflexivity)) as [H1 H2]. cbn [fst snd] in H1, H2.
    cbn [length k_points flat_map fold_left fst snd]. rewrite (goto_skip _ pre) by exact Hpre. unfold k_block. cbv zeta. rewrite !map_app. cbn [map]. rewrite <- !app_assoc. cbn [app].
    match goal with |- context [goto ?p (?l :: ?ls)] => change (goto p (l :: ls)) with (goto p ([l] ++ ls)); rewrite (goto_skip p [l] ls) by (repeat constructor; apply head_line) end.
    rewrite goto_here by reflexivity. cbn [snd next bind]. rewrite k_line_words. cbn [map_res].
    rewrite !float_E15. cbn [bind]. destruct (kx_read k1 k2 H1 H2) as [-> ->]. cbn [bind].
    match goal with |- context [goto ?p (?l :: ?ls)] => change (goto p (l :: ls)) with (goto p ([l] ++ ls)); rewrite (goto_skip p [l] ls) by (repeat constructor) end.
    rewrite goto_here by reflexivity. cbn [snd]. rewrite (list_prod_flat (fun j i => element_line (g k1 k2 i j))), map_map, elements_ok. cbn [bind].
    match goal with |- context [?x :: ?y :: flat_map ?f ks ++ rest] => change (x :: y :: flat_map f ks ++ rest) with ([x; y] ++ flat_map f ks ++ rest) end.
    apply IH; [apply tail_lines|intros k I; apply HK; right; exact I].
  Qed.

  Lemma no_newline_str t : forallb (fun c => negb (Ascii.eqb c newline)) t = true -> no_newline t.
  Proof using Type. intros H. rewrite forallb_forall in H. apply Forall_forall. intros c I E. specialize (H c I). rewrite E in H. discriminate. Qed.

  Ltac nonl := repeat first [apply no_newline_E23 | apply no_newline_d | apply no_newline_app | apply no_newline_str; reflexivity].
  Lemma no_newline_header : Forall no_newline (header nk nbands).
  Proof using Type. unfold header. repeat (constructor; [nonl|]). constructor. Qed.
  Lemma no_newline_block ik k1 k2 : Forall no_newline (k_block b1 b2 nk nbands g ik k1 k2).
  Proof using Type.
    unfold k_block. cbv zeta. apply Forall_app; split; [repeat (constructor; [nonl|]); constructor|]. apply Forall_app; split; [|repeat (constructor; [nonl|]); constructor].
    apply Forall_forall. intros l I. apply in_flat_map in I as (j & _ & I). apply in_map_iff in I as (i & <- & _). unfold element_line. nonl.
  Qed.

  Notation ks := (list_prod (seq 0 nk) (seq 0 nk)).
  Definition number_of (k : nat * nat) : nat := fst k * nk + snd k + 1.

  Lemma flat_prod {A B C} (f : A -> B -> list C) : forall l l', flat_map (fun x => flat_map (f x) l') l = flat_map (fun xy => f (fst xy) (snd xy)) (list_prod l l').
  Proof using Type.
    induction l as [|x l IH]; intros l'; [reflexivity|]. cbn [flat_map list_prod]. rewrite IH, flat_map_app. f_equal. clear. induction l' as [|y l' IH]; [reflexivity|]. cbn [flat_map map fst snd]. rewrite IH. reflexivity.
  Qed.

  Lemma file_lines : lines (file_text b1 b2 nk nbands g) =
    map nl (header nk nbands) ++ flat_map (fun k => block (number_of k) k) ks ++ map nl [§"  </PARTIAL_EL_PHON>"; §"</Root>"].
  Proof using Type.
    unfold file_text. rewrite lines_unlines.
    - rewrite !map_app. f_equal. f_equal. rewrite (flat_prod (fun k1 k2 => k_block b1 b2 nk nbands g (k1 * nk + k2 + 1) k1 k2)). rewrite flat_map_concat_map, concat_map, map_map, <- flat_map_concat_map. reflexivity.
    - apply Forall_app. split; [apply no_newline_header|]. apply Forall_app. split; [|repeat (constructor; [nonl|]); constructor].
      apply Forall_forall. intros l I. apply in_flat_map in I as (k1 & _ & I). apply in_flat_map in I as (k2 & _ & I). pose proof (no_newline_block (k1 * nk + k2 + 1) k1 k2) as F. rewrite Forall_forall in F. apply F, I.
  Qed.

  Lemma read_file_ok acc : read_file true a1 a2 nk (map sel (seq 0 nbands)) acc (file_text b1 b2 nk nbands g) = Ok (fold_left (fun acc k => fold_left (step (fst k) (snd k)) ps acc) ks acc).
  Proof using RC HN.
    unfold read_file. rewrite file_lines. unfold header. cbn [map].
    match goal with |- context [goto ?p ((?x1 :: ?x2 :: ?x3 :: ?x4 :: ?x5 :: ?x6 :: ?x7 :: ?x8 :: ?x9 :: ?x10 :: ?x11 :: ?x12 :: ?ls) ++ ?r)] =>
      change ((x1 :: x2 :: x3 :: x4 :: x5 :: x6 :: x7 :: x8 :: x9 :: x10 :: x11 :: x12 :: ls) ++ r) with ([x1; x2; x3; x4; x5; x6; x7; x8; x9; x10; x11; x12] ++ ls ++ r);
      rewrite (goto_skip p [x1; x2; x3; x4; x5; x6; x7; x8; x9; x10; x11; x12]) by (repeat constructor) end.
    cbn [app]. rewrite goto_here by reflexivity. cbn [number next bind]. unfold nl at 1. rewrite <- app_assoc. rewrite (to_int_fmt §"      " _ [newline]) by (repeat constructor). cbn [bind].
    destruct (Z.ltb_spec (Z.of_nat (nk * nk)) 0); [lia|].
    match goal with |- context [goto ?p (?x :: ?y :: ?ls)] => change (x :: y :: ls) with ([x] ++ y :: ls); rewrite (goto_skip p [x]) by (repeat constructor) end.
    rewrite goto_here by reflexivity. cbn [number next bind]. unfold nl at 1. rewrite <- app_assoc. rewrite (to_int_fmt §"      " _ [newline]) by (repeat constructor). cbn [bind].
    rewrite list_prod_map. replace (nk * nk) with (length ks) by (rewrite prod_length, seq_length; reflexivity).
    match goal with |- context [?x :: flat_map ?f ks ++ ?r] => change (x :: flat_map f ks ++ r) with ([x] ++ flat_map f ks ++ r) end.
    apply k_points_ok; [repeat constructor|]. intros [k1 k2] I. apply in_prod_iff in I as [I1 I2]. apply in_seq in I1, I2. cbn [fst snd]. lia.
  Qed.

  (** The default format: the number of k points is expected on the line of the tag. *)
  Lemma read_file_new acc : read_file false a1 a2 nk (map sel (seq 0 nbands)) acc (file_text b1 b2 nk nbands g) = Raise ValueError.
  Proof using Type.
    unfold read_file. rewrite file_lines. unfold header. cbn [map].
    match goal with |- context [goto ?p ((?x1 :: ?x2 :: ?x3 :: ?x4 :: ?x5 :: ?x6 :: ?x7 :: ?x8 :: ?x9 :: ?x10 :: ?x11 :: ?x12 :: ?ls) ++ ?r)] =>
      change ((x1 :: x2 :: x3 :: x4 :: x5 :: x6 :: x7 :: x8 :: x9 :: x10 :: x11 :: x12 :: ls) ++ r) with ([x1; x2; x3; x4; x5; x6; x7; x8; x9; x10; x11; x12] ++ ls ++ r);
      rewrite (goto_skip p [x1; x2; x3; x4; x5; x6; x7; x8; x9; x10; x11; x12]) by (repeat constructor) end.
    cbn [app]. rewrite goto_here by reflexivity. reflexivity.
  Qed.

  (** ** The values that are read *)
  Lemma fold_flat {A B S} (f : A -> S -> B -> S) (l' : list B) : forall (l : list A) acc, fold_left (fun acc x => fold_left (f x) l' acc) l acc = fold_left (fun acc xy => f (fst xy) acc (snd xy)) (list_prod l l') acc.
  Proof using Type.
    induction l as [|x l IH]; intros acc; [reflexivity|]. cbn [fold_left list_prod]. rewrite IH, fold_left_app. f_equal. clear. revert acc. induction l' as [|y l' IH]; intros acc; [reflexivity|]. cbn [fold_left map fst snd]. apply IH.
  Qed.

  Lemma step_keeps k1 k2 m n i j l : (forall i' m', sel i' = Some m' -> m' = m -> i' = i) -> (forall j' n', sel j' = Some n' -> n' = n -> j' = j) -> forall acc,
    acc k1 k2 m n = round2 (g k1 k2 i j) -> fold_left (fun acc xy => step (fst (fst xy)) (snd (fst xy)) acc (snd xy)) l acc k1 k2 m n = round2 (g k1 k2 i j).
  Proof using Type.
    intros Ui Uj. induction l as [|[[k1' k2'] [j' i']] l IH]; intros acc H; [exact H|]. cbn [fold_left fst snd]. apply IH. unfold step. cbn [fst snd].
    destruct (sel j') as [n'|] eqn:Ej; [|exact H]. destruct (sel i') as [m'|] eqn:Ei; [|exact H]. unfold set.
    destruct (Nat.eqb_spec k1 k1') as [->|]; [|exact H]. destruct (Nat.eqb_spec k2 k2') as [->|]; [|exact H]. destruct (Nat.eqb_spec m m') as [->|]; [|exact H]. destruct (Nat.eqb_spec n n') as [->|]; [|exact H]. cbn [andb].
    rewrite (Ui i' m' Ei eq_refl), (Uj j' n' Ej eq_refl). reflexivity.
  Qed.

  Lemma values_ok k1 k2 m n i j acc : k1 < nk -> k2 < nk -> i < nbands -> j < nbands -> sel i = Some m -> sel j = Some n ->
    (forall i' m', sel i' = Some m' -> m' = m -> i' = i) -> (forall j' n', sel j' = Some n' -> n' = n -> j' = j) ->
    fold_left (fun acc k => fold_left (step (fst k) (snd k)) ps acc) ks acc k1 k2 m n = round2 (g k1 k2 i j).
  Proof using Type.
    intros H1 H2 Hi Hj Si Sj Ui Uj. rewrite (fold_flat (fun k => step (fst k) (snd k))).
    assert (I : In ((k1, k2), (j, i)) (list_prod ks ps)) by (repeat (apply in_prod_iff; split); apply in_seq; lia). apply in_split in I as (before & after & ->). rewrite fold_left_app. cbn [fold_left].
    apply (step_keeps k1 k2 m n i j after Ui Uj). cbn [fst snd]. unfold step at 1. cbn [fst snd]. rewrite Sj, Si. unfold set. rewrite !Nat.eqb_refl. reflexivity.
  Qed.
End File.

(** ** Selected bands *)
Lemma band_select_ok nbands : forall bands n f, distinct_below nbands bands -> exists sel, band_select nbands n bands f = Ok sel /\
  (forall i b, nth_error bands i = Some b -> sel (Z.to_nat b) = Some (n + i)) /\
  (forall p m, sel p = Some m -> f p = Some m \/ exists i, m = n + i /\ nth_error bands i = Some (Z.of_nat p)) /\
  (forall p, ~ In (Z.of_nat p) bands -> sel p = f p).
Proof.
  induction bands as [|b bands IH]; intros n f [ND B]; [exists f; split; [reflexivity|]; split; [intros [|] ? H; discriminate|split; auto]|].
  pose proof (B b ltac:(left; reflexivity)) as Hb. cbn [band_select]. unfold position. destruct (Z.leb_spec 0 b); [|lia]. destruct (Z.ltb_spec b (Z.of_nat nbands)); [|lia]. cbn [andb bind].
  apply NoDup_cons_iff in ND as [NI ND]. destruct (IH (n + 1) (fun p => if p =? Z.to_nat b then Some n else f p)) as (sel & E & P1 & P2 & P3); [split; [exact ND|intros z I; apply B; right; exact I]|].
  exists sel. split; [exact E|]. split; [|split].
  - intros [|i] c Hc; cbn [nth_error] in Hc.
    + injection Hc as <-. rewrite P3 by (rewrite Z2Nat.id by lia; exact NI). rewrite Nat.eqb_refl. f_equal. lia.
    + rewrite (P1 i c Hc). f_equal. lia.
  - intros p m Hp. destruct (P2 p m Hp) as [H'|(i & -> & Hi)].
    + destruct (Nat.eqb_spec p (Z.to_nat b)) as [->|]; [|left; exact H']. injection H' as <-. right. exists 0. split; [lia|]. cbn [nth_error]. rewrite Z2Nat.id by lia. reflexivity.
    + right. exists (S i). split; [lia|exact Hi].
  - intros p Hp. rewrite P3 by (intros I; apply Hp; right; exact I). destruct (Nat.eqb_spec p (Z.to_nat b)) as [->|]; [|reflexivity]. exfalso. apply Hp. left. rewrite Z2Nat.id by lia. reflexivity.
Qed.

Lemma map_res_all {A B} (f : A -> res B) (h : A -> B) l : (forall x, In x l -> f x = Ok (h x)) -> map_res f l = Ok (map h l).
Proof.
  induction l as [|x l IH]; intros H; [reflexivity|]. cbn [map_res map]. rewrite (H x) by (left; reflexivity). cbn [bind]. rewrite IH by (intros y I; apply H; right; exact I). reflexivity.
Qed.
