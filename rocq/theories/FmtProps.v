(** C57, C68 and C102 with models of the formats '%g', '%.10g', '%.12g' and '%19.11E' (see
    TextE.v and TextG.v) in place of assumptions about them. *)
From Coq Require Import Qabs Lqa.
From Verif Require Import Common CommonProofs Text TextProofs TextE TextEProofs TextG TextGProofs.
From Verif Require FrcModel FrcSpec FrcProps XyzModel XyzSpec XyzProps QeModel QeSpec QeProps.
Local Open Scope nat_scope.

(** The same up to a relative error of half a unit of the digit number [d], counted from
    zero *)
Definition digits_agree (d : nat) (x y : Q) : Prop := (Qabs (x - y) <= (1 # (2 * Z.to_pos (10 ^ Z.of_nat d))) * Qabs x)%Q.

Lemma fmt_g_ok p : FrcSpec.format_ok (format_g p) (rounded_g p).
Proof. intros x. destruct (word_format_g p x) as [N S]. split; [exact N|]. split; [exact S|]. rewrite <- (to_float_g p x [] [] ltac:(constructor) ltac:(constructor)). rewrite app_nil_r. reflexivity. Qed.

Lemma fmt_E_ok d : (0 < d) -> FrcSpec.format_ok (fmt_E d) (rounded_E d).
Proof. intros Hd x. destruct (word_fmt_E d x) as [N S]. split; [exact N|]. split; [exact S|]. rewrite <- (to_float_E d x [] [] Hd ltac:(constructor) ltac:(constructor)). rewrite app_nil_r. reflexivity. Qed.

(** Force constants that are written are read with eleven correct digits after the first
    one, the Ewald parameter with five. *)
Theorem C57_formats :
  forall primitives alat twopi nr phid amass at_ tau order alph epsil zeu,
  order <> [] -> length amass = length order -> Forall FrcSpec.symbol order -> FrcSpec.one_mass order amass ->
  exists t d,
    FrcModel.write_frc alat (format_g 6) (fmt_E 11) nr phid amass at_ tau order alph epsil zeu = Ok t /\ FrcModel.read_flfrc primitives twopi t = Ok (inl d) /\
    FrcModel.f_shape d = nr /\
    (forall i, (exists x, In (i, x) (FrcModel.f_phid d)) <-> FrcSpec.in_range (length order) nr i) /\
    (forall i x, In (i, x) (FrcModel.f_phid d) -> digits_agree 11 (phid i) x) /\
    FrcSpec.geometry_restored alat amass at_ tau order (FrcModel.f_geometry d) /\
    match epsil, zeu with
    | Some e, Some z => FrcSpec.epsil_restored e (FrcModel.f_epsil d) /\ FrcSpec.zeu_restored (length order) z (FrcModel.f_zeu d) /\
        match alph, FrcModel.f_alph d with Some a, Some a' => digits_agree 5 a a' | None, None => True | _, _ => False end
    | _, _ => FrcModel.f_epsil d = None /\ FrcModel.f_zeu d = None /\ FrcModel.f_alph d = None
    end.
Proof.
  intros primitives alat twopi nr phid amass at_ tau order alph epsil zeu NE L HS U.
  destruct (FrcProps.C57_force_constants primitives alat twopi (format_g 6) (fmt_E 11) (rounded_g 6) (rounded_E 11) nr phid amass at_ tau order alph epsil zeu (fmt_g_ok 6) (fmt_E_ok 11 ltac:(lia)) NE L HS U)
    as (t & d & W & R & S & I & V & G & X). exists t, d. split; [exact W|]. split; [exact R|]. split; [exact S|]. split; [exact I|]. split; [|split; [exact G|]].
  - intros i x H. rewrite (V i x H). apply (rounded_E_near 11).
  - destruct epsil; [|exact X]. destruct zeu; [|exact X]. destruct X as (X1 & X2 & ->). split; [exact X1|]. split; [exact X2|]. destruct alph; cbn [option_map]; [|trivial]. apply (rounded_g_near 6). lia.
Qed.
Print Assumptions C57_formats.

Lemma format_g_line p x : no_newline (format_g p x).
Proof. apply no_newline_solid, word_format_g. Qed.

(** Displacements that have been written last are read by all processes. *)
Theorem C68_formats :
  forall d history u append file us,
  XyzSpec.proper d -> Forall (fun ua => length (fst ua) = XyzModel.nat_ d) (history ++ [(u, append)]) ->
  (file = None \/ Exists (fun ua => snd ua = false) (history ++ [(u, append)])) ->
  us <> [] -> Forall (fun v => length v = XyzModel.nat_ d) us ->
  exists u', XyzModel.from_xyz d (XyzModel.write_history (format_g 10) d (history ++ [(u, append)]) file) us = (map (fun _ => u') us, None) /\
    length u' = XyzModel.nat_ d /\ forall i, i < XyzModel.nat_ d -> XyzSpec.vnear (nth i u XyzSpec.origin) (nth i u' XyzSpec.origin).
Proof. exact (XyzProps.C68_roundtrip (format_g 10) (format_g_line 10)). Qed.
Print Assumptions C68_formats.

(** All masses written to input files can be read again, with eleven correct digits after
    the first one; [mass_ok] in C102_pw is not a restriction. *)
Theorem C102_formats : forall x, QeSpec.mass_ok (format_g 12) (rounded_g 12) x /\ digits_agree 11 x (rounded_g 12 x).
Proof.
  intros x. split; [split; [split|]|].
  - apply (word_format_g 12 x).
  - destruct (format_g_all (fun c => QeSpec.safe_char c = true) 12 x) as [A _]; try reflexivity; [|exact A].
    intros d H. assert (E : (d = 0 \/ d = 1 \/ d = 2 \/ d = 3 \/ d = 4 \/ d = 5 \/ d = 6 \/ d = 7 \/ d = 8 \/ d = 9)%Z) by lia. repeat destruct E as [->|E]; try reflexivity. subst d. reflexivity.
  - rewrite <- (to_float_g 12 x [] [] ltac:(constructor) ltac:(constructor)). rewrite app_nil_r. reflexivity.
  - apply (rounded_g_near 12). lia.
Qed.
Print Assumptions C102_formats.

(** What Python prints *)
Example formats_example :
  map (format_g 6) [0; 1; 100000; 1000000; 9999995 # 10; 1 # 10000; 1 # 100000; - (1 # 3); 123456789; 15 # 10]%Q =
    [§"0"; §"1"; §"100000"; §"1e+06"; §"1e+06"; §"0.0001"; §"1e-05"; §"-0.333333"; §"1.23457e+08"; §"1.5"] /\
  map (fmt_E 3) [0; 1; - (2 # 3); 99999 # 10; 1 # 8192]%Q = [§"0.000E+00"; §"1.000E+00"; §"-6.667E-01"; §"1.000E+04"; §"1.221E-04"].
Proof. vm_compute. split; reflexivity. Qed.
Example C57_formats_example : exists t d,
  FrcModel.write_frc 6 (format_g 6) (fmt_E 11) (2, 2, 1) FrcProps.example_phid FrcProps.example_amass FrcProps.example_at FrcProps.example_tau FrcProps.example_order (Some (3 # 2)%Q) (Some FrcProps.example_at) (Some FrcProps.example_zeu) = Ok t /\
  FrcModel.read_flfrc (fun _ _ => Raise ValueError) (44 # 7) t = Ok (inl d) /\ FrcModel.f_shape d = (2, 2, 1).
Proof.
  destruct (C57_formats (fun _ _ => Raise ValueError) 6 (44 # 7) (2, 2, 1) FrcProps.example_phid FrcProps.example_amass FrcProps.example_at FrcProps.example_tau FrcProps.example_order (Some (3 # 2)%Q) (Some FrcProps.example_at) (Some FrcProps.example_zeu) ltac:(discriminate) eq_refl FrcProps.example_symbols FrcProps.example_one_mass)
    as (t & d & W & R & S & _). exists t, d. auto.
Qed.
Example C68_formats_example : exists u', XyzModel.from_xyz XyzProps.TaS (XyzModel.write_history (format_g 10) XyzProps.TaS ([(XyzProps.u1, false)] ++ [(XyzProps.u2, true)]) None) [XyzProps.u1] = ([u'], None) /\ length u' = 2.
Proof.
  destruct (C68_formats XyzProps.TaS [(XyzProps.u1, false)] XyzProps.u2 true None [XyzProps.u1] XyzProps.TaS_proper) as (u' & E & L & _); [repeat constructor|left; reflexivity|discriminate|repeat constructor|]. exists u'. auto.
Qed.
