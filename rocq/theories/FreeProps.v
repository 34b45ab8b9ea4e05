(** C103: Fortran namelists in free layout. *)
From Coq Require Import Ascii String.
From Verif Require Import Common Text NmlModel QeSpec NmlProofs FreeSpec FreeProofs.
Import ListNotations.
Local Open Scope nat_scope.

(** Namelists are read as they are meant, however names and values are arranged. *)
Theorem C103_layout : forall l tail, Forall good_namelist l -> outside tail -> NoDup (map (fun x => lower (title x)) l) ->
  read_namelists (flat_map write_namelist l ++ tail) = Ok (map meaning l).
Proof. exact read_free. Qed.
Print Assumptions C103_layout.

(** Hence, two files with the same names and values are read the same. *)
Definition same_value (v w : text * written) : Prop := FreeSpec.value (snd v) = FreeSpec.value (snd w).
Definition same_assignment (a b : assignment) : Prop :=
  lower (name a) = lower (name b) /\ first (index a) = first (index b) /\ Forall2 same_value (values a) (values b).
Definition same_namelist (x y : namelist) : Prop := lower (title x) = lower (title y) /\ Forall2 same_assignment (assignments x) (assignments y).

Theorem C103_same : forall l l' tail tail', Forall good_namelist l -> Forall good_namelist l' -> outside tail -> outside tail' ->
  NoDup (map (fun x => lower (title x)) l) -> Forall2 same_namelist l l' ->
  read_namelists (flat_map write_namelist l ++ tail) = read_namelists (flat_map write_namelist l' ++ tail').
Proof.
  intros l l' tail tail' H H' T T' ND S.
  assert (E : map meaning l = map meaning l' /\ map (fun x => lower (title x)) l = map (fun x => lower (title x)) l').
  { clear - S. induction S as [|x y l l' [Ht Ha] _ [IH1 IH2]]; [auto|]. cbn [map]. split; [|rewrite Ht, IH2; reflexivity]. rewrite IH1. f_equal. unfold meaning. rewrite Ht. f_equal.
    assert (N : map (fun a => lower (name a)) (assignments x) = map (fun a => lower (name a)) (assignments y)).
    { clear - Ha. induction Ha as [|a b l l' (H1 & _) _ IH]; [reflexivity|]. cbn [map]. rewrite H1, IH. reflexivity. }
    unfold names. rewrite N. apply map_ext. intros k. do 2 f_equal. unfold list_of. generalize (@nil NmlModel.value) as acc.
    clear - Ha. induction Ha as [|a b l l' (H1 & H2 & H3) _ IH]; intros acc; [reflexivity|]. cbn [filter]. unfold about. rewrite H1. destruct (list_eq_dec ascii_dec (lower (name b)) k); [|apply IH].
    cbn [fold_left]. rewrite H2. replace (values_of a) with (values_of b); [apply IH|].
    unfold values_of. clear - H3. induction H3 as [|v w l l' Hv _ IH]; [reflexivity|]. cbn [map]. rewrite IH. f_equal. symmetry. exact Hv. }
  destruct E as [E1 E2]. rewrite !C103_layout; try assumption; [rewrite E1; reflexivity|rewrite <- E2; exact ND].
Qed.
Print Assumptions C103_same.

(** The elements of a list are those assigned last, the same name being used again
    for other or the same elements; those that are left out are None. *)
Theorem C103_elements : forall l k i,
  (forall a l1 l2, l = l1 ++ a :: l2 -> sets k i a -> Forall (fun b => ~ sets k i b) l2 ->
    nth_error (list_of l k) i = nth_error (values_of a) (i - (first (index a) - 1))) /\
  (Forall (fun b => ~ sets k i b) l -> nth_error (list_of l k) i = None \/ nth_error (list_of l k) i = Some VNone) /\
  (forall a, In a l -> sets k i a -> i < length (list_of l k)).
Proof. exact list_of_elements. Qed.
Print Assumptions C103_elements.

(** Comments up to the end of the line do not matter, wherever they begin. *)
Theorem C103_comment : forall a c b, Forall (fun x => x <> newline) c ->
  read_namelists (a ++ "!"%char :: c ++ newline :: b) = read_namelists (a ++ newline :: b).
Proof. intros a c b H. unfold read_namelists. rewrite (uncomment_comment a c b H). reflexivity. Qed.
Print Assumptions C103_comment.

(** Words: logical values in any notation, integers, numbers with any exponent letter *)
Theorem C103_word : forall t z a c b x,
  (In (lower t) (map str logical_true) -> FreeSpec.value (Word t) = VBool true) /\
  (In (lower t) (map str logical_false) -> FreeSpec.value (Word t) = VBool false) /\
  FreeSpec.value (Word (fmt_d z)) = VInt z /\
  (numeric a -> numeric b -> In c (§"deDE") -> to_float (a ++ "e"%char :: b) = Ok x -> FreeSpec.value (Word (a ++ c :: b)) = VFloat x).
Proof.
  intros t z a c b x. repeat split; cbn [FreeSpec.value]; [apply convert_true|apply convert_false|apply convert_int|apply convert_real].
Qed.
Print Assumptions C103_word.

(** ** What is not read as in Fortran *)

(** Repetitions, doubled quotation marks and empty namelists *)
Theorem C103_fortran_refuted :
  read_namelists (§"&a x = 3*0.5 /") = Ok [(§"a", [(§"x", VStr (§"3*0.5"))])] /\
  read_namelists (§"&a x = 'it''s' /") = Ok [(§"a", [(§"x", VStr (§"it''s"))])] /\
  read_namelists (§"&ions/") = Ok [(§"ion", [])].
Proof. repeat split; vm_compute; reflexivity. Qed.
Print Assumptions C103_fortran_refuted.

(** Two strings with the other kind of quotation marks become one, which includes the
    name of the second parameter. *)
Theorem C103_quotes_refuted :
  read_namelists (§"&a x = 'a""b' y = 'c""d' /") = Ok [(§"a", [(§"x", VStr (§"a""b' y = 'c""d"))])].
Proof. vm_compute. reflexivity. Qed.
Print Assumptions C103_quotes_refuted.

(** ** Example *)
Definition cell_example : assignment :=
  Assignment [newline; blank] (§"CellDM") (Some (§"  ", 2)) (§" ") [([], Word (§"1.5D0")); (§", ", Word (§".False.")); (§"  ", Word (§"-7"))].
Definition path_example : assignment := Assignment (§"; ") (§"outdir") None [] [([], Quoted dquote (§"a/b = c, (d)"))].
Definition again_example : assignment := Assignment [newline] (§"celldm") (Some ([], 1)) [] [([], Word (§"9")); (§" ", Word (§"2"))].
Definition namelist_example : namelist := Namelist (§"some text, (1) / ") (§"SYSTEM") [cell_example; path_example; again_example] [].

Example namelist_meets : good_namelist namelist_example.
Proof.
  assert (T : forall t, match t with [] => false | _ => true end && forallb plain_char t = true -> token_ok t).
  { intros t. rewrite Bool.andb_true_iff. intros [H1 H2]. split; [destruct t; congruence|]. apply Forall_forall, forallb_forall, H2. }
  assert (P : forall t, forallb (fun c => negb (Ascii.eqb c "(")) t = true -> Forall (fun c => c <> "("%char) t).
  { intros t H. apply Forall_forall. intros c Hc ->. apply (proj1 (forallb_forall _ _) H) in Hc. discriminate. }
  assert (O : forall x y t, forallb (fun c => negb (is_quote c) && negb (Ascii.eqb c x) && negb (Ascii.eqb c y)) t = true -> Forall (fun c => is_quote c = false /\ c <> x /\ c <> y) t).
  { intros x y t H. apply Forall_forall. intros c Hc. apply (proj1 (forallb_forall _ _) H) in Hc. repeat rewrite Bool.andb_true_iff in Hc. destruct Hc as [[H1 H2] H3].
    repeat split; [apply Bool.negb_true_iff, H1|..]; apply Ascii.eqb_neq, Bool.negb_true_iff; assumption. }
  constructor; cbn [other title assignments final namelist_example].
  - apply O. reflexivity.
  - split; [discriminate|]. repeat constructor.
  - repeat apply Forall_cons; [| | |apply Forall_nil].
    + constructor; cbn [lead name index before values cell_example].
      * split; [repeat constructor|discriminate].
      * split; [apply T|apply P]; reflexivity.
      * intros b i H. injection H as <- <-. split; [repeat constructor|auto].
      * repeat constructor.
      * split; [|repeat constructor; discriminate]. repeat apply Forall_cons; try apply Forall_nil; (split; [repeat constructor|split; [apply T|split]; reflexivity]).
    + constructor; cbn [lead name index before values path_example].
      * split; [repeat constructor|discriminate].
      * split; [apply T|apply P]; reflexivity.
      * discriminate.
      * constructor.
      * split; [|constructor]. apply Forall_cons; [|apply Forall_nil]. split; [constructor|]. split; [reflexivity|]. split; [reflexivity|]. apply O. reflexivity.
    + constructor; cbn [lead name index before values again_example].
      * split; [repeat constructor|discriminate].
      * split; [apply T|apply P]; reflexivity.
      * intros b i H. injection H as <- <-. split; [repeat constructor|auto].
      * repeat constructor.
      * split; [|repeat constructor; discriminate]. repeat apply Forall_cons; try apply Forall_nil; (split; [repeat constructor|split; [apply T|split]; reflexivity]).
  - split; [constructor|left; discriminate].
Qed.

Example namelist_read : read_namelists (write_namelist namelist_example) =
  Ok [(§"system", [(§"celldm", VList [VInt 9; VInt 2; VBool false; VInt (-7)]); (§"outdir", VStr (§"a/b = c, (d)"))])].
Proof.
  pose proof (C103_layout [namelist_example] [] (Forall_cons _ namelist_meets (Forall_nil _)) ltac:(constructor) ltac:(repeat constructor; intros [])) as H.
  cbn [flat_map] in H. rewrite !app_nil_r in H. rewrite H. vm_compute. reflexivity.
Qed.
Example word_meets : numeric (§"1.5") /\ numeric (§"-3") /\ to_float (§"1.5e-3") = Ok (15 # 10000)%Q.
Proof.
  repeat split; repeat (apply Forall_cons; [first [left; discriminate|right; cbn; tauto]|]); apply Forall_nil.
Qed.
