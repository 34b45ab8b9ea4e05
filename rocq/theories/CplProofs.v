(** Proofs about files with electron-phonon matrix elements. *)
From Coq Require Import Lia.
From Verif Require Import Common CommonProofs Text TextProofs MPIModel MPIProofs CoulModel SymModel SymSpec CplModel CplSpec.
Local Open Scope nat_scope.

Lemma position_ok n z : (0 <= z < Z.of_nat n)%Z -> position n z = Ok (Z.to_nat z).
Proof. intros H. unfold position. destruct (Z.leb_spec 0 z); [|lia]. destruct (Z.ltb_spec z (Z.of_nat n)); [reflexivity|lia]. Qed.

Lemma skipn_app_len {A} (a b : list A) : skipn (length a) (a ++ b) = b.
Proof. rewrite skipn_app, skipn_all, Nat.sub_diag. reflexivity. Qed.

Lemma from_end_ok {A} (l m r : list A) : from_end (length m + length r) (length r) (l ++ m ++ r) = m.
Proof.
  unfold from_end. rewrite !app_length. replace (length l + (length m + length r) - (length m + length r)) with (length l) by lia. rewrite skipn_app_len.
  replace (length l + (length m + length r) - length r - length l) with (length m) by lia. rewrite firstn_app, Nat.sub_diag, firstn_all. cbn [firstn]. apply app_nil_r.
Qed.

Lemma at_end_ok (l r : list text) (x : text) : at_end (S (length r)) (l ++ x :: r) = Ok x.
Proof.
  unfold at_end. rewrite app_length. cbn [length]. destruct (Nat.leb_spec (S (length r)) (length l + S (length r))); [|lia].
  replace (length l + S (length r) - S (length r)) with (length l) by lia. rewrite nth_error_app2, Nat.sub_diag by lia. reflexivity.
Qed.

Section Lines.
  Context (phase : bool) (offset : Z) (nmodes nk bands : nat).
  Notation read := (read_line phase offset nmodes nk bands).

  Lemma read_comment d l : comment l -> read d l = Ok d.
  Proof using Type. intros (c & ws & E & H). unfold read_line. rewrite E. destruct c as [|a c]; [discriminate|]. cbn [hd_error] in H. injection H as ->. reflexivity. Qed.

  Lemma index_ok w z : to_int w = Ok z -> index w = Ok (z - 1)%Z.
  Proof using Type. unfold index. intros ->. reflexivity. Qed.

  (** The effect of an entry *)
  Definition put (d : elements) (e : entry) : elements :=
    if ((Z.of_nat bands <=? e_i e - 1 - offset) || (Z.of_nat bands <=? e_j e - 1 - offset))%Z%bool then d
    else store d (Z.to_nat (e_nu e - 1)) (Z.to_nat (e_k1 e - 1)) (Z.to_nat (e_k2 e - 1)) (Z.to_nat (e_i e - 1 - offset)) (Z.to_nat (e_j e - 1 - offset)) (e_value e).

  Lemma read_entry d l e : states phase l e -> valid nmodes nk offset e -> read d l = Ok (put d e).
  Proof using Type.
    intros (w1 & w2 & other & wj & wi & wn & re & im & x & y & E & H0 & H1 & H2 & Hj & Hi & Hn & Hre & Him & Hv) (V1 & V2 & V3 & V4 & V5). unfold read_line. rewrite E. cbn [app]. assert (Hh : hash w1 = false) by (destruct w1 as [|a w]; [reflexivity|]; cbn [hash]; destruct (Ascii.eqb_spec a "#"); [subst; contradiction H0; reflexivity|reflexivity]). rewrite Hh.
    cbn [firstn map_res]. rewrite (index_ok w1 _ H1), (index_ok w2 _ H2). cbn [bind].
    assert (B : (if phase then from_end 5 2 (w1 :: w2 :: other ++ wj :: wi :: wn :: re :: (if phase then [im] else [])) else from_end 4 1 (w1 :: w2 :: other ++ wj :: wi :: wn :: re :: (if phase then [im] else []))) = [wj; wi; wn]).
    { destruct phase; [apply (from_end_ok (w1 :: w2 :: other) [wj; wi; wn] [re; im])|apply (from_end_ok (w1 :: w2 :: other) [wj; wi; wn] [re])]. }
    rewrite B. cbn [map_res]. rewrite (index_ok wj _ Hj), (index_ok wi _ Hi), (index_ok wn _ Hn). cbn [bind]. unfold put.
    destruct (Z.leb_spec (Z.of_nat bands) (e_i e - 1 - offset)); [reflexivity|]. destruct (Z.leb_spec (Z.of_nat bands) (e_j e - 1 - offset)); [reflexivity|]. cbn [orb].
    match goal with |- context [bind (if phase then ?a else ?b) _] => assert (EV : (if phase then a else b) = Ok (e_value e)) end.
    { rewrite Hv. unfold float. destruct phase.
      - rewrite (at_end_ok (w1 :: w2 :: other ++ [wj; wi; wn]) [im] re : at_end 2 _ = Ok re) || (replace (w1 :: w2 :: other ++ [wj; wi; wn; re; im]) with ((w1 :: w2 :: other ++ [wj; wi; wn]) ++ re :: [im]) by (cbn [app]; rewrite <- app_assoc; reflexivity); rewrite (at_end_ok (w1 :: w2 :: other ++ [wj; wi; wn]) [im] re : at_end 2 _ = Ok re)).
        cbn [bind]. rewrite Hre. cbn [bind]. replace ((w1 :: w2 :: other ++ [wj; wi; wn]) ++ [re; im]) with ((w1 :: w2 :: other ++ [wj; wi; wn; re]) ++ im :: []) by (cbn [app]; rewrite <- !app_assoc; reflexivity).
        rewrite (at_end_ok (w1 :: w2 :: other ++ [wj; wi; wn; re]) [] im : at_end 1 _ = Ok im). cbn [bind]. rewrite Him. reflexivity.
      - replace (w1 :: w2 :: other ++ [wj; wi; wn; re]) with ((w1 :: w2 :: other ++ [wj; wi; wn]) ++ re :: []) by (cbn [app]; rewrite <- app_assoc; reflexivity).
        rewrite (at_end_ok (w1 :: w2 :: other ++ [wj; wi; wn]) [] re : at_end 1 _ = Ok re). cbn [bind]. rewrite Hre. cbn [bind]. rewrite Him. reflexivity. }
    rewrite EV. cbn [bind]. rewrite !position_ok by lia. reflexivity.
  Qed.

  Lemma read_all ls es : file_states phase ls es -> Forall (valid nmodes nk offset) es -> forall d,
    fold_left (fun d l => do d <- d ;; read d l) ls (Ok d) = Ok (fold_left put es d).
  Proof using Type.
    induction 1 as [|l ls es C H IH|l ls e es S H IH]; intros V d; [reflexivity| |].
    - cbn [fold_left bind]. rewrite (read_comment d l C). apply IH, V.
    - cbn [fold_left bind]. rewrite (read_entry d l e S (Forall_inv V)). apply IH, (Forall_inv_tail V).
  Qed.

  Lemma put_value d e nu k1 k2 i j : valid nmodes nk offset e -> i < bands -> j < bands ->
    put d e nu k1 k2 i j = if is_for offset nu k1 k2 i j e then Some (e_value e) else d nu k1 k2 i j.
  Proof using Type.
    intros (V1 & V2 & V3 & V4 & V5) Hi Hj. unfold put, is_for.
    destruct (Z.leb_spec (Z.of_nat bands) (e_i e - 1 - offset)).
    { cbn [orb]. destruct (Z.eqb_spec (e_i e) (Z.of_nat i + 1 + offset)); [lia|]. rewrite !Bool.andb_false_r. reflexivity. }
    destruct (Z.leb_spec (Z.of_nat bands) (e_j e - 1 - offset)).
    { cbn [orb]. destruct (Z.eqb_spec (e_j e) (Z.of_nat j + 1 + offset)); [lia|]. rewrite !Bool.andb_false_r. reflexivity. }
    cbn [orb]. unfold store.
    assert (Eq : forall n z, (0 <= z)%Z -> (n =? Z.to_nat z) = (z =? Z.of_nat n)%Z) by (intros n z Hz; destruct (Nat.eqb_spec n (Z.to_nat z)), (Z.eqb_spec z (Z.of_nat n)); lia || reflexivity).
    rewrite !Eq by lia.
    replace (e_nu e - 1 =? Z.of_nat nu)%Z with (e_nu e =? Z.of_nat nu + 1)%Z by (destruct (Z.eqb_spec (e_nu e) (Z.of_nat nu + 1)), (Z.eqb_spec (e_nu e - 1) (Z.of_nat nu)); lia || reflexivity).
    replace (e_k1 e - 1 =? Z.of_nat k1)%Z with (e_k1 e =? Z.of_nat k1 + 1)%Z by (destruct (Z.eqb_spec (e_k1 e) (Z.of_nat k1 + 1)), (Z.eqb_spec (e_k1 e - 1) (Z.of_nat k1)); lia || reflexivity).
    replace (e_k2 e - 1 =? Z.of_nat k2)%Z with (e_k2 e =? Z.of_nat k2 + 1)%Z by (destruct (Z.eqb_spec (e_k2 e) (Z.of_nat k2 + 1)), (Z.eqb_spec (e_k2 e - 1) (Z.of_nat k2)); lia || reflexivity).
    replace (e_i e - 1 - offset =? Z.of_nat i)%Z with (e_i e =? Z.of_nat i + 1 + offset)%Z by (destruct (Z.eqb_spec (e_i e) (Z.of_nat i + 1 + offset)), (Z.eqb_spec (e_i e - 1 - offset) (Z.of_nat i)); lia || reflexivity).
    replace (e_j e - 1 - offset =? Z.of_nat j)%Z with (e_j e =? Z.of_nat j + 1 + offset)%Z by (destruct (Z.eqb_spec (e_j e) (Z.of_nat j + 1 + offset)), (Z.eqb_spec (e_j e - 1 - offset) (Z.of_nat j)); lia || reflexivity).
    reflexivity.
  Qed.

  Lemma put_all es : Forall (valid nmodes nk offset) es -> forall d nu k1 k2 i j, i < bands -> j < bands ->
    fold_left put es d nu k1 k2 i j = match stated offset es nu k1 k2 i j with Some v => Some v | None => d nu k1 k2 i j end.
  Proof using Type.
    induction es as [|e es IH]; intros V d nu k1 k2 i j Hi Hj; [reflexivity|]. cbn [fold_left]. rewrite (IH (Forall_inv_tail V)) by assumption. rewrite (put_value d e nu k1 k2 i j (Forall_inv V) Hi Hj). unfold stated. cbn [filter].
    destruct (is_for offset nu k1 k2 i j e); [|reflexivity]. cbn [rev]. destruct (rev (filter (is_for offset nu k1 k2 i j) es)); reflexivity.
  Qed.

  Lemma read_lines_ok ls es : file_states phase ls es -> Forall (valid nmodes nk offset) es ->
    exists d, read_lines phase offset nmodes nk bands ls = Ok d /\ forall nu k1 k2 i j, i < bands -> j < bands -> d nu k1 k2 i j = stated offset es nu k1 k2 i j.
  Proof using Type.
    intros H V. unfold read_lines. rewrite (read_all ls es H V). eexists. split; [reflexivity|]. intros nu k1 k2 i j Hi Hj. rewrite (put_all es V) by assumption. destruct (stated offset es nu k1 k2 i j); reflexivity.
  Qed.
End Lines.

Lemma veqb_ok x y : veqb x y = true <-> x = y.
Proof.
  destruct x as [[a b] [c d]], y as [[a' b'] [c' d']]. unfold veqb. cbn [fst snd Qnum Qden]. rewrite !Bool.andb_true_iff, !Z.eqb_eq, !Pos.eqb_eq. split; [intros [[[-> ->] ->] ->]; reflexivity|intros E; injection E as -> -> -> ->; auto].
Qed.
