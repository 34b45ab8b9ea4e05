(** Proofs about polygons for the composition along a line. *)
From Coq Require Import Reals Lra Lia.
From Verif Require Import Common CompModel CompSpec.
Local Open Scope R_scope.

Fixpoint cum (composition : nat -> nat -> R) (ic i : nat) : R := match ic with O => 0 | S ic => cum composition ic i + composition i ic end.

Lemma stacked_cum nc composition ic i : (ic <= nc)%nat -> stacked nc composition ic i = cum composition ic i.
Proof.
  intros H. assert (G : forall nc, let L := stacked nc composition in (forall ic, (ic <= nc)%nat -> L ic i = cum composition ic i)).
  { induction nc0 as [|m IH]; cbn zeta in *; unfold stacked in *; intros c Hc; [assert (c = 0)%nat as -> by lia; reflexivity|].
    rewrite seq_S, fold_left_app. cbn [fold_left Nat.add]. unfold upd at 1. destruct (Nat.eqb_spec c (S m)) as [->|N]; [|apply IH; lia]. cbn [cum]. rewrite IH by lia. reflexivity. }
  apply (G nc ic H).
Qed.

Lemma centered_value nc y lines ic i : (ic <= nc)%nat -> centered nc y lines ic i = lines ic i + (y i - lines nc i / 2).
Proof.
  intros H. unfold centered.
  assert (G : forall k, (k <= nc)%nat -> let L := fold_left (fun l ic => upd l ic (fun i => l ic i + (y i - l nc i / 2))) (seq 0 k) lines in
    (forall c, (c < k)%nat -> L c i = lines c i + (y i - lines nc i / 2)) /\ (forall c, (k <= c)%nat -> L c i = lines c i)).
  { induction k as [|k IH]; intros Hk; cbn zeta in *; [split; [lia|reflexivity]|]. destruct (IH ltac:(lia)) as [A B]. rewrite seq_S, fold_left_app. cbn [fold_left Nat.add].
    set (L := fold_left _ _ _) in *. unfold upd. split; intros c Hc; destruct (Nat.eqb_spec c k) as [->|N]; try lia.
    - rewrite !B by lia. reflexivity.
    - apply A. lia.
    - apply B. lia. }
  replace (nc + 1)%nat with (S nc) by lia. rewrite seq_S, fold_left_app. destruct (G nc ltac:(lia)) as [A B]. cbn [fold_left Nat.add]. set (L := fold_left _ _ _) in *. unfold upd.
  destruct (Nat.eqb_spec ic nc) as [->|N]; [rewrite !B by lia; reflexivity|apply A; lia].
Qed.

(** ** Areas *)
Lemma area_app : forall a p b a' p' b', length a = length a' -> length b = length b' -> area (a ++ p :: b) (a' ++ p' :: b') = area (a ++ [p]) (a' ++ [p']) + area (p :: b) (p' :: b').
Proof.
  induction a as [|x a IH]; intros p b [|x' a'] p' b' E F; try discriminate.
  - cbn. destruct b, b'; ring.
  - injection E as E. specialize (IH p b a' p' b' E F). destruct a as [|x2 a], a' as [|x2' a']; try discriminate; cbn [app] in *.
    + destruct b, b'; try discriminate; cbn [area]; ring.
    + change (area (x :: x2 :: a ++ p :: b) (x' :: x2' :: a' ++ p' :: b')) with ((x * x2' - x2 * x') / 2 + area (x2 :: a ++ p :: b) (x2' :: a' ++ p' :: b')).
      change (area (x :: x2 :: a ++ [p]) (x' :: x2' :: a' ++ [p'])) with ((x * x2' - x2 * x') / 2 + area (x2 :: a ++ [p]) (x2' :: a' ++ [p'])). rewrite IH. ring.
Qed.

Lemma area_rev : forall a a', length a = length a' -> area (rev a) (rev a') = - area a a'.
Proof.
  induction a as [|x a IH]; intros [|x' a'] E; try discriminate; [cbn; ring|]. injection E as E. cbn [rev]. destruct a as [|y a], a' as [|y' a']; try discriminate; [cbn; ring|].
  cbn [rev]. rewrite <- !app_assoc. cbn [app]. rewrite area_app; [|rewrite !rev_length; injection E as E; exact E|reflexivity].
  specialize (IH (y' :: a') E). cbn [rev] in IH. rewrite IH. cbn [area]. field.
Qed.

Fixpoint path_area (x f : nat -> R) (n : nat) : R := match n with O => 0 | S m => path_area x f m + (x m * f n - x n * f m) / 2 end.
Lemma area_path (x f : nat -> R) : forall n, area (map x (seq 0 (S n))) (map f (seq 0 (S n))) = path_area x f n.
Proof.
  induction n as [|n IH]; [reflexivity|]. rewrite (seq_S (S n) 0). rewrite !map_app. cbn [map Nat.add]. rewrite (seq_S n 0) in *. rewrite !map_app in *. cbn [map Nat.add] in *. rewrite <- !app_assoc. cbn [app].
  rewrite area_app by (rewrite ?map_length; reflexivity). rewrite IH. cbn [area path_area]. ring.
Qed.

Lemma area_outline nx x l u : (0 < nx)%nat ->
  area (map x (seq 0 nx) ++ rev (map x (seq 0 nx)) ++ [x 0%nat]) (map l (seq 0 nx) ++ rev (map u (seq 0 nx)) ++ [l 0%nat]) = integral x (fun i => u i - l i) nx.
Proof.
  intros H. destruct nx as [|n]; [lia|]. clear H.
  assert (F : forall f : nat -> R, map f (seq 0 (S n)) = map f (seq 0 n) ++ [f n]) by (intros f; rewrite seq_S, map_app; reflexivity).
  assert (R_ : forall f : nat -> R, rev (map f (seq 0 (S n))) = f n :: rev (map f (seq 0 n))) by (intros f; rewrite F, rev_app_distr; reflexivity).
  rewrite (F x) at 1. rewrite (F l) at 1. rewrite <- !app_assoc. cbn [app]. rewrite area_app; [|rewrite !map_length; reflexivity|rewrite !app_length, !rev_length, !map_length; reflexivity].
  rewrite <- (F x), <- (F l). set (X := rev (map x (seq 0 (S n)))). set (U := rev (map u (seq 0 (S n)))).
  assert (E : area (x n :: X ++ [x 0%nat]) (l n :: U ++ [l 0%nat]) = (x n * u n - x n * l n) / 2 + area X U + (x 0%nat * l 0%nat - x 0%nat * u 0%nat) / 2).
  { assert (S0 : forall f : nat -> R, rev (map f (seq 0 (S n))) = rev (map f (seq 1 n)) ++ [f 0%nat]) by reflexivity. 
    unfold X, U at 1. rewrite !S0. rewrite <- !app_assoc. cbn [app].
    change (x n :: rev (map x (seq 1 n)) ++ x 0%nat :: [x 0%nat]) with ((x n :: rev (map x (seq 1 n))) ++ x 0%nat :: [x 0%nat]).
    change (l n :: rev (map u (seq 1 n)) ++ u 0%nat :: [l 0%nat]) with ((l n :: rev (map u (seq 1 n))) ++ u 0%nat :: [l 0%nat]).
    rewrite area_app; [|cbn [length]; rewrite !rev_length, !map_length; reflexivity|reflexivity]. cbn [app].
    rewrite <- !S0. fold X. unfold U. rewrite (R_ u). unfold X. rewrite (R_ x). cbn [area]. ring. }
  rewrite E. unfold X, U. rewrite area_rev by (rewrite !map_length; reflexivity). rewrite !area_path. clear E X U F R_.
  induction n as [|n IH]; [cbn [integral path_area]; field|]. change (integral x (fun i => u i - l i) (S (S n))) with (integral x (fun i => u i - l i) (S n) + (x (S n) - x n) * ((u (S n) - l (S n)) + (u n - l n)) / 2).
  rewrite <- IH. cbn [path_area]. field.
Qed.

Lemma polygons_nth nx x lines : forall ics sgn k ic, nth_error ics k = Some ic -> (sgn = 1 \/ sgn = -1)%Z ->
  nth_error (polygons nx x lines sgn ics) k = Some (let s := if Nat.even k then sgn else (- sgn)%Z in (strided s (outline_x nx x), strided s (outline_y nx lines ic))).
Proof.
  induction ics as [|c ics IH]; intros sgn [|k] ic E H; try discriminate; cbn [nth_error polygons] in *.
  - injection E as ->. reflexivity.
  - rewrite (IH _ _ _ E) by lia. rewrite Nat.even_succ, <- Nat.negb_even. destruct (Nat.even k); cbn [negb]; repeat f_equal; lia.
Qed.

Lemma polygons_length nx x lines ics : forall sgn, length (polygons nx x lines sgn ics) = length ics.
Proof. induction ics as [|c ics IH]; intros sgn; cbn [polygons length]; [reflexivity|]. rewrite IH. reflexivity. Qed.
