(** Densities of states: integrals and derivatives. *)
From Coq Require Import Reals Lra Lia Psatz List Permutation.
From Coquelicot Require Import Coquelicot.
From Verif Require Import Common DosModel DosSpec DosProofs.
Import ListNotations.
Local Open Scope R_scope.

Notation is_int f a b l := (is_RInt (V := R_NormedModule) f a b l).

(** Fundamental theorem for explicit antiderivatives. *)
Lemma int_prim (f F : R -> R) a b l : a <= b -> (forall x, is_derive F x (f x)) -> (forall x, continuous f x) -> F b - F a = l -> is_int f a b l.
Proof.
  intros _ D Cf <-. apply (is_RInt_derive F f a b); intros x _; [apply D|apply Cf].
Qed.

Lemma int_ext (f g : R -> R) a b l : a <= b -> (forall x, a < x < b -> f x = g x) -> is_int f a b l -> is_int g a b l.
Proof. intros L H. apply is_RInt_ext. intros x Hx. rewrite Rmin_left, Rmax_right in Hx by exact L. apply H, Hx. Qed.

Lemma int_point (f : R -> R) a b : a = b -> is_int f a b 0.
Proof. intros ->. apply (is_RInt_point (V := R_NormedModule)). Qed.

Lemma int_chasles (f : R -> R) a b c l m n : l + m = n -> is_int f a b l -> is_int f b c m -> is_int f a c n.
Proof. intros <-. apply (is_RInt_Chasles (V := R_NormedModule)). Qed.

Lemma int_const c a b l : (b - a) * c = l -> is_int (fun _ : R => c) a b l.
Proof. intros <-. apply (is_RInt_const (V := R_NormedModule) a b c). Qed.

Lemma int_zero (f : R -> R) a b : a <= b -> (forall x, a < x < b -> f x = 0) -> is_int f a b 0.
Proof.
  intros L H. apply (int_ext (fun _ => 0)); [exact L|intros x Hx; symmetry; apply H, Hx|].
  apply int_const. ring.
Qed.

Lemma RInt_eq (f : R -> R) a b l : is_int f a b l -> RInt (V := R_CompleteNormedModule) f a b = l.
Proof. intros H. apply (is_RInt_unique (V := R_CompleteNormedModule)). exact H. Qed.

(** ** Area of the part of a triangle below an energy *)

Lemma indicator_int s L : 0 <= L -> is_int (fun v => if Rle_dec v s then 1 else 0) 0 L (Rmax 0 (Rmin L s)).
Proof.
  intros HL. destruct (Rle_dec s 0) as [H|H].
  - rewrite Rmin_right, Rmax_left by lra. apply int_zero; [exact HL|]. intros x Hx. destruct (Rle_dec x s); [lra|reflexivity].
  - destruct (Rle_dec L s) as [H'|H'].
    + rewrite Rmin_left, Rmax_right by lra. apply (int_ext (fun _ => 1)); [exact HL|intros x Hx; destruct (Rle_dec x s); [reflexivity|lra]|].
      apply int_const. ring.
    + rewrite Rmin_right, Rmax_right by lra. apply (int_chasles _ 0 s L s 0); [ring| |].
      * apply (int_ext (fun _ => 1)); [lra|intros x Hx; destruct (Rle_dec x s); [reflexivity|lra]|].
        apply int_const. ring.
      * apply int_zero; [lra|]. intros x Hx. destruct (Rle_dec x s); [lra|reflexivity].
Qed.

Definition below (a b c E u : R) : R := Rmax 0 (Rmin (1 - u) ((E - a - u * (b - a)) / (c - a))).

Lemma indicator_below a b c E u : a < c -> u <= 1 -> is_int (indicator a b c E u) 0 (1 - u) (below a b c E u).
Proof.
  intros H Hu. apply (is_RInt_ext (V := R_NormedModule) (fun v => if Rle_dec v ((E - a - u * (b - a)) / (c - a)) then 1 else 0)); [|apply indicator_int; lra].
  intros v _. unfold indicator. set (s := (E - a - u * (b - a)) / (c - a)).
  assert (Es : s * (c - a) = E - a - u * (b - a)) by (unfold s; field; lra).
  destruct (Rle_dec v s) as [L|L], (Rle_dec (a + u * (b - a) + v * (c - a)) E) as [L'|L']; try reflexivity; exfalso.
  - apply L'. pose proof (Rmult_le_compat_r (c - a) v s ltac:(lra) L). lra.
  - apply L. apply Rmult_le_reg_r with (c - a); lra.
Qed.

(** Closed form. *)
Definition cum (A B C E : R) : R :=
  if Rle_dec E A then (if Req_EM_T A C then if Req_EM_T E A then 1 else 0 else 0)
  else if Rle_dec C E then 1
  else if Rle_dec E B then (E - A) * (E - A) / ((B - A) * (C - A))
  else 1 - (C - E) * (C - E) / ((C - A) * (C - B)).

Lemma cont_poly2 p q r : forall x : R, continuous (fun x => p + q * x + r * (x * x)) x.
Proof. intros x. apply (ex_derive_continuous (V := R_NormedModule)). auto_derive. exact I. Qed.

Lemma int_poly2 p q r a b l : a <= b -> p * (b - a) + q * (b * b - a * a) / 2 + r * (b * b * b - a * a * a) / 3 = l ->
  is_int (fun x => p + q * x + r * (x * x)) a b l.
Proof.
  intros L <-. apply (int_prim _ (fun x => p * x + q * (x * x) / 2 + r * (x * x * x) / 3)); [exact L| |apply cont_poly2|].
  - intros x. auto_derive; [exact I|]. field.
  - field.
Qed.

Lemma fraction_cum A B C E : A <= B <= C -> fraction A B C E = cum A B C E.
Proof.
  intros [H1 H2]. unfold fraction.
  assert (K : forall l, is_int (fun u => RInt (V := R_CompleteNormedModule) (indicator A B C E u) 0 (1 - u)) 0 1 l -> 2 * l = cum A B C E ->
    2 * RInt (V := R_CompleteNormedModule) (fun u => RInt (V := R_CompleteNormedModule) (indicator A B C E u) 0 (1 - u)) 0 1 = cum A B C E).
  { intros l Hl <-. f_equal. apply RInt_eq, Hl. }
  destruct (Req_dec A C) as [E0|N0].
  - (* flat *)
    assert (B = A) by lra. subst C B.
    destruct (Rle_dec A E) as [L|L].
    + apply (K (/ 2)).
      * apply (int_ext (fun u => 1 + -1 * u + 0 * (u * u))); [lra| |apply int_poly2; lra]. intros u Hu. symmetry. apply RInt_eq.
        apply (int_ext (fun _ => 1)); [lra| |].
        -- intros v Hv. unfold indicator. destruct (Rle_dec (A + u * (A - A) + v * (A - A)) E) as [L'|L']; [reflexivity|exfalso; apply L'; lra].
        -- apply int_const. ring.
      * unfold cum. destruct (Rle_dec E A), (Req_EM_T A A), (Req_EM_T E A), (Rle_dec A E); lra.
    + apply (K 0).
      * apply int_zero; [lra|]. intros u Hu. apply RInt_eq, int_zero; [lra|]. intros v Hv. unfold indicator.
        destruct (Rle_dec (A + u * (A - A) + v * (A - A)) E) as [L'|L']; [exfalso; lra|reflexivity].
      * unfold cum. destruct (Rle_dec E A), (Req_EM_T A A), (Req_EM_T E A); lra.
  - assert (L : A < C) by lra.
    assert (K' : forall l, is_int (below A B C E) 0 1 l -> 2 * l = cum A B C E ->
      2 * RInt (V := R_CompleteNormedModule) (fun u => RInt (V := R_CompleteNormedModule) (indicator A B C E u) 0 (1 - u)) 0 1 = cum A B C E).
    { intros l Hl. apply K. apply (int_ext (below A B C E)); [lra| |exact Hl]. intros u Hu. symmetry. apply RInt_eq, indicator_below; lra. }
    assert (LE : forall x y, x / (C - A) <= y <-> x <= y * (C - A)).
    { intros x y. split; intros H.
      - apply Rmult_le_compat_r with (r := C - A) in H; [|lra]. replace (x / (C - A) * (C - A)) with x in H by (field; lra). exact H.
      - apply Rmult_le_reg_r with (C - A); [lra|]. replace (x / (C - A) * (C - A)) with x by (field; lra). exact H. }
    assert (GE : forall x y, y <= x / (C - A) <-> y * (C - A) <= x).
    { intros x y. split; intros H.
      - apply Rmult_le_compat_r with (r := C - A) in H; [|lra]. replace (x / (C - A) * (C - A)) with x in H by (field; lra). exact H.
      - apply Rmult_le_reg_r with (C - A); [lra|]. replace (x / (C - A) * (C - A)) with x by (field; lra). exact H. }
    unfold cum in *. destruct (Rle_dec E A) as [EA|EA].
    { destruct (Req_EM_T A C) as [?|_]; [lra|]. apply (K' 0); [|lra]. apply int_zero; [lra|]. intros u Hu. unfold below.
      rewrite Rmax_left; [reflexivity|]. eapply Rle_trans; [apply Rmin_r|]. apply LE. nra. }
    destruct (Rle_dec C E) as [CE|CE].
    { apply (K' (/ 2)); [|lra]. apply (int_ext (fun u => 1 + -1 * u + 0 * (u * u))); [lra| |apply int_poly2; lra]. intros u Hu. unfold below.
      rewrite Rmin_left; [rewrite Rmax_right; lra|]. apply GE. nra. }
    destruct (Rle_dec E B) as [EB|EB].
    + set (u0 := (E - A) / (B - A)). assert (U0 : u0 * (B - A) = E - A) by (unfold u0; field; lra).
      assert (U1 : 0 <= u0 <= 1). { split; [apply Rmult_le_reg_r with (B - A); lra|apply Rmult_le_reg_r with (B - A); lra]. }
      apply (K' ((E - A) * (E - A) / ((B - A) * (C - A)) / 2)); [|lra].
      apply (int_chasles _ 0 u0 1 ((E - A) * (E - A) / ((B - A) * (C - A)) / 2) 0); [ring| |].
      * apply (int_ext (fun u => (E - A) / (C - A) + - (B - A) / (C - A) * u + 0 * (u * u))); [lra| |].
        -- intros u Hu. unfold below. assert (u * (B - A) <= E - A) by nra.
           rewrite Rmin_right by (apply LE; nra). rewrite Rmax_right by (apply GE; lra). field. lra.
        -- apply int_poly2; [lra|]. unfold u0. field. lra.
      * apply int_zero; [lra|]. intros u Hu. unfold below. apply Rmax_left. eapply Rle_trans; [apply Rmin_r|]. apply LE. nra.
    + set (u1 := (C - E) / (C - B)). assert (U0 : u1 * (C - B) = C - E) by (unfold u1; field; lra).
      assert (U1 : 0 <= u1 <= 1). { split; [apply Rmult_le_reg_r with (C - B); lra|apply Rmult_le_reg_r with (C - B); lra]. }
      apply (K' (((E - A) * u1 - (B - A) * u1 * u1 / 2) / (C - A) + (/ 2 - u1 + u1 * u1 / 2))).
      * eapply (int_chasles _ 0 u1 1); [reflexivity| |].
        -- apply (int_ext (fun u => (E - A) / (C - A) + - (B - A) / (C - A) * u + 0 * (u * u))); [lra| |].
           ++ intros u Hu. unfold below. assert (u * (C - B) <= C - E) by nra.
              rewrite Rmin_right by (apply LE; nra). rewrite Rmax_right by (apply GE; nra). field. lra.
           ++ apply int_poly2; [lra|]. field. lra.
        -- apply (int_ext (fun u => 1 + -1 * u + 0 * (u * u))); [lra| |].
           ++ intros u Hu. unfold below. assert (C - E <= u * (C - B)) by nra.
              rewrite Rmin_left by (apply GE; nra). rewrite Rmax_right by lra. ring.
           ++ apply int_poly2; [lra|]. field.
      * unfold u1. field. lra.
Qed.

(** ** Its derivative *)

Lemma near_loc (x : R) (P : R -> Prop) (e : R) : 0 < e -> (forall y, Rabs (y - x) < e -> P y) -> locally x P.
Proof. intros He H. exists (mkposreal e He). intros y Hy. apply H. exact Hy. Qed.

Lemma cum_derive A B C E : A <= B <= C -> E <> A -> E <> B -> E <> C -> exists x, tri_dos E (A, B, C) = Some x /\ is_derive (cum A B C) E (2 * x).
Proof.
  intros H NA NB NC.
  set (d := Rmin (Rabs (E - A)) (Rmin (Rabs (E - B)) (Rabs (E - C)))).
  assert (Hd : 0 < d). { unfold d. repeat apply Rmin_glb_lt; apply Rabs_pos_lt; lra. }
  assert (L : forall f l, (forall y, Rabs (y - E) < d -> f y = cum A B C y) -> is_derive f E l -> is_derive (cum A B C) E l).
  { intros f l Hf D. apply (is_derive_ext_loc f); [|exact D]. apply (near_loc E _ d Hd). exact Hf. }
  assert (da : d <= Rabs (E - A)) by apply Rmin_l.
  assert (db : d <= Rabs (E - B)) by (eapply Rle_trans; [apply Rmin_r|apply Rmin_l]).
  assert (dc : d <= Rabs (E - C)) by (eapply Rle_trans; [apply Rmin_r|apply Rmin_r]).
  assert (Z : forall y, Rabs (y - E) < d -> (E < A -> y < A) /\ (A < E -> A < y) /\ (E < B -> y < B) /\ (B < E -> B < y) /\ (E < C -> y < C) /\ (C < E -> C < y)).
  { intros y Hy. apply Rabs_def2 in Hy. destruct Hy. unfold Rabs in *. destruct (Rcase_abs (E - A)), (Rcase_abs (E - B)), (Rcase_abs (E - C)); lra. }
  unfold tri_dos. rb; try lra; (eexists; split; [reflexivity|]).
  - apply (L (fun y => (y - A) * (y - A) / ((B - A) * (C - A)))).
    + intros y Hy. destruct (Z y Hy) as (z1 & z2 & z3 & z4 & z5 & z6). unfold cum.
      destruct (Rle_dec y A); [lra|]. destruct (Rle_dec C y); [lra|]. destruct (Rle_dec y B); [reflexivity|lra].
    + auto_derive; [exact I|]. field. lra.
  - apply (L (fun y => 1 - (C - y) * (C - y) / ((C - A) * (C - B)))).
    + intros y Hy. destruct (Z y Hy) as (z1 & z2 & z3 & z4 & z5 & z6). unfold cum.
      destruct (Rle_dec y A); [lra|]. destruct (Rle_dec C y); [lra|]. destruct (Rle_dec y B); [lra|reflexivity].
    + auto_derive; [exact I|]. field. lra.
  - apply (L (fun y => 1)).
    + intros y Hy. destruct (Z y Hy) as (z1 & z2 & z3 & z4 & z5 & z6). unfold cum.
      destruct (Rle_dec y A); [lra|]. destruct (Rle_dec C y); [reflexivity|lra].
    + auto_derive; [exact I|]. field.
  - apply (L (fun y => 0)).
    + intros y Hy. destruct (Z y Hy) as (z1 & z2 & z3 & z4 & z5 & z6). unfold cum.
      destruct (Rle_dec y A); [|lra]. destruct (Req_EM_T A C); [|reflexivity]. destruct (Req_EM_T y A); [lra|reflexivity].
    + auto_derive; [exact I|]. field.
Qed.

(** ** Integral over one triangle *)

Definition val (o : option R) : R := match o with Some x => x | None => 0 end.

Lemma tri_int A B C a b c lo hi : A <= B <= C -> A < C -> lo <= A -> C <= hi ->
  is_int (fun E => val (tri_a2F E ((A, a), (B, b), (C, c)))) lo hi ((a + b + c) / 6).
Proof.
  intros H L Hlo Hhi.
  apply (int_chasles _ lo A hi 0 ((a + b + c) / 6)); [ring| |].
  { apply int_zero; [exact Hlo|]. intros x Hx. unfold tri_a2F. rb; cbn [val]; try reflexivity; lra. }
  apply (int_chasles _ A C hi ((a + b + c) / 6) 0); [ring| |].
  2:{ apply int_zero; [exact Hhi|]. intros x Hx. unfold tri_a2F. rb; cbn [val]; try reflexivity; lra. }
  set (q := C - A).
  set (l := if Req_EM_T A B then 0 else (B - A) / (2 * q) * (a + (b - a) / 3 + (B - A) * (c - a) / (3 * q))).
  apply (int_chasles _ A B C l ((a + b + c) / 6 - l)); [ring| |].
  - unfold l. destruct (Req_EM_T A B) as [E|N]; [apply int_point, E|]. assert (A < B) by lra.
    apply (int_ext (fun x => (x - A) / (B - A) / (C - A) * / 2 * (((x - A) * b + (B - x) * a) / (B - A) + ((x - A) * c + (C - x) * a) / (C - A)))); [lra| |].
    { intros x Hx. unfold tri_a2F. rb; cbn [val]; try reflexivity; lra. }
    apply (int_prim _ (fun x => / (2 * (B - A) * (C - A)) * (a * (x - A) * (x - A) + (x - A) * (x - A) * (x - A) / 3 * ((b - a) / (B - A) + (c - a) / (C - A))))); [lra| | |].
    + intros x. auto_derive; [exact I|]. field. lra.
    + intros x. apply (ex_derive_continuous (V := R_NormedModule)). auto_derive. exact I.
    + unfold q. field. lra.
  - unfold l. destruct (Req_EM_T B C) as [E|N].
    + assert (EC : C = B) by lra. subst C. destruct (Req_EM_T A B) as [E'|N']; [lra|].
      replace ((a + b + c) / 6 - _) with 0 by (unfold q; field; lra). apply int_point. reflexivity.
    + assert (B < C) by lra.
      apply (int_ext (fun x => (C - x) / (C - A) / (C - B) * / 2 * (((C - x) * a + (x - A) * c) / (C - A) + ((C - x) * b + (x - B) * c) / (C - B)))); [lra| |].
      { intros x Hx. unfold tri_a2F. rb; cbn [val]; try reflexivity; lra. }
      apply (int_prim _ (fun x => - / (2 * (C - A) * (C - B)) * (c * (C - x) * (C - x) + (C - x) * (C - x) * (C - x) / 3 * ((a - c) / (C - A) + (b - c) / (C - B))))); [lra| | |].
      * intros x. auto_derive; [exact I|]. field. lra.
      * intros x. apply (ex_derive_continuous (V := R_NormedModule)). auto_derive. exact I.
      * destruct (Req_EM_T A B) as [E'|N'].
        -- subst B. field. lra.
        -- unfold q. field. lra.
Qed.

(** ** Sums *)

Lemma sumf_cons {A} (f : A -> R) x l : sumf f (x :: l) = f x + sumf f l.
Proof. reflexivity. Qed.

Lemma sumf_app {A} (f : A -> R) l m : sumf f (l ++ m) = sumf f l + sumf f m.
Proof. induction l as [|x l IH]; [cbn; unfold sumf; cbn; ring|]. cbn [app]. rewrite !sumf_cons, IH. ring. Qed.

Lemma sumf_ext {A} (f g : A -> R) l : (forall x, In x l -> f x = g x) -> sumf f l = sumf g l.
Proof. intros H. unfold sumf. f_equal. apply map_ext_in, H. Qed.

Lemma sumf_scale {A} (f : A -> R) c l : sumf (fun x => c * f x) l = c * sumf f l.
Proof. induction l as [|x l IH]; [cbn; ring|]. rewrite !sumf_cons, IH. ring. Qed.

Lemma sumf_plus {A} (f g : A -> R) l : sumf (fun x => f x + g x) l = sumf f l + sumf g l.
Proof. induction l as [|x l IH]; [cbn; ring|]. rewrite !sumf_cons, IH. ring. Qed.

Lemma sumf_perm {A} (f : A -> R) l m : Permutation l m -> sumf f l = sumf f m.
Proof. induction 1; rewrite ?sumf_cons; try lra; congruence. Qed.

Lemma sumf_map {A B} (f : B -> R) (h : A -> B) l : sumf f (map h l) = sumf (fun x => f (h x)) l.
Proof. unfold sumf. rewrite map_map. reflexivity. Qed.

Lemma sumf_flat_map {A B} (f : B -> R) (h : A -> list B) l : sumf f (flat_map h l) = sumf (fun x => sumf f (h x)) l.
Proof. induction l as [|x l IH]; [reflexivity|]. cbn [flat_map]. rewrite sumf_app, IH, sumf_cons. reflexivity. Qed.

Lemma sumf_le {A} (f g : A -> R) l : (forall x, In x l -> f x <= g x) -> sumf f l <= sumf g l.
Proof.
  induction l as [|x l IH]; intros H; [unfold sumf; cbn; lra|]. rewrite !sumf_cons.
  pose proof (H x (or_introl eq_refl)). specialize (IH (fun y I => H y (or_intror I))). lra.
Qed.

Lemma int_sum {A} (h : A -> R -> R) (w : A -> R) l lo hi : (forall t, In t l -> is_int (h t) lo hi (w t)) ->
  is_int (fun E => sumf (fun t => h t E) l) lo hi (sumf w l).
Proof.
  induction l as [|t l IH]; intros H.
  - unfold sumf. cbn. apply int_const. ring.
  - change (is_int (fun E => h t E + sumf (fun t => h t E) l) lo hi (w t + sumf w l)).
    apply (is_RInt_plus (V := R_NormedModule)); [apply H; left; reflexivity|]. apply IH. intros; apply H; right; assumption.
Qed.

Lemma derive_sum {A} (h : A -> R -> R) (w : A -> R) l E : (forall t, In t l -> is_derive (h t) E (w t)) ->
  is_derive (fun E => sumf (fun t => h t E) l) E (sumf w l).
Proof.
  induction l as [|t l IH]; intros H.
  - apply (is_derive_const (V := R_NormedModule) 0).
  - change (is_derive (fun E => h t E + sumf (fun t => h t E) l) E (w t + sumf w l)).
    apply (is_derive_plus (V := R_NormedModule)); [apply H; left; reflexivity|]. apply IH. intros; apply H; right; assumption.
Qed.

(** Each mesh point belongs to six triangles. *)
Lemma shift_seq N : (0 < N)%nat -> Permutation (map (fun i => (i + 1) mod N)%nat (seq 0 N)) (seq 0 N).
Proof.
  intros H. destruct N as [|n]; [lia|].
  assert (E : map (fun i => (i + 1) mod S n)%nat (seq 0 (S n)) = seq 1 n ++ [0]%nat).
  { rewrite seq_S, map_app. cbn [map]. f_equal.
    - rewrite <- seq_shift. apply map_ext_in. intros i Hi. apply in_seq in Hi. rewrite Nat.mod_small by lia. lia.
    - f_equal. rewrite Nat.add_0_l, Nat.add_1_r. apply Nat.mod_same. lia. }
  rewrite E. cbn [seq]. apply Permutation_sym, Permutation_cons_append.
Qed.

Lemma sum_shift N (f : nat -> R) : (0 < N)%nat -> sumf (fun i => f ((i + 1) mod N)%nat) (seq 0 N) = sumf f (seq 0 N).
Proof. intros H. rewrite <- (sumf_map f (fun i => (i + 1) mod N)%nat). apply sumf_perm, shift_seq, H. Qed.

Lemma sum_mesh N (g : nat -> nat -> R) : sumf (at_ g) (mesh N) = sumf (fun i => sumf (fun j => g i j) (seq 0 N)) (seq 0 N).
Proof.
  unfold mesh. assert (K : forall l m, sumf (at_ g) (list_prod l m) = sumf (fun i => sumf (fun j => g i j) m) l); [|apply K].
  intros l m. induction l as [|i l IH]; [reflexivity|].
  cbn [list_prod]. rewrite sumf_app, IH, sumf_map, sumf_cons. reflexivity.
Qed.

Lemma six_triangles N g : (0 < N)%nat -> sumf (fun t => sumf (at_ g) t) (all_tris N) = 6 * sumf (at_ g) (mesh N).
Proof.
  intros H. unfold all_tris. rewrite sumf_flat_map.
  set (S f := sumf (fun i => sumf (fun j => f i j) (seq 0 N)) (seq 0 N)).
  transitivity (S g + S (fun i j => g ((i + 1) mod N)%nat j) + S (fun i j => g i ((j + 1) mod N)%nat)
    + (S (fun i j => g ((i + 1) mod N)%nat ((j + 1) mod N)%nat) + S (fun i j => g ((i + 1) mod N)%nat j) + S (fun i j => g i ((j + 1) mod N)%nat))).
  - unfold S. rewrite <- !sumf_plus. apply sumf_ext. intros i _. rewrite sumf_flat_map, <- !sumf_plus. apply sumf_ext. intros j _.
    unfold lower_tri, upper_tri, at_, sumf. cbn. ring.
  - assert (R1 : forall f, S (fun i j => f ((i + 1) mod N)%nat j) = S f).
    { intros f. unfold S. rewrite (sum_shift N (fun i => sumf (fun j => f i j) (seq 0 N)) H). reflexivity. }
    assert (R2 : forall f, S (fun i j => f i ((j + 1) mod N)%nat) = S f).
    { intros f. unfold S. apply sumf_ext. intros i _. apply (sum_shift N (f i) H). }
    rewrite (R1 (fun i j => g i ((j + 1) mod N)%nat)), !R1, !R2, sum_mesh. fold (S g). ring.
Qed.

(** ** The whole zone *)

Lemma corner_sort_flat N e t : no_flat N e -> In t (all_tris N) -> at_ e (fst3 (corner_sort e t)) < at_ e (thd3 (corner_sort e t)).
Proof.
  intros F I. destruct (corner_sort_spec e t (tris_three N t I)) as [A P]. unfold asc in A.
  destruct (Rlt_dec (at_ e (fst3 (corner_sort e t))) (at_ e (thd3 (corner_sort e t)))) as [L|L]; [exact L|exfalso].
  apply (F t (at_ e (fst3 (corner_sort e t))) I). intros v Hv. apply (Permutation_in _ P) in Hv.
  cbn in Hv. destruct Hv as [<-|[<-|[<-|[]]]]; lra.
Qed.

Lemma tri_a2F_some E A B C a b c : A <= B <= C -> A < C -> exists x, tri_a2F E ((A, a), (B, b), (C, c)) = Some x.
Proof. intros H L. unfold tri_a2F. rb; try lra; eauto. Qed.

Lemma a2F_sum_some N e g E : no_flat N e ->
  a2F_sum N e g E = Some (/ INR (N * N) * sumf (fun t => val (tri_a2F E (eng3 e g (corner_sort e t)))) (all_tris N)).
Proof.
  intros F. unfold a2F_sum. rewrite (sum_inf_some _ (fun t => val (tri_a2F E (eng3 e g (corner_sort e t))))); [reflexivity|].
  intros t I. pose proof (corner_sort_flat N e t F I) as L. destruct (corner_sort_spec e t (tris_three N t I)) as [A _]. unfold asc in A.
  unfold eng3. destruct (tri_a2F_some E _ _ _ (at_ g (fst3 (corner_sort e t))) (at_ g (snd3 (corner_sort e t))) (at_ g (thd3 (corner_sort e t))) A L) as [x Ex].
  rewrite Ex. reflexivity.
Qed.

Lemma in_tris_mesh N t v : (0 < N)%nat -> In t (all_tris N) -> In v t -> (fst v < N /\ snd v < N)%nat.
Proof.
  intros H. unfold all_tris. intros I. apply in_flat_map in I. destruct I as (i & Hi & I). apply in_flat_map in I. destruct I as (j & Hj & I).
  apply in_seq in Hi, Hj. pose proof (Nat.mod_upper_bound (i + 1) N ltac:(lia)). pose proof (Nat.mod_upper_bound (j + 1) N ltac:(lia)).
  cbn in I. destruct I as [<-|[<-|[]]]; unfold lower_tri, upper_tri; cbn; intros [<-|[<-|[<-|[]]]]; cbn; lia.
Qed.

Lemma a2F_integral N e g lo hi : (0 < N)%nat -> no_flat N e -> (forall i j, (i < N)%nat -> (j < N)%nat -> lo <= e i j <= hi) ->
  is_int (fun E => val (a2F_sum N e g E)) lo hi (mean N g).
Proof.
  intros HN F B. apply (is_RInt_ext (V := R_NormedModule) (fun E => scal (/ INR (N * N)) (sumf (fun t => val (tri_a2F E (eng3 e g (corner_sort e t)))) (all_tris N)))).
  { intros E _. rewrite a2F_sum_some by exact F. reflexivity. }
  replace (mean N g) with (scal (/ INR (N * N)) (sumf (fun t => sumf (at_ g) t / 6) (all_tris N))).
  2:{ unfold mean, Rdiv. rewrite (sumf_ext _ (fun t => / 6 * sumf (at_ g) t)) by (intros; apply Rmult_comm). rewrite sumf_scale, six_triangles by exact HN.
      change (/ INR (N * N) * (/ 6 * (6 * sumf (at_ g) (mesh N))) = sumf (at_ g) (mesh N) * / INR (N * N)). field.
      apply not_0_INR. nia. }
  apply (is_RInt_scal (V := R_NormedModule)). apply (int_sum (fun t E => val (tri_a2F E (eng3 e g (corner_sort e t))))).
  intros t I. destruct (corner_sort_spec e t (tris_three N t I)) as [A P]. pose proof (corner_sort_flat N e t F I) as L. unfold asc in A.
  rewrite (sumf_perm _ _ _ P). unfold tlist, eng3. cbn [fst3 snd3 thd3].
  assert (Bt : forall v, In v (tlist (corner_sort e t)) -> lo <= at_ e v <= hi).
  { intros v Hv. apply (Permutation_in _ (Permutation_sym P)) in Hv. apply (in_tris_mesh N t v HN I) in Hv. apply B; apply Hv. }
  pose proof (Bt _ (or_introl eq_refl)). pose proof (Bt _ (or_intror (or_intror (or_introl eq_refl)))).
  replace (sumf (at_ g) _ / 6) with ((at_ g (fst3 (corner_sort e t)) + at_ g (snd3 (corner_sort e t)) + at_ g (thd3 (corner_sort e t))) / 6) by (unfold sumf; cbn; field).
  apply tri_int; [exact A|exact L|lra|lra].
Qed.

Lemma tri_fraction_cum N e E t : In t (all_tris N) -> tri_fraction e E t =
  let '(A, B, C) := en3 e (corner_sort e t) in cum A B C E.
Proof.
  intros I. destruct (tris_three N t I) as (u & v & w & ->). destruct (corner_sort_spec e [u; v; w] ltac:(eauto)) as [A P].
  unfold tri_fraction, en3. cbn [map]. rewrite <- fraction_cum by exact A.
  set (x := at_ e u). set (y := at_ e v). set (z := at_ e w).
  unfold corner_sort, sort_corners. pose proof (sort3_map (at_ e) u v w) as M. fold x y z in M.
  assert (E3 : forall a b c : R, (a, b, c) = (at_ e (fst3 (sort3 (at_ e) u v w)), at_ e (snd3 (sort3 (at_ e) u v w)), at_ e (thd3 (sort3 (at_ e) u v w))) ->
    fraction a b c E = fraction (at_ e (fst3 (sort3 (at_ e) u v w))) (at_ e (snd3 (sort3 (at_ e) u v w))) (at_ e (thd3 (sort3 (at_ e) u v w))) E).
  { intros a b c H. congruence. }
  assert (T3 : forall a b c a' b' c' : R, a = a' -> b = b' -> c = c' -> (a, b, c) = (a', b', c')) by congruence.
  apply E3. rewrite <- M. clearbody x y z. clear - T3. unfold sort3, insert2, Rleb, middle, lowest, highest, Rmin, Rmax. cbv beta.
  destruct (Rle_dec y z), (Rle_dec x y), (Rle_dec x z); repeat (destruct (Rle_dec _ _)); try lra; apply T3; lra.
Qed.

Lemma zone_derive N e E : (0 < N)%nat -> (forall i j, (i < N)%nat -> (j < N)%nat -> e i j <> E) ->
  exists x, dos_sum N e E = Some x /\ is_derive (zone_fraction N e) E x.
Proof.
  intros HN NE.
  assert (T : forall t, In t (all_tris N) -> exists x, tri_dos E (en3 e (corner_sort e t)) = Some x /\
    is_derive (fun E => tri_fraction e E t) E (2 * x)).
  { intros t I. destruct (corner_sort_spec e t (tris_three N t I)) as [A P].
    assert (Bt : forall v, In v (tlist (corner_sort e t)) -> at_ e v <> E).
    { intros v Hv. apply (Permutation_in _ (Permutation_sym P)) in Hv. apply (in_tris_mesh N t v HN I) in Hv. apply NE; apply Hv. }
    pose proof (Bt _ (or_introl eq_refl)). pose proof (Bt _ (or_intror (or_introl eq_refl))). pose proof (Bt _ (or_intror (or_intror (or_introl eq_refl)))).
    destruct (cum_derive _ _ _ E A) as (x & Ex & Dx); try congruence. exists x. split; [exact Ex|].
    apply (is_derive_ext (fun E => cum (at_ e (fst3 (corner_sort e t))) (at_ e (snd3 (corner_sort e t))) (at_ e (thd3 (corner_sort e t))) E)); [|exact Dx].
    intros E'. rewrite (tri_fraction_cum N e E' t I). reflexivity. }
  assert (TS : forall t, In t (all_tris N) -> tri_dos E (en3 e (corner_sort e t)) = Some (val (tri_dos E (en3 e (corner_sort e t))))).
  { intros t I. destruct (T t I) as (x & -> & _). reflexivity. }
  eexists. split; [unfold dos_sum; rewrite (sum_inf_some _ _ _ TS); reflexivity|].
  unfold zone_fraction.
  apply (is_derive_ext (fun E => / (2 * INR (N * N)) * sumf (fun t => tri_fraction e E t) (all_tris N))); [intros; apply Rmult_comm|].
  replace (/ INR (N * N) * sumf (fun t => val (tri_dos E (en3 e (corner_sort e t)))) (all_tris N))
    with (/ (2 * INR (N * N)) * sumf (fun t => 2 * val (tri_dos E (en3 e (corner_sort e t)))) (all_tris N)).
  2:{ rewrite sumf_scale. field. apply not_0_INR. nia. }
  apply (is_derive_scal (fun E => sumf (fun t => tri_fraction e E t) (all_tris N))).
  apply (derive_sum (fun t E => tri_fraction e E t)). intros t I. destruct (T t I) as (x & -> & D). exact D.
Qed.
