(** The search for the Fermi level: correctness and termination. *)
From Coq Require Import Reals Lra Lia Psatz.
From Coquelicot Require Import Coquelicot.
From Verif Require Import Common CommonProofs OccModel OccSpec GaussProofs OccProofs.
From Coq Require Import List.
Import ListNotations.
Local Open Scope R_scope.

Lemma Rsum_plus {A} (f g : A -> R) l : Rsum (map (fun x => f x + g x) l) = Rsum (map f l) + Rsum (map g l).
Proof. induction l as [|x l IH]; cbn [map Rsum fold_right]; [ring|]. fold (Rsum (map (fun x => f x + g x) l)). rewrite IH. unfold Rsum. ring. Qed.

Lemma Rsum_scale {A} c (f : A -> R) l : Rsum (map (fun x => c * f x) l) = c * Rsum (map f l).
Proof. induction l as [|x l IH]; cbn [map Rsum fold_right]; [ring|]. fold (Rsum (map (fun x => c * f x) l)). rewrite IH. unfold Rsum. ring. Qed.

Lemma Rsum_const {A} c (l : list A) : Rsum (map (fun _ => c) l) = INR (length l) * c.
Proof. induction l as [|x l IH]; cbn [map Rsum fold_right length]; [cbn; ring|]. fold (Rsum (map (fun _ : A => c) l)). rewrite IH, S_INR. ring. Qed.

Lemma Rsum_le {A} (f g : A -> R) l : (forall x, In x l -> f x <= g x) -> Rsum (map f l) <= Rsum (map g l).
Proof.
  induction l as [|x l IH]; intros H; cbn [map Rsum fold_right]; [lra|].
  apply Rplus_le_compat; [apply H; left; reflexivity|apply IH; intros; apply H; right; assumption].
Qed.

Lemma Rsum_ext {A} (f g : A -> R) l : (forall x, In x l -> f x = g x) -> Rsum (map f l) = Rsum (map g l).
Proof. intros H. f_equal. apply map_ext_in, H. Qed.

Lemma Rsum_abs {A} (f : A -> R) l : Rabs (Rsum (map f l)) <= Rsum (map (fun x => Rabs (f x)) l).
Proof.
  induction l as [|x l IH]; cbn [map Rsum fold_right]; [rewrite Rabs_R0; lra|].
  eapply Rle_trans; [apply Rabs_triang|]. apply Rplus_le_compat_l, IH.
Qed.

Lemma len_pos {A} (l : list A) : l <> [] -> 0 < INR (length l).
Proof. intros H. apply lt_0_INR. destruct l; [congruence|cbn; lia]. Qed.

Lemma Rsum_pos {A} (f : A -> R) l : l <> [] -> (forall x, 0 < f x) -> 0 < Rsum (map f l).
Proof.
  intros H P. destruct l as [|x l]; [congruence|]. cbn [map Rsum fold_right]. fold (Rsum (map f l)).
  assert (Rsum (map (fun _ => 0) l) <= Rsum (map f l)) by (apply Rsum_le; intros y _; left; apply P).
  rewrite Rsum_const in *. specialize (P x). lra.
Qed.

(** ** Partial correctness *)

Lemma fermi_loop_ok fuel f delta0 kT eps tol n e : forall mu mu', fermi_loop fuel f delta0 kT eps tol n e mu = Some mu' ->
  Rabs (Rsum (map (fun x => f ((x - mu') / kT)) e) - n) < tol.
Proof.
  induction fuel as [|fuel IH]; intros mu mu' H; cbn [fermi_loop] in H; [discriminate|].
  destruct (Rlt_dec _ _) as [L|L]; [injection H as <-; exact L|]. eapply IH, H.
Qed.

Lemma simple_loop_ok fuel f kT damp tol n e : forall mu mu', simple_loop fuel f kT damp tol n e mu = Some mu' ->
  Rabs (Rsum (map (fun x => f ((x - mu') / kT)) e) - n) < tol.
Proof.
  induction fuel as [|fuel IH]; intros mu mu' H; cbn [simple_loop] in H; [discriminate|].
  destruct (Rlt_dec _ _) as [L|L]; [injection H as <-; exact L|]. eapply IH, H.
Qed.

Lemma scaled f kT e nb mu n tol : (0 < nb)%nat -> e <> [] ->
  Rabs (Rsum (map (fun x => f ((x - mu) / kT)) e) - n * scale_ e nb) < tol * scale_ e nb -> Rabs (electrons f kT e nb mu - n) < tol.
Proof.
  intros Hn He H. unfold electrons. fold (Rsum (map (fun x => f ((x - mu) / kT)) e)). set (N := Rsum _) in *.
  assert (Hl : 0 < INR (length e)) by (apply lt_0_INR; destruct e; [congruence|cbn; lia]).
  assert (Hb : 0 < INR nb) by (apply lt_0_INR, Hn).
  assert (Hs : 0 < scale_ e nb) by (unfold scale_; apply Rdiv_lt_0_compat; lra).
  replace (2 * N / (INR (length e) / INR nb) - n) with ((N - n * scale_ e nb) * / scale_ e nb).
  2:{ unfold scale_. field. lra. }
  rewrite Rabs_mult, (Rabs_right (/ scale_ e nb)) by (left; apply Rinv_0_lt_compat, Hs).
  apply Rmult_lt_reg_r with (scale_ e nb); [exact Hs|]. rewrite Rmult_assoc, Rinv_l, Rmult_1_r by lra. exact H.
Qed.

Lemma find_ok fuel n e nb kT f delta0 mu0 tol eps mu : e <> [] ->
  find_Fermi_level fuel n e nb kT f delta0 mu0 tol eps = Ok (Some mu) -> Rabs (electrons f kT e nb mu - n) < tol.
Proof.
  intros He H. unfold find_Fermi_level in H. destruct (Nat.eqb_spec nb 0); [discriminate|].
  destruct e as [|e1 e']; [congruence|]. apply (f_equal (get_ok None)) in H. cbn [get_ok] in H.
  apply scaled; [lia|discriminate|]. eapply fermi_loop_ok, H.
Qed.

Lemma find_simple_ok fuel n e nb kT f mu0 tol damp mu : e <> [] ->
  find_Fermi_level_simple fuel n e nb kT f mu0 tol damp = Ok (Some mu) -> Rabs (electrons f kT e nb mu - n) < tol.
Proof.
  intros He H. unfold find_Fermi_level_simple in H. destruct (Nat.eqb_spec nb 0); [discriminate|].
  destruct e as [|e1 e']; [congruence|]. apply (f_equal (get_ok None)) in H. cbn [get_ok] in H.
  apply scaled; [lia|discriminate|]. eapply simple_loop_ok, H.
Qed.

(** A chemical potential that already fits is returned as is. *)
Lemma find_fixed fuel n e nb kT f delta0 tol eps mu : (0 < nb)%nat -> e <> [] ->
  Rabs (electrons f kT e nb mu - n) < tol ->
  find_Fermi_level (S fuel) n e nb kT f delta0 (Some mu) tol eps = Ok (Some mu).
Proof.
  intros Hn He H. unfold find_Fermi_level. destruct (Nat.eqb_spec nb 0); [lia|].
  destruct e as [|e1 e']; [congruence|]. set (e := e1 :: e') in *. f_equal. cbn [fermi_loop].
  destruct (Rlt_dec _ _) as [L|L]; [reflexivity|]. exfalso. apply L.
  unfold electrons in H. fold (Rsum (map (fun x => f ((x - mu) / kT)) e)) in H. set (N := Rsum _) in *.
  assert (Hl : 0 < INR (length e)) by (apply lt_0_INR; cbn; lia).
  assert (Hb : 0 < INR nb) by (apply lt_0_INR, Hn).
  assert (Hs : 0 < scale_ e nb) by (unfold scale_; apply Rdiv_lt_0_compat; lra).
  replace (N - n * scale_ e nb) with ((2 * N / (INR (length e) / INR nb) - n) * scale_ e nb) by (unfold scale_; field; lra).
  rewrite Rabs_mult, (Rabs_right (scale_ e nb)) by lra. apply Rmult_lt_compat_r; assumption.
Qed.

(** ** Initial guess *)

Lemma fold_min_le l : forall a, fold_left Rmin l a <= a /\ (forall x, In x l -> fold_left Rmin l a <= x).
Proof.
  induction l as [|y l IH]; intros a; cbn [fold_left]; [split; [lra|intros x []]|].
  destruct (IH (Rmin a y)) as [H1 H2]. pose proof (Rmin_l a y). pose proof (Rmin_r a y). split; [lra|]. intros x [<-|H']; [lra|apply H2, H'].
Qed.

Lemma fold_min_in l : forall a, fold_left Rmin l a = a \/ In (fold_left Rmin l a) l.
Proof.
  induction l as [|y l IH]; intros a; cbn [fold_left]; [left; reflexivity|].
  destruct (IH (Rmin a y)) as [H|H]; [|right; right; exact H]. rewrite H. unfold Rmin. destruct (Rle_dec a y); [left|right; left]; reflexivity.
Qed.

Lemma fold_max_le l : forall a, a <= fold_left Rmax l a /\ (forall x, In x l -> x <= fold_left Rmax l a).
Proof.
  induction l as [|y l IH]; intros a; cbn [fold_left]; [split; [lra|intros x []]|].
  destruct (IH (Rmax a y)) as [H1 H2]. pose proof (Rmax_l a y). pose proof (Rmax_r a y). split; [lra|]. intros x [<-|H']; [lra|apply H2, H'].
Qed.

Lemma fold_max_in l : forall a, fold_left Rmax l a = a \/ In (fold_left Rmax l a) l.
Proof.
  induction l as [|y l IH]; intros a; cbn [fold_left]; [left; reflexivity|].
  destruct (IH (Rmax a y)) as [H|H]; [|right; right; exact H]. rewrite H. unfold Rmax. destruct (Rle_dec a y); [right; left|left]; reflexivity.
Qed.

Lemma initial_bracket n e nb : (0 < nb)%nat -> e <> [] -> 0 <= n <= 2 * INR nb ->
  exists lo hi, In lo e /\ In hi e /\ lo <= initial_mu (n * scale_ e nb) e <= hi.
Proof.
  intros Hb He H. destruct e as [|x l]; [congruence|]. set (e := x :: l). exists (Rlist_min e), (Rlist_max e).
  assert (Hl : 0 < INR (length e)) by (apply lt_0_INR; cbn; lia). assert (Hb' : 0 < INR nb) by (apply lt_0_INR, Hb).
  assert (M1 : In (Rlist_min e) e). { cbn. destruct (fold_min_in l x) as [E|E]; [left; symmetry; exact E|right; exact E]. }
  assert (M2 : In (Rlist_max e) e). { cbn. destruct (fold_max_in l x) as [E|E]; [left; symmetry; exact E|right; exact E]. }
  assert (LE : Rlist_min e <= Rlist_max e). { cbn. destruct (fold_min_le l x), (fold_max_le l x). lra. }
  split; [exact M1|split; [exact M2|]]. unfold initial_mu, scale_. set (L := INR (length e)) in *. set (m := Rlist_min e) in *. set (M := Rlist_max e) in *.
  set (q := n / (2 * INR nb)). assert (Q : 0 <= q <= 1).
  { unfold q. split; [apply Rmult_le_pos; [lra|left; apply Rinv_0_lt_compat; lra]|]. apply Rle_div_l; lra. }
  replace ((m * (L - n * (1 / 2 * L / INR nb)) + M * (n * (1 / 2 * L / INR nb))) / L) with (m + q * (M - m)) by (unfold q; field; lra). nra.
Qed.

(** ** Termination *)

Section Step.
Variables (f : R -> R) (d0 : R).
Hypothesis F : flattening_step f d0.

Let t (x : R) : R := 1 / 2 - f x.
Let psi (x : R) : R := RInt (V := R_CompleteNormedModule) t 0 x.

Lemma f_half : f 0 = 1 / 2.
Proof using F. destruct F as (_ & S & _). specialize (S 0). rewrite Ropp_0 in S. lra. Qed.

Lemma t_odd x : t (- x) = - t x.
Proof using F. unfold t. destruct F as (_ & S & _). rewrite S. lra. Qed.

Lemma t_cont x : continuous t x.
Proof using F.
  unfold t. apply (continuous_minus (fun _ => 1 / 2) f x); [apply continuous_const|]. destruct F as (_ & _ & _ & C & _).
  apply continuity_pt_filterlim, C.
Qed.

Lemma psi_derive x : is_derive psi x (t x).
Proof using F.
  unfold psi. apply is_derive_RInt with (a := 0).
  - exists (mkposreal 1 Rlt_0_1). intros y _. apply (RInt_correct (V := R_CompleteNormedModule)).
    apply (ex_RInt_continuous (V := R_CompleteNormedModule)). intros z _. apply t_cont.
  - apply t_cont.
Qed.

Lemma psi_0 : psi 0 = 0.
Proof using. unfold psi. apply (RInt_point (V := R_CompleteNormedModule)). Qed.

Lemma psi_even x : psi (- x) = psi x.
Proof using F.
  assert (H : forall x, is_derive (fun x => psi (- x) - psi x) x 0).
  { intros y. eapply is_derive_eq.
    - apply @is_derive_minus; [|apply psi_derive]. apply (is_derive_comp psi (fun x => - x) y); [apply psi_derive|].
      eapply is_derive_eq; [apply @is_derive_opp, @is_derive_id|reflexivity].
    - unfold scal, minus, plus, opp, one. cbn. unfold mult. cbn. rewrite t_odd. ring. }
  pose proof (derive_zero_const _ H x 0) as E. cbn beta in E. rewrite Ropp_0 in E. lra.
Qed.

Lemma incr_le (G g : R -> R) a b : (forall x, is_derive G x (g x)) -> a <= b -> (forall x, a <= x <= b -> 0 <= g x) -> G a <= G b.
Proof using.
  intros D H P. destruct (MVT_gen G a b g) as (c & Hc & E).
  - intros x _. apply D.
  - intros x _. apply continuity_pt_filterlim, (ex_derive_continuous G x). exists (g x). apply D.
  - rewrite Rmin_left, Rmax_right in Hc by exact H. specialize (P c Hc). assert (0 <= g c * (b - a)) by (apply Rmult_le_pos; lra). lra.
Qed.

(** The parabola that touches [psi] at [y] and [- y] lies above. *)
Lemma psi_parabola_pos y z : 0 < y -> 0 <= z -> psi z <= psi y + t y / (2 * y) * (z * z - y * y).
Proof using F.
  intros Hy Hz. destruct F as (_ & _ & _ & _ & P & _ & SL & RT).
  set (G := fun z => psi y + t y / (2 * y) * (z * z - y * y) - psi z). set (g := fun z => t y / y * z - t z).
  assert (D : forall x, is_derive G x (g x)).
  { intros x. unfold G, g. apply @is_derive_minus; [|apply psi_derive]. auto_derive; [exact I|]. field. lra. }
  assert (G0 : G y = 0) by (unfold G; field; lra).
  assert (RT' : forall a b, 0 < a <= b -> t b * a <= t a * b).
  { intros a b Hab. specialize (RT a b Hab). fold (t a) (t b) in RT. apply (Rmult_le_compat_r (a * b)) in RT; [|nra].
    replace (t b / b * (a * b)) with (t b * a) in RT by (field; lra). replace (t a / a * (a * b)) with (t a * b) in RT by (field; lra). exact RT. }
  assert (t y / y * y = t y) by (field; lra).
  assert (0 <= G z); [|unfold G in *; lra]. destruct (Rle_dec y z) as [L|L].
  - rewrite <- G0. apply (incr_le G g); [exact D|exact L|]. intros x Hx. unfold g.
    apply Rmult_le_reg_r with y; [exact Hy|]. specialize (RT' y x ltac:(lra)). nra.
  - assert (- G z <= - G y); [|lra]. apply (incr_le (fun z => - G z) (fun z => - g z)); [|lra|].
    + intros x. apply @is_derive_opp. apply D.
    + intros x Hx. unfold g. destruct (Req_dec x 0) as [->|N].
      * unfold t. rewrite f_half. lra.
      * specialize (RT' x y ltac:(lra)). apply Rmult_le_reg_r with y; [exact Hy|]. nra.
Qed.

Lemma psi_parabola_0 z : 0 <= z -> psi z <= d0 / 2 * (z * z).
Proof using F.
  intros Hz. destruct F as (_ & _ & _ & _ & P & _ & SL & _).
  set (G := fun z => d0 / 2 * (z * z) - psi z). set (g := fun z => d0 * z - t z).
  assert (D : forall x, is_derive G x (g x)).
  { intros x. unfold G, g. apply @is_derive_minus; [|apply psi_derive]. auto_derive; [exact I|]. field. }
  assert (G0 : G 0 = 0) by (unfold G; rewrite psi_0; ring).
  assert (0 <= G z); [|unfold G in *; lra]. rewrite <- G0. apply (incr_le G g); [exact D|exact Hz|]. intros x Hx. unfold g.
  destruct (Req_dec x 0) as [->|N]; [unfold t; rewrite f_half; lra|]. specialize (SL x ltac:(lra)). unfold t. lra.
Qed.

Lemma psi_abs z : psi (Rabs z) = psi z.
Proof using F. unfold Rabs. destruct (Rcase_abs z); [apply psi_even|reflexivity]. Qed.

Lemma t_ratio_even y : y <> 0 -> t (Rabs y) / Rabs y = t y / y.
Proof using F. intros H. unfold Rabs. destruct (Rcase_abs y); [|reflexivity]. rewrite t_odd. field. lra. Qed.

Lemma t_ratio_bound y : y <> 0 -> 0 < t y / y <= d0.
Proof using F.
  intros H. rewrite <- t_ratio_even by exact H. assert (P : 0 < Rabs y) by (apply Rabs_pos_lt, H). destruct F as (_ & _ & _ & _ & P' & _ & SL & _).
  specialize (P' _ P). specialize (SL _ P). fold (t (Rabs y)) in SL. split; [apply Rdiv_lt_0_compat; unfold t; lra|]. apply Rle_div_l; lra.
Qed.

Lemma psi_parabola y z w : (y <> 0 /\ w = t y / y) \/ w = d0 -> psi z <= psi y + t y * (z - y) + w / 2 * ((z - y) * (z - y)).
Proof using F.
  assert (A : y <> 0 -> psi z <= psi y + t y * (z - y) + t y / y / 2 * ((z - y) * (z - y))).
  { intros H. assert (P : 0 < Rabs y) by (apply Rabs_pos_lt, H).
    pose proof (psi_parabola_pos (Rabs y) (Rabs z) P (Rabs_pos z)) as E. rewrite !psi_abs in E.
    rewrite <- !Rabs_mult in E. rewrite (Rabs_right (z * z)), (Rabs_right (y * y)) in E by nra.
    replace (t (Rabs y) / (2 * Rabs y)) with (t (Rabs y) / Rabs y / 2) in E by (field; lra). rewrite t_ratio_even in E by exact H.
    eapply Rle_trans; [exact E|]. right. field. exact H. }
  intros [[H ->]| ->]; [apply A, H|]. destruct (Req_dec y 0) as [->|N].
  - pose proof (psi_parabola_0 (Rabs z) (Rabs_pos z)) as E. rewrite psi_abs, <- Rabs_mult, (Rabs_right (z * z)) in E by nra.
    rewrite psi_0. unfold t. rewrite f_half. replace (z - 0) with z by ring. lra.
  - specialize (A N). pose proof (t_ratio_bound y N) as RB. pose proof (Rle_0_sqr (z - y)) as Q. unfold Rsqr in Q.
    set (q := (z - y) * (z - y)) in *. assert (t y / y * q <= d0 * q) by (apply Rmult_le_compat_r; lra). lra.
Qed.

Lemma psi_ge_pos y : 0 <= y -> 0 <= psi y.
Proof using F.
  intros H. rewrite <- psi_0. apply (incr_le psi t); [apply psi_derive|exact H|]. intros x Hx. destruct F as (_ & _ & _ & _ & P & _).
  destruct (Req_dec x 0) as [->|N]; [unfold t; rewrite f_half; lra|]. specialize (P x ltac:(lra)). unfold t. lra.
Qed.

Lemma psi_lower Y y : 0 < Y -> t Y * (Rabs y - Y) <= psi y.
Proof using F.
  intros H. rewrite <- psi_abs. set (r := Rabs y). assert (Hr : 0 <= r) by apply Rabs_pos.
  pose proof (psi_ge_pos r Hr). destruct F as (_ & _ & _ & _ & P & M & _). pose proof (P Y H) as PY.
  assert (0 < t Y) by (unfold t; lra). destruct (Rle_dec Y r) as [L|L]; [|nra].
  assert (psi Y - t Y * Y <= psi r - t Y * r).
  { apply (incr_le (fun x => psi x - t Y * x) (fun x => t x - t Y)); [|exact L|].
    - intros x. apply @is_derive_minus; [apply psi_derive|]. auto_derive; [exact I|]. ring.
    - intros x Hx. unfold t. specialize (M Y x ltac:(lra)). lra. }
  pose proof (psi_ge_pos Y ltac:(lra)). lra.
Qed.

(** One iteration lowers the grand potential [Om]. *)
Variables (kT eps tol n : R) (e : list R).
Hypotheses (HkT : 0 < kT) (Heps : 0 <= eps) (Htol : 0 < tol) (He : e <> []).
Hypothesis Hsmall : 8 * INR (length e) * d0 * eps <= tol * kT.
Let L := INR (length e).

Definition Om (mu : R) : R := kT * Rsum (map (fun x => psi ((x - mu) / kT)) e) + (L / 2 - n) * mu.
Let N (mu : R) : R := Rsum (map (fun x => f ((x - mu) / kT)) e).
Let w := weight f d0 kT eps.
Let W (mu : R) : R := Rsum (map (w mu) e).

Lemma L_pos : 0 < L.
Proof using He. apply len_pos, He. Qed.

Lemma w_cases mu x : (x - mu <> 0 /\ w mu x = t ((x - mu) / kT) / ((x - mu) / kT) / kT) \/ (Rabs (x - mu) <= eps /\ w mu x = d0 / kT).
Proof using F HkT Heps.
  unfold w, weight. destruct (Rlt_dec eps (Rabs (x - mu))) as [H|H].
  - left. assert (x - mu <> 0) by (intros E; rewrite E, Rabs_R0 in H; lra). split; [assumption|]. rewrite f_half. unfold t. field. lra.
  - right. split; [lra|reflexivity].
Qed.

Lemma div_nz x : x <> 0 -> x / kT <> 0.
Proof using HkT. intros H E. apply H. replace x with (x / kT * kT) by (field; lra). rewrite E. ring. Qed.

Lemma w_bound mu x : 0 < w mu x <= d0 / kT.
Proof using F HkT Heps.
  destruct F as (Hd & _). assert (K0 : 0 < / kT) by (apply Rinv_0_lt_compat, HkT). destruct (w_cases mu x) as [[H ->]|[_ ->]].
  - pose proof (t_ratio_bound _ (div_nz _ H)). unfold Rdiv at 1 4. split; [apply Rmult_lt_0_compat; lra|]. apply Rmult_le_compat_r; lra.
  - split; [apply Rmult_lt_0_compat; lra|lra].
Qed.

Lemma W_bound mu : 0 < W mu <= L * (d0 / kT).
Proof using F HkT Heps He.
  unfold W. split.
  - apply Rsum_pos; [exact He|]. intros x. apply w_bound.
  - unfold L. rewrite <- (Rsum_const (d0 / kT) e). apply Rsum_le. intros x _. apply w_bound.
Qed.

Lemma Om_step mu mu' : Om mu' <= Om mu + (N mu - n) * (mu' - mu) + W mu / 2 * ((mu' - mu) * (mu' - mu)).
Proof using F HkT Heps He.
  assert (H : Rsum (map (fun x => psi ((x - mu') / kT)) e) <= Rsum (map (fun x => psi ((x - mu) / kT) +
    ((mu' - mu) / kT * (f ((x - mu) / kT)) + (- ((mu' - mu) / kT / 2) + (mu' - mu) * (mu' - mu) / (2 * kT) * w mu x))) e)).
  { apply Rsum_le. intros x _. set (y := (x - mu) / kT).
    pose proof (psi_parabola y ((x - mu') / kT) (w mu x * kT)) as P.
    eapply Rle_trans; [apply P|].
    - destruct (w_cases mu x) as [[H E]|[H E]]; [left|right]; rewrite E; fold y.
      + split; [apply div_nz, H|]. generalize (t y / y). intros q. field. lra.
      + field. lra.
    - right. replace ((x - mu') / kT - y) with (- ((mu' - mu) / kT)) by (unfold y; field; lra). unfold t. field. lra. }
  rewrite !Rsum_plus, !Rsum_scale, Rsum_const in H. fold (N mu) (W mu) in H. fold L in H.
  unfold Om. apply (Rmult_le_compat_l kT) in H; [|lra].
  replace (kT * (Rsum (map (fun x => psi ((x - mu) / kT)) e) + ((mu' - mu) / kT * N mu + (L * - ((mu' - mu) / kT / 2) + (mu' - mu) * (mu' - mu) / (2 * kT) * W mu))))
    with (kT * Rsum (map (fun x => psi ((x - mu) / kT)) e) + (mu' - mu) * N mu - L / 2 * (mu' - mu) + W mu / 2 * ((mu' - mu) * (mu' - mu))) in H by (field; lra).
  lra.
Qed.

Lemma next_shift mu : exists err, W mu * (next_mu f d0 kT eps n e mu - mu) = n - N mu + err /\ Rabs err <= tol / 8.
Proof using F HkT Heps He Hsmall.
  exists (Rsum (map (fun x => (x - mu) * w mu x - t ((x - mu) / kT)) e)). split.
  - unfold next_mu. rewrite f_half. fold L. fold w. fold (W mu). pose proof (W_bound mu).
    replace (W mu * ((n - L * (1 / 2) + Rsum (map (fun x => x * w mu x) e)) / W mu - mu))
      with (n - L * (1 / 2) + Rsum (map (fun x => x * w mu x) e) + - mu * W mu) by (field; lra).
    unfold W, N. rewrite <- Rsum_scale. unfold L. rewrite <- (Rsum_const (1 / 2) e).
    rewrite <- (Rmult_1_l (Rsum (map (fun x => f ((x - mu) / kT)) e))).
    transitivity (n + (- (1) * Rsum (map (fun _ => 1 / 2) e) + (Rsum (map (fun x => x * w mu x) e) + Rsum (map (fun x => - mu * w mu x) e)))); [ring|].
    transitivity (n + (-1 * Rsum (map (fun x => f ((x - mu) / kT)) e) + Rsum (map (fun x => (x - mu) * w mu x - t ((x - mu) / kT)) e))); [|ring].
    rewrite <- !Rsum_scale, <- !Rsum_plus. f_equal. apply Rsum_ext. intros x _. unfold t. ring.
  - eapply Rle_trans; [apply Rsum_abs|]. apply Rle_trans with (Rsum (map (fun _ => d0 * eps / kT) e)).
    + apply Rsum_le. intros x _. destruct F as (Hd & _). assert (K0 : 0 < / kT) by (apply Rinv_0_lt_compat, HkT).
      assert (B : 0 <= d0 * eps / kT) by (apply Rmult_le_pos; [nra|lra]).
      destruct (w_cases mu x) as [[H E]|[H E]]; rewrite E.
      * replace ((x - mu) * (t ((x - mu) / kT) / ((x - mu) / kT) / kT) - t ((x - mu) / kT)) with 0; [rewrite Rabs_R0; exact B|]. field. lra.
      * destruct (Req_dec (x - mu) 0) as [Z|Z].
        -- rewrite Z. replace (0 / kT) with 0 by (field; lra). unfold t. rewrite f_half. replace (0 * (d0 / kT) - (1 / 2 - 1 / 2)) with 0 by ring. rewrite Rabs_R0. exact B.
        -- pose proof (t_ratio_bound _ (div_nz _ Z)) as RB. set (y := (x - mu) / kT) in *.
           assert (Y0 : y <> 0) by (apply div_nz, Z).
           replace ((x - mu) * (d0 / kT) - t y) with (y * (d0 - t y / y)).
           2:{ replace (y * (d0 - t y / y)) with (y * d0 - t y) by (field; exact Y0). unfold y at 1. field. lra. }
           rewrite Rabs_mult. apply Rle_trans with (eps / kT * d0); [|right; field; lra].
           apply Rmult_le_compat; [apply Rabs_pos|apply Rabs_pos| |apply Rabs_le; lra].
           unfold y, Rdiv. rewrite Rabs_mult, (Rabs_right (/ kT)) by lra. apply Rmult_le_compat_r; lra.
    + rewrite Rsum_const. replace (INR (length e) * (d0 * eps / kT)) with (8 * INR (length e) * d0 * eps / (8 * kT)) by (field; lra).
      apply Rle_div_l; [lra|]. lra.
Qed.

Let c := 35 / 128 * (tol * tol) / (L * (d0 / kT)).

Lemma c_pos : 0 < c.
Proof using F HkT Htol He.
  unfold c. destruct F as (Hd & _). pose proof L_pos. assert (0 < d0 / kT) by (apply Rdiv_lt_0_compat; lra).
  apply Rdiv_lt_0_compat; nra.
Qed.

Lemma Om_decreases mu : tol <= Rabs (N mu - n) -> Om (next_mu f d0 kT eps n e mu) <= Om mu - c.
Proof using F HkT Heps Htol He Hsmall.
  intros H. destruct (next_shift mu) as (err & E & B). set (mu' := next_mu f d0 kT eps n e mu) in *.
  pose proof (Om_step mu mu') as S. pose proof (W_bound mu) as [W0 W1]. set (D := mu' - mu) in *. set (A := W mu * D) in *.
  assert (LB : 7 / 8 * tol <= Rabs A).
  { rewrite E. rewrite Rabs_minus_sym in H. pose proof (Rabs_triang_inv (n - N mu) (- err)) as T. rewrite Rabs_Ropp in T.
    replace (n - N mu - - err) with (n - N mu + err) in T by ring. lra. }
  assert (D = A / W mu) by (unfold A; field; lra).
  assert (K : (N mu - n) * D + W mu / 2 * (D * D) = - ((A * A / 2 - err * A) / W mu)).
  { rewrite H0. replace (N mu - n) with (err - A) by lra. field. lra. }
  assert (Q : 35 / 128 * (tol * tol) <= A * A / 2 - err * A).
  { assert (err * A <= tol / 8 * Rabs A).
    { eapply Rle_trans; [apply Rle_abs|]. rewrite Rabs_mult. apply Rmult_le_compat_r; [apply Rabs_pos|exact B]. }
    assert (A * A = Rabs A * Rabs A) by (rewrite <- Rabs_mult, Rabs_right; [reflexivity|nra]). set (a := Rabs A) in *. nra. }
  assert (c <= (A * A / 2 - err * A) / W mu); [|lra]. unfold c, Rdiv at 1 4.
  assert (0 < 35 / 128 * (tol * tol)) by nra. apply Rmult_le_compat; [lra| |exact Q|apply Rinv_le_contravar; lra].
  left. apply Rinv_0_lt_compat. lra.
Qed.

Hypothesis Hn : 0 < n < L.

Lemma Om_bounded : exists B, forall mu, B <= Om mu.
Proof using F HkT He Hn.
  pose proof L_pos as HL. assert (Hc : 0 < Rmin n (L - n) / L) by (apply Rdiv_lt_0_compat; [apply Rmin_glb_lt; lra|exact HL]).
  destruct F as (_ & _ & [S0 _] & _ & P & M & _). destruct (S0 _ Hc) as (X & HX). set (Y := Rmax X 1).
  assert (HY : 0 < Y) by (unfold Y; pose proof (Rmax_r X 1); lra). specialize (HX Y (Rmax_l X 1)).
  assert (FY : f Y * L <= Rmin n (L - n)).
  { pose proof (Rle_abs (f Y)). apply Rle_trans with (Rmin n (L - n) / L * L); [apply Rmult_le_compat_r; lra|right; field; lra]. }
  pose proof (Rmin_l n (L - n)). pose proof (Rmin_r n (L - n)).
  set (SE := Rsum (map (fun x => Rabs x) e)). exists (- t Y * SE - L * (kT * Y * t Y)). intros mu.
  pose proof (P Y HY) as TY. assert (0 < t Y) by (unfold t; lra).
  assert (A : Rsum (map (fun x => t Y / kT * Rabs mu + (- (t Y / kT) * Rabs x + - (t Y * Y))) e) <= Rsum (map (fun x => psi ((x - mu) / kT)) e)).
  { apply Rsum_le. intros x _. eapply Rle_trans; [|apply (psi_lower Y), HY].
    assert (K0 : 0 < / kT) by (apply Rinv_0_lt_compat, HkT). unfold Rdiv at 3. rewrite Rabs_mult, (Rabs_right (/ kT)) by lra.
    assert (T : Rabs mu - Rabs x <= Rabs (x - mu)) by (rewrite Rabs_minus_sym; apply Rabs_triang_inv).
    apply Rmult_le_compat_r with (r := / kT) in T; [|lra]. apply Rmult_le_compat_l with (r := t Y) in T; [|lra].
    unfold Rdiv. nra. }
  rewrite !Rsum_plus, !Rsum_scale, !Rsum_const in A. fold SE in A. fold L in A.
  apply (Rmult_le_compat_l kT) in A; [|lra]. unfold Om.
  change (Rsum (map Rabs e)) with SE in A.
  replace (kT * (t Y / kT * (L * Rabs mu) + (- (t Y / kT) * SE + L * - (t Y * Y)))) with (L * t Y * Rabs mu - t Y * SE - L * (kT * Y * t Y)) in A by (field; lra).
  assert (B : - (L * t Y * Rabs mu) <= (L / 2 - n) * mu); [|lra].
  assert (K : Rabs (L / 2 - n) <= L * t Y) by (apply Rabs_le; unfold t; lra).
  pose proof (Rle_abs (- ((L / 2 - n) * mu))) as U. rewrite Rabs_Ropp, Rabs_mult in U.
  pose proof (Rmult_le_compat_r (Rabs mu) _ _ (Rabs_pos mu) K). lra.
Qed.

Lemma loop_terminates mu : exists fuel mu', fermi_loop fuel f d0 kT eps tol n e mu = Some mu'.
Proof using F HkT Heps Htol He Hsmall Hn.
  destruct Om_bounded as (B & HB).
  assert (G : forall fuel mu, fermi_loop fuel f d0 kT eps tol n e mu = None -> B + INR fuel * c <= Om mu).
  { induction fuel as [|fuel IH]; intros m Hm; [cbn; pose proof (HB m); lra|]. cbn [fermi_loop] in Hm.
    destruct (Rlt_dec _ _) as [R|R]; [discriminate|]. apply IH in Hm. pose proof (Om_decreases m ltac:(unfold N; lra)). rewrite S_INR. lra. }
  destruct (archimed ((Om mu - B) / c)) as [AR _]. set (k := Z.to_nat (up ((Om mu - B) / c))). exists k.
  destruct (fermi_loop k f d0 kT eps tol n e mu) as [mu'|] eqn:E; [exists mu'; reflexivity|]. exfalso. apply G in E.
  assert (K : (Om mu - B) / c < INR k).
  { unfold k. destruct (Z_lt_le_dec (up ((Om mu - B) / c)) 0) as [l|l].
    - apply IZR_lt in l. assert (0 <= (Om mu - B) / c); [|lra]. apply Rmult_le_pos; [pose proof (HB mu); lra|left; apply Rinv_0_lt_compat, c_pos].
    - rewrite INR_IZR_INZ, Z2Nat.id by exact l. lra. }
  pose proof c_pos. apply Rlt_div_l in K; [|assumption]. lra.
Qed.
End Step.

Lemma find_terminates f d0 n e nb kT mu tol eps : flattening_step f d0 -> 0 < kT -> 0 < tol -> 0 <= eps -> e <> [] -> (0 < nb)%nat ->
  0 < n < 2 * INR nb -> 16 * INR nb * d0 * eps <= tol * kT ->
  exists fuel mu', find_Fermi_level fuel n e nb kT f d0 mu tol eps = Ok (Some mu').
Proof.
  intros F HkT Htol Heps He Hnb Hn Hs.
  assert (Hl : 0 < INR (length e)) by (apply lt_0_INR; destruct e; [congruence|cbn; lia]).
  assert (Hb : 0 < INR nb) by (apply lt_0_INR, Hnb).
  assert (Hsc : 0 < scale_ e nb) by (unfold scale_; apply Rdiv_lt_0_compat; lra).
  assert (T : 0 < tol * scale_ e nb) by nra.
  assert (S : 8 * INR (length e) * d0 * eps <= tol * scale_ e nb * kT).
  { replace (8 * INR (length e) * d0 * eps) with (16 * INR nb * d0 * eps * scale_ e nb) by (unfold scale_; field; lra). nra. }
  assert (N : 0 < n * scale_ e nb < INR (length e)).
  { split; [nra|]. replace (INR (length e)) with (2 * INR nb * scale_ e nb) by (unfold scale_; field; lra). apply Rmult_lt_compat_r; lra. }
  set (m := match mu with Some m => m | None => initial_mu (n * scale_ e nb) e end).
  destruct (loop_terminates f d0 F kT eps (tol * scale_ e nb) (n * scale_ e nb) e HkT Heps T He S N m) as (fuel & mu' & E).
  exists fuel, mu'. unfold find_Fermi_level. destruct (Nat.eqb_spec nb 0); [lia|]. destruct e as [|x l]; [congruence|].
  destruct mu; cbn zeta; f_equal; exact E.
Qed.

(** ** Instances *)

Lemma flattening f d d' : symmetric f -> step f -> (forall x, is_derive f x (- d x)) -> (forall x, is_derive d x (d' x)) ->
  (forall x, 0 < d x) -> (forall x, 0 <= x -> d' x <= 0) -> flattening_step f (d 0).
Proof.
  intros S ST D D' P N.
  assert (H0 : f 0 = 1 / 2) by (specialize (S 0); rewrite Ropp_0 in S; lra).
  assert (M : forall x y, x <= y -> f y <= f x).
  { intros x y H. assert (- f x <= - f y); [|lra]. apply (incr_le (fun x => - f x) d); [|exact H|intros; left; apply P].
    intros z. eapply is_derive_eq; [apply @is_derive_opp, D|unfold opp; cbn; ring]. }
  assert (dm : forall x y, 0 <= x -> x <= y -> d y <= d x).
  { intros x y H0' H. assert (- d x <= - d y); [|lra]. apply (incr_le (fun x => - d x) (fun x => - d' x)); [|exact H|].
    - intros z. apply @is_derive_opp, D'.
    - intros z Hz. specialize (N z ltac:(lra)). lra. }
  assert (SL : forall x, 0 <= x -> 1 / 2 - f x <= d 0 * x).
  { intros x Hx. set (G := fun x => d 0 * x + f x). assert (G 0 <= G x); [|unfold G in *; lra].
    apply (incr_le G (fun x => d 0 - d x)); [|exact Hx|intros z Hz; specialize (dm 0 z ltac:(lra) ltac:(lra)); lra].
    intros z. unfold G. eapply is_derive_eq; [apply @is_derive_plus; [auto_derive; [exact I|reflexivity]|apply D]|unfold plus; cbn; ring]. }
  assert (CV : forall x, 0 <= x -> x * d x <= 1 / 2 - f x).
  { intros x Hx. set (G := fun x => - f x - x * d x). assert (G 0 <= G x); [|unfold G in *; lra].
    apply (incr_le G (fun x => - x * d' x)); [|exact Hx|intros z Hz; specialize (N z ltac:(lra)); nra].
    intros z. unfold G. eapply is_derive_eq.
    - apply @is_derive_minus; [apply @is_derive_opp, D|]. apply (is_derive_mult (fun x : R => x) d z); [apply @is_derive_id|apply D'|intros; apply Rmult_comm].
    - unfold minus, plus, opp, mult, one. cbn. ring. }
  split; [apply P|]. split; [exact S|]. split; [exact ST|]. split; [|split; [|split; [exact M|split]]].
  - intros x. apply continuity_pt_filterlim, (ex_derive_continuous f x). exists (- d x). apply D.
  - intros x Hx. specialize (CV x ltac:(lra)). specialize (P x). assert (0 < x * d x) by nra. lra.
  - intros x Hx. apply SL. lra.
  - intros x y [Hx Hxy]. set (G := fun z => (1 / 2 - f z) / z).
    destruct (MVT_gen G x y (fun z => (d z * z - (1 / 2 - f z)) / (z * z))) as (c & Hc & E).
    + intros z Hz. rewrite Rmin_left, Rmax_right in Hz by exact Hxy. unfold G. eapply is_derive_eq.
      * apply (is_derive_div (fun z => 1 / 2 - f z) (fun z => z) z); [|apply @is_derive_id|lra].
        apply @is_derive_minus; [apply @is_derive_const|apply D].
      * unfold minus, plus, opp, one, zero. cbn. field. lra.
    + intros z Hz. rewrite Rmin_left, Rmax_right in Hz by exact Hxy. apply continuity_pt_filterlim, (ex_derive_continuous G z).
      eexists. apply (is_derive_div (fun z => 1 / 2 - f z) (fun z => z) z); [|apply @is_derive_id|lra].
        apply @is_derive_minus; [apply @is_derive_const|apply D].
    + rewrite Rmin_left, Rmax_right in Hc by exact Hxy. fold (G y) (G x). specialize (CV c ltac:(lra)).
      assert ((d c * c - (1 / 2 - f c)) / (c * c) <= 0). { apply Rle_div_l; nra. } nra.
Qed.

(** Limits *)

Lemma exp_ge x : 1 + x <= exp x.
Proof. destruct (Req_dec x 0) as [->|N]; [rewrite exp_0; lra|left; apply exp_ineq1, N]. Qed.

Lemma inv_small c : 0 < c -> exists X, 0 < X /\ / X < c.
Proof.
  intros H. exists (2 / c). split; [apply Rdiv_lt_0_compat; lra|]. replace (/ (2 / c)) with (c / 2) by (field; lra). lra.
Qed.

Lemma step_of f : symmetric f -> (forall c, 0 < c -> exists X, forall x, X <= x -> Rabs (f x) < c) -> step f.
Proof.
  intros S H. split; [exact H|]. intros c Hc. destruct (H c Hc) as (X & HX). exists X. intros x Hx.
  specialize (HX (- x) ltac:(lra)). rewrite S in HX. rewrite Rabs_minus_sym. exact HX.
Qed.

Lemma FDf_step : step FDf.
Proof.
  apply step_of; [exact FDf_opp|]. intros c Hc. destruct (inv_small c Hc) as (X & X0 & HX). exists X. intros x Hx.
  pose proof (FDf_bound x). rewrite Rabs_right by lra. eapply Rlt_trans; [|exact HX]. unfold FDf, Rdiv. rewrite Rmult_1_l.
  pose proof (exp_ge x). apply Rinv_lt_contravar; [apply Rmult_lt_0_compat|]; lra.
Qed.

Lemma gauss_bound x : 0 < gauss x < 1.
Proof. unfold gauss. pose proof (erf_bound x). lra. Qed.

Lemma gauss_step : step gauss.
Proof.
  apply step_of; [exact gauss_opp|]. intros c Hc. destruct (inv_small c Hc) as (X & X0 & HX). exists (Rmax X 1). intros x Hx.
  pose proof (Rmax_l X 1). pose proof (Rmax_r X 1). pose proof (gauss_bound x). rewrite Rabs_right by lra.
  unfold gauss. pose proof (erf_tail x ltac:(lra)) as T. rewrite exp_Ropp in T. pose proof (exp_ge (x * x)) as G.
  assert (PI1 : 2 / PI < 1). { pose proof PI_RGT_0. pose proof PI2_1. unfold PI2 in *. apply Rlt_div_l; lra. }
  assert (/ exp (x * x) <= / X).
  { apply Rinv_le_contravar; [exact X0|]. nra. }
  assert (0 < / exp (x * x)) by (apply Rinv_0_lt_compat, exp_pos).
  assert (4 / PI * / exp (x * x) = 2 * (2 / PI * / exp (x * x))) by (field; split; [pose proof (exp_pos (x * x)); lra|pose proof PI_RGT_0; lra]).
  nra.
Qed.

Lemma lorentz_opp x : lorentz (- x) = 1 - lorentz x.
Proof. unfold lorentz. pose proof PI_RGT_0. replace (- x / PI) with (- (x / PI)) by (field; lra). rewrite atan_opp. field. lra. Qed.

Lemma lorentz_bound x : 0 < lorentz x < 1.
Proof.
  unfold lorentz. pose proof PI_RGT_0. pose proof (atan_bound (x / PI)) as [A B].
  assert (-1 / 2 < atan (x / PI) / PI < 1 / 2); [|lra]. assert (atan (x / PI) / PI * PI = atan (x / PI)) by (field; lra). split; apply Rmult_lt_reg_r with PI; lra.
Qed.

Lemma lorentz_step : step lorentz.
Proof.
  pose proof PI_RGT_0. apply step_of; [exact lorentz_opp|]. intros c Hc.
  set (a := PI / 2 - Rmin (c / 2) (1 / 4) * PI). exists (PI * tan a). intros x Hx.
  pose proof (lorentz_bound x). rewrite Rabs_right by lra. unfold lorentz. set (q := Rmin (c / 2) (1 / 4)) in *.
  assert (Q : 0 < q <= 1 / 4 /\ q <= c / 2). { unfold q, Rmin. destruct (Rle_dec (c / 2) (1 / 4)); lra. }
  assert (A : - (PI / 2) < a < PI / 2) by (unfold a; nra).
  assert (T : a <= atan (x / PI)).
  { rewrite <- (atan_tan a A). destruct Hx as [Hx|Hx].
    - left. apply atan_increasing. apply Rmult_lt_reg_r with PI; [lra|]. replace (x / PI * PI) with x by (field; lra). lra.
    - right. rewrite <- Hx. f_equal. field. lra. }
  assert (a / PI <= atan (x / PI) / PI) by (apply Rmult_le_compat_r; [left; apply Rinv_0_lt_compat|]; lra).
  assert (a / PI = 1 / 2 - q) by (unfold a; field; lra). lra.
Qed.

Lemma sinh_pos x : 0 <= x -> 0 <= sinh x.
Proof.
  intros H. unfold sinh. assert (exp (- x) <= exp x); [|lra]. destruct (Req_dec x 0) as [->|N]; [rewrite Ropp_0; lra|]. left. apply exp_increasing. lra.
Qed.

Lemma FDf_flattening : flattening_step FDf (1 / 4).
Proof.
  replace (1 / 4) with (FDd 0). 2:{ unfold FDd. rewrite cosh_0. field. }
  apply (flattening FDf FDd FDp); [exact FDf_opp|exact FDf_step|exact FDf_derive|exact FDd_derive|apply FDd_bound|].
  intros x Hx. unfold FDp. pose proof (sinh_pos x Hx). pose proof (cosh_pos x). apply Rle_div_l; [|lra]. apply Rmult_lt_0_compat; [lra|apply pow_lt; lra].
Qed.

Lemma gauss_delta_pos x : 0 < gauss_delta x.
Proof. unfold gauss_delta. apply Rdiv_lt_0_compat; [apply exp_pos|apply sqrt_PI_pos]. Qed.

Lemma gauss_flattening : flattening_step gauss (gauss_delta 0).
Proof.
  apply (flattening gauss gauss_delta gauss_delta_prime); [exact gauss_opp|exact gauss_step|exact gauss_derive|exact gauss_delta_derive|exact gauss_delta_pos|].
  intros x Hx. unfold gauss_delta_prime. apply Rle_div_l; [apply sqrt_PI_pos|]. pose proof (exp_pos (- x * x)). nra.
Qed.

Lemma lorentz_delta_pos x : 0 < lorentz_delta x.
Proof. unfold lorentz_delta. pose proof PI_RGT_0. apply Rdiv_lt_0_compat; [lra|nra]. Qed.

Lemma lorentz_flattening : flattening_step lorentz (lorentz_delta 0).
Proof.
  apply (flattening lorentz lorentz_delta lorentz_delta_prime); [exact lorentz_opp|exact lorentz_step|exact lorentz_derive|exact lorentz_delta_derive|exact lorentz_delta_pos|].
  intros x Hx. unfold lorentz_delta_prime. pose proof PI_RGT_0. apply Rle_div_l; [apply pow_lt; nra|nra].
Qed.
