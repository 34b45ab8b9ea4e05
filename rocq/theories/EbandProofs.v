(** Proofs about sums over bands. *)
From Coq Require Import Reals Lra Lia.
From Verif Require Import Common Text OccModel OccSpec XmlProofs EbandModel EbandSpec.
Local Open Scope nat_scope.

Lemma fold_add l : forall f, fold_right Rplus 0%R (map f (seq 0 l)) = add f l.
Proof.
  induction l as [|l IH]; intros f; [reflexivity|]. rewrite seq_S, map_app, fold_right_app. cbn [map fold_right Nat.add add].
  assert (G : forall xs a, fold_right Rplus a xs = (fold_right Rplus 0 xs + a)%R) by (induction xs as [|x xs IHx]; intros a; cbn [fold_right]; [|rewrite IHx]; lra).
  rewrite G, IH. lra.
Qed.
Lemma add_ext n f g : (forall i, i < n -> f i = g i) -> add f n = add g n.
Proof. induction n as [|n IH]; intros H; [reflexivity|]. cbn [add]. rewrite (H n) by lia. rewrite IH; [reflexivity|]. intros i L. apply H. lia. Qed.
Lemma add_plus n f g : add (fun i => f i + g i)%R n = (add f n + add g n)%R.
Proof. induction n as [|n IH]; cbn [add]; [lra|]. rewrite IH. lra. Qed.
Lemma add_scale n c f : add (fun i => c * f i)%R n = (c * add f n)%R.
Proof. induction n as [|n IH]; cbn [add]; [lra|]. rewrite IH. lra. Qed.
Lemma add_zero n : add (fun _ => 0%R) n = 0%R.
Proof. induction n as [|n IH]; cbn [add]; [|rewrite IH]; lra. Qed.
Lemma add_single n m x : m < n -> add (fun i => if i =? m then x else 0%R) n = x.
Proof.
  induction n as [|n IH]; intros H; [lia|]. cbn [add]. destruct (Nat.eqb_spec n m) as [->|N].
  - rewrite (add_ext m _ (fun _ => 0%R)), add_zero; [lra|]. intros i L. destruct (Nat.eqb_spec i m); [lia|reflexivity].
  - rewrite IH by lia. lra.
Qed.

Lemma index_spec nbnd i : (- Z.of_nat nbnd <= i < Z.of_nat nbnd)%Z -> exists n, py_index nbnd i = Ok n /\ n < nbnd /\ (i = Z.of_nat n \/ i = Z.of_nat n - Z.of_nat nbnd)%Z.
Proof.
  intros H. unfold py_index. destruct (Z.leb_spec 0 i) as [L|L].
  - destruct (Z.ltb_spec i (Z.of_nat nbnd)); [|lia]. cbn [andb]. exists (Z.to_nat i). split; [reflexivity|]. split; [lia|]. left. rewrite Z2Nat.id; lia.
  - cbn [andb]. destruct (Z.leb_spec (- Z.of_nat nbnd) i); [|lia]. destruct (Z.ltb_spec i 0); [|lia]. cbn [andb]. exists (Z.to_nat (i + Z.of_nat nbnd)). split; [reflexivity|]. split; [lia|]. right. rewrite Z2Nat.id; lia.
Qed.
Lemma index_invalid nbnd i : ~ (- Z.of_nat nbnd <= i < Z.of_nat nbnd)%Z -> py_index nbnd i = Raise IndexError.
Proof.
  intros H. unfold py_index. destruct (Z.leb_spec 0 i) as [L|L]; cbn [andb].
  - destruct (Z.ltb_spec i (Z.of_nat nbnd)); [lia|]. cbn [andb]. destruct (Z.ltb_spec i 0); [lia|]. rewrite Bool.andb_false_r. reflexivity.
  - destruct (Z.leb_spec (- Z.of_nat nbnd) i); [lia|]. reflexivity.
Qed.

Definition chosenb (nbnd : nat) (l : list Z) (n : nat) : bool := existsb (fun i => (i =? Z.of_nat n)%Z || (i =? Z.of_nat n - Z.of_nat nbnd)%Z) l.
Lemma chosenb_iff nbnd l n : chosenb nbnd l n = true <-> chosen nbnd l n.
Proof.
  unfold chosenb, chosen. rewrite existsb_exists. split.
  - intros (i & J & E). apply Bool.orb_prop in E. destruct E as [E|E]; apply Z.eqb_eq in E; subst i; tauto.
  - intros [J|J]; [exists (Z.of_nat n)|exists (Z.of_nat n - Z.of_nat nbnd)%Z]; (split; [exact J|]); rewrite Z.eqb_refl, ?Bool.orb_true_r; reflexivity.
Qed.
Lemma fill_spec nbnd (g : nat -> R) (r : nat -> res R) : (forall n, r n = Ok (g n)) -> forall l row, valid nbnd l ->
  exists row', fill_row nbnd r l row = Ok row' /\ forall n, n < nbnd -> row' n = if chosenb nbnd l n then g n else row n.
Proof.
  intros Hr. induction l as [|i l IH]; intros row V.
  - exists row. split; [reflexivity|]. reflexivity.
  - destruct (index_spec nbnd i (V i (or_introl eq_refl))) as (m & Em & Lm & Im). cbn [fill_row]. rewrite Em. cbn [bind]. rewrite Hr. cbn [bind].
    destruct (IH (fun k => if k =? m then g m else row k) (fun j J => V j (or_intror J))) as (row' & E & S). exists row'. split; [exact E|].
    intros n Ln. rewrite (S n Ln). unfold chosenb. cbn [existsb]. destruct (existsb _ l); [rewrite Bool.orb_true_r; reflexivity|]. rewrite Bool.orb_false_r.
    destruct (Nat.eqb_spec n m) as [->|N].
    + destruct Im as [->|Im]; [rewrite Z.eqb_refl; reflexivity|]. rewrite Im, Z.eqb_refl, Bool.orb_true_r. reflexivity.
    + replace ((i =? Z.of_nat n)%Z || (i =? Z.of_nat n - Z.of_nat nbnd)%Z) with false; [reflexivity|]. symmetry. apply Bool.orb_false_iff. split; apply Z.eqb_neq; lia.
Qed.

Lemma rows_spec nbnd (g : nat -> nat -> R) r l : (forall k n, r k n = Ok (g k n)) -> valid nbnd l -> forall nk s, exists rows,
  map_res (fun ik => fill_row nbnd (r ik) l (fun _ => 0%R)) (seq s nk) = Ok rows /\
  fold_right Rplus 0%R (map (fun row => sumR row nbnd) rows) = fold_right Rplus 0%R (map (fun k => add (fun n => if chosenb nbnd l n then g k n else 0%R) nbnd) (seq s nk)).
Proof.
  intros H V. induction nk as [|nk IH]; intros s; [exists []; split; reflexivity|].
  destruct (fill_spec nbnd (g s) (r s) (H s) l (fun _ => 0%R) V) as (row & E & S). destruct (IH (Datatypes.S s)) as (rows & E' & S').
  exists (row :: rows). cbn [seq map_res]. rewrite E. cbn [bind]. rewrite E'. split; [reflexivity|]. cbn [map fold_right]. rewrite S'. f_equal.
  unfold sumR. rewrite fold_add. apply add_ext. exact S.
Qed.
Lemma band_sum_spec Ry nk nbnd (g : nat -> nat -> R) r s l : (forall k n, r k n = Ok (g k n)) -> band_range nbnd s = Ok l -> valid nbnd l ->
  band_sum Ry nk nbnd r s = Ok (sum_states nk nbnd (fun k n => if chosenb nbnd l n then g k n else 0%R) / Ry)%R.
Proof.
  intros H E V. unfold band_sum. rewrite E. cbn [bind]. destruct (rows_spec nbnd g r l H V nk 0) as (rows & E' & S). rewrite E'. cbn [bind]. rewrite S. unfold sum_states. rewrite fold_add. reflexivity.
Qed.
Lemma valid_all nbnd : valid nbnd (map Z.of_nat (seq 0 nbnd)).
Proof. intros i J. apply in_map_iff in J. destruct J as (n & <- & J). apply in_seq in J. lia. Qed.
Lemma chosen_all nbnd n : n < nbnd -> chosenb nbnd (map Z.of_nat (seq 0 nbnd)) n = true.
Proof. intros L. apply chosenb_iff. left. apply in_map, in_seq. lia. Qed.
Lemma sum_states_ext nk nbnd f g : (forall k n, k < nk -> n < nbnd -> f k n = g k n) -> sum_states nk nbnd f = sum_states nk nbnd g.
Proof. intros H. apply add_ext. intros k K. apply add_ext. intros n N. apply H; assumption. Qed.
Lemma sum_states_plus nk nbnd f g : sum_states nk nbnd (fun k n => f k n + g k n)%R = (sum_states nk nbnd f + sum_states nk nbnd g)%R.
Proof. unfold sum_states. rewrite <- add_plus. apply add_ext. intros k _. apply add_plus. Qed.
Lemma sum_states_scale nk nbnd c f : sum_states nk nbnd (fun k n => c * f k n)%R = (c * sum_states nk nbnd f)%R.
Proof. unfold sum_states. rewrite <- add_scale. apply add_ext. intros k _. apply add_scale. Qed.
Lemma band_sum_all Ry nk nbnd (g : nat -> nat -> R) r : (forall k n, r k n = Ok (g k n)) -> band_sum Ry nk nbnd r All = Ok (sum_states nk nbnd g / Ry)%R.
Proof.
  intros H. rewrite (band_sum_spec Ry nk nbnd g r All _ H eq_refl (valid_all nbnd)). f_equal. f_equal. apply sum_states_ext. intros k n _ N. rewrite chosen_all by exact N. reflexivity.
Qed.
Lemma fill_invalid nbnd (g : nat -> R) (r : nat -> res R) i : (forall n, r n = Ok (g n)) -> ~ (- Z.of_nat nbnd <= i < Z.of_nat nbnd)%Z -> forall l row, In i l -> fill_row nbnd r l row = Raise IndexError.
Proof.
  intros Hr Hi. induction l as [|j l IH]; intros row J; [contradiction|]. cbn [fill_row].
  destruct (Z_le_dec (- Z.of_nat nbnd) j) as [A|A]; [destruct (Z_lt_dec j (Z.of_nat nbnd)) as [B|B]|].
  - destruct (index_spec nbnd j (conj A B)) as (m & -> & _). cbn [bind]. rewrite Hr. cbn [bind]. apply IH. destruct J as [->|J]; [exfalso; apply Hi; lia|exact J].
  - rewrite index_invalid by lia. reflexivity.
  - rewrite index_invalid by lia. reflexivity.
Qed.

(** ** Derivatives *)
Lemma deriv_add n (F : nat -> R -> R) (D : nat -> R) t : (forall i, i < n -> derivable_pt_lim (F i) t (D i)) -> derivable_pt_lim (fun t => add (fun i => F i t) n) t (add D n).
Proof.
  induction n as [|n IH]; intros H; cbn [add].
  - apply derivable_pt_lim_const.
  - apply derivable_pt_lim_plus; [apply IH; intros i L; apply H; lia|apply H; lia].
Qed.
Lemma deriv_states nk nbnd (F : nat -> nat -> R -> R) (D : nat -> nat -> R) t : (forall k n, derivable_pt_lim (F k n) t (D k n)) ->
  derivable_pt_lim (fun t => sum_states nk nbnd (fun k n => F k n t)) t (sum_states nk nbnd D).
Proof. intros H. unfold sum_states. apply (deriv_add nk (fun k t => add (fun n => F k n t) nbnd)). intros k _. apply (deriv_add nbnd). intros n _. apply H. Qed.
Lemma single_state nk nbnd k0 n0 x : k0 < nk -> n0 < nbnd -> sum_states nk nbnd (fun k n => if (k =? k0) && (n =? n0) then x else 0%R) = x.
Proof.
  intros K N. unfold sum_states. rewrite (add_ext nk _ (fun k => if k =? k0 then x else 0%R)); [apply add_single, K|]. intros k _. destruct (Nat.eqb_spec k k0) as [->|_]; cbn [andb]; [apply add_single, N|apply add_zero].
Qed.
(** One state: the derivative of its grand potential is the occupation *)
Lemma deriv_state (f d S : R -> R) (mu kT t : R) : kT <> 0%R -> derivable_pt_lim f ((t - mu) / kT) (- d ((t - mu) / kT))%R -> entropy_at S d ((t - mu) / kT) ->
  derivable_pt_lim (fun t => t * f ((t - mu) / kT) - kT * S ((t - mu) / kT) - mu * f ((t - mu) / kT))%R t (f ((t - mu) / kT))%R.
Proof.
  intros N Hf HS. set (x := fun t => ((t - mu) / kT)%R).
  assert (Hx : derivable_pt_lim x t (/ kT)%R).
  { unfold x. replace (/ kT)%R with ((1 - 0) * / kT + (t - mu) * 0)%R by lra. unfold Rdiv. apply derivable_pt_lim_mult with (f1 := fun t => (t - mu)%R) (f2 := fun _ => (/ kT)%R).
    - apply derivable_pt_lim_minus with (f1 := fun t => t) (f2 := fun _ => mu); [apply derivable_pt_lim_id|apply derivable_pt_lim_const].
    - apply derivable_pt_lim_const. }
  assert (Cf := derivable_pt_lim_comp x f t _ _ Hx Hf). assert (CS := derivable_pt_lim_comp x S t _ _ Hx HS).
  assert (D1 := derivable_pt_lim_mult (fun t => t) (comp f x) t _ _ (derivable_pt_lim_id t) Cf).
  assert (D2 := derivable_pt_lim_scal (comp S x) kT t _ CS). assert (D3 := derivable_pt_lim_scal (comp f x) mu t _ Cf).
  assert (D := derivable_pt_lim_minus _ _ t _ _ (derivable_pt_lim_minus _ _ t _ _ D1 D2) D3).
  unfold comp, mult_fct, mult_real_fct, minus_fct in D. unfold x in D.
  match type of D with derivable_pt_lim _ _ ?v => replace (f ((t - mu) / kT))%R with v; [exact D|] end. field. exact N.
Qed.
