(** Phonon self-energy for finite frequencies and the third-order diagram. *)
From Coq Require Import Reals Lra Lia List.
From Verif Require Import Common Cx CxProofs MdModel DiagModel DiagSpec DiagProofs DiagProofs2 DiagProofs3.
Local Open Scope R_scope.

(** Quadratic forms with complex weights *)
Lemma form_total_C nk nb N (c : R) (W : pt -> nat -> nat -> C) (x : nat -> pt -> nat -> nat -> C) v :
  form N (fun a b => RtoC c * total nk nb (fun k m n => conj (x a k m n) * W k m n * x b k m n))%C v =
  (RtoC c * total nk nb (fun k m n => W k m n * RtoC (abs2 (csum N (fun a => x a k m n * v a)))))%C.
Proof.
  unfold form.
  transitivity (csum N (fun a => csum N (fun b => RtoC c * total nk nb (fun k m n => conj (v a) * (conj (x a k m n) * W k m n * x b k m n) * v b))))%C.
  { apply csum_ext. intros a _. apply csum_ext. intros b _.
    transitivity (RtoC c * (conj (v a) * v b * total nk nb (fun k m n => conj (x a k m n) * W k m n * x b k m n)))%C; [ring|].
    rewrite <- total_scal. f_equal. apply total_ext. intros. ring. }
  rewrite (csum_ext N _ (fun a => RtoC c * csum N (fun b => total nk nb (fun k m n => conj (v a) * (conj (x a k m n) * W k m n * x b k m n) * v b))))%C by (intros; apply csum_scal).
  rewrite csum_scal. f_equal.
  rewrite (csum_ext N _ (fun a => total nk nb (fun k m n => csum N (fun b => conj (v a) * (conj (x a k m n) * W k m n * x b k m n) * v b))))%C by (intros; symmetry; apply total_csum).
  rewrite <- total_csum. apply total_ext. intros k m n _ _ _.
  rewrite abs2_conj, csum_conj.
  rewrite (csum_ext N _ (fun a => conj (x a k m n * v a) * (W k m n * csum N (fun b => x b k m n * v b))))%C.
  - rewrite csum_scal_r. ring.
  - intros a _. rewrite <- csum_scal, <- csum_scal. apply csum_ext. intros b _. rewrite conj_mult. ring.
Qed.

Section Dynamic.
  Variables (nk : pt) (nbnd : nat) (e : pt -> nat -> R) (kT eps : R) (s : smearing) (window : option (R * bool * smearing * R)).

  (** The weight for a finite frequency *)
  Definition wdyn (omega : C) (q k : pt) (m n : nat) : C :=
    (RtoC (occ s (e k n / kT) - occ s (e (kadd nk q k) m / kT)) / (RtoC (e k n - e (kadd nk q k) m) + omega)
     * RtoC (envelope nk e window q k m n))%C.

  Lemma dfde_dynamic omega q k m n : omega <> RtoC 0 -> dfde_ nk e kT eps s omega window q k m n = wdyn omega q k m n.
  Proof.
    intros H. unfold dfde_, wdyn, f_. destruct Ceq_dec as [E|_]; [congruence|]. rewrite !at_kq_eq. f_equal. f_equal. ring.
  Qed.

  Lemma bubble_dynamic omega q c : omega <> RtoC 0 ->
    bubble nk nbnd e kT eps s omega window q c = (RtoC (pref nk) * total nk nbnd (fun k m n => c k m n * wdyn omega q k m n))%C.
  Proof. intros H. unfold bubble. f_equal. apply total_ext. intros. rewrite dfde_dynamic by exact H. reflexivity. Qed.

  Lemma denominator (x : R) (z : C) : snd z <> 0 -> (RtoC x + z <> RtoC 0)%C.
  Proof. intros H E. apply (f_equal snd) in E. cbn in E. apply H. lra. Qed.

  Lemma wdyn_swap omega q k m n : on_mesh nk k -> snd omega <> 0 ->
    wdyn omega (q_indices nk (qneg q)) (kadd nk (q_indices nk q) k) n m = wdyn (- omega)%C (q_indices nk q) k m n.
  Proof.
    intros Hk NE. unfold wdyn. rewrite envelope_swap, kadd_neg by exact Hk. apply f_equal2; [|reflexivity].
    set (a := e k n) in *. set (b := e (kadd nk (q_indices nk q) k) m) in *.
    pose proof (denominator (b - a) omega NE) as N1.
    assert (N2 : (RtoC (a - b) + - omega <> RtoC 0)%C) by (apply denominator; cbn; lra).
    assert (E1 : (RtoC (a - b) + - omega = - (RtoC (b - a) + omega))%C) by (rewrite !RtoC_minus'; ring).
    rewrite E1 in *. replace (RtoC (occ s (a / kT) - occ s (b / kT))) with (- RtoC (occ s (b / kT) - occ s (a / kT)))%C by (rewrite !RtoC_minus'; ring).
    set (x := RtoC (occ s (b / kT) - occ s (a / kT))). set (y := (RtoC (b - a) + omega)%C) in *. field. split; assumption.
  Qed.

  Lemma wdyn_imag nu q k m n : nu <> 0 ->
    fst (wdyn (0, nu) q k m n) =
    (occ s (e k n / kT) - occ s (e (kadd nk q k) m / kT)) * (e k n - e (kadd nk q k) m) /
    ((e k n - e (kadd nk q k) m) ^ 2 + nu ^ 2) * envelope nk e window q k m n.
  Proof.
    intros H. unfold wdyn. set (d := e k n - _). assert (0 < d ^ 2 + nu ^ 2) by nra. cbn. field. nra.
  Qed.
End Dynamic.
