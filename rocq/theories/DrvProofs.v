(** Proofs about models set up by the driver of molecular dynamics. *)
From Coq Require Import Reals Lra Lia.
From Verif Require Import CxProofs HermSpec HermProofs MdModel MdSpec MdProofs.
Section Back.
Local Open Scope C_scope.

Lemma backtransform N A w U a b mu : eigensystem N A w U -> (a < N)%nat -> (b < N)%nat ->
  csum N (fun m => U a m * RtoC (w m - mu) * conj (U b m)) = A a b - RtoC mu * HermSpec.delta a b.
Proof.
  intros [[_ HU] HA] Ha Hb.
  rewrite (csum_ext N _ (fun m => csum N (fun j => A a j * (U j m * conj (U b m))) - RtoC mu * (U a m * conj (U b m)))).
  - rewrite csum_minus, csum_scal, (HU a b Ha Hb), csum_swap. f_equal.
    rewrite (csum_ext N _ (fun j => A a j * HermSpec.delta j b)); [apply csum_delta_r; exact Hb|].
    intros j Hj. rewrite csum_scal, HU by assumption. reflexivity.
  - intros m Hm. rewrite RtoC_minus'.
    transitivity (RtoC (w m) * U a m * conj (U b m) - RtoC mu * (U a m * conj (U b m))); [ring|].
    rewrite <- (HA a m Ha Hm). rewrite <- csum_scal_r. f_equal. apply csum_ext. intros j _. ring.
Qed.
End Back.

From Verif Require Import Common CommonProofs LatModel LatProofs VorModel Num NumProofs NumC ElModel ElSpec ElProofs WSModel WSSpec WSProofs2 KrModel KrProofs
  PhModel PhProofs PhProofs2 PhLRModel PhUpdModel DrvModel.
Local Open Scope nat_scope.

Add Ring Cring8 : (@n_ring C).

Lemma max_abs_bound N h T : (0 <= T)%R -> (forall x a b, In x h -> a < N -> b < N -> (Complex.Cmod (snd x a b) <= T)%R) -> (max_abs N h <= T)%R.
Proof.
  intros HT H. unfold max_abs.
  assert (G : forall l : list R, (forall x, In x l -> (x <= T)%R) -> (fold_right Rmax 0%R l <= T)%R).
  { induction l as [|y l IH]; intros Hl; cbn [fold_right]; [exact HT|]. apply Rmax_lub; [apply Hl; left; reflexivity|]. apply IH. intros x Hx. apply Hl. right. exact Hx. }
  apply G. intros x Hx. apply in_map_iff in Hx. destruct Hx as (y & <- & Hy). apply G. intros z Hz. apply in_map_iff in Hz. destruct Hz as (ab & <- & Hab).
  destruct ab as [a b]. apply in_prod_iff in Hab. rewrite !in_seq in Hab. cbn [fst snd]. apply (H y); [exact Hy|lia|lia].
Qed.

(** Dropping small hoppings changes the Hamiltonian little. *)
Lemma chop_bound (ph : vec -> C) eps (m : @el C) T a b : (forall R, Complex.Cmod (ph R) = 1%R) -> (0 <= eps)%R -> (0 <= T)%R ->
  (forall x a b, In x (hop m) -> a < size m -> b < size m -> (Complex.Cmod (snd x a b) <= T)%R) -> a < size m -> b < size m ->
  (Complex.Cmod (Complex.Cminus (ElModel.H ph (standardize (fun x => x) (Some (below eps m)) false m) a b) (ElModel.H ph m a b)) <= eps * T * INR (length (hop m)))%R.
Proof.
  intros Hph He HT H Ha Hb.
  change (standardize (fun x => x) (Some (below eps m)) false m) with (standardize (fun x => x) None false (set_hop m (chop (below eps m) (hop m)) (flatR m))).
  rewrite (standardize_H ph (set_hop m (chop (below eps m) (hop m)) (flatR m))) by assumption.
  pose proof (max_abs_bound (size m) (hop m) T HT H) as HM.
  unfold ElModel.H. cbn [set_hop hop]. unfold below. set (M := max_abs _ _) in *. clearbody M. clear H.
  induction (hop m) as [|x l IH].
  - cbn [chop map nsum fold_right length INR]. rewrite Rmult_0_r. right. etransitivity; [|apply Complex.Cmod_0]. f_equal. unfold Complex.Cminus. apply Complex.Cplus_opp_r.
  - change (chop ?f (x :: l)) with ((fst x, fun a b => if f (snd x a b) then n0 else snd x a b) :: chop f l). assert (NC : forall (f : vec * (nat -> nat -> C) -> C) y l, nsum f (y :: l) = nadd (f y) (nsum f l)) by reflexivity. rewrite !NC. cbn [fst snd].
    cbn [length]. rewrite S_INR, Rmult_plus_distr_l, Rmult_1_r.
    assert (L : (Complex.Cmod (Complex.Cminus (nmul (if (if Rlt_dec (Complex.Cmod (snd x a b)) (eps * M) then true else false) then n0 else snd x a b) (ph (fst x))) (nmul (snd x a b) (ph (fst x)))) <= eps * T)%R).
    { destruct (Rlt_dec _ _) as [L|L].
      - replace (Complex.Cminus _ _) with (Complex.Copp (Complex.Cmult (snd x a b) (ph (fst x)))) by (cbn; unfold Complex.Cminus, Complex.Copp, Complex.Cplus, Complex.Cmult; cbn; f_equal; ring).
        rewrite Complex.Cmod_opp, Complex.Cmod_mult, Hph, Rmult_1_r. apply Rle_trans with (eps * M)%R; [lra|]. apply Rmult_le_compat_l; assumption.
      - replace (Complex.Cminus _ _) with (Complex.RtoC 0) by (cbn; unfold Complex.Cminus, Complex.Copp, Complex.Cplus, Complex.RtoC; cbn; f_equal; ring).
        rewrite Complex.Cmod_0. apply Rmult_le_pos; assumption. }
    match goal with |- (Complex.Cmod (Complex.Cminus (nadd ?u ?v) (nadd ?w ?t)) <= _)%R => set (y := u) in *; set (y' := v) in *; set (z := w) in *; set (z' := t) in * end.
    replace (Complex.Cminus (nadd y y') (nadd z z')) with (Complex.Cplus (Complex.Cminus y' z') (Complex.Cminus y z)) by (cbn; unfold Complex.Cminus, Complex.Copp, Complex.Cplus; cbn; f_equal; ring).
    eapply Rle_trans; [apply Complex.Cmod_triangle|]. apply Rplus_le_compat; assumption.
Qed.

Lemma phase_unit k v : Complex.Cmod (phase k v) = 1%R.
Proof.
  unfold phase, expi, Complex.Cmod. cbn [fst snd]. transitivity (sqrt 1); [|apply sqrt_1]. f_equal.
  pose proof (sin2_cos2 (kdot k v)) as E. unfold Rsqr in E. rewrite <- E. ring.
Qed.

Lemma flat_lt nk k : on_mesh nk k -> flat nk k < Z.to_nat (vx nk * vy nk * vz nk).
Proof. intros (A & B & D). unfold flat. apply Z2Nat.inj_lt.
  - assert (0 <= vx k * vy nk)%Z by (apply Z.mul_nonneg_nonneg; lia). assert (0 <= (vx k * vy nk + vy k) * vz nk)%Z by (apply Z.mul_nonneg_nonneg; lia). lia.
  - repeat apply Z.mul_nonneg_nonneg; lia.
  - assert (vx k * vy nk + vy k <= vx nk * vy nk - 1)%Z by nia. nia. Qed.

Lemma slice_exact n d : (0 < d)%Z -> slice_length (n * d) d = n.
Proof.
  intros H. unfold slice_length. rewrite Z.abs_eq by lia. replace (n * d + d - 1)%Z with ((d - 1) + n * d)%Z by ring.
  rewrite Z.div_add, Z.div_small by lia. reflexivity.
Qed.

Lemma slice_step n d j : (0 < d)%Z -> slice_item n d j = (j * d)%Z.
Proof. intros H. unfold slice_item. destruct (Z.ltb_spec 0 d); [reflexivity|lia]. Qed.
