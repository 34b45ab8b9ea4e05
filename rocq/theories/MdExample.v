(** Eigenvalues and eigenvectors of Hermitian matrices of order two in closed form:
    the contract of numpy.linalg.eigh can be met, and for two orbitals at half filling
    also that of the search for the Fermi level. *)
From Coq Require Import Reals Lra Lia List Arith Nsatz.
From Coq Require Import FunctionalExtensionality.
From Verif Require Import Cx CxProofs HermSpec HermProofs MdModel MdSpec MdProofs2.
Local Open Scope R_scope.

Definition eigh2 (N : nat) (A : nat -> nat -> C) : (nat -> R) * (nat -> nat -> C) :=
  let a := fst (A 0%nat 0%nat) in
  let d := fst (A 1%nat 1%nat) in
  let b := A 0%nat 1%nat in
  let h := (a - d) / 2 in
  let r := sqrt (h * h + abs2 b) in
  if Req_EM_T (abs2 b) 0 then (fun n => if Nat.eqb n 0 then a else d, HermSpec.delta)
  else (fun n => if Nat.eqb n 0 then (a + d) / 2 - r else (a + d) / 2 + r,
    fun i n => let s := if Nat.eqb n 0 then - r - h else r - h in
      let c := / sqrt (abs2 b + s * s) in
      if Nat.eqb i 0 then (RtoC c * b)%C else RtoC (c * s)).

Lemma abs2_zero z : abs2 z = 0 -> z = RtoC 0.
Proof. destruct z as [x y]. unfold abs2. cbn. intros H. unfold RtoC. assert (x = 0) by nra. assert (y = 0) by nra. subst. reflexivity. Qed.

Theorem eigh2_ok : eigh_contract 2 eigh2.
Proof.
  intros A HA.
  pose proof (HA 0%nat 0%nat ltac:(lia) ltac:(lia)) as E00. pose proof (HA 1%nat 1%nat ltac:(lia) ltac:(lia)) as E11. pose proof (HA 0%nat 1%nat ltac:(lia) ltac:(lia)) as E10.
  unfold eigh2. set (a := fst (A 0%nat 0%nat)). set (d := fst (A 1%nat 1%nat)).
  assert (A00 : A 0%nat 0%nat = RtoC a). { apply c_ext; [reflexivity|]. apply (f_equal snd) in E00. unfold conj in E00. cbn in *. lra. }
  assert (A11 : A 1%nat 1%nat = RtoC d). { apply c_ext; [reflexivity|]. apply (f_equal snd) in E11. unfold conj in E11. cbn in *. lra. }
  destruct (A 0%nat 1%nat) as [p q] eqn:Eb. clearbody a d.
  set (B := abs2 (p, q)). set (h := (a - d) / 2). set (r := sqrt (h * h + B)).
  assert (HB : B = p * p + q * q) by (unfold B, abs2; cbn; ring).
  destruct (Req_EM_T B 0) as [Z|NZ].
  - apply abs2_zero in Z. rewrite Z in Eb. assert (E10' : A 1%nat 0%nat = RtoC 0) by (rewrite E10, Z; apply conj_R). cbn [fst snd].
    split; [split|]; intros i j Hi Hj; (assert (i = 0 \/ i = 1)%nat by lia); (assert (j = 0 \/ j = 1)%nat by lia); destruct H as [-> | ->], H0 as [-> | ->];
      cbn [csum]; unfold HermSpec.delta; cbn [Nat.eqb]; rewrite ?conj_R, ?A00, ?A11, ?Eb, ?E10'; apply c_ext; cbn; ring.
  - assert (P : 0 < B) by (rewrite HB in *; nra). assert (R2 : r * r = h * h + B) by (apply sqrt_sqrt; nra).
    assert (Pr : 0 < r) by (apply sqrt_lt_R0; nra). assert (Rh : Rabs h < r) by (assert (- r < h < r) by (split; nra); apply Rabs_def1; lra).
    pose proof (Rabs_def2 _ _ Rh) as [Rh1 Rh2].
    assert (Ed : d = a - 2 * h) by (unfold h; field). assert (Em : (a + d) / 2 = a - h) by (unfold h; field). rewrite Em. clear Em.
    assert (E10' : A 1%nat 0%nat = (p, - q)) by (rewrite E10; reflexivity).
    assert (Sq : forall s t, 0 < t -> B + s * s = t -> / sqrt (B + s * s) * / sqrt (B + s * s) * t = 1).
    { intros s t Ht <-. rewrite <- Rinv_mult, sqrt_sqrt by lra. field. lra. }
    pose proof (Sq (- r - h) (2 * r * (r + h)) ltac:(nra) ltac:(nra)) as D0. pose proof (Sq (r - h) (2 * r * (r - h)) ltac:(nra) ltac:(nra)) as D1.
    cbn [fst snd]. 
    pose (F := fun n : nat => if Nat.eqb n 0 then / sqrt (B + (- r - h) * (- r - h)) else / sqrt (B + (r - h) * (r - h))).
    set (c0 := / sqrt (B + (- r - h) * (- r - h))) in *. set (c1 := / sqrt (B + (r - h) * (r - h))) in *.
    assert (EU : forall i n : nat, (let s := if Nat.eqb n 0 then - r - h else r - h in let c := / sqrt (B + s * s) in if Nat.eqb i 0 then (RtoC c * (p, q))%C else RtoC (c * s)) =
      (if Nat.eqb i 0 then (if Nat.eqb n 0 then c0 * p else c1 * p, if Nat.eqb n 0 then c0 * q else c1 * q) else RtoC (if Nat.eqb n 0 then c0 * (- r - h) else c1 * (r - h)))).
    { intros i n. cbv zeta. destruct (Nat.eqb i 0), (Nat.eqb n 0); try reflexivity; apply c_ext; cbn; fold c0 c1; ring. }
    set (V := fun i n : nat => if Nat.eqb i 0 then (if Nat.eqb n 0 then c0 * p else c1 * p, if Nat.eqb n 0 then c0 * q else c1 * q) else RtoC (if Nat.eqb n 0 then c0 * (- r - h) else c1 * (r - h))) in *.
    match goal with |- eigensystem _ _ _ ?W => replace W with V by (apply functional_extensionality; intros i; apply functional_extensionality; intros n; symmetry; apply EU) end.
    assert (Hi : exists i, 2 * r * i = 1) by (exists (/ (2 * r)); field; lra). destruct Hi as [i Hi].
    assert (X0 : c0 * c0 * (r + h) = i) by (apply Rmult_eq_reg_l with (2 * r); [rewrite Hi; lra|lra]).
    assert (X1 : c1 * c1 * (r - h) = i) by (apply Rmult_eq_reg_l with (2 * r); [rewrite Hi; lra|lra]).
    rewrite HB in R2. clear EU Sq F E00 E11 E10 D0 D1. clearbody c0 c1. clearbody r. clearbody h. subst d. clear HA NZ P Pr Rh Rh1 Rh2.
    split; [split|]; intros j k Hj Hk; (assert (j = 0 \/ j = 1)%nat by lia); (assert (k = 0 \/ k = 1)%nat by lia); destruct H as [-> | ->], H0 as [-> | ->]; clear Hj Hk;
      cbn [csum fst snd Nat.eqb]; unfold HermSpec.delta; cbn [Nat.eqb]; rewrite ?conj_R, ?A00, ?A11, ?Eb, ?E10'; apply c_ext; cbn; clear A00 A11 Eb E10'; try ring; clearbody B; nsatz.
Qed.

(** Gaussian smearing, two orbitals, two electrons: the Fermi level lies in the middle. *)
Definition fermi2 (n : R) (s : nat * nat) (e : nat -> nat -> R) (kT : R) (f : smearing) (mu : option R) : R := (e 0%nat 0%nat + e 0%nat 1%nat) / 2.

(** Two orbitals that move against each other, two atoms *)
Definition dr2 : driver := mk_driver 2 2 1 (1 / 10) gauss_smearing 2
  (fun _ a b => if Nat.eqb a b then RtoC 0 else (1, if Nat.eqb a 0 then 1 else - 1))
  (fun x _ a b => if Nat.eqb a b then RtoC (if Nat.eqb x 0 then (if Nat.eqb a 0 then 1 else - 1) else if Nat.eqb x 3 then (if Nat.eqb a 0 then - 1 else 1) else 0) else RtoC 0)
  (fun x y => RtoC (if Nat.eqb (x mod 3) (y mod 3) then (if Nat.eqb x y then 1 else - 1) else 0)) (fun _ => 0).

Lemma fermi2_ok : fermi_contract fermi2 dr2.
Proof.
  intros e mu0. cbn [nk norb n kT f dr2 gauss_smearing occ rsum]. unfold fermi2.
  replace ((e 0%nat 0%nat - (e 0%nat 0%nat + e 0%nat 1%nat) / 2) / (1 / 10)) with (- ((e 0%nat 1%nat - (e 0%nat 0%nat + e 0%nat 1%nat) / 2) / (1 / 10))) by field.
  unfold OccModel.gauss. rewrite GaussProofs.erf_opp. cbn. field.
Qed.

Lemma dr2_physical : physical dr2.
Proof.
  constructor; try (cbn; lia); try (cbn; lra).
  - intros k _ i j Hi Hj. cbn in Hi, Hj. assert (i = 0 \/ i = 1)%nat by lia. assert (j = 0 \/ j = 1)%nat by lia. destruct H as [-> | ->], H0 as [-> | ->]; apply c_ext; cbn; ring.
  - intros x k _ _ i j Hi Hj. cbn. rewrite (Nat.eqb_sym j i). destruct (Nat.eqb_spec i j); [subst|]; rewrite conj_R; reflexivity.
  - intros x y _ _. cbn [C0 dr2]. rewrite (Nat.eqb_sym (y mod 3)), (Nat.eqb_sym y x). reflexivity.
Qed.

Lemma dr2_acoustic : acoustic dr2.
Proof.
  constructor.
  - intros c k a b Hc _ _ _. assert (c = 0 \/ c = 1 \/ c = 2)%nat by lia. destruct H as [-> |[-> | ->]]; apply c_ext; cbn; destruct (Nat.eqb a b), (Nat.eqb a 0); cbn; ring.
  - intros c y Hc Hy. cbn in Hy. assert (c = 0 \/ c = 1 \/ c = 2)%nat by lia. assert (y = 0 \/ y = 1 \/ y = 2 \/ y = 3 \/ y = 4 \/ y = 5)%nat by lia.
    destruct H as [-> |[-> | ->]], H0 as [-> |[-> |[-> |[-> |[-> | ->]]]]]; cbn [nat_ C0 dr2 rsum]; unfold RtoC; cbn [fst];
    repeat match goal with |- context [Nat.eqb ?a ?b] => let v := eval vm_compute in (Nat.eqb a b) in change (Nat.eqb a b) with v end; cbn; ring.
  - intros c _. cbn. ring.
Qed.

Lemma dr2_energies : let st := snd (free_energy eigh2 fermi2 dr2 (mk_state (fun _ => 0) None (fun _ _ => 0) (fun _ _ _ => RtoC 0)) (fun _ => 0)) in
  e st 0%nat 0%nat = - sqrt 2 /\ e st 0%nat 1%nat = sqrt 2.
Proof.
  cbv zeta. unfold free_energy, diagonalize, solve. cbn [snd e u mu].
  set (u0 := center_mass _ _). assert (Hu : u0 = fun _ => 0).
  { apply functional_extensionality. intros x. unfold u0, center_mass, average. cbn. field. }
  rewrite Hu. clearbody u0. 
  assert (HH : forall a b, hamiltonian dr2 (fun _ => 0) 0 a b = H0 dr2 0 a b).
  { intros a b. unfold hamiltonian. rewrite (csum_ext _ _ (fun _ => RtoC 0)); [rewrite csum_zero; apply c_ext; cbn; ring|]. intros x _. apply c_ext; cbn; ring. }
  assert (EE : forall n, fst (eigh2 (norb dr2) (hamiltonian dr2 (fun _ => 0) 0)) n = if Nat.eqb n 0 then - sqrt 2 else sqrt 2).
  { intros n. unfold eigh2. rewrite !HH. cbn [H0 dr2 Nat.eqb]. unfold RtoC, abs2. cbn [fst snd].
    destruct Req_EM_T as [Z|NZ]; [exfalso; lra|]. cbn [fst].
    replace ((0 - 0) / 2 * ((0 - 0) / 2) + (1 * 1 + 1 * 1)) with 2 by field. destruct (Nat.eqb n 0); field. }
  unfold fermi2. rewrite !EE. cbn [Nat.eqb]. split; field.
Qed.
