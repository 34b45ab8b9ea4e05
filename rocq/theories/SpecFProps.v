(** C94: phonon spectral functions. *)
From Coq Require Import Reals List Lra Lia.
From Coquelicot Require Import Coquelicot.
From Verif Require Import Common Cx CxProofs MPIModel DiagModel DiagProofs HermSpec HermProofs SpecFModel SpecFSpec SpecFProofs.
Import ListNotations.
Local Open Scope R_scope.

Lemma map_nth_seq {A} (d : A) (l : list A) : map (fun i => nth i l d) (seq 0 (length l)) = l.
Proof.
  induction l as [|x l IH]; [reflexivity|]. cbn [length seq map nth]. rewrite <- seq_shift, map_map. cbn. f_equal. exact IH.
Qed.

(** The spectral function is not negative for positive frequencies, also in the
    presence of a phonon self-energy, whenever the matrix can be inverted. *)
Theorem C94_nonnegative inv nproc N D omega eta : inverts N inv -> (0 < nproc)%Z -> 0 <= eta ->
  (forall w, (w < length omega)%nat -> 0 <= nth w omega 0 /\ damped N (D w) /\ exists X, inverse N (G_inv (D w) (nth w omega 0) eta) X) ->
  exists A, spectral_function inv nproc N D omega eta = Ok A /\ length A = length omega /\
  forall w, (w < length omega)%nat -> 0 <= nth w A 0.
Proof.
  intros Hinv Hp He H. unfold spectral_function. eexists. split; [apply distributed_ok; exact Hp|].
  split; [rewrite map_length, seq_length; reflexivity|]. intros w Hw.
  rewrite (nth_indep _ 0 (spectral_one inv N (D 0%nat) (nth 0 omega 0) eta)) by (rewrite map_length, seq_length; exact Hw).
  rewrite (map_nth (fun w => spectral_one inv N (D w) (nth w omega 0) eta)), seq_nth by exact Hw. cbn [Nat.add].
  destruct (H w Hw) as (Ho & HD & HX). apply spectral_one_nonneg; assumption.
Qed.
Print Assumptions C94_nonnegative.

(** For constant, Hermitian dynamical matrices with the phonon frequencies w_n, the
    spectral function is a sum of peaks, one per mode, ... *)
Theorem C94_modes inv nproc N D U w omega eta : inverts N inv -> (0 < nproc)%Z -> 0 < eta ->
  eigensystem N D (fun n => w n ^ 2) U ->
  spectral_function inv nproc N (fun _ => D) omega eta =
  Ok (map (fun x => rsum N (fun n =>
    4 * x ^ 2 * eta / PI / (((x - w n) ^ 2 + eta ^ 2) * ((x + w n) ^ 2 + eta ^ 2)))) omega).
Proof.
  intros Hinv Hp He HU. unfold spectral_function. rewrite distributed_ok by exact Hp. f_equal.
  rewrite <- (map_nth_seq 0 omega) at 2.
  rewrite map_map. apply map_ext. intros i. rewrite (spectral_eigen N D U (fun n => w n ^ 2) (nth i omega 0) eta HU); [|intros; apply den_nonzero; exact He|exact Hinv].
  apply rsum_ext. intros n _. rewrite peak_im by exact He. reflexivity.
Qed.
Print Assumptions C94_modes.

(** ... and its integral over positive frequencies is the number of modes. *)
Theorem C94_normalized inv N D U w eta : inverts N inv -> 0 < eta -> (forall n, (n < N)%nat -> 0 <= w n) ->
  eigensystem N D (fun n => w n ^ 2) U ->
  exists A : R -> R,
    (forall nproc omega, (0 < nproc)%Z -> spectral_function inv nproc N (fun _ => D) omega eta = Ok (map A omega)) /\
    (forall L, ex_RInt A 0 L) /\ is_lim (fun L => RInt A 0 L) p_infty (INR N).
Proof.
  intros Hinv He Hw HU. destruct (peaks_integral N w eta He Hw) as (F & HF & LF).
  exists (fun x => rsum N (fun n => peak (w n) eta x)). split; [|split].
  - intros nproc omega Hp. exact (C94_modes inv nproc N D U w omega eta Hinv Hp He HU).
  - intros L. exists (F L). apply HF.
  - apply (is_lim_ext F); [|exact LF]. intros L. symmetry. apply is_RInt_unique, HF.
Qed.
Print Assumptions C94_normalized.

(** Two coupled oscillators with frequencies 1 and 3; inversion by means of the adjugate *)
Definition inv2 (A : nat -> nat -> C) (i j : nat) : C :=
  ((if Nat.eqb i j then A (1 - i)%nat (1 - j)%nat else - A i j) / (A 0%nat 0%nat * A 1%nat 1%nat - A 0%nat 1%nat * A 1%nat 0%nat))%C.
Definition D2 (i j : nat) : C := if Nat.eqb i j then RtoC 5 else RtoC (-4).
Definition U2 (i n : nat) : C := if Nat.eqb (i * n) 0 then RtoC (sqrt (1 / 2)) else RtoC (- sqrt (1 / 2)).

Lemma inv2_inverts : inverts 2 inv2.
Proof.
  intros A [X HX].
  set (a := A 0%nat 0%nat). set (b := A 0%nat 1%nat). set (c := A 1%nat 0%nat). set (d := A 1%nat 1%nat).
  set (x := X 0%nat 0%nat). set (y := X 0%nat 1%nat). set (z := X 1%nat 0%nat). set (w := X 1%nat 1%nat).
  assert (E00 := proj1 (HX 0 0 ltac:(lia) ltac:(lia))%nat). assert (E01 := proj1 (HX 0 1 ltac:(lia) ltac:(lia))%nat).
  assert (E10 := proj1 (HX 1 0 ltac:(lia) ltac:(lia))%nat). assert (E11 := proj1 (HX 1 1 ltac:(lia) ltac:(lia))%nat).
  cbn in E00, E01, E10, E11. fold a b c d x y z w in E00, E01, E10, E11. unfold delta in E00, E01, E10, E11. cbn in E00, E01, E10, E11.
  assert (ND : (a * d - b * c <> RtoC 0)%C).
  { intros E. assert (P : ((a * d - b * c) * (x * w - y * z) = RtoC 1)%C).
    { transitivity ((RtoC 0 + a * x + b * z) * (RtoC 0 + c * y + d * w) - (RtoC 0 + a * y + b * w) * (RtoC 0 + c * x + d * z))%C; [ring|].
      rewrite E00, E01, E10, E11. ring. }
    rewrite E in P. apply (f_equal fst) in P. cbn in P. lra. }
  intros i j Hi Hj. unfold inv2. fold a b c d.
  destruct i as [|[|i]]; try lia; destruct j as [|[|j]]; try lia; split; cbn; fold a b c d; unfold delta; cbn; field; exact ND.
Qed.

Lemma D2_modes : eigensystem 2 D2 (fun n => (match n with O => 1 | _ => 3 end) ^ 2) U2.
Proof.
  assert (Q : sqrt (1 / 2) * sqrt (1 / 2) = 1 / 2) by (apply sqrt_sqrt; lra).
  split; [split|]; intros m n Hm Hn; destruct m as [|[|m]]; try lia; destruct n as [|[|n]]; try lia;
    unfold D2, U2, delta; cbn; apply c_ext; cbn; nra.
Qed.

Example C94_example : exists A : R -> R,
  (forall nproc omega, (0 < nproc)%Z -> spectral_function inv2 nproc 2 (fun _ => D2) omega (1 / 10) = Ok (map A omega)) /\
  is_lim (fun L => RInt A 0 L) p_infty (Finite 2).
Proof.
  destruct (C94_normalized inv2 2 D2 U2 (fun n => match n with O => 1 | _ => 3 end) (1 / 10)) as (A & H & _ & L);
    [exact inv2_inverts|lra|intros [|n] _; lra|exact D2_modes|].
  exists A. split; [exact H|]. exact L.
Qed.

Lemma D2_damped : damped 2 D2.
Proof. intros v. unfold expect, D2. cbn. right. ring. Qed.
