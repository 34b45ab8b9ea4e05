(** Model of elphmod/eliashberg.py with real numbers in place of floats. *)
From Coq Require Export Reals.
From Verif Require Import Common LatModel SymModel.
Local Open Scope R_scope.

Fixpoint rsum {A} (f : A -> R) (l : list A) : R :=
  match l with [] => 0 | x :: l => f x + rsum f l end.

(** Cube root of a nonnegative number (numpy.cbrt) and power 3/2, via exp and ln. *)
Definition cbrt (x : R) : R := if Rle_dec x 0 then 0 else exp (ln x / 3).
Definition pow32 (x : R) : R := x * sqrt x.

(** eliashberg.py:14-51; [kB] is Boltzmann's constant. *)
Definition Tc (kB lamda wlog mustar : R) (w2nd : option R) (correct : bool) : R :=
  let T := wlog / (120/100 * kB) *
    exp (- (104/100) * (1 + lamda) / Rmax (1/1000) (lamda - mustar * (1 + 62/100 * lamda))) in
  if correct then
    let Lamda := 246/100 * (1 + 38/10 * mustar) in
    let T := T * cbrt (1 + pow32 (lamda / Lamda)) in
    match w2nd with
    | None => T
    | Some w2nd =>
      let Lamda := 182/100 * (1 + 63/10 * mustar) * w2nd / wlog in
      T * (1 + (w2nd / wlog - 1) * (lamda * lamda) / (lamda * lamda + Lamda * Lamda))
    end
  else T.

(** eliashberg.py:101-104 *)
Definition mcmillan_weights (nq : Z) : res (list nat) :=
  do irr <- irreducibles nq 60 ;;
  Ok (map (fun q => match images q nq 60 with Ok l => length l | Raise _ => O end) (sorted_points nq irr)).

(** eliashberg.py:135-149: [g2dd], [dd] and [w2] are indexed by the irreducible
    q points (and phonon bands); lambda, omega_log and the second moment. The
    double Fermi-surface average itself (lines 106-133) is an input. *)
Definition mcmillan_average (weights : list nat) (nph : nat) (N0 eps : R)
    (w2 g2dd : nat -> nat -> R) (dd : nat -> R) : R * R * R :=
  let iqs := combine (seq 0 (length weights)) weights in
  let nus := seq 0 nph in
  let W2 iq nu := if Rlt_dec (w2 iq nu) eps then eps else w2 iq nu in
  let G (x : nat * nat) nu := if Rlt_dec (w2 (fst x) nu) eps then 0 else g2dd (fst x) nu * INR (snd x) in
  let V x nu := G x nu / W2 (fst x) nu in
  let sum2 (f : nat * nat -> nat -> R) := rsum (fun x => rsum (f x) nus) iqs in
  (N0 * sum2 V / rsum (fun x => dd (fst x) * INR (snd x)) iqs,
   exp (sum2 (fun x nu => V x nu * ln (W2 (fst x) nu) / 2) / sum2 V),
   sqrt (sum2 (fun x nu => V x nu * W2 (fst x) nu) / sum2 V)).
