(** Complex numbers over the real numbers of the standard library. *)
From Coq Require Import Reals Lra.
From Verif Require Import Common Num LatModel.
Local Open Scope R_scope.

Lemma C_ring : ring_theory (0, 0) (1, 0)
  (fun x y => (fst x + fst y, snd x + snd y))
  (fun x y => (fst x * fst y - snd x * snd y, fst x * snd y + snd x * fst y))
  (fun x y => (fst x - fst y, snd x - snd y))
  (fun x => (- fst x, - snd x)) eq.
Proof.
  constructor; intros; repeat match goal with x : (R * R)%type |- _ => destruct x end;
  cbn [fst snd]; apply f_equal2; ring.
Qed.

Definition C : num.
Proof.
  refine {| car := (R * R)%type; nconj := fun x => (fst x, - snd x);
            neqb := fun x y => (if Req_EM_T (fst x) (fst y) then true else false) &&
                               (if Req_EM_T (snd x) (snd y) then true else false);
            n_ring := C_ring |}.
  - intros [a b] [c d]. cbn [fst snd]. apply f_equal2; ring.
  - intros [a b] [c d]. cbn [fst snd]. apply f_equal2; ring.
  - intros [a b]. cbn [fst snd]. apply f_equal2; ring.
  - intros [a b] [c d]. cbn [fst snd]. destruct (Req_EM_T a c), (Req_EM_T b d); cbn; split; congruence.
Defined.

Definition Re (z : C) : R := fst z.
Definition Im (z : C) : R := snd z.
Definition RtoC (x : R) : C := (x, 0).
(** [1j] *)
Definition Ci : C := (0, 1).
(** [np.exp(1j * x)] *)
Definition expi (x : R) : C := (cos x, sin x).

(** A wave vector in crystal coordinates with period 2 pi. *)
Record kpoint := K3 { kx : R; ky : R; kz : R }.

(** [self.R.dot(k)] *)
Definition kdot (k : kpoint) (v : vec) : R :=
  IZR (vx v) * kx k + IZR (vy v) * ky k + IZR (vz v) * kz k.

(** [np.exp(1j * self.R.dot(k))] *)
Definition phase (k : kpoint) (v : vec) : C := expi (kdot k v).

Definition kadd (k q : kpoint) : kpoint := K3 (kx k + kx q) (ky k + ky q) (kz k + kz q).
Definition kopp (k : kpoint) : kpoint := K3 (- kx k) (- ky k) (- kz k).
(** Reciprocal lattice vectors. *)
Definition krec (g : vec) : kpoint := K3 (2 * PI * IZR (vx g)) (2 * PI * IZR (vy g)) (2 * PI * IZR (vz g)).

Lemma expi_add x y : expi (x + y) = nmul (expi x) (expi y).
Proof. unfold expi. cbn. rewrite cos_plus, sin_plus. apply f_equal2; ring. Qed.

Lemma expi_0 : expi 0 = @n1 C.
Proof. unfold expi. rewrite cos_0, sin_0. reflexivity. Qed.

Lemma expi_conj x : nconj (expi x) = expi (- x).
Proof. unfold expi. cbn. rewrite cos_neg, sin_neg. reflexivity. Qed.

Lemma kdot_add k u v : kdot k (vadd u v) = kdot k u + kdot k v.
Proof. unfold kdot. cbn [vx vy vz vadd]. rewrite !plus_IZR. ring. Qed.

Lemma kdot_opp k v : kdot k (vopp v) = - kdot k v.
Proof. unfold kdot. cbn [vx vy vz vopp]. rewrite !opp_IZR. ring. Qed.

Lemma phase_add k u v : phase k (vadd u v) = nmul (phase k u) (phase k v).
Proof. unfold phase. rewrite kdot_add. apply expi_add. Qed.

Lemma phase_conj k v : nconj (phase k v) = phase k (vopp v).
Proof. unfold phase. rewrite expi_conj, kdot_opp. reflexivity. Qed.

Lemma phase_kopp k v : phase (kopp k) v = phase k (vopp v).
Proof. unfold phase. f_equal. rewrite kdot_opp. unfold kdot, kopp. cbn. ring. Qed.

Lemma expi_2PI n : expi (2 * PI * IZR n) = @n1 C.
Proof.
  assert (Hn : forall n : nat, expi (2 * PI * INR n) = @n1 C).
  { clear. intros n. unfold expi. rewrite <- (Rplus_0_l (2 * PI * INR n)).
    replace (0 + 2 * PI * INR n) with (0 + 2 * INR n * PI) by ring.
    rewrite cos_period, sin_period, cos_0, sin_0. reflexivity. }
  destruct (Z_le_dec 0 n) as [H|H].
  - rewrite <- (Z2Nat.id n H), <- INR_IZR_INZ. apply Hn.
  - replace (2 * PI * IZR n) with (- (2 * PI * IZR (- n))) by (rewrite opp_IZR; ring).
    rewrite <- expi_conj. assert (H' : (0 <= - n)%Z) by lia.
    rewrite <- (Z2Nat.id (- n) H'), <- INR_IZR_INZ, Hn. cbn. apply f_equal2; ring.
Qed.

Lemma phase_krec k g v : phase (kadd k (krec g)) v = phase k v.
Proof.
  unfold phase. replace (kdot (kadd k (krec g)) v) with (kdot k v + 2 * PI * IZR (dot g v)).
  - rewrite expi_add, expi_2PI. destruct (expi (kdot k v)) as [a b]. cbn. apply f_equal2; ring.
  - unfold kdot, kadd, krec, dot. cbn [kx ky kz]. rewrite !plus_IZR, !mult_IZR. ring.
Qed.
