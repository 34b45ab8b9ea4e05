(** Proofs about primitive lattice vectors. *)
From Coq Require Import Reals Lra.
From Verif Require Import Common GeoModel PrimModel PrimSpec.
Local Open Scope R_scope.

Lemma a0_gt : 0 < a0 < 1.
Proof. unfold a0. lra. Qed.

Ltac csq := unfold cell_with, scale_mat, scale3, dot3; cbn [fst snd rx ry rz].

Lemma sq2 : sqrt 2 * sqrt 2 = 2. Proof. apply sqrt_sqrt; lra. Qed.
Lemma sq3 : sqrt 3 * sqrt 3 = 3. Proof. apply sqrt_sqrt; lra. Qed.
Lemma sq3nz : sqrt 3 <> 0. Proof. apply Rgt_not_eq, sqrt_lt_R0; lra. Qed.

Section Cells.
  Variables (d0 d1 d2 d3 d4 d5 : R) (bohr : bool) (rc : option mat) (cu : option units).
  Notation d := [d0; d1; d2; d3; d4; d5].
  Notation vectors ibrav := (lattice_vectors ibrav d bohr rc cu).

  Lemma lv1 : exists A, vectors 1%Z = Ok A /\ cell_with A d0 d0 d0 0 0 0.
  Proof. eexists. split; [reflexivity|]. csq. repeat split; ring. Qed.
  Lemma lv4 : exists A, vectors 4%Z = Ok A /\ cell_with A d0 d0 (d0 * d2) 0 0 (- 1 / 2).
  Proof. eexists. split; [reflexivity|]. csq. pose proof sq3 as H. repeat split; try (field; fail). generalize dependent (sqrt 3). intros; nra. Qed.
  Lemma lv6 : exists A, vectors 6%Z = Ok A /\ cell_with A d0 d0 (d0 * d2) 0 0 0.
  Proof. eexists. split; [reflexivity|]. csq. repeat split; ring. Qed.
  Lemma lv8 : exists A, vectors 8%Z = Ok A /\ cell_with A d0 (d0 * d1) (d0 * d2) 0 0 0.
  Proof. eexists. split; [reflexivity|]. csq. repeat split; ring. Qed.
  Lemma lv5 : - 1 / 2 <= d3 <= 1 -> exists A, vectors 5%Z = Ok A /\ cell_with A d0 d0 d0 d3 d3 d3.
  Proof.
    intros Hd. eexists. split; [reflexivity|]. csq.
    assert (Hx : sqrt ((1 - d3) / 2) * sqrt ((1 - d3) / 2) = (1 - d3) / 2) by (apply sqrt_sqrt; lra).
    assert (Hy : sqrt ((1 - d3) / 6) * sqrt ((1 - d3) / 6) = (1 - d3) / 6) by (apply sqrt_sqrt; lra).
    assert (Hz : sqrt ((1 + 2 * d3) / 3) * sqrt ((1 + 2 * d3) / 3) = (1 + 2 * d3) / 3) by (apply sqrt_sqrt; lra).
    generalize dependent (sqrt ((1 - d3) / 2)). intros tx Hx. generalize dependent (sqrt ((1 - d3) / 6)). intros ty Hy.
    generalize dependent (sqrt ((1 + 2 * d3) / 3)). intros tz Hz.
    repeat split.
    - replace (_ + _) with (d0 * d0 * (tx * tx + ty * ty + tz * tz)) by ring. rewrite Hx, Hy, Hz. field.
    - replace (_ + _) with (d0 * d0 * (4 * (ty * ty) + tz * tz)) by ring. rewrite Hy, Hz. field.
    - replace (_ + _) with (d0 * d0 * (tx * tx + ty * ty + tz * tz)) by ring. rewrite Hx, Hy, Hz. field.
    - replace (_ + _) with (d0 * d0 * (- 2 * (ty * ty) + tz * tz)) by ring. rewrite Hy, Hz. field.
    - replace (_ + _) with (d0 * d0 * (- (tx * tx) + ty * ty + tz * tz)) by ring. rewrite Hx, Hy, Hz. field.
    - replace (_ + _) with (d0 * d0 * (- 2 * (ty * ty) + tz * tz)) by ring. rewrite Hy, Hz. field.
  Qed.
  Lemma lvm5 : - 1 / 2 <= d3 <= 1 -> exists A, vectors (-5)%Z = Ok A /\ cell_with A d0 d0 d0 d3 d3 d3.
  Proof.
    intros Hd. eexists. split; [reflexivity|]. csq.
    assert (Hy : sqrt ((1 - d3) / 6) * sqrt ((1 - d3) / 6) = (1 - d3) / 6) by (apply sqrt_sqrt; lra).
    assert (Hz : sqrt ((1 + 2 * d3) / 3) * sqrt ((1 + 2 * d3) / 3) = (1 + 2 * d3) / 3) by (apply sqrt_sqrt; lra).
    pose proof sq2 as H2. assert (H3 : / sqrt 3 * / sqrt 3 = / 3) by (rewrite <- Rinv_mult, sq3; reflexivity). unfold Rdiv at 1 2 3 5 6 7 9 10 11 13 14 15.
    unfold Rdiv.
    change ((1 - d3) * / 6) with ((1 - d3) / 6). change ((1 + 2 * d3) * / 3) with ((1 + 2 * d3) / 3).
    generalize dependent (sqrt ((1 - d3) / 6)). intros ty Hy. generalize dependent (sqrt ((1 + 2 * d3) / 3)). intros tz Hz.
    generalize dependent (/ sqrt 3). intros w H3. generalize dependent (sqrt 2). intros s H2.
    assert (E1 : (tz - 2 * s * ty) * (tz - 2 * s * ty) + 2 * ((tz + s * ty) * (tz + s * ty)) = 3).
    { replace (_ + _) with (3 * (tz * tz) + 6 * (s * s) * (ty * ty)) by ring. rewrite H2, Hy, Hz. field. }
    assert (E2 : 2 * ((tz - 2 * s * ty) * (tz + s * ty)) + (tz + s * ty) * (tz + s * ty) = 3 * d3).
    { replace (_ + _) with (3 * (tz * tz) - 3 * (s * s) * (ty * ty)) by ring. rewrite H2, Hy, Hz. field. }
    generalize dependent (tz - 2 * s * ty). intros u. generalize dependent (tz + s * ty). intros v E1 E2.
    repeat split.
    - replace (_ + _) with (d0 * d0 * (w * w) * (u * u + 2 * (v * v))) by ring. rewrite H3, E1. field.
    - replace (_ + _) with (d0 * d0 * (w * w) * (u * u + 2 * (v * v))) by ring. rewrite H3, E1. field.
    - replace (_ + _) with (d0 * d0 * (w * w) * (u * u + 2 * (v * v))) by ring. rewrite H3, E1. field.
    - replace (_ + _) with (d0 * d0 * (w * w) * (2 * (u * v) + v * v)) by ring. rewrite H3, E2. field.
    - replace (_ + _) with (d0 * d0 * (w * w) * (2 * (u * v) + v * v)) by ring. rewrite H3, E2. field.
    - replace (_ + _) with (d0 * d0 * (w * w) * (2 * (u * v) + v * v)) by ring. rewrite H3, E2. field.
  Qed.
  Lemma lv12 : -1 <= d3 <= 1 -> exists A, vectors 12%Z = Ok A /\ cell_with A d0 (d0 * d1) (d0 * d2) 0 0 d3.
  Proof.
    intros Hd. eexists. split; [reflexivity|]. csq. assert (H : sqrt (1 - d3 * d3) * sqrt (1 - d3 * d3) = 1 - d3 * d3) by (apply sqrt_sqrt; nra).
    generalize dependent (sqrt (1 - d3 * d3)). intros s H. repeat split; try ring.
    replace (_ + _) with (d0 * d0 * d1 * d1 * (d3 * d3 + s * s)) by ring. rewrite H. ring.
  Qed.
  Lemma lvm12 : -1 <= d4 <= 1 -> exists A, vectors (-12)%Z = Ok A /\ cell_with A d0 (d0 * d1) (d0 * d2) 0 d4 0.
  Proof.
    intros Hd. eexists. split; [reflexivity|]. csq. assert (H : sqrt (1 - d4 * d4) * sqrt (1 - d4 * d4) = 1 - d4 * d4) by (apply sqrt_sqrt; nra).
    generalize dependent (sqrt (1 - d4 * d4)). intros s H. repeat split; try ring.
    replace (_ + _) with (d0 * d0 * d2 * d2 * (d4 * d4 + s * s)) by ring. rewrite H. ring.
  Qed.
  Lemma lv14 : -1 < d5 < 1 -> 0 <= 1 + 2 * d3 * d4 * d5 - d3 * d3 - d4 * d4 - d5 * d5 ->
    exists A, vectors 14%Z = Ok A /\ cell_with A d0 (d0 * d1) (d0 * d2) d3 d4 d5.
  Proof.
    intros Hc Hv. eexists. split; [reflexivity|]. csq. assert (H : sqrt (1 - d5 * d5) * sqrt (1 - d5 * d5) = 1 - d5 * d5) by (apply sqrt_sqrt; nra).
    assert (H0 : sqrt (1 - d5 * d5) <> 0) by (apply Rgt_not_eq, sqrt_lt_R0; nra).
    pose proof (sqrt_sqrt _ Hv) as H1. generalize dependent (sqrt (1 + 2 * d3 * d4 * d5 - d3 * d3 - d4 * d4 - d5 * d5)). intros w H1.
    generalize dependent (sqrt (1 - d5 * d5)). intros s H H0. repeat split; try (field; exact H0).
    - replace (_ + _) with (d0 * d0 * d1 * d1 * (d5 * d5 + s * s)) by ring. rewrite H. ring.
    - assert (E : (d3 - d4 * d5) * (d3 - d4 * d5) + w * w = (1 - d4 * d4) * (s * s)) by (rewrite H, H1; ring).
      replace (_ + _) with (d0 * d0 * d2 * d2 * (d4 * d4 + ((d3 - d4 * d5) * (d3 - d4 * d5) + w * w) / (s * s))) by (field; exact H0).
      rewrite E. field. exact H0.
  Qed.
End Cells.

(** ** Centered lattices *)
Lemma r3_ext u v : rx u = rx v -> ry u = ry v -> rz u = rz v -> u = v.
Proof. destruct u, v. cbn. intros -> -> ->. reflexivity. Qed.

Ltac vsolve := apply r3_ext; unfold combination, fraction, add3, scale_mat, scale3; cbn [fst snd rx ry rz]; try lra; field.

Section Centers.
  Variables (d0 d1 d2 d3 d4 d5 : R) (bohr : bool) (rc : option mat) (cu : option units).
  Notation vectors ibrav := (lattice_vectors ibrav [d0; d1; d2; d3; d4; d5] bohr rc cu).

  Lemma center2 : exists A B, vectors 1%Z = Ok A /\ vectors 2%Z = Ok B /\ centered A B [(0, 1 / 2, 1 / 2); (1 / 2, 0, 1 / 2); (1 / 2, 1 / 2, 0)].
  Proof.
    eexists _, _. split; [reflexivity|]. split; [reflexivity|]. split.
    - intros v [<-|[<-|[<-|[]]]].
      + exists (1 / 2, 0, 1 / 2), ((-1), 0, 0)%Z. split; [cbn; tauto|vsolve].
      + exists (0, 1 / 2, 1 / 2), (0, 0, 0)%Z. split; [cbn; tauto|vsolve].
      + exists (1 / 2, 1 / 2, 0), ((-1), 0, 0)%Z. split; [cbn; tauto|vsolve].
    - intros v [[<-|[<-|[<-|[]]]]|(f & Hf & ->)].
      + exists ((-1), 1, (-1))%Z. vsolve.
      + exists ((-1), 1, 1)%Z. vsolve.
      + exists (1, 1, (-1))%Z. vsolve.
      + cbn in Hf. decompose [or] Hf; subst; try contradiction.
        * exists (0, 1, 0)%Z. vsolve.
        * exists (0, 1, (-1))%Z. vsolve.
        * exists ((-1), 1, 0)%Z. vsolve.
  Qed.
  Lemma center3 : exists A B, vectors 1%Z = Ok A /\ vectors 3%Z = Ok B /\ centered A B [(1 / 2, 1 / 2, 1 / 2)].
  Proof.
    eexists _, _. split; [reflexivity|]. split; [reflexivity|]. split.
    - intros v [<-|[<-|[<-|[]]]].
      + exists (1 / 2, 1 / 2, 1 / 2), (0, 0, 0)%Z. split; [cbn; tauto|vsolve].
      + exists (1 / 2, 1 / 2, 1 / 2), ((-1), 0, 0)%Z. split; [cbn; tauto|vsolve].
      + exists (1 / 2, 1 / 2, 1 / 2), ((-1), (-1), 0)%Z. split; [cbn; tauto|vsolve].
    - intros v [[<-|[<-|[<-|[]]]]|(f & Hf & ->)].
      + exists (1, (-1), 0)%Z. vsolve.
      + exists (0, 1, (-1))%Z. vsolve.
      + exists (1, 0, 1)%Z. vsolve.
      + cbn in Hf. decompose [or] Hf; subst; try contradiction.
        * exists (1, 0, 0)%Z. vsolve.
  Qed.
  Lemma centerm3 : exists A B, vectors 1%Z = Ok A /\ vectors (-3)%Z = Ok B /\ centered A B [(1 / 2, 1 / 2, 1 / 2)].
  Proof.
    eexists _, _. split; [reflexivity|]. split; [reflexivity|]. split.
    - intros v [<-|[<-|[<-|[]]]].
      + exists (1 / 2, 1 / 2, 1 / 2), ((-1), 0, 0)%Z. split; [cbn; tauto|vsolve].
      + exists (1 / 2, 1 / 2, 1 / 2), (0, (-1), 0)%Z. split; [cbn; tauto|vsolve].
      + exists (1 / 2, 1 / 2, 1 / 2), (0, 0, (-1))%Z. split; [cbn; tauto|vsolve].
    - intros v [[<-|[<-|[<-|[]]]]|(f & Hf & ->)].
      + exists (0, 1, 1)%Z. vsolve.
      + exists (1, 0, 1)%Z. vsolve.
      + exists (1, 1, 0)%Z. vsolve.
      + cbn in Hf. decompose [or] Hf; subst; try contradiction.
        * exists (1, 1, 1)%Z. vsolve.
  Qed.
  Lemma center7 : exists A B, vectors 6%Z = Ok A /\ vectors 7%Z = Ok B /\ centered A B [(1 / 2, 1 / 2, 1 / 2)].
  Proof.
    eexists _, _. split; [reflexivity|]. split; [reflexivity|]. split.
    - intros v [<-|[<-|[<-|[]]]].
      + exists (1 / 2, 1 / 2, 1 / 2), (0, (-1), 0)%Z. split; [cbn; tauto|vsolve].
      + exists (1 / 2, 1 / 2, 1 / 2), (0, 0, 0)%Z. split; [cbn; tauto|vsolve].
      + exists (1 / 2, 1 / 2, 1 / 2), ((-1), (-1), 0)%Z. split; [cbn; tauto|vsolve].
    - intros v [[<-|[<-|[<-|[]]]]|(f & Hf & ->)].
      + exists (1, 0, (-1))%Z. vsolve.
      + exists ((-1), 1, 0)%Z. vsolve.
      + exists (0, 1, 1)%Z. vsolve.
      + cbn in Hf. decompose [or] Hf; subst; try contradiction.
        * exists (0, 1, 0)%Z. vsolve.
  Qed.
  Lemma center9 : exists A B, vectors 8%Z = Ok A /\ vectors 9%Z = Ok B /\ centered A B [(1 / 2, 1 / 2, 0)].
  Proof.
    eexists _, _. split; [reflexivity|]. split; [reflexivity|]. split.
    - intros v [<-|[<-|[<-|[]]]].
      + exists (1 / 2, 1 / 2, 0), (0, 0, 0)%Z. split; [cbn; tauto|vsolve].
      + exists (1 / 2, 1 / 2, 0), ((-1), 0, 0)%Z. split; [cbn; tauto|vsolve].
      + exists (0, 0, 0), (0, 0, 1)%Z. split; [cbn; tauto|vsolve].
    - intros v [[<-|[<-|[<-|[]]]]|(f & Hf & ->)].
      + exists (1, (-1), 0)%Z. vsolve.
      + exists (1, 1, 0)%Z. vsolve.
      + exists (0, 0, 1)%Z. vsolve.
      + cbn in Hf. decompose [or] Hf; subst; try contradiction.
        * exists (1, 0, 0)%Z. vsolve.
  Qed.
  Lemma centerm9 : exists A B, vectors 8%Z = Ok A /\ vectors (-9)%Z = Ok B /\ centered A B [(1 / 2, 1 / 2, 0)].
  Proof.
    eexists _, _. split; [reflexivity|]. split; [reflexivity|]. split.
    - intros v [<-|[<-|[<-|[]]]].
      + exists (1 / 2, 1 / 2, 0), (0, (-1), 0)%Z. split; [cbn; tauto|vsolve].
      + exists (1 / 2, 1 / 2, 0), (0, 0, 0)%Z. split; [cbn; tauto|vsolve].
      + exists (0, 0, 0), (0, 0, 1)%Z. split; [cbn; tauto|vsolve].
    - intros v [[<-|[<-|[<-|[]]]]|(f & Hf & ->)].
      + exists (1, 1, 0)%Z. vsolve.
      + exists ((-1), 1, 0)%Z. vsolve.
      + exists (0, 0, 1)%Z. vsolve.
      + cbn in Hf. decompose [or] Hf; subst; try contradiction.
        * exists (0, 1, 0)%Z. vsolve.
  Qed.
  Lemma center91 : exists A B, vectors 8%Z = Ok A /\ vectors 91%Z = Ok B /\ centered A B [(0, 1 / 2, 1 / 2)].
  Proof.
    eexists _, _. split; [reflexivity|]. split; [reflexivity|]. split.
    - intros v [<-|[<-|[<-|[]]]].
      + exists (0, 0, 0), (1, 0, 0)%Z. split; [cbn; tauto|vsolve].
      + exists (0, 1 / 2, 1 / 2), (0, 0, (-1))%Z. split; [cbn; tauto|vsolve].
      + exists (0, 1 / 2, 1 / 2), (0, 0, 0)%Z. split; [cbn; tauto|vsolve].
    - intros v [[<-|[<-|[<-|[]]]]|(f & Hf & ->)].
      + exists (1, 0, 0)%Z. vsolve.
      + exists (0, 1, 1)%Z. vsolve.
      + exists (0, (-1), 1)%Z. vsolve.
      + cbn in Hf. decompose [or] Hf; subst; try contradiction.
        * exists (0, 0, 1)%Z. vsolve.
  Qed.
  Lemma center10 : exists A B, vectors 8%Z = Ok A /\ vectors 10%Z = Ok B /\ centered A B [(0, 1 / 2, 1 / 2); (1 / 2, 0, 1 / 2); (1 / 2, 1 / 2, 0)].
  Proof.
    eexists _, _. split; [reflexivity|]. split; [reflexivity|]. split.
    - intros v [<-|[<-|[<-|[]]]].
      + exists (1 / 2, 0, 1 / 2), (0, 0, 0)%Z. split; [cbn; tauto|vsolve].
      + exists (1 / 2, 1 / 2, 0), (0, 0, 0)%Z. split; [cbn; tauto|vsolve].
      + exists (0, 1 / 2, 1 / 2), (0, 0, 0)%Z. split; [cbn; tauto|vsolve].
    - intros v [[<-|[<-|[<-|[]]]]|(f & Hf & ->)].
      + exists (1, 1, (-1))%Z. vsolve.
      + exists ((-1), 1, 1)%Z. vsolve.
      + exists (1, (-1), 1)%Z. vsolve.
      + cbn in Hf. decompose [or] Hf; subst; try contradiction.
        * exists (0, 0, 1)%Z. vsolve.
        * exists (1, 0, 0)%Z. vsolve.
        * exists (0, 1, 0)%Z. vsolve.
  Qed.
  Lemma center11 : exists A B, vectors 8%Z = Ok A /\ vectors 11%Z = Ok B /\ centered A B [(1 / 2, 1 / 2, 1 / 2)].
  Proof.
    eexists _, _. split; [reflexivity|]. split; [reflexivity|]. split.
    - intros v [<-|[<-|[<-|[]]]].
      + exists (1 / 2, 1 / 2, 1 / 2), (0, 0, 0)%Z. split; [cbn; tauto|vsolve].
      + exists (1 / 2, 1 / 2, 1 / 2), ((-1), 0, 0)%Z. split; [cbn; tauto|vsolve].
      + exists (1 / 2, 1 / 2, 1 / 2), ((-1), (-1), 0)%Z. split; [cbn; tauto|vsolve].
    - intros v [[<-|[<-|[<-|[]]]]|(f & Hf & ->)].
      + exists (1, (-1), 0)%Z. vsolve.
      + exists (0, 1, (-1))%Z. vsolve.
      + exists (1, 0, 1)%Z. vsolve.
      + cbn in Hf. decompose [or] Hf; subst; try contradiction.
        * exists (1, 0, 0)%Z. vsolve.
  Qed.
  Lemma center13 : exists A B, vectors 12%Z = Ok A /\ vectors 13%Z = Ok B /\ centered A B [(1 / 2, 0, 1 / 2)].
  Proof.
    eexists _, _. split; [reflexivity|]. split; [reflexivity|]. split.
    - intros v [<-|[<-|[<-|[]]]].
      + exists (1 / 2, 0, 1 / 2), (0, 0, (-1))%Z. split; [cbn; tauto|vsolve].
      + exists (0, 0, 0), (0, 1, 0)%Z. split; [cbn; tauto|vsolve].
      + exists (1 / 2, 0, 1 / 2), (0, 0, 0)%Z. split; [cbn; tauto|vsolve].
    - intros v [[<-|[<-|[<-|[]]]]|(f & Hf & ->)].
      + exists (1, 0, 1)%Z. vsolve.
      + exists (0, 1, 0)%Z. vsolve.
      + exists ((-1), 0, 1)%Z. vsolve.
      + cbn in Hf. decompose [or] Hf; subst; try contradiction.
        * exists (0, 0, 1)%Z. vsolve.
  Qed.
  Lemma centerm13 : exists A B, vectors (-12)%Z = Ok A /\ vectors (-13)%Z = Ok B /\ centered A B [(1 / 2, 1 / 2, 0)].
  Proof.
    eexists _, _. split; [reflexivity|]. split; [reflexivity|]. split.
    - intros v [<-|[<-|[<-|[]]]].
      + exists (1 / 2, 1 / 2, 0), (0, 0, 0)%Z. split; [cbn; tauto|vsolve].
      + exists (1 / 2, 1 / 2, 0), ((-1), 0, 0)%Z. split; [cbn; tauto|vsolve].
      + exists (0, 0, 0), (0, 0, 1)%Z. split; [cbn; tauto|vsolve].
    - intros v [[<-|[<-|[<-|[]]]]|(f & Hf & ->)].
      + exists (1, (-1), 0)%Z. vsolve.
      + exists (1, 1, 0)%Z. vsolve.
      + exists (0, 0, 1)%Z. vsolve.
      + cbn in Hf. decompose [or] Hf; subst; try contradiction.
        * exists (1, 0, 0)%Z. vsolve.
  Qed.
End Centers.

(** ** Arguments *)
Lemma prim_celldm_bohr ibrav a b c ca cb cc l rc cu :
  primitives ibrav a b c ca cb cc (Some l) true rc cu = (lattice_vectors ibrav l true rc cu, Some l).
Proof. reflexivity. Qed.

Lemma prim_celldm_angstrom ibrav a b c ca cb cc x l rc cu :
  primitives ibrav a b c ca cb cc (Some (x :: l)) false rc cu = (lattice_vectors ibrav (x * a0 :: l) false rc cu, Some (x * a0 :: l)).
Proof. reflexivity. Qed.

Lemma prim_traditional ibrav a b c ca cb cc rc cu : exists d3 d4 d5, default_celldm ibrav a b c ca cb cc = [a / a0; b / a; c / a; d3; d4; d5] /\
  primitives ibrav a b c ca cb cc None false rc cu = (lattice_vectors ibrav [a; b / a; c / a; d3; d4; d5] false rc cu, None).
Proof.
  unfold primitives, default_celldm. pose proof a0_gt as Ha.
  assert (E : a / a0 * a0 = a) by (field; lra).
  destruct (_ || _); [|destruct (_ || _); [|destruct (_ || _)]]; cbn [scale_first bind]; rewrite E; eexists _, _, _; split; reflexivity.
Qed.

Lemma cell_eq A a b c a' b' c' x y z : cell_with A a b c x y z -> a = a' -> b = b' -> c = c' -> cell_with A a' b' c' x y z.
Proof. intros H -> -> ->. exact H. Qed.

Ltac trad ibrav lem :=
  let H := fresh in unfold primitives, default_celldm; cbn [Z.eqb Pos.eqb orb scale_first bind];
  match goal with |- context [?a / a0 * a0] => replace (a / a0 * a0) with a by (field; pose proof a0_gt; lra) end;
  destruct lem as (A & E & H); [..|exists A; split; [exact E|eapply cell_eq; [exact H|..]; try (field; assumption); reflexivity]].

Section Traditional.
  Variables (a b c cosbc cosac cosab : R) (rc : option mat) (cu : option units).
  Notation cell ibrav := (fst (primitives ibrav a b c cosbc cosac cosab None false rc cu)).

  Lemma trad1 : exists A, cell 1%Z = Ok A /\ cell_with A a a a 0 0 0.
  Proof. trad 1%Z (lv1 a (b / a) (c / a) 0 0 0 false rc cu). Qed.
  Lemma trad4 : a <> 0 -> exists A, cell 4%Z = Ok A /\ cell_with A a a c 0 0 (- 1 / 2).
  Proof. intros. trad 4%Z (lv4 a (b / a) (c / a) 0 0 0 false rc cu). Qed.
  Lemma trad5 : - 1 / 2 <= cosab <= 1 -> exists A, cell 5%Z = Ok A /\ cell_with A a a a cosab cosab cosab.
  Proof. intros. trad 5%Z (lv5 a (b / a) (c / a) cosab 0 0 false rc cu ltac:(assumption)). Qed.
  Lemma tradm5 : - 1 / 2 <= cosab <= 1 -> exists A, cell (-5)%Z = Ok A /\ cell_with A a a a cosab cosab cosab.
  Proof. intros. trad (-5)%Z (lvm5 a (b / a) (c / a) cosab 0 0 false rc cu ltac:(assumption)). Qed.
  Lemma trad6 : a <> 0 -> exists A, cell 6%Z = Ok A /\ cell_with A a a c 0 0 0.
  Proof. intros. trad 6%Z (lv6 a (b / a) (c / a) 0 0 0 false rc cu). Qed.
  Lemma trad8 : a <> 0 -> exists A, cell 8%Z = Ok A /\ cell_with A a b c 0 0 0.
  Proof. intros. trad 8%Z (lv8 a (b / a) (c / a) 0 0 0 false rc cu). Qed.
  Lemma trad12 : a <> 0 -> -1 <= cosab <= 1 -> exists A, cell 12%Z = Ok A /\ cell_with A a b c 0 0 cosab.
  Proof. intros. trad 12%Z (lv12 a (b / a) (c / a) cosab 0 0 false rc cu ltac:(assumption)). Qed.
  Lemma tradm12 : a <> 0 -> -1 <= cosac <= 1 -> exists A, cell (-12)%Z = Ok A /\ cell_with A a b c 0 cosac 0.
  Proof. intros. trad (-12)%Z (lvm12 a (b / a) (c / a) 0 cosac 0 false rc cu ltac:(assumption)). Qed.
  Lemma trad14 : a <> 0 -> -1 < cosab < 1 -> 0 <= 1 + 2 * cosbc * cosac * cosab - cosbc * cosbc - cosac * cosac - cosab * cosab ->
    exists A, cell 14%Z = Ok A /\ cell_with A a b c cosbc cosac cosab.
  Proof. intros. trad 14%Z (lv14 a (b / a) (c / a) cosbc cosac cosab false rc cu ltac:(assumption) ltac:(assumption)). Qed.
End Traditional.

Lemma prim_changed ibrav a b c cosbc cosac cosab x l r_cell cell_units : x <> 0 ->
  snd (primitives ibrav a b c cosbc cosac cosab (Some (x :: l)) false r_cell cell_units) = Some (x * a0 :: l) /\ x * a0 :: l <> x :: l.
Proof.
  intros Hx. split; [reflexivity|]. intros E. injection E as E. pose proof a0_gt. assert (x * (a0 - 1) = 0) by lra.
  apply Rmult_integral in H0. lra.
Qed.

Lemma prim_twice : exists l A A',
  let call l := primitives 1 1 1 1 0 0 0 (Some l) false None None in
  fst (call l) = Ok A /\ match snd (call l) with Some l' => fst (call l') = Ok A' | None => False end /\ A <> A'.
Proof.
  exists [1; 1; 1; 0; 0; 0]. eexists _, _. cbv zeta. split; [reflexivity|]. split; [reflexivity|].
  intros E. apply (f_equal (fun A => rx (fst (fst A)))) in E. cbn in E. pose proof a0_gt. nra.
Qed.

Lemma prim_unchanged ibrav a b c cosbc cosac cosab celldm bohr r_cell cell_units : bohr = true \/ celldm = None ->
  snd (primitives ibrav a b c cosbc cosac cosab celldm bohr r_cell cell_units) = celldm.
Proof. intros [-> | ->]; [destruct celldm; reflexivity|reflexivity]. Qed.
