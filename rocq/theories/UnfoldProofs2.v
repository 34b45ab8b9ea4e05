(** The wave vectors of a mesh are complete. *)
From Coq Require Import Permutation Reals Lra Lia.
From Verif Require Import Common LatModel LatProofs Num NumProofs NumC ElModel WSModel WSSpec WSProofs KrProofs.
From Verif Require Cx UnfoldSpec UnfoldProofs.
Import UnfoldSpec UnfoldProofs.
Local Open Scope R_scope.

Lemma csuml_nsum {A} (f : A -> C) (l : list A) : csuml f l = nsum f l.
Proof. induction l as [|x l IH]; [reflexivity|]. cbn [nsum]. rewrite <- IH. reflexivity. Qed.

Lemma enumerates_perm n l : enumerates n l -> Permutation l (ws_mesh n).
Proof. intros [N I]. apply NoDup_Permutation; [exact N|apply nodup_ws_mesh|]. intros m. rewrite in_ws_mesh. apply I. Qed.

Lemma zrange_length N : length (zrange 0 N) = Z.to_nat N.
Proof. unfold zrange. rewrite map_length, seq_length. f_equal. lia. Qed.

Definition point (k1 k2 k3 : R) (n m : vec) : list R :=
  [k1 + 2 * PI * IZR (vx m) / IZR (vx n); k2 + 2 * PI * IZR (vy m) / IZR (vy n); k3 + 2 * PI * IZR (vz m) / IZR (vz n)].

Lemma scal3 a b c x y z : scalar [a; b; c] [x; y; z] = a * x + b * y + c * z.
Proof. cbn. ring. Qed.

Lemma complete_mesh n points cells k1 k2 k3 : (0 < vx n /\ 0 < vy n /\ 0 < vz n)%Z -> enumerates n points -> enumerates n cells ->
  complete_set (map (point k1 k2 k3 n) points) (map coords cells).
Proof.
  intros Hn Hp Hc ir jr Hi Hj. rewrite map_length in *.
  assert (EL : length cells = length points) by (rewrite (Permutation_length (enumerates_perm _ _ Hp)); apply Permutation_length, enumerates_perm, Hc).
  set (u := nth ir cells vzero). set (v := nth jr cells vzero).
  assert (Nu : nth ir (map coords cells) [] = coords u) by (rewrite (nth_indep _ [] (coords vzero)) by (rewrite map_length; exact Hi); apply map_nth).
  assert (Nv : nth jr (map coords cells) [] = coords v) by (rewrite (nth_indep _ [] (coords vzero)) by (rewrite map_length; exact Hj); apply map_nth).
  rewrite Nu, Nv.
  assert (Mu : on_mesh n u) by (apply Hc, nth_In, Hi). assert (Mv : on_mesh n v) by (apply Hc, nth_In, Hj).
  destruct (meshN_0 n Hn) as (R1 & R2 & R3).
  set (x0 := k1 * (IZR (vx u) - IZR (vx v)) + k2 * (IZR (vy u) - IZR (vy v)) + k3 * (IZR (vz u) - IZR (vz v))).
  set (f := fun m => nmul (expi x0) (nmul (phase (mesh_point n u) (vscale 1 m)) (phase (mesh_point n v) (vscale (- (1)) m)))).
  transitivity (csuml f points).
  { rewrite <- (csum_csuml f points vzero). apply CxProofs.csum_ext. intros ik Hik.
    rewrite (nth_indep _ [] (point k1 k2 k3 n vzero)) by (rewrite map_length; exact Hik). rewrite (map_nth (point k1 k2 k3 n)). set (m := nth ik points vzero).
    unfold f, phase. rewrite <- !expi_add. unfold turn, expi.
    match goal with |- (cos ?a, sin ?a) = (cos ?b, sin ?b) => replace a with b; [reflexivity|] end.
    unfold point, coords. rewrite !scal3. unfold x0, kdot, mesh_point, vscale. cbn [kx ky kz vx vy vz]. rewrite !mult_IZR, opp_IZR. field. auto. }
  rewrite csuml_nsum, (nsum_perm f points (ws_mesh n)) by (apply enumerates_perm, Hp). unfold f. rewrite nsum_mul_l.
  pose proof (mesh_delta n Hn 1 u v ltac:(lia) Mu Mv) as D.
  assert (EN : meshN n = INR (length cells)).
  { rewrite (Permutation_length (enumerates_perm _ _ Hc)). unfold ws_mesh, meshN.
    assert (L : forall k l, length (flat_map (fun a => map (fun c => V3 k a c) (zrange 0 (vz n))) l) = (length l * Z.to_nat (vz n))%nat).
    { intros k l. induction l; [reflexivity|]. cbn [flat_map]. rewrite app_length, map_length, IHl, zrange_length. reflexivity. }
    assert (L2 : forall l, length (flat_map (fun a => flat_map (fun b => map (fun c => V3 a b c) (zrange 0 (vz n))) (zrange 0 (vy n))) l) =
      (length l * (Z.to_nat (vy n) * Z.to_nat (vz n)))%nat).
    { intros l. induction l; [reflexivity|]. cbn [flat_map]. rewrite app_length, IHl, L, zrange_length. reflexivity. }
    rewrite L2, zrange_length, !mult_INR, !INR_IZR_INZ, !Z2Nat.id by lia. ring. }
  assert (PN : meshN n <> 0) by (unfold meshN; repeat (apply Rmult_integral_contrapositive_currified); assumption).
  set (s := nsum _ _) in *.
  assert (Es : s = nmul (RtoC (meshN n)) (if veqb u v then n1 else n0)).
  { rewrite <- D. destruct s as [a b]. cbn. f_equal; field; exact PN. }
  rewrite Es, EN. destruct Hc as [NDc _].
  destruct (Nat.eqb_spec ir jr) as [E|E].
  - assert (Euv : u = v) by (unfold u, v; rewrite E; reflexivity). unfold veqb. destruct (vec_eq_dec u v) as [_|NE]; [|contradiction].
    replace x0 with 0 by (unfold x0; rewrite Euv; ring). rewrite expi_0. unfold Coquelicot.Complex.RtoC. cbn. rewrite map_length. f_equal; ring.
  - unfold veqb. destruct (vec_eq_dec u v) as [Euv|_].
    + exfalso. apply E. exact (proj1 (NoDup_nth cells vzero) NDc ir jr Hi Hj Euv).
    + unfold Coquelicot.Complex.RtoC. cbn. apply f_equal2; ring.
Qed.
