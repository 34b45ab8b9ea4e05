(** Properties C123 (cube files and grids in real space) and C124 (POSCAR files). *)
From Coq Require Import QArith Qabs Lqa Lia.
From Verif Require Import Text TextProofs NmlModel NmlProofs GridModel GridSpec TabProofs TabProofs2 TabProofs3 GridProofs GridProofs2.
From Coq Require Import List.
Import ListNotations.
Local Open Scope nat_scope.

(** ** C123 *)

(** Spanning vectors, atoms, shape and data are read from every cube file. *)
Theorem C123_cube fresh c f n1 n2 n3 s1 s2 s3 g : cube_file c f ->
  c_axes c = [(n1, s1); (n2, s2); (n3, s3)] -> c_data c = in_order n1 n2 n3 g ->
  exists r, read_cube fresh false f = Ok r /\
    Forall2 veq (axes r) [vscale (inject_Z (Z.of_nat n1)) s1; vscale (inject_Z (Z.of_nat n2)) s2; vscale (inject_Z (Z.of_nat n3)) s3] /\
    numbers r = map (fun a => fst (fst a)) (c_atoms c) /\ GridModel.positions r = map snd (c_atoms c) /\
    shape r = [Z.of_nat n1; Z.of_nat n2; Z.of_nat n3] /\ length (values r) = n1 * n2 * n3 /\
    forall i j k, i < n1 -> j < n2 -> k < n3 -> nth ((i * n2 + j) * n3 + k) (values r) None = Some (g i j k).
Proof.
  intros H A D. rewrite (cube_read fresh false c f H).
  assert (P : points c = Z.of_nat (n1 * (n2 * n3))) by (unfold points; rewrite A; cbn [map fst product fold_right]; lia).
  assert (L : length (c_data c) = n1 * (n2 * n3)) by (rewrite D; apply in_order_length).
  rewrite P, L, Z.ltb_irrefl, Nat2Z.id, Nat.sub_diag. cbn [repeat]. rewrite app_nil_r. eexists. split; [reflexivity|]. cbn [axes numbers GridModel.positions shape values].
  rewrite A. cbn [map]. split.
  - destruct s1 as [[x1 y1] z1], s2 as [[x2 y2] z2], s3 as [[x3 y3] z3]. unfold spanned, vscale, veq. cbn [fst snd].
    repeat constructor; cbn [fst snd]; ring.
  - do 3 (split; [reflexivity|]). split; [rewrite map_length, L; lia|]. intros i j k Hi Hj Hk.
    assert (B : i * n2 + j < n1 * n2) by nia. assert (B' : (i * n2 + j) * n3 + k < n1 * n2 * n3) by nia.
    rewrite D. rewrite (nth_indep _ None (Some 0%Q)) by (rewrite map_length, in_order_length; lia). rewrite map_nth. f_equal. apply in_order_nth; assumption.
Qed.
Print Assumptions C123_cube.

(** Only the header: the same without data *)
Theorem C123_header fresh c f : cube_file c f ->
  exists r, read_cube fresh true f = Ok r /\ shape r = map (fun a => Z.of_nat (fst a)) (c_axes c) /\
    Forall2 veq (axes r) (map (fun a => vscale (inject_Z (Z.of_nat (fst a))) (snd a)) (c_axes c)) /\
    numbers r = map (fun a => fst (fst a)) (c_atoms c) /\ GridModel.positions r = map snd (c_atoms c).
Proof.
  intros H. rewrite (cube_read fresh true c f H). eexists. split; [reflexivity|]. cbn [axes numbers GridModel.positions shape]. split; [reflexivity|]. split; [|split; reflexivity].
  clear. induction (c_axes c) as [|[n [[x y] z]] l IH]; cbn [map]; constructor; [|exact IH]. unfold spanned, vscale, veq. cbn [fst snd]. repeat split; ring.
Qed.
Print Assumptions C123_header.

(** Files with more values than points are refused. *)
Theorem C123_too_many fresh c f n1 n2 n3 s1 s2 s3 : cube_file c f ->
  c_axes c = [(n1, s1); (n2, s2); (n3, s3)] -> n1 * n2 * n3 < length (c_data c) -> read_cube fresh false f = Raise IndexError.
Proof.
  intros H A L. rewrite (cube_read fresh false c f H).
  assert (P : points c = Z.of_nat (n1 * n2 * n3)) by (unfold points; rewrite A; cbn [map fst product fold_right]; lia).
  rewrite P. destruct (Z.ltb_spec (Z.of_nat (n1 * n2 * n3)) (Z.of_nat (length (c_data c)))); [reflexivity|lia].
Qed.
Print Assumptions C123_too_many.

(** Files with fewer values than points are accepted; the other values are arbitrary. *)
Theorem C123_too_few_refuted fresh c f n1 n2 n3 s1 s2 s3 : cube_file c f ->
  c_axes c = [(n1, s1); (n2, s2); (n3, s3)] -> length (c_data c) < n1 * n2 * n3 ->
  exists r, read_cube fresh false f = Ok r /\ nth (n1 * n2 * n3 - 1) (values r) (Some 0%Q) = None.
Proof.
  intros H A L. rewrite (cube_read fresh false c f H).
  assert (P : points c = Z.of_nat (n1 * n2 * n3)) by (unfold points; rewrite A; cbn [map fst product fold_right]; lia).
  rewrite P, Nat2Z.id. destruct (Z.ltb_spec (Z.of_nat (n1 * n2 * n3)) (Z.of_nat (length (c_data c)))); [lia|]. eexists. split; [reflexivity|]. cbn [values].
  rewrite app_nth2 by (rewrite map_length; lia). rewrite map_length. rewrite (nth_indep _ _ None) by (rewrite repeat_length; lia). apply nth_repeat.
Qed.
Print Assumptions C123_too_few_refuted.

(** The origin of a file is never returned: what is returned is whatever an array happens to
    contain that has not been initialized. *)
Theorem C123_origin_refuted (fresh : Q * Q * Q) (only_header : bool) f r : read_cube fresh only_header f = Ok r -> origin r = fresh.
Proof.
  unfold read_cube. intros H.
  repeat match type of H with
  | bind ?m _ = Ok _ => destruct m as [?|?]; cbn [bind] in H; [|discriminate H]
  | (let (_, _) := ?p in _) = Ok _ => destruct p
  | (let '(_, _) := ?p in _) = Ok _ => destruct p
  | (if ?b then _ else _) = Ok _ => destruct b
  | Ok _ = Ok _ => injection H as <-; reflexivity
  | Raise _ = Ok _ => discriminate H
  end.
Qed.
Print Assumptions C123_origin_refuted.

(** Grids: from the origin along the spanning vectors, end points included *)
Theorem C123_grid n1 n2 n3 r0 a1 a2 a3 i j k : 2 <= n1 -> 2 <= n2 -> 2 <= n3 ->
  veq (real_space_grid n1 n2 n3 r0 a1 a2 a3 i j k)
    (vadd r0 (vadd (vscale (inject_Z (Z.of_nat i) / inject_Z (Z.of_nat n1 - 1)) a1)
      (vadd (vscale (inject_Z (Z.of_nat j) / inject_Z (Z.of_nat n2 - 1)) a2) (vscale (inject_Z (Z.of_nat k) / inject_Z (Z.of_nat n3 - 1)) a3)))).
Proof.
  intros H1 H2 H3. unfold real_space_grid, veq, vadd, vscale. cbn [fst snd]. rewrite (linspace_at n1 i), (linspace_at n2 j), (linspace_at n3 k) by assumption.
  repeat split; ring.
Qed.
Print Assumptions C123_grid.

(** An axis with a single point *)
Theorem C123_grid_single n1 n2 r0 a1 a2 a3 i j : 2 <= n1 -> 2 <= n2 ->
  veq (real_space_grid n1 n2 1 r0 a1 a2 a3 i j 0)
    (vadd r0 (vadd (vscale (inject_Z (Z.of_nat i) / inject_Z (Z.of_nat n1 - 1)) a1) (vscale (inject_Z (Z.of_nat j) / inject_Z (Z.of_nat n2 - 1)) a2))).
Proof.
  intros H1 H2. unfold real_space_grid, veq, vadd, vscale. cbn [fst snd]. rewrite (linspace_at n1 i), (linspace_at n2 j), (linspace_0 1) by (assumption || lia).
  repeat split; ring.
Qed.
Print Assumptions C123_grid_single.

(** The volume element of class [el.Model] is too small: less than the volume between
    neighbouring points of the grid. *)
Theorem C123_volume_refuted n1 n2 n3 r0 a1 a2 a3 e1 e2 e3 : 2 <= n1 -> 2 <= n2 -> 2 <= n3 -> ~ (determinant a1 a2 a3 == 0)%Q ->
  veq (real_space_grid n1 n2 n3 r0 a1 a2 a3 1 0 0) (vadd (real_space_grid n1 n2 n3 r0 a1 a2 a3 0 0 0) e1) ->
  veq (real_space_grid n1 n2 n3 r0 a1 a2 a3 0 1 0) (vadd (real_space_grid n1 n2 n3 r0 a1 a2 a3 0 0 0) e2) ->
  veq (real_space_grid n1 n2 n3 r0 a1 a2 a3 0 0 1) (vadd (real_space_grid n1 n2 n3 r0 a1 a2 a3 0 0 0) e3) ->
  (dV n1 n2 n3 a1 a2 a3 < Qabs (determinant e1 e2 e3))%Q.
Proof.
  intros H1 H2 H3 D E1 E2 E3.
  set (m1 := inject_Z (Z.of_nat n1 - 1)). set (m2 := inject_Z (Z.of_nat n2 - 1)). set (m3 := inject_Z (Z.of_nat n3 - 1)).
  assert (P1 : (1 <= m1)%Q) by (unfold m1, Qle; cbn; lia). assert (P2 : (1 <= m2)%Q) by (unfold m2, Qle; cbn; lia). assert (P3 : (1 <= m3)%Q) by (unfold m3, Qle; cbn; lia).
  assert (X1 : veq (vscale m1 e1) a1).
  { destruct E1 as (A & B & C). unfold real_space_grid, vadd in *. cbn [fst snd] in *. rewrite (linspace_step n1 0), (linspace_0 n1), (linspace_0 n2), (linspace_0 n3) in A, B, C by lia. fold m1 in A, B, C.
    unfold veq, vscale. cbn [fst snd]. repeat split.
    - assert (Y : (fst (fst e1) == 1 / m1 * fst (fst a1))%Q) by lra. rewrite Y. field. lra.
    - assert (Y : (snd (fst e1) == 1 / m1 * snd (fst a1))%Q) by lra. rewrite Y. field. lra.
    - assert (Y : (snd e1 == 1 / m1 * snd a1)%Q) by lra. rewrite Y. field. lra. }
  assert (X2 : veq (vscale m2 e2) a2).
  { destruct E2 as (A & B & C). unfold real_space_grid, vadd in *. cbn [fst snd] in *. rewrite (linspace_step n2 0), (linspace_0 n1), (linspace_0 n2), (linspace_0 n3) in A, B, C by lia. fold m2 in A, B, C.
    unfold veq, vscale. cbn [fst snd]. repeat split.
    - assert (Y : (fst (fst e2) == 1 / m2 * fst (fst a2))%Q) by lra. rewrite Y. field. lra.
    - assert (Y : (snd (fst e2) == 1 / m2 * snd (fst a2))%Q) by lra. rewrite Y. field. lra.
    - assert (Y : (snd e2 == 1 / m2 * snd a2)%Q) by lra. rewrite Y. field. lra. }
  assert (X3 : veq (vscale m3 e3) a3).
  { destruct E3 as (A & B & C). unfold real_space_grid, vadd in *. cbn [fst snd] in *. rewrite (linspace_step n3 0), (linspace_0 n1), (linspace_0 n2), (linspace_0 n3) in A, B, C by lia. fold m3 in A, B, C.
    unfold veq, vscale. cbn [fst snd]. repeat split.
    - assert (Y : (fst (fst e3) == 1 / m3 * fst (fst a3))%Q) by lra. rewrite Y. field. lra.
    - assert (Y : (snd (fst e3) == 1 / m3 * snd (fst a3))%Q) by lra. rewrite Y. field. lra.
    - assert (Y : (snd e3 == 1 / m3 * snd a3)%Q) by lra. rewrite Y. field. lra. }
  assert (T : (triple a1 a2 a3 == m1 * m2 * m3 * determinant e1 e2 e3)%Q).
  { destruct a1 as [[? ?] ?], a2 as [[? ?] ?], a3 as [[? ?] ?], e1 as [[? ?] ?], e2 as [[? ?] ?], e3 as [[? ?] ?].
    destruct X1 as (A1 & B1 & C1), X2 as (A2 & B2 & C2), X3 as (A3 & B3 & C3). unfold vscale in *. cbn [fst snd] in *. unfold triple, determinant.
    rewrite <- A1, <- A2, <- A3, <- B1, <- B2, <- B3, <- C1, <- C2, <- C3. ring. }
  assert (T' : (triple a1 a2 a3 == determinant a1 a2 a3)%Q). { destruct a1 as [[? ?] ?], a2 as [[? ?] ?], a3 as [[? ?] ?]. unfold triple, determinant. ring. }
  unfold dV. set (N := inject_Z (Z.of_nat (n1 * n2 * n3))).
  assert (EN : (N == (m1 + 1) * (m2 + 1) * (m3 + 1))%Q).
  { unfold N, m1, m2, m3. change 1%Q with (inject_Z 1). rewrite <- !inject_Z_plus, <- !inject_Z_mult. f_equiv. lia. }
  assert (Q1 : (0 < m1 * m2)%Q) by nra. assert (Q2 : (0 < m1 * m2 * m3)%Q) by nra.
  assert (EA : (Qabs (triple a1 a2 a3) == m1 * m2 * m3 * Qabs (determinant e1 e2 e3))%Q). { rewrite T, Qabs_Qmult, (Qabs_pos (m1 * m2 * m3)) by lra. reflexivity. }
  assert (DE : (0 < Qabs (determinant e1 e2 e3))%Q).
  { destruct (Qlt_le_dec 0 (Qabs (determinant e1 e2 e3))) as [|Hle]; [assumption|]. exfalso. pose proof (Qabs_nonneg (determinant e1 e2 e3)).
    assert (Z0 : (Qabs (determinant e1 e2 e3) == 0)%Q) by lra. rewrite Z0 in EA. apply D. rewrite <- T'.
    pose proof (Qle_Qabs (triple a1 a2 a3)). pose proof (Qle_Qabs (- triple a1 a2 a3)) as K. rewrite Qabs_opp in K. lra. }
  rewrite EA, EN. set (d := Qabs (determinant e1 e2 e3)) in *.
  assert (NP : (m1 * m2 * m3 < (m1 + 1) * (m2 + 1) * (m3 + 1))%Q) by nra.
  apply Qlt_shift_div_r; [nra|]. nra.
Qed.
Print Assumptions C123_volume_refuted.

(** Grids for cube files: positions along the first axis are too far away from the origin. *)
Theorem C123_cube_grid_refuted n1 n2 n3 r0 s1 a2 a3 i : 2 <= n1 -> 2 <= n2 -> 2 <= n3 -> 0 < i -> ~ veq s1 (0, 0, 0)%Q ->
  ~ veq (real_space_grid n1 n2 n3 r0 (vscale (inject_Z (Z.of_nat n1)) s1) a2 a3 i 0 0) (vadd r0 (vscale (inject_Z (Z.of_nat i)) s1)).
Proof.
  intros H1 H2 H3 Hi Hs (A & B & C). unfold real_space_grid, vadd, vscale in *. cbn [fst snd] in *.
  rewrite (linspace_at n1 i), (linspace_0 n2), (linspace_0 n3) in A, B, C by lia.
  set (m := inject_Z (Z.of_nat n1 - 1)) in *. set (ii := inject_Z (Z.of_nat i)) in *.
  assert (En : (inject_Z (Z.of_nat n1) == m + 1)%Q). { unfold m. change 1%Q with (inject_Z 1). rewrite <- inject_Z_plus. f_equiv. lia. }
  assert (P1 : (1 <= m)%Q) by (unfold m, Qle; cbn; lia). assert (P2 : (1 <= ii)%Q) by (unfold ii, Qle; cbn; lia).
  rewrite En in A, B, C.
  assert (K : forall x, (ii / m * ((m + 1) * x) == ii * x -> x == 0)%Q).
  { intros x E. assert (E' : (ii / m * ((m + 1) * x) == ii * x + ii / m * x)%Q) by (field; lra). rewrite E' in E. assert (E2 : (ii / m * x == 0)%Q) by lra.
    assert (E3 : (ii * x == 0)%Q). { transitivity (m * (ii / m * x))%Q; [field; lra|]. rewrite E2. ring. }
    destruct (Qmult_integral _ _ E3); [lra|assumption]. }
  apply Hs. unfold veq. cbn [fst snd]. repeat split; apply K; lra.
Qed.
Print Assumptions C123_cube_grid_refuted.

Local Open Scope Q_scope.
Example C123_grid_example : veq (real_space_grid 3 2 2 (1, 1, 1) (4, 0, 0) (0, 2, 0) (0, 1, 3) 1 0 1) (3, 2, 4) /\ ~ determinant (4, 0, 0) (0, 2, 0) (0, 1, 3) == 0.
Proof. split; [vm_compute; repeat split|vm_compute; discriminate]. Qed.
Local Close Scope Q_scope.

Definition line_of (ws : list string) : text := concat (map (fun w => blank :: str w) ws).
Lemma spaced_line ws : Forall (fun w => word (str w)) ws -> spaced (map str ws) (line_of ws).
Proof.
  intros H. unfold line_of. induction H as [|w ws W _ IH]; [apply Spaced_end; constructor|]. cbn [map concat]. apply (Spaced_word [blank] (str w)); [constructor; [split; [reflexivity|discriminate]|constructor]|exact W| |exact IH].
  destruct ws; [exact Logic.I|reflexivity].
Qed.
Ltac words_tac := repeat (first [apply Forall_nil|apply Forall_cons; [split; [discriminate|repeat constructor]|]]).

(** One atom, 2 times 1 times 1 points *)
Definition water : content := Content (1, 2, 3)%Q [(2, (1, 0, 0)%Q); (1, (0, 1, 0)%Q); (1, (0, 0, 1)%Q)] [(8%Z, 8%Q, (0, 0, 1)%Q)] [5; 7]%Q.
Definition water_file : text := file_of [str "water"; []; line_of ["1"; "1"; "2"; "3"]%string; line_of ["2"; "1"; "0"; "0"]%string; line_of ["1"; "0"; "1"; "0"]%string; line_of ["1"; "0"; "0"; "1"]%string;
  line_of ["8"; "8"; "0"; "0"; "1"]%string; line_of ["5"; "7"]%string].
Example C123_example : cube_file water water_file /\
  match read_cube (9, 9, 9)%Q false water_file with
  | Ok r => origin r = (9, 9, 9)%Q /\ shape r = [2; 1; 1]%Z /\ numbers r = [8%Z] /\ values r = [Some 5; Some 7]%Q | _ => False end.
Proof.
  split; [|vm_compute; repeat split].
  exists (str "water"), [], (line_of ["1"; "1"; "2"; "3"]%string), [line_of ["2"; "1"; "0"; "0"]%string; line_of ["1"; "0"; "1"; "0"]%string; line_of ["1"; "0"; "0"; "1"]%string],
    [line_of ["8"; "8"; "0"; "0"; "1"]%string], [line_of ["5"; "7"]%string], [map str ["5"; "7"]%string].
  split; [reflexivity|]. split; [intros J; vm_compute in J; intuition discriminate|]. split; [intros []|]. split; [|split; [reflexivity|split; [|split; [|split]]]].
  - exists (str "1"), (map str ["1"; "2"; "3"]%string), []. rewrite app_nil_r. split; [apply (spaced_line ["1"; "1"; "2"; "3"]%string); words_tac|]. split; [reflexivity|]. do 3 eexists. repeat split.
  - repeat apply Forall2_cons; [| | |apply Forall2_nil].
    + exists (str "2"), (map str ["1"; "0"; "0"]%string). split; [apply (spaced_line ["2"; "1"; "0"; "0"]%string); words_tac|]. split; [reflexivity|]. do 3 eexists. repeat split.
    + exists (str "1"), (map str ["0"; "1"; "0"]%string). split; [apply (spaced_line ["1"; "0"; "1"; "0"]%string); words_tac|]. split; [reflexivity|]. do 3 eexists. repeat split.
    + exists (str "1"), (map str ["0"; "0"; "1"]%string). split; [apply (spaced_line ["1"; "0"; "0"; "1"]%string); words_tac|]. split; [reflexivity|]. do 3 eexists. repeat split.
  - apply Forall2_cons; [|apply Forall2_nil]. exists (str "8"), (str "8"), (map str ["0"; "0"; "1"]%string).
    split; [apply (spaced_line ["8"; "8"; "0"; "0"; "1"]%string); words_tac|]. split; [reflexivity|]. split; [reflexivity|]. do 3 eexists. repeat split.
  - apply Forall2_cons; [|apply Forall2_nil]. apply spaced_line. words_tac.
  - repeat constructor.
Qed.

(** ** C124 *)

(** With a line [Selective dynamics], the vectors are returned as they are written. For every
    element, the positions in its last block are returned. *)
Theorem C124_selective s p rest f : poscar_file (Some s) p rest f ->
  exists atoms, readPOSCAR f = Ok (listed (p_t1 p), listed (p_t2 p), listed (p_t3 p), atoms) /\
    forall l1 x v l2, p_atoms p = l1 ++ (x, v) :: l2 -> ~ In x (map fst l2) -> dget atoms x = Some v.
Proof.
  intros H. eexists. split; [exact (poscar_selective s p rest f H)|]. intros l1 x v l2 E N. rewrite E. apply stored_last. exact N.
Qed.
Print Assumptions C124_selective.

(** All atoms, if no element occurs twice *)
Theorem C124_distinct s p rest f : poscar_file (Some s) p rest f -> NoDup (map fst (p_atoms p)) ->
  exists atoms, readPOSCAR f = Ok (listed (p_t1 p), listed (p_t2 p), listed (p_t3 p), atoms) /\ forall x v, In (x, v) (p_atoms p) -> dget atoms x = Some v.
Proof.
  intros H D. destruct (C124_selective s p rest f H) as (atoms & E & A). exists atoms. split; [exact E|]. intros x v J.
  destruct (in_split _ _ J) as (l1 & l2 & Ep). apply (A l1 x v l2 Ep). rewrite Ep, map_app in D. cbn [map fst] in D.
  apply NoDup_remove_2 in D. intros K. apply D. apply in_or_app. right. exact K.
Qed.
Print Assumptions C124_distinct.

(** Other blocks of an element are lost. *)
Theorem C124_repeated_refuted s p rest f l0 x u l1 v l2 : poscar_file (Some s) p rest f -> p_atoms p = l0 ++ (x, u) :: l1 ++ (x, v) :: l2 -> ~ In x (map fst l2) -> u <> v ->
  exists t1 t2 t3 atoms, readPOSCAR f = Ok (t1, t2, t3, atoms) /\ dget atoms x = Some v /\ dget atoms x <> Some u.
Proof.
  intros H E N D. destruct (C124_selective s p rest f H) as (atoms & R & A). do 4 eexists. split; [exact R|].
  assert (K : dget atoms x = Some v) by (apply (A (l0 ++ (x, u) :: l1) x v l2); [rewrite E, <- app_assoc; reflexivity|exact N]).
  split; [exact K|]. intros X. apply D. congruence.
Qed.
Print Assumptions C124_repeated_refuted.

(** The scale is ignored. *)
Theorem C124_scale_refuted s p rest f : poscar_file (Some s) p rest f -> ~ (p_scale p == 1)%Q -> ~ (fst (fst (p_t1 p)) == 0)%Q ->
  exists x y z t2 t3 atoms, readPOSCAR f = Ok ([x; y; z], t2, t3, atoms) /\ ~ (x == p_scale p * fst (fst (p_t1 p)))%Q.
Proof.
  intros H S0 T. destruct (C124_selective s p rest f H) as (atoms & R & _). do 6 eexists. split; [exact R|]. intros E.
  assert (X : ((p_scale p - 1) * fst (fst (p_t1 p)) == 0)%Q) by lra. destruct (Qmult_integral _ _ X); [apply S0; lra|contradiction].
Qed.
Print Assumptions C124_scale_refuted.

(** Without this line, files cannot be read if nothing follows the positions. *)
Theorem C124_plain_refuted p f : poscar_file None p [] f -> flat_map snd (p_atoms p) <> [] -> readPOSCAR f = Raise StopIteration.
Proof. exact (poscar_plain p f). Qed.
Print Assumptions C124_plain_refuted.

Definition salt : crystal := Crystal 2%Q (3, 0, 0)%Q (0, 3, 0)%Q (0, 0, 3)%Q [(str "Na", [(0, 0, 0)%Q]); (str "Cl", [(1, 1, 1)%Q])].
Definition salt_file (selective : list text) : text := file_of ([str "salt"; line_of ["2"]%string; line_of ["3"; "0"; "0"]%string; line_of ["0"; "3"; "0"]%string; line_of ["0"; "0"; "3"]%string;
  line_of ["Na"; "Cl"]%string; line_of ["1"; "1"]%string] ++ selective ++ [str "Cartesian"; line_of ["0"; "0"; "0"; "T"]%string; line_of ["1"; "1"; "1"]%string]).
Lemma salt_ok selective : (forall l, selective = Some l -> single l) -> poscar_file selective salt [] (salt_file (match selective with Some l => [l] | None => [] end)).
Proof.
  intros Hs. exists (str "salt"), (line_of ["2"]%string), (line_of ["3"; "0"; "0"]%string), (line_of ["0"; "3"; "0"]%string), (line_of ["0"; "0"; "3"]%string), (line_of ["Na"; "Cl"]%string), (line_of ["1"; "1"]%string),
    (str "Cartesian"), [line_of ["0"; "0"; "0"; "T"]%string; line_of ["1"; "1"; "1"]%string], (str "2"), (map str ["1"; "1"]%string).
  split; [destruct selective; reflexivity|]. split.
  { apply Forall_cons; [intros J; vm_compute in J; intuition discriminate|]. apply Forall_cons; [intros J; vm_compute in J; intuition discriminate|]. rewrite app_nil_r.
    destruct selective as [l|]; [apply Forall_cons; [apply Hs; reflexivity|apply Forall_nil]|apply Forall_nil]. }
  split; [apply (spaced_line ["2"]%string); words_tac|]. split; [reflexivity|].
  split; [exists (map str ["3"; "0"; "0"]%string); split; [apply spaced_line; words_tac|do 3 eexists; repeat split]|].
  split; [exists (map str ["0"; "3"; "0"]%string); split; [apply spaced_line; words_tac|do 3 eexists; repeat split]|].
  split; [exists (map str ["0"; "0"; "3"]%string); split; [apply spaced_line; words_tac|do 3 eexists; repeat split]|].
  split; [apply (spaced_line ["Na"; "Cl"]%string); words_tac|]. split; [apply spaced_line; words_tac|]. split; [repeat constructor|].
  apply Forall2_cons; [|apply Forall2_cons; [|apply Forall2_nil]].
  - exists (map str ["0"; "0"; "0"]%string), (map str ["T"]%string). split; [apply (spaced_line ["0"; "0"; "0"; "T"]%string); words_tac|do 3 eexists; repeat split].
  - exists (map str ["1"; "1"; "1"]%string), []. split; [apply (spaced_line ["1"; "1"; "1"]%string); words_tac|do 3 eexists; repeat split].
Qed.
Example C124_example : poscar_file (Some (str "Selective dynamics")) salt [] (salt_file [str "Selective dynamics"]) /\ poscar_file None salt [] (salt_file []) /\
  NoDup (map fst (p_atoms salt)) /\ readPOSCAR (salt_file []) = Raise StopIteration.
Proof.
  split; [apply (salt_ok (Some (str "Selective dynamics"))); intros l [= <-] J; vm_compute in J; intuition discriminate|]. split; [apply (salt_ok None); discriminate|].
  split; [|vm_compute; reflexivity]. vm_compute. repeat constructor; cbn; intuition discriminate.
Qed.
