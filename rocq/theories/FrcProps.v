(** C57: files with force constants or dynamical matrices. *)
From Verif Require Import TextProofs HrProofs FrcModel FrcSpec FrcProofs FrcProofs2.
From Coq Require Import Qabs Lqa.
Local Open Scope nat_scope.

(** Force constants that are written are read again: every force constant as rounded by the
    format, under the same indices and no others; masses, lattice vectors, positions and
    atomic symbols; and, if both are given, dielectric tensor and effective charges together
    with the Ewald parameter. *)
Theorem C57_force_constants :
  forall primitives alat twopi fmt_g fmt_e g_round e_round nr phid amass at_ tau order alph epsil zeu,
  format_ok fmt_g g_round -> format_ok fmt_e e_round ->
  order <> [] -> length amass = length order -> Forall symbol order -> one_mass order amass ->
  exists t d,
    write_frc alat fmt_g fmt_e nr phid amass at_ tau order alph epsil zeu = Ok t /\ read_flfrc primitives twopi t = Ok (inl d) /\
    f_shape d = nr /\
    (forall i, (exists x, In (i, x) (f_phid d)) <-> in_range (length order) nr i) /\
    (forall i x, In (i, x) (f_phid d) -> x = e_round (phid i)) /\
    geometry_restored alat amass at_ tau order (f_geometry d) /\
    match epsil, zeu with
    | Some e, Some z => epsil_restored e (f_epsil d) /\ zeu_restored (length order) z (f_zeu d) /\ f_alph d = option_map g_round alph
    | _, _ => f_epsil d = None /\ f_zeu d = None /\ f_alph d = None
    end.
Proof.
  intros primitives alat twopi fmt_g fmt_e g_round e_round nr phid amass at_ tau order alph epsil zeu Hg He NE L HS U.
  destruct (write_frc_ok alat fmt_g fmt_e g_round e_round Hg He nr phid amass at_ tau order alph epsil zeu NE L HS) as (t & Et & Ew).
  exists t. eexists. split; [exact Et|]. split; [apply (read_frc_ok alat twopi fmt_g fmt_e g_round e_round Hg He primitives nr phid amass at_ tau order alph epsil zeu t L HS U Ew)|].
  cbn [f_shape f_phid f_geometry f_epsil f_zeu f_alph]. split; [reflexivity|]. split; [|split; [|split; [apply geometry_ok; exact L|]]].
  - intros i. rewrite <- in_indices. split.
    + intros [x I]. apply in_map_iff in I as (j & E & I). injection E as -> _. exact I.
    + intros I. exists (e_round (phid i)). apply in_map_iff. exists i. auto.
  - intros i x I. apply in_map_iff in I as (j & E & _). injection E as -> <-. reflexivity.
  - unfold charges_read. destruct epsil as [e|]; [|auto]. destruct zeu as [z|]; [|auto]. cbn [fst snd]. split; [|split; [|reflexivity]].
    + exists (table_values 12 e). split; [reflexivity|apply table_values_near].
    + exists (map (charge_values z) (seq 0 (length order))). split; [reflexivity|]. split; [rewrite map_map; apply map_id|]. intros i T I. apply in_map_iff in I as (j & E & _). injection E as -> <-. apply table_values_near.
Qed.
Print Assumptions C57_force_constants.

(** The formats are instantiated with eleven decimals. Two atoms of one kind, one of another. *)
Lemma example_format : format_ok (fmt_f 11) (rounded 11).
Proof. intros x. destruct (word_fmt_f 11 x) as [N S]. split; [exact N|]. split; [exact S|apply to_float_fmt; lia]. Qed.
Definition example_order : list text := [§"S"; §"Ta"; §"S"].
Definition example_amass : list Q := [29000 # 1; 330001 # 2; 29000 # 1].
Definition example_at (x y : nat) : Q := if x =? y then 6 # 1 else 1 # 7.
Definition example_tau (i x : nat) : Q := Z.of_nat (i + 2 * x) # 3.
Definition example_phid (i : frc_index) : Q := let '(na1, na2, (m1, m2, m3), (j1, j2)) := i in Z.of_nat na1 - 2 * Z.of_nat na2 + Z.of_nat (m1 * j2) # 9.
Definition example_zeu (i x y : nat) : Q := Z.of_nat (i + x) - Z.of_nat (3 * y) # 11.
Lemma example_one_mass : one_mass example_order example_amass.
Proof. intros i j Hi Hj. cbn in Hi, Hj. destruct i as [|[|[|i]]]; [| | |lia]; (destruct j as [|[|[|j]]]; [| | |lia]); cbn; intros E; try reflexivity; discriminate. Qed.
Lemma example_symbols : Forall symbol example_order.
Proof. repeat constructor. Qed.
Example C57_force_constants_example : exists t d,
  write_frc 6 (fmt_f 11) (fmt_f 11) (2, 2, 1) example_phid example_amass example_at example_tau example_order (Some (3 # 2)%Q) (Some example_at) (Some example_zeu) = Ok t /\
  read_flfrc (fun _ _ => Raise ValueError) (44 # 7) t = Ok (inl d) /\ f_shape d = (2, 2, 1) /\ geometry_restored 6 example_amass example_at example_tau example_order (f_geometry d) /\ zeu_restored 3 example_zeu (f_zeu d).
Proof.
  destruct (C57_force_constants (fun _ _ => Raise ValueError) 6 (44 # 7) _ _ _ _ (2, 2, 1) example_phid example_amass example_at example_tau example_order (Some (3 # 2)%Q) (Some example_at) (Some example_zeu) example_format example_format ltac:(discriminate) eq_refl example_symbols example_one_mass)
    as (t & d & W & R & S & _ & _ & G & _ & Z & _). exists t, d. auto.
Qed.

(** Dynamical matrices that are written are read again, together with the wave vectors, the
    structure and the dielectric tensor, as long as columns do not merge. *)
Definition q_restored (alat twopi x y : Q) : Prop := exists u v, near 9 u (x * alat / twopi) /\ near 7 v alat /\ (y == u * twopi / v)%Q.

Lemma fits_columns a b k : (0 < b)%Z -> (0 <= a)%Z -> (a <= k * b)%Z -> (round_div a b <= k)%Z.
Proof. intros Hb _ H. apply round_div_le; assumption. Qed.

Lemma fits12_ok x : (-9 <= x <= 99)%Q -> fits12 x.
Proof.
  intros [L U]. unfold fits12, fmt_f. rewrite !app_length, fraction_length. cbn [str list_ascii_of_string length].
  pose proof (scaled_nonneg 8 x) as N. destruct x as [a b]. unfold Qle in L, U. cbn [Qnum Qden] in *.
  change (Z.of_nat 8) with 8%Z. change (10 ^ 8)%Z with 100000000%Z.
  assert (S : forall m, (Z.abs a * 100000000 <= m * Z.pos b)%Z -> (scaled 8 (a # b) <= m)%Z) by (intros m Hm; unfold scaled; cbn [Qnum Qden]; apply round_div_le; [lia|exact Hm]).
  destruct (Z.ltb_spec a 0).
  - specialize (S 900000000%Z ltac:(lia)). pose proof (Z.div_le_upper_bound (scaled 8 (a # b)) 100000000 9 ltac:(lia) ltac:(lia)). pose proof (Z.div_pos (scaled 8 (a # b)) 100000000 N ltac:(lia)).
    pose proof (nonneg_length (scaled 8 (a # b) / 100000000) 1 ltac:(lia) ltac:(change (Z.of_nat 1) with 1%Z; lia)). cbn [length]. lia.
  - specialize (S 9900000000%Z ltac:(lia)). pose proof (Z.div_le_upper_bound (scaled 8 (a # b)) 100000000 99 ltac:(lia) ltac:(lia)). pose proof (Z.div_pos (scaled 8 (a # b)) 100000000 N ltac:(lia)).
    pose proof (nonneg_length (scaled 8 (a # b) / 100000000) 2 ltac:(lia) ltac:(change (Z.of_nat 2) with 2%Z; lia)). cbn [length]. lia.
Qed.
Lemma fits14_ok x : (-99 <= x <= 999)%Q -> fits14 x.
Proof.
  intros [L U]. unfold fits14, fmt_f. rewrite !app_length, fraction_length. cbn [str list_ascii_of_string length].
  pose proof (scaled_nonneg 9 x) as N. destruct x as [a b]. unfold Qle in L, U. cbn [Qnum Qden] in *.
  change (Z.of_nat 9) with 9%Z. change (10 ^ 9)%Z with 1000000000%Z.
  assert (S : forall m, (Z.abs a * 1000000000 <= m * Z.pos b)%Z -> (scaled 9 (a # b) <= m)%Z) by (intros m Hm; unfold scaled; cbn [Qnum Qden]; apply round_div_le; [lia|exact Hm]).
  destruct (Z.ltb_spec a 0).
  - specialize (S 99000000000%Z ltac:(lia)). pose proof (Z.div_le_upper_bound (scaled 9 (a # b)) 1000000000 99 ltac:(lia) ltac:(lia)). pose proof (Z.div_pos (scaled 9 (a # b)) 1000000000 N ltac:(lia)).
    pose proof (nonneg_length (scaled 9 (a # b) / 1000000000) 2 ltac:(lia) ltac:(change (Z.of_nat 2) with 2%Z; lia)). cbn [length]. lia.
  - specialize (S 999000000000%Z ltac:(lia)). pose proof (Z.div_le_upper_bound (scaled 9 (a # b)) 1000000000 999 ltac:(lia) ltac:(lia)). pose proof (Z.div_pos (scaled 9 (a # b)) 1000000000 N ltac:(lia)).
    pose proof (nonneg_length (scaled 9 (a # b) / 1000000000) 3 ltac:(lia) ltac:(change (Z.of_nat 3) with 3%Z; lia)). cbn [length]. lia.
Qed.

Theorem C57_dynamical_matrices_partial :
  forall primitives alat twopi qD amass at_ tau order epsil zeu,
  order <> [] -> length amass = length order -> Forall symbol order -> one_mass order amass ->
  (forall q D, In (q, D) qD -> (forall i j, i < 3 * length order -> j < 3 * length order -> (-9 <= snd (D i j) <= 99)%Q) /\ (forall i, i < 3 -> (-99 <= q i * alat / twopi <= 999)%Q)) ->
  exists t d,
    write_dyn alat twopi qD amass at_ tau order epsil zeu = Ok t /\ read_flfrc primitives twopi t = Ok (inr d) /\
    geometry_restored alat amass at_ tau order (d_geometry d) /\
    length (d_q d) = length qD /\ length (d_D d) = length qD /\
    (forall k q D, nth_error qD k = Some (q, D) ->
      length (nth k (d_q d) []) = 3 /\ (forall i, i < 3 -> q_restored alat twopi (q i) (nth i (nth k (d_q d) []) 0%Q)) /\
      (forall i j, (exists z, In ((i, j), z) (nth k (d_D d) [])) <-> i < 3 * length order /\ j < 3 * length order) /\
      (forall i j z, In ((i, j), z) (nth k (d_D d) []) -> near 8 (fst z) (fst (D i j)) /\ near 8 (snd z) (snd (D i j)))) /\
    match epsil, zeu with Some e, Some _ => epsil_restored e (d_epsil d) | _, _ => d_epsil d = None end.
Proof.
  intros primitives alat twopi qD amass at_ tau order epsil zeu NE L HS U HQ.
  destruct (write_dyn_ok alat twopi qD amass at_ tau order epsil zeu NE L HS) as (t & Et & Ew).
  { apply Forall_forall. intros [q D] I. destruct (HQ q D I) as [H1 H2]. split; [intros i j Hi Hj; apply fits12_ok, H1; assumption|intros i Hi; apply fits14_ok, H2, Hi]. }
  exists t. eexists. split; [exact Et|]. split; [apply (read_dyn_ok alat twopi primitives qD amass at_ tau order epsil zeu t L HS U Ew)|].
  cbn [d_q d_D d_geometry d_epsil]. split; [apply geometry_ok; exact L|]. rewrite !map_length. split; [reflexivity|]. split; [reflexivity|]. split.
  - intros k q D Hk. assert (Eq : nth k (map (fun x => q_read alat twopi (fst x)) qD) [] = q_read alat twopi q).
    { apply nth_error_nth. rewrite nth_error_map, Hk. reflexivity. }
    assert (ED : nth k (map (fun x => matrix_read (length order) (snd x)) qD) [] = matrix_read (length order) D).
    { apply nth_error_nth. rewrite nth_error_map, Hk. reflexivity. }
    rewrite Eq, ED. split; [reflexivity|]. split; [|split].
    + intros i Hi. exists (rounded 9 (q i * alat / twopi)%Q), (rounded 7 alat). split; [apply near_rounded|]. split; [apply near_rounded|]. apply lt3 in Hi as [->|[->| ->]]; reflexivity.
    + intros i j. rewrite <- in_block_indices. split.
      * intros [z I]. apply in_map_iff in I as (ij & E & I). injection E as -> _. exact I.
      * intros I. eexists. apply in_map_iff. exists (i, j). split; [reflexivity|exact I].
    + intros i j z I. apply in_map_iff in I as (ij & E & I). injection E as -> <-. cbn [fst snd complex_rounded]. split; apply near_rounded.
  - destruct epsil as [e|]; [|reflexivity]. destruct zeu as [z|]; [|reflexivity]. exists (table_values 12 e). split; [reflexivity|apply table_values_near].
Qed.
Print Assumptions C57_dynamical_matrices_partial.

Definition example_D (i j : nat) : Q * Q := (Z.of_nat (i * j) # 5, Z.of_nat i - Z.of_nat j # 7)%Q.
Definition example_qD : list ((nat -> Q) * (nat -> nat -> Q * Q)) := [(fun i => Z.of_nat i # 3, example_D); (fun _ => 1 # 2, fun _ _ => (1, 0)%Q)].
Lemma example_qD_fits : forall q D, In (q, D) example_qD ->
  (forall i j, i < 9 -> j < 9 -> (-9 <= snd (D i j) <= 99)%Q) /\ (forall i, i < 3 -> (-99 <= q i * 6 / (44 # 7) <= 999)%Q).
Proof.
  intros q D [I|[I|[]]]; injection I as <- <-; (split; [intros i j Hi Hj|intros i Hi]).
  - unfold example_D, Qle. cbn [snd Qnum Qden]. lia.
  - apply lt3 in Hi as [->|[->| ->]]; split; unfold Qle; cbn; lia.
  - split; unfold Qle; cbn; lia.
  - split; unfold Qle; cbn; lia.
Qed.
Example C57_dynamical_matrices_example : exists t d,
  write_dyn 6 (44 # 7) example_qD example_amass example_at example_tau example_order (Some example_at) (Some example_zeu) = Ok t /\
  read_flfrc (fun _ _ => Raise ValueError) (44 # 7) t = Ok (inr d) /\ length (d_q d) = 2 /\ epsil_restored example_at (d_epsil d).
Proof.
  destruct (C57_dynamical_matrices_partial (fun _ _ => Raise ValueError) 6 (44 # 7) example_qD example_amass example_at example_tau example_order (Some example_at) (Some example_zeu) ltac:(discriminate) eq_refl example_symbols example_one_mass example_qD_fits) as (t & d & W & R & _ & Lq & _ & _ & E).
  exists t, d. auto.
Qed.

(** Missing: the effective charges. They are written under a headline that is not recognized
    by the reader, so that they are always lost. *)
Theorem C57_dynamical_charges_refuted :
  forall primitives alat twopi qD amass at_ tau order epsil zeu,
  order <> [] -> length amass = length order -> Forall symbol order -> one_mass order amass ->
  (forall q D, In (q, D) qD -> (forall i j, i < 3 * length order -> j < 3 * length order -> (-9 <= snd (D i j) <= 99)%Q) /\ (forall i, i < 3 -> (-99 <= q i * alat / twopi <= 999)%Q)) ->
  exists t d, write_dyn alat twopi qD amass at_ tau order (Some epsil) (Some zeu) = Ok t /\ read_flfrc primitives twopi t = Ok (inr d) /\
    d_zeu d = None /\ ~ zeu_restored (length order) zeu (d_zeu d).
Proof.
  intros primitives alat twopi qD amass at_ tau order epsil zeu NE L HS U HQ.
  destruct (write_dyn_ok alat twopi qD amass at_ tau order (Some epsil) (Some zeu) NE L HS) as (t & Et & Ew).
  { apply Forall_forall. intros [q D] I. destruct (HQ q D I) as [H1 H2]. split; [intros i j Hi Hj; apply fits12_ok, H1; assumption|intros i Hi; apply fits14_ok, H2, Hi]. }
  exists t. eexists. split; [exact Et|]. split; [apply (read_dyn_ok alat twopi primitives qD amass at_ tau order (Some epsil) (Some zeu) t L HS U Ew)|]. split; [reflexivity|]. intros (l & E & _). discriminate.
Qed.
Print Assumptions C57_dynamical_charges_refuted.

Example C57_dynamical_charges_example : exists t d, write_dyn 6 (44 # 7) example_qD example_amass example_at example_tau example_order (Some example_at) (Some example_zeu) = Ok t /\
  read_flfrc (fun _ _ => Raise ValueError) (44 # 7) t = Ok (inr d) /\ d_zeu d = None.
Proof.
  destruct (C57_dynamical_charges_refuted (fun _ _ => Raise ValueError) 6 (44 # 7) example_qD example_amass example_at example_tau example_order example_at example_zeu ltac:(discriminate) eq_refl example_symbols example_one_mass example_qD_fits) as (t & d & W & R & E & _).
  exists t, d. auto.
Qed.

(** Lattice vectors and positions are thus restored with a relative accuracy limited by the
    one of the lattice constant. *)
Theorem C57_lengths : forall d alat x y, (0 < alat)%Q -> length_restored d alat x y ->
  let e := (1 # (2 * Z.to_pos (10 ^ Z.of_nat d)))%Q in
  (Qabs (y - x) <= e * (alat + (5 # 100000000)) + Qabs (x / alat) * (5 # 100000000))%Q.
Proof.
  intros d alat x y Ha (u & v & Hu & Hv & E) e. unfold near in Hu, Hv. fold e in Hu. change (1 # 2 * Z.to_pos (10 ^ Z.of_nat 7))%Q with (1 # 20000000)%Q in Hv.
  set (r := (x / alat)%Q) in *. assert (Ex : (x == r * alat)%Q) by (unfold r; field; intros H0; rewrite H0 in Ha; inversion Ha).
  assert (Ey : (y - x == (u - r) * v + r * (v - alat))%Q) by (rewrite E, Ex at 1; ring). rewrite Ey. eapply Qle_trans; [apply Qabs_triangle|]. rewrite !Qabs_Qmult.
  assert (Hv' : (Qabs v <= alat + (5 # 100000000))%Q).
  { setoid_replace v with (v - alat + alat)%Q by ring. eapply Qle_trans; [apply Qabs_triangle|]. rewrite (Qabs_pos alat) by lra. lra. }
  assert (0 <= Qabs v)%Q by apply Qabs_nonneg. assert (0 <= Qabs r)%Q by apply Qabs_nonneg. assert (0 <= Qabs (u - r))%Q by apply Qabs_nonneg. assert (0 <= e)%Q by (unfold e, Qle; cbn; lia).
  apply Qplus_le_compat.
  - eapply Qle_trans; [apply Qmult_le_compat_r; [exact Hu|assumption]|]. rewrite !(Qmult_comm e). apply Qmult_le_compat_r; assumption.
  - rewrite !(Qmult_comm (Qabs r)). apply Qmult_le_compat_r; [lra|assumption].
Qed.
Print Assumptions C57_lengths.

Example C57_lengths_example : length_restored 9 6 (1 # 7) ((23809524 # 1000000000) * 6) /\ (Qabs ((23809524 # 1000000000) * 6 - (1 # 7)) <= 1 # 100000000)%Q.
Proof.
  split; [|unfold Qle; cbn; lia]. exists (23809524 # 1000000000)%Q, 6%Q. split; [unfold near, Qle; cbn; lia|]. split; [unfold near, Qle; cbn; lia|reflexivity].
Qed.

(** The conditions are necessary. Symbols with three characters are cut, two masses of the same
    element are unified, the dielectric tensor is dropped if there are no effective charges,
    and files with large imaginary parts cannot be read. *)
Definition no_primitives (ibrav : Z) (celldm : list Q) : res (list (list Q)) := Raise ValueError.
Theorem C57_conditions_refuted :
  (exists t d, write_frc 6 (fmt_f 11) (fmt_f 11) (1, 1, 1) example_phid [1%Q] example_at example_tau [§"Uuo"] None None None = Ok t /\
    read_flfrc no_primitives (44 # 7) t = Ok (inl d) /\ g_order (f_geometry d) = [§"Uu"]) /\
  (exists t d, write_frc 6 (fmt_f 11) (fmt_f 11) (1, 1, 1) example_phid [1%Q; 2%Q] example_at example_tau [§"H"; §"H"] None None None = Ok t /\
    read_flfrc no_primitives (44 # 7) t = Ok (inl d) /\ (nth 1 (g_amass (f_geometry d)) 0%Q == 1)%Q) /\
  (exists t d, write_frc 6 (fmt_f 11) (fmt_f 11) (1, 1, 1) example_phid [1%Q] example_at example_tau [§"H"] None (Some example_at) None = Ok t /\
    read_flfrc no_primitives (44 # 7) t = Ok (inl d) /\ f_epsil d = None) /\
  (exists t e, write_dyn 6 (44 # 7) [(fun _ => 0%Q, fun _ _ => (1, -100)%Q)] [1%Q] example_at example_tau [§"H"] None None = Ok t /\
    read_flfrc no_primitives (44 # 7) t = Raise e).
Proof.
  split; [|split; [|split]].
  - eexists. eexists. split; [vm_compute; reflexivity|]. split; [vm_compute; reflexivity|reflexivity].
  - eexists. eexists. split; [vm_compute; reflexivity|]. split; [vm_compute; reflexivity|reflexivity].
  - eexists. eexists. split; [vm_compute; reflexivity|]. split; [vm_compute; reflexivity|reflexivity].
  - eexists. eexists. split; [vm_compute; reflexivity|]. vm_compute. reflexivity.
Qed.
Print Assumptions C57_conditions_refuted.
