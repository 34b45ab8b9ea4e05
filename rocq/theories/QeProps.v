(** C102: input files of Quantum ESPRESSO. *)
From Coq Require Import Lia Ascii String Qabs.
From Verif Require Import Common CommonProofs Text TextProofs NmlModel NmlProofs QeModel QeSpec QeProofs QeCards QePw.
Import ListNotations.
Local Open Scope nat_scope.

(** Parameters written to an input file for ph.x are read back with the same values;
    other parameters are not in the file. *)
Theorem C102_ph : forall repr_f s, good_params repr_f s ph_keys ->
  exists d, read_ph (write_ph repr_f s) = Ok d /\ forall k, dget d k = if is_key k ph_keys then dget s k else None.
Proof. exact read_write_ph. Qed.
Print Assumptions C102_ph.

(** The same for q2r.x *)
Theorem C102_q2r : forall repr_f s, good_params repr_f s q2r_keys ->
  exists d, read_q2r (write_q2r repr_f s) = Ok d /\ forall k, dget d k = if is_key k q2r_keys then dget s k else None.
Proof. exact read_write_q2r. Qed.
Print Assumptions C102_q2r.

(** The same for epw.x, where elements of the lists "proj" and "wdata" that count as
    false become [None] or, at the end, are lost. *)
Theorem C102_epw : forall repr_f s, good_params repr_f s epw_keys -> good_list repr_f s "proj" -> good_list repr_f s "wdata" ->
  exists t d, write_epw repr_f s = Ok t /\ read_epw t = Ok d /\
    forall k, dget d k = if is_key k epw_keys then dget s k else if is_key k ["proj"; "wdata"]%string then kept (dget s k) else None.
Proof. exact read_write_epw. Qed.
Print Assumptions C102_epw.

(** The same for pw.x, including the geometry: names, types and integers are the same,
    other numbers agree to nine decimals (masses: twelve digits, [g12]). *)
Theorem C102_pw : forall repr_f fmt_g g12 s g,
  good_params repr_f s (pw_keys_of s) -> good_list repr_f s "celldm" -> good_geometry fmt_g g12 s g ->
  exists t d g', write_pwi repr_f fmt_g s g = Ok t /\ read_pwi t = Ok (d, g') /\ same_geometry g12 g g' /\
    forall k, dget d k = if is_key k (pw_keys_of s) then dget s k else if is_key k ["celldm"]%string then kept (dget s k) else None.
Proof.
  intros repr_f fmt_g g12 s g H1 H2 H3. destruct (read_write_pwi repr_f fmt_g g12 s g (conj H1 H2) H3) as (t & d & E1 & E2 & E3).
  exists t, d, (geometry_read g12 g). repeat split; try assumption; apply (geometry_same repr_f fmt_g g12 s g H3).
Qed.
Print Assumptions C102_pw.

(** The same for matdyn.x, if no string contains a slash *)
Theorem C102_matdyn_partial : forall repr_f s q, good_params repr_f s matdyn_keys ->
  (forall k v, In k matdyn_keys -> dget s (str k) = Some v -> slashed v = false) -> Forall (fun x => length x = 4) q ->
  exists t d q', write_matdyn repr_f s (Some (Z.of_nat (length q))) (Some q) = Ok t /\
    read_matdyn t = Ok (d, Some (Z.of_nat (length q), q')) /\ Forall2 (Forall2 near) q q' /\
    forall k, dget d k = if is_key k matdyn_keys then dget s k else None.
Proof.
  intros repr_f s q H1 H2 H3. destruct (read_write_matdyn repr_f s q H1 H2 H3) as (t & d & E1 & E2 & E3). exists t, d, (map (map rd) q). repeat split; try assumption.
  clear. induction q as [|x q IH]; constructor; [|exact IH]. induction x as [|a x IHx]; constructor; [apply near_rd|exact IHx].
Qed.
Print Assumptions C102_matdyn_partial.

(** With a slash, e.g., in the path of a file, the file cannot be read. *)
Theorem C102_matdyn_refuted : forall repr_f s nq q, good_params repr_f s matdyn_keys ->
  (exists k v, In k matdyn_keys /\ dget s (str k) = Some v /\ slashed v = true) ->
  exists t, write_matdyn repr_f s (Some nq) (Some q) = Ok t /\ read_matdyn t = Raise ValueError.
Proof. exact matdyn_slash. Qed.
Print Assumptions C102_matdyn_refuted.

(** A file written after reading is the same as the one read. *)
Lemma put_same repr_f d s keys : (forall k, is_key k keys = true -> dget d k = dget s k) -> put repr_f d keys = put repr_f s keys.
Proof.
  intros H. unfold put. rewrite !flat_map_concat_map. f_equal. apply map_ext_in. intros k Hk. rewrite H; [reflexivity|]. unfold is_key. apply existsb_exists. exists k. split; [exact Hk|apply teqb_refl].
Qed.

Lemma put_list_trim repr_f key l : forall i, put_list repr_f key i (trim l) = put_list repr_f key i l.
Proof.
  induction l as [|v l IH]; intros i; [reflexivity|]. cbn [trim put_list]. rewrite <- (IH (S i)). destruct (trim l) as [|w r].
  - destruct (truth v) eqn:T; [cbn [put_list]; rewrite T; reflexivity|reflexivity].
  - cbn [put_list]. unfold hole. destruct (truth v) eqn:T; [rewrite T; reflexivity|reflexivity].
Qed.

Lemma put_indexed_kept repr_f d s key : good_list repr_f s key -> dget d (str key) = kept (dget s (str key)) -> put_indexed repr_f d key = put_indexed repr_f s key.
Proof.
  intros H E. unfold put_indexed. rewrite E. unfold kept. destruct (dget s (str key)) as [v|] eqn:D; [|reflexivity]. destruct (H v D) as (l & -> & _).
  pose proof (put_list_trim repr_f (str key) l 1) as P. destruct (trim l) as [|w r]; rewrite <- P; reflexivity.
Qed.

Theorem C102_again : forall repr_f s,
  (good_params repr_f s ph_keys -> exists d, read_ph (write_ph repr_f s) = Ok d /\ write_ph repr_f d = write_ph repr_f s) /\
  (good_params repr_f s q2r_keys -> exists d, read_q2r (write_q2r repr_f s) = Ok d /\ write_q2r repr_f d = write_q2r repr_f s) /\
  (good_params repr_f s epw_keys -> good_list repr_f s "proj" -> good_list repr_f s "wdata" ->
    exists t d, write_epw repr_f s = Ok t /\ read_epw t = Ok d /\ write_epw repr_f d = Ok t).
Proof.
  intros repr_f s. repeat split.
  - intros H. destruct (C102_ph repr_f s H) as (d & E & D). exists d. split; [exact E|]. unfold write_ph.
    assert (P : forall keys, (forall k, is_key k keys = true -> is_key k ph_keys = true) -> put repr_f d keys = put repr_f s keys) by (intros keys I; apply put_same; intros k K; rewrite D, I by exact K; reflexivity).
    rewrite !P; [reflexivity|..]; intros k; unfold is_key, ph_keys; cbn [existsb]; repeat rewrite Bool.orb_true_iff; tauto.
  - intros H. destruct (C102_q2r repr_f s H) as (d & E & D). exists d. split; [exact E|]. unfold write_q2r. rewrite (put_same repr_f d s ["fildyn"; "flfrc"; "zasr"]%string); [reflexivity|].
    intros k K. rewrite D. change (is_key k q2r_keys) with (is_key k ["fildyn"; "flfrc"; "zasr"]%string). rewrite K. reflexivity.
  - intros H H1 H2. destruct (C102_epw repr_f s H H1 H2) as (t & d & W & E & D). exists t, d. split; [exact W|]. split; [exact E|]. rewrite <- W. unfold write_epw.
    rewrite (put_indexed_kept repr_f d s "proj" H1), (put_indexed_kept repr_f d s "wdata" H2) by (rewrite D; reflexivity).
    assert (P : forall keys, (forall k, is_key k keys = true -> is_key k epw_keys = true) -> put repr_f d keys = put repr_f s keys) by (intros keys I; apply put_same; intros k K; rewrite D, I by exact K; reflexivity).
    rewrite !P; [reflexivity|..]; intros k; unfold is_key, epw_keys; cbn [existsb]; repeat rewrite Bool.orb_true_iff; tauto.
Qed.
Print Assumptions C102_again.

(** Units may be left out or given in braces: lines that begin cards with positions or
    cell parameters are equivalent to those with the default or plain unit. *)
Theorem C102_units : forall fuel s ls g l l' w u,
  (lower w = §"atomic_positions" -> str_split l = [w] -> str_split l' = [w; §"alat"] -> cards fuel s (l :: ls) g = cards fuel s (l' :: ls) g) /\
  (lower w = §"cell_parameters" -> str_split l = [w] -> str_split l' = [w; §"bohr"] -> cards fuel s (l :: ls) g = cards fuel s (l' :: ls) g) /\
  (lower w = §"atomic_positions" -> str_split l = [w; §"{" ++ u ++ §"}"] -> str_split l' = [w; u] -> cards fuel s (l :: ls) g = cards fuel s (l' :: ls) g).
Proof.
  intros fuel s ls g l l' w u. destruct fuel as [|fuel]; [repeat split; reflexivity|].
  assert (E : forall x y, card s x ls g = card s y ls g -> str_split l = x -> str_split l' = y -> cards (S fuel) s (l :: ls) g = cards (S fuel) s (l' :: ls) g).
  { intros x y H Ex Ey. cbn [cards]. rewrite Ex, Ey, H. reflexivity. }
  split; [|split]; intros Hw H1 H2; refine (E _ _ _ H1 H2); unfold card; rewrite Hw; try reflexivity.
  cbv zeta. change (teqb (§"atomic_positions") (§"atomic_species")) with false. change (teqb (§"atomic_positions") (§"atomic_positions")) with true. cbv iota.
  replace (filter no_brace (lower (§"{" ++ u ++ §"}"))) with (filter no_brace (lower u)); [reflexivity|].
  unfold lower. rewrite !map_app, !filter_app. cbn. rewrite app_nil_r. reflexivity.
Qed.
Print Assumptions C102_units.
Example units_meet : lower (§"ATOMIC_POSITIONS") = §"atomic_positions" /\ str_split (§"ATOMIC_POSITIONS {crystal}") = [§"ATOMIC_POSITIONS"; §"{" ++ §"crystal" ++ §"}"].
Proof. split; reflexivity. Qed.

(** Other values are not read back. *)

(** Lists written as one value are split into strings: [cdfpt_bnd = [1, 2]]. *)
Theorem C102_list_refuted : forall repr_f, exists d,
  read_ph (write_ph repr_f [(§"cdfpt_bnd", VList [VInt 1; VInt 2])]) = Ok d /\ dget d (§"cdfpt_bnd") = Some (VList [VStr (§"[1"); VStr (§"2]")]).
Proof. intros repr_f. eexists. split; vm_compute; reflexivity. Qed.
Print Assumptions C102_list_refuted.

(** [None] becomes a string, an exclamation mark makes the rest of the line a comment, and
    quotation marks are written with a backslash, which is not removed. *)
Theorem C102_string_refuted : forall repr_f,
  (exists d, read_ph (write_ph repr_f [(§"prefix", VNone)]) = Ok d /\ dget d (§"prefix") = Some (VStr (§"None"))) /\
  (exists d, read_ph (write_ph repr_f [(§"prefix", VStr (§"a!b"))]) = Ok d /\ dget d (§"prefix") = Some (VStr (§"'a"))) /\
  (exists d, read_ph (write_ph repr_f [(§"prefix", VStr (§"a\b"))]) = Ok d /\ dget d (§"prefix") = Some (VStr (§"a\\b"))).
Proof. intros repr_f. repeat split; eexists; split; vm_compute; reflexivity. Qed.
Print Assumptions C102_string_refuted.

(** A string that looks like the placeholder of a string is replaced by itself forever:
    However often the replacement is repeated, it has to be repeated once more. *)
Theorem C102_endless_refuted : forall fuel, place_all fuel (mark 1) [squote :: mark 1 ++ [squote]] = Raise OverflowError.
Proof.
  assert (G : forall fuel a b, has_bars a = false -> has_bars b = false -> (forall c, In c a -> c = squote) -> (forall c, In c b -> c = squote) ->
    place_all fuel (a ++ mark 1 ++ b) [squote :: mark 1 ++ [squote]] = Raise OverflowError).
  { assert (P : forall a b c, (forall x, In x a -> x = squote) -> (forall x, In x b -> x = squote) ->
      place 0 (a ++ mark 1 ++ b) [squote :: mark 1 ++ [squote]] c = Ok (a ++ squote :: mark 1 ++ squote :: b, S c)).
    { intros a b c Ha Hb. induction a as [|x a IH].
      - cbn [app]. unfold mark. cbn [str list_ascii_of_string app]. change (fmt_d (Z.of_nat 1)) with ["1"%char]. cbn [app place].
        unfold match_mark. cbn [bars]. rewrite !Ascii.eqb_refl. cbn [andb scan]. change (digit "1") with (Some 1%Z). cbv iota. cbn [scan]. change (digit "_") with (@None Z). cbv iota.
        cbn [bars]. rewrite !Ascii.eqb_refl. cbn [andb]. cbn [Nat.add Nat.sub].
        assert (PB : forall c, place 0 b [squote :: mark 1 ++ [squote]] c = Ok (b, c)).
        { intros c'. apply place_none. apply has_bars_no. apply Forall_forall. intros x Hx. rewrite (Hb x Hx). reflexivity. }
        unfold mark in PB. cbn [str list_ascii_of_string app] in PB. change (fmt_d (Z.of_nat 1)) with ["1"%char] in PB. cbn [app] in PB. cbn [place]. rewrite PB. reflexivity.
      - cbn [app place]. rewrite (Ha x (or_introl eq_refl)). rewrite match_mark_none by (apply bars_cons; reflexivity). rewrite IH by (intros y Hy; apply Ha; right; exact Hy). reflexivity. }
    induction fuel as [|fuel IH]; intros a b Ba Bb Ha Hb; cbn [place_all]; rewrite P by assumption; cbn [bind]; [reflexivity|].
    replace (a ++ squote :: mark 1 ++ squote :: b) with ((a ++ [squote]) ++ mark 1 ++ (squote :: b)) by (rewrite <- app_assoc; reflexivity).
    assert (HB : forall l, (forall c, In c l -> c = squote) -> has_bars l = false) by (intros l Hl; apply has_bars_no; apply Forall_forall; intros x Hx; rewrite (Hl x Hx); reflexivity).
    assert (A1 : forall c, In c (a ++ [squote]) -> c = squote) by (intros c Hc; apply in_app_or in Hc as [Hc|[Hc|[]]]; auto).
    assert (A2 : forall c, In c (squote :: b) -> c = squote) by (intros c [Hc|Hc]; auto).
    apply IH; auto. }
  intros fuel. rewrite <- (app_nil_r (mark 1)). apply (G fuel [] []); try reflexivity; intros c [].
Qed.
Print Assumptions C102_endless_refuted.

(** ** Examples *)
Definition repr_9 (x : Q) : text := fmt_f 9 x.
Definition half : Q := (500000000 # 1000000000)%Q.

Example float_half : float_ok repr_9 half.
Proof. repeat split; try (eexists); vm_compute; try reflexivity; try discriminate; repeat constructor. Qed.

Ltac good_values := intros k v Hk E; cbn [In] in Hk; repeat (destruct Hk as [<-|Hk]; [vm_compute in E; first [discriminate|injection E as <-; cbn; first [exact I|exact float_half|split; [repeat constructor|reflexivity]]]|]); destruct Hk.

Definition ph_example : dict value := [(§"prefix", VStr (§"TaS2")); (§"ldisp", VBool true); (§"nq1", VInt 12); (§"tr2_ph", VFloat half); (§"other", VNone)].
Example ph_meets : good_params repr_9 ph_example ph_keys.
Proof. unfold ph_keys. good_values. Qed.
Example ph_text : exists d, read_ph (write_ph repr_9 ph_example) = Ok d /\ dget d (§"tr2_ph") = Some (VFloat half) /\ dget d (§"other") = None.
Proof. destruct (C102_ph repr_9 ph_example ph_meets) as (d & E & D). exists d. rewrite !D. auto. Qed.

Definition q2r_example : dict value := [(§"fildyn", VStr (§"dyn/a, b = (c)")); (§"zasr", VStr (§"simple"))].
Example q2r_meets : good_params repr_9 q2r_example q2r_keys.
Proof. unfold q2r_keys. good_values. Qed.

Definition epw_example : dict value :=
  [(§"prefix", VStr (§"x")); (§"nk1", VInt 2); (§"wannierize", VBool false); (§"proj", VList [VStr (§"Ta:d"); VStr []; VStr (§"S:p"); VNone]); (§"wdata", VList [VStr (§"a = 1")])].
Example epw_meets : good_params repr_9 epw_example epw_keys /\ good_list repr_9 epw_example "proj" /\ good_list repr_9 epw_example "wdata".
Proof.
  split; [unfold epw_keys; good_values|]. split; intros v E; vm_compute in E; injection E as <-; eexists; (split; [reflexivity|]); repeat constructor; cbn; intros H; try discriminate; repeat constructor.
Qed.
Example epw_kept : kept (dget epw_example (§"proj")) = Some (VList [VStr (§"Ta:d"); VNone; VStr (§"S:p")]).
Proof. reflexivity. Qed.

Definition matdyn_example : dict value := [(§"flfrc", VStr (§"ifc")); (§"q_in_band_form", VBool true)].
Example matdyn_meets : good_params repr_9 matdyn_example matdyn_keys /\ (forall k v, In k matdyn_keys -> dget matdyn_example (str k) = Some v -> slashed v = false).
Proof.
  split; [unfold matdyn_keys; good_values|]. intros k v Hk E. unfold matdyn_keys in Hk. cbn [In] in Hk. repeat (destruct Hk as [<-|Hk]; [vm_compute in E; first [discriminate|injection E as <-; reflexivity]|]). destruct Hk.
Qed.
Definition matdyn_slashed : dict value := [(§"flfrc", VStr (§"out/ifc"))].
Example matdyn_slashed_meets : good_params repr_9 matdyn_slashed matdyn_keys /\ exists k v, In k matdyn_keys /\ dget matdyn_slashed (str k) = Some v /\ slashed v = true.
Proof.
  split; [unfold matdyn_keys; good_values|]. exists "flfrc"%string, (VStr (§"out/ifc")). repeat split. unfold matdyn_keys. cbn [In]. tauto.
Qed.

Definition pw_example : dict value :=
  [(§"calculation", VStr (§"vc-relax")); (§"ibrav", VInt 0); (§"ntyp", VInt 1); (§"nat", VInt 2); (§"celldm", VList [VFloat half; VNone; VFloat half]); (§"press", VFloat half); (§"degauss", VFloat half)].
Definition pw_geometry : geometry :=
  Geometry (Some [§"C"]) (Some [12 # 1]%Q) (Some [§"C.upf"]) (Some (§"crystal")) (Some [§"C"; §"C"]) (Some (Cart [(0, 0, 0); (1 # 3, 2 # 3, 0)]%Q))
    (Some (§"crystal")) (Some 2%Z) (Some (Points [((0, 0, 0), 1); ((1 # 2, 0, 0), 1 # 3)]%Q)) (Some (§"angstrom")) (Some [(1, 0, 0); (- (1 # 2), 7 # 8, 0); (0, 0, 9)]%Q).
Definition mass_6 (x : Q) : text := fmt_f 6 x.
Example name_check t : match t with [] => false | _ => true end && forallb safe_char t = true -> name_ok t.
Proof. rewrite Bool.andb_true_iff. intros [H1 H2]. split; [destruct t; congruence|]. apply Forall_forall, forallb_forall, H2. Qed.
Example pw_meets : good_params repr_9 pw_example (pw_keys_of pw_example) /\ good_list repr_9 pw_example "celldm" /\ good_geometry mass_6 (rounded 6) pw_example pw_geometry.
Proof.
  split; [|split].
  - change (pw_keys_of pw_example) with (pw_keys ++ ion_keys ++ cell_keys). unfold pw_keys, ion_keys, cell_keys. cbn [app]. good_values.
  - intros v E; vm_compute in E; injection E as <-; eexists; (split; [reflexivity|]). constructor; [intros _; exact float_half|]. constructor; [discriminate|]. constructor; [intros _; exact float_half|constructor].
  - constructor.
    + exists [§"C"], [12 # 1]%Q, [§"C.upf"]. repeat split; try reflexivity; repeat constructor; try (apply name_check; reflexivity).
    + exists (§"crystal"), [§"C"; §"C"], (Cart [(0, 0, 0); (1 # 3, 2 # 3, 0)]%Q). repeat split; try reflexivity; try discriminate; repeat constructor; try discriminate.
    + apply (good_list_of _ (§"crystal") [((0, 0, 0), 1); ((1 # 2, 0, 0), 1 # 3)]%Q); try reflexivity. repeat split; try discriminate; repeat constructor.
    + intros r E. injection E as <-. split; [reflexivity|]. exists (§"angstrom"). split; [reflexivity|apply name_check; reflexivity].
Qed.
Example pw_text : exists t d g', write_pwi repr_9 mass_6 pw_example pw_geometry = Ok t /\ read_pwi t = Ok (d, g') /\ same_geometry (rounded 6) pw_geometry g' /\
  dget d (§"celldm") = Some (VList [VFloat half; VNone; VFloat half]) /\ dget d (§"press") = Some (VFloat half).
Proof.
  destruct pw_meets as (H1 & H2 & H3). destruct (C102_pw repr_9 mass_6 (rounded 6) pw_example pw_geometry H1 H2 H3) as (t & d & g' & E1 & E2 & E3 & E4). exists t, d, g'. rewrite !E4. auto.
Qed.
