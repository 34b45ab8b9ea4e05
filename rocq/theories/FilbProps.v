(** C108: files with band structures. *)
From Coq Require Import Reals Qreals Qabs Lia Lra.
From Verif Require Import Text TextProofs FilbModel FilbSpec FilbProofs.
Local Open Scope nat_scope.

Lemma path_length x k ks : length (path x k ks) = S (length ks).
Proof. revert x k. induction ks as [|k' ks IH]; intros x k; cbn [path length]; [reflexivity|]. rewrite IH. reflexivity. Qed.

Lemma path_step d : forall ks x k i, i < length ks -> nth (S i) (path x k ks) d = (nth i (path x k ks) d + dist (nth i (k :: ks) k) (nth (S i) (k :: ks) k))%R.
Proof.
  induction ks as [|k' ks IH]; intros x k i Hi; cbn [length] in Hi; [lia|]. destruct i as [|i].
  - cbn [path nth]. destruct ks; reflexivity.
  - specialize (IH (x + dist k k')%R k' i ltac:(lia)).
    change (nth (S (S i)) (path x k (k' :: ks)) d) with (nth (S i) (path (x + dist k k') k' ks) d).
    change (nth (S i) (path x k (k' :: ks)) d) with (nth i (path (x + dist k k') k' ks) d). rewrite IH. 
    change (nth (S (S i)) (k :: k' :: ks) k) with (nth (S i) (k' :: ks) k). change (nth (S i) (k :: k' :: ks) k) with (nth i (k' :: ks) k).
    rewrite (nth_indep (k' :: ks) k' k (n := i)) by (cbn [length]; lia). rewrite (nth_indep (k' :: ks) k' k (n := S i)) by (cbn [length]; lia). reflexivity.
Qed.

(** C108. Any file with a header and one block per k point is understood, no matter
    how the energies are distributed among lines. *)
Theorem C108_read : forall file h ls nbnd ks bands, lines file = h :: ls -> header_line h (Z.of_nat nbnd) (Z.of_nat (length ks)) ->
  content nbnd ls ks bands -> ks <> [] -> exists x, read_bands file = Ok (ks, x, bands) /\ length x = length ks.
Proof.
  intros file h ls nbnd ks bands E H C Hk. unfold read_bands. rewrite E, (read_header_line _ _ _ H). cbn [bind].
  destruct (Z.ltb_spec (Z.of_nat (length ks)) 0); [lia|]. destruct (Z.ltb_spec (Z.of_nat nbnd) 0); [lia|]. cbn [orb].
  rewrite !Nat2Z.id, (read_points_content _ _ _ _ C). cbn [bind]. destruct ks as [|k ks]; [contradiction|].
  eexists. split; [reflexivity|]. apply path_length.
Qed.
Print Assumptions C108_read.

(** The abscissa is the length of the path of k points. *)
Theorem C108_path : forall file ks x bands, read_bands file = Ok (ks, x, bands) ->
  nth 0 x 0%R = 0%R /\ forall i k0, S i < length ks -> 
    nth (S i) x 0%R = (nth i x 0 + (let '(x1, y1, z1) := nth i ks k0 in let '(x2, y2, z2) := nth (S i) ks k0 in
      sqrt ((Q2R x2 - Q2R x1) ^ 2 + (Q2R y2 - Q2R y1) ^ 2 + (Q2R z2 - Q2R z1) ^ 2)))%R.
Proof.
  intros file ks x bands E. unfold read_bands in E. destruct (lines file) as [|h ls]; [discriminate|]. destruct (read_header h) as [[nb nk]|]; [|discriminate]. cbn [bind] in E.
  destruct (_ || _)%bool; [discriminate|]. destruct (read_points _ _ _) as [[ks' bands']|]; [|discriminate]. cbn [bind] in E. destruct ks' as [|k ks']; [discriminate|].
  apply (f_equal (fun r => match r with Ok y => y | Raise _ => ([], [], []) end)) in E. apply pair_equal_spec in E. destruct E as [E _]. apply pair_equal_spec in E. destruct E as [E1 E2]. subst ks x.
  split; [destruct ks'; reflexivity|]. intros i k0 Hi. cbn [length] in Hi. rewrite path_step by lia.
  rewrite (nth_indep (k :: ks') k0 k (n := i)), (nth_indep (k :: ks') k0 k (n := S i)) by (cbn [length]; lia).
  destruct (nth i (k :: ks') k) as [[x1 y1] z1], (nth (S i) (k :: ks') k) as [[x2 y2] z2]. unfold dist. f_equal. f_equal. ring.
Qed.
Print Assumptions C108_path.

Lemma written_header nbnd nks t : exists h, lines (§" &plot nbnd=" ++ pad 4 (fmt_d (Z.of_nat nbnd)) ++ §", nks=" ++ pad 6 (fmt_d (Z.of_nat nks)) ++ §" /" ++ newline :: t) = h :: lines t /\
  header_line h (Z.of_nat nbnd) (Z.of_nat nks).
Proof.
  set (p := pad 4 (fmt_d (Z.of_nat nbnd))). set (q := pad 6 (fmt_d (Z.of_nat nks))).
  assert (AP : forall (P : ascii -> Prop) w z, P blank -> P "-"%char -> (forall d, (0 <= d < 10)%Z -> P (chr d)) -> Forall P (pad w (fmt_d z))).
  { intros P w z H1 H2 H3. unfold pad. apply Forall_app. split; [|apply fmt_d_all; assumption]. apply Forall_forall. intros x Hx. apply repeat_spec in Hx. subst x. exact H1. }
  assert (CH : forall c d, (0 <= d < 10)%Z -> In c ["="; ","; "/"]%char -> chr d <> c).
  { intros c d Hd [<-|[<-|[<-|[]]]]; destruct (digit_cases d Hd) as [->|[->|[->|[->|[->|[->|[->|[->|[->| ->]]]]]]]]]; discriminate. }
  exists ((§" &plot nbnd=" ++ p ++ §", nks=" ++ q ++ §" /") ++ [newline]). split.
  - replace (§" &plot nbnd=" ++ p ++ §", nks=" ++ q ++ §" /" ++ newline :: t) with ((§" &plot nbnd=" ++ p ++ §", nks=" ++ q ++ §" /") ++ newline :: t) by (rewrite <- !app_assoc; reflexivity).
    assert (LN : forall s, forallb (fun c => negb (Ascii.eqb c newline)) (str s) = true -> no_newline (str s)).
    { intros s H. apply Forall_forall. intros c Hc. rewrite forallb_forall in H. specialize (H c Hc). apply negb_true_iff, Ascii.eqb_neq in H. exact H. }
    apply lines_app. apply no_newline_app; [apply LN; reflexivity|]. apply no_newline_app; [apply no_newline_pad, no_newline_d|].
    apply no_newline_app; [apply LN; reflexivity|]. apply no_newline_app; [apply no_newline_pad, no_newline_d|]. apply LN; reflexivity.
  - replace ((§" &plot nbnd=" ++ p ++ §", nks=" ++ q ++ §" /") ++ [newline]) with (§" &plot nbnd" ++ "="%char :: p ++ ","%char :: §" nks" ++ "="%char :: (q ++ [blank]) ++ "/"%char :: [newline])
      by (rewrite <- !app_assoc; reflexivity).
    constructor.
    + assert (AE : forall w z, Forall (fun x => x <> "="%char) (pad w (fmt_d z))) by (intros w z; apply AP; [discriminate|discriminate|intros d Hd; apply CH; cbn; auto]).
      apply Forall_app. split; [repeat (constructor; [discriminate|]); constructor|]. apply Forall_app. split; [apply AE|].
      apply Forall_app. split; [repeat (constructor; [discriminate|]); constructor|]. apply Forall_app. split; [|repeat (constructor; [discriminate|]); constructor].
      apply Forall_app. split; [apply AE|]. constructor; [discriminate|constructor].
    + intros I. assert (F : Forall (fun x => x <> ","%char) p) by (apply AP; [discriminate|discriminate|intros d Hd; apply CH; cbn; auto]). rewrite Forall_forall in F. apply (F _ I). reflexivity.
    + intros I. assert (F : Forall (fun x => x <> "/"%char) (q ++ [blank])). { apply Forall_app. split; [apply AP; [discriminate|discriminate|intros d Hd; apply CH; cbn; auto]|repeat constructor; discriminate]. }
      rewrite Forall_forall in F. apply (F _ I). reflexivity.
    + unfold p, pad. rewrite <- (app_nil_r (fmt_d (Z.of_nat nbnd))) at 2. apply to_int_fmt; [apply spaces_blank|constructor].
    + unfold q, pad. rewrite <- app_assoc. apply to_int_fmt; [apply spaces_blank|repeat constructor].
Qed.

(** Writing and reading: k points are restored to six decimals, energies to the number
    of decimals of the format, for any width and number of columns. *)
Lemma round_trip w d cols nbnd ks bands : 0 < d -> (0 < cols \/ nbnd = 0) -> ks <> [] -> length bands = length ks -> Forall (fun es => length es = nbnd) bands ->
  exists file x, write_bands w d cols nbnd ks bands = Ok file /\ read_bands file = Ok (map rounded_point ks, x, map (map (rounded d)) bands) /\ length x = length ks.
Proof.
  intros Hd Hc Hk L F. unfold write_bands.
  destruct ((cols =? 0) && negb (nbnd =? 0) && negb (length ks =? 0)) eqn:E.
  { apply andb_true_iff in E. destruct E as [E _]. apply andb_true_iff in E. destruct E as [E1 E2]. apply Nat.eqb_eq in E1. destruct Hc as [Hc| ->]; [lia|discriminate]. }
  set (body := concat _). destruct (written_header nbnd (length ks) body) as (h & E1 & E2).
  destruct (C108_read (§" &plot nbnd=" ++ pad 4 (fmt_d (Z.of_nat nbnd)) ++ §", nks=" ++ pad 6 (fmt_d (Z.of_nat (length ks))) ++ §" /" ++ newline :: body) h (lines body) nbnd (map rounded_point ks) (map (map (rounded d)) bands)) as (x & Ex & Lx).
  - exact E1.
  - rewrite map_length. exact E2.
  - apply write_points_content; assumption.
  - destruct ks; [contradiction|discriminate].
  - eexists. exists x. split; [reflexivity|]. split; [exact Ex|]. rewrite Lx. apply map_length.
Qed.

Theorem C108_round_trip : forall w d cols nbnd ks bands, 0 < d -> 0 < cols -> ks <> [] -> length bands = length ks -> Forall (fun es => length es = nbnd) bands ->
  exists file ks' x bands', write_bands w d cols nbnd ks bands = Ok file /\ read_bands file = Ok (ks', x, bands') /\
    Forall2 close_point ks ks' /\ Forall2 (Forall2 (close d)) bands bands'.
Proof.
  intros w d cols nbnd ks bands Hd Hc Hk L F. destruct (round_trip w d cols nbnd ks bands Hd (or_introl Hc) Hk L F) as (file & x & E1 & E2 & _).
  exists file. do 3 eexists. split; [exact E1|]. split; [exact E2|]. split.
  - clear. induction ks as [|[[x y] z] ks IH]; constructor; [|exact IH]. cbn [rounded_point close_point]. unfold close. repeat split; apply rounded_near.
  - clear. induction bands as [|es bands IH]; constructor; [|exact IH]. induction es as [|e es IH']; constructor; [apply rounded_near|exact IH'].
Qed.
Print Assumptions C108_round_trip.

(** Nothing is lost if the numbers have no more decimals than are written. *)
Theorem C108_exact : forall w d cols nbnd ks bands, 0 < d -> 0 < cols -> ks <> [] -> length bands = length ks -> Forall (fun es => length es = nbnd) bands ->
  Forall (fun k : point => let '(x, y, z) := k in decimals 6 x /\ decimals 6 y /\ decimals 6 z) ks -> Forall (Forall (decimals d)) bands ->
  exists file ks' x bands', write_bands w d cols nbnd ks bands = Ok file /\ read_bands file = Ok (ks', x, bands') /\
    Forall2 (fun k k' : point => let '(x, y, z) := k in let '(x', y', z') := k' in x == x' /\ y == y' /\ z == z')%Q ks ks' /\ Forall2 (Forall2 Qeq) bands bands'.
Proof.
  intros w d cols nbnd ks bands Hd Hc Hk L F F1 F2. destruct (round_trip w d cols nbnd ks bands Hd (or_introl Hc) Hk L F) as (file & x & E1 & E2 & _).
  assert (R : forall n y, decimals n y -> (y == rounded n y)%Q) by (intros n y (m & Em); symmetry; apply (rounded_exact n y m Em)).
  exists file. do 3 eexists. split; [exact E1|]. split; [exact E2|]. split.
  - clear - F1 R. induction F1 as [|[[x y] z] ks (A & B & D) F1 IH]; constructor; [|exact IH]. cbn [rounded_point]. auto.
  - clear - F2 R. induction F2 as [|es bands A F2 IH]; constructor; [|exact IH]. induction A; constructor; auto.
Qed.
Print Assumptions C108_exact.

(** Incomplete files are not accepted. *)
Lemma read_energies_short nbnd ls es : energy_lines ls es -> forall acc j, length acc + length es = nbnd -> j < length ls -> read_energies nbnd (firstn j ls) acc = Raise StopIteration.
Proof.
  induction 1 as [|l xs ls es N X H IH]; intros acc j L Hj; cbn [length] in Hj; [lia|]. rewrite app_length in L.
  assert (B : length acc < nbnd) by (destruct xs; [contradiction|cbn [length] in L; lia]).
  destruct j as [|j]; cbn [firstn read_energies]; (destruct (Nat.ltb_spec (length acc) nbnd); [|lia]); [reflexivity|].
  unfold numbers in N. rewrite N. cbn [bind]. apply IH; [rewrite app_length; lia|lia].
Qed.

Lemma read_points_short nbnd ls ks bands : content nbnd ls ks bands -> forall j, j < length ls -> read_points nbnd (length ks) (firstn j ls) = Raise StopIteration.
Proof.
  induction 1 as [|l k ls es ls' ks bands P E L C IH]; intros j Hj; cbn [length] in Hj; [lia|]. rewrite app_length in Hj.
  destruct j as [|j]; cbn [firstn length read_points]; [reflexivity|]. rewrite (read_point_line _ _ P). cbn [bind].
  rewrite firstn_app. destruct (Nat.lt_ge_cases j (length ls)) as [B|B].
  - replace (j - length ls) with 0 by lia. cbn [firstn]. rewrite app_nil_r, (read_energies_short nbnd ls es E [] j L B). reflexivity.
  - rewrite firstn_all2 by lia. rewrite (read_energies_lines nbnd ls es E [] _ L). cbn [bind app]. rewrite L, Nat.eqb_refl, IH by lia. reflexivity.
Qed.

Theorem C108_truncated : forall file h ls nbnd ks bands j, lines file = h :: firstn j ls -> header_line h (Z.of_nat nbnd) (Z.of_nat (length ks)) ->
  content nbnd ls ks bands -> j < length ls -> read_bands file = Raise StopIteration.
Proof.
  intros file h ls nbnd ks bands j E H C Hj. unfold read_bands. rewrite E, (read_header_line _ _ _ H). cbn [bind].
  destruct (Z.ltb_spec (Z.of_nat (length ks)) 0); [lia|]. destruct (Z.ltb_spec (Z.of_nat nbnd) 0); [lia|]. cbn [orb].
  rewrite !Nat2Z.id, (read_points_short _ _ _ _ C) by exact Hj. reflexivity.
Qed.
Print Assumptions C108_truncated.

(** Without any k point, files can be written but not read. *)
Theorem C108_empty_refuted : exists file, write_bands 8 3 10 4 [] [] = Ok file /\ read_bands file = Raise IndexError.
Proof. eexists. split; [reflexivity|]. reflexivity. Qed.
Print Assumptions C108_empty_refuted.

(** Three bands at two k points, two columns *)
Example C108_example : exists file x,
  write_bands 8 3 2 3 [(0, 0, 0); (1 # 2, - 1 # 4, 0)]%Q [[1; 2; 3]; [- 1 # 1; 12345678; 2 # 3]]%Q = Ok file /\
  read_bands file = Ok ([(0 # 1000000, 0 # 1000000, 0 # 1000000); (500000 # 1000000, -250000 # 1000000, 0 # 1000000)]%Q, x, [[1000 # 1000; 2000 # 1000; 3000 # 1000]; [-1000 # 1000; 12345678000 # 1000; 667 # 1000]]%Q) /\
  length (lines file) = 7.
Proof.
  destruct (round_trip 8 3 2 3 [(0, 0, 0); (1 # 2, - 1 # 4, 0)]%Q [[1; 2; 3]; [- 1 # 1; 12345678; 2 # 3]]%Q) as (file & x & E1 & E2 & _); try lia; try discriminate; try reflexivity; [repeat constructor|].
  exists file, x. split; [exact E1|]. split; [exact E2|]. injection E1 as <-. vm_compute. reflexivity.
Qed.

(** Other layouts are understood as well: all on one line, or marked with asterisks. *)
Example C108_layout_example : exists x, read_bands (§"&plot nbnd=2,nks=1/" ++ newline :: §"0.5 .25 -1e-1 0.7**  " ++ newline :: §"1 2." ++ [newline]) =
  Ok ([(5 # 10, 25 # 100, -1 # 10)]%Q, x, [[1 # 1; 2 # 1]]%Q).
Proof. eexists. reflexivity. Qed.
