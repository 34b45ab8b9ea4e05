From Coq Require Import Lia.
From Verif Require Import Text TextProofs EpwoModel EpwoSpec TabProofs TabProofs2 GridProofs.
From Verif Require QeModel WinProofs NmlProofs.
From Coq Require Import List.
Import ListNotations.
Local Open Scope nat_scope.

Lemma begins_nl p t : ~ In newline (str p) -> single t -> startswith p (nl t) = true <-> begins p t.
Proof.
  intros N S0. unfold startswith, begins. rewrite WinProofs.prefix_iff. split.
  - intros (u & E). unfold nl in E. destruct u as [|c u] using rev_ind.
    + exfalso. apply N. rewrite app_nil_r in E. rewrite <- E. apply in_or_app. right. left. reflexivity.
    + clear IHu. rewrite app_assoc in E. apply app_inj_tail in E as [E _]. exists u. exact E.
  - intros (u & ->). exists (u ++ [newline]). unfold nl. rewrite app_assoc. reflexivity.
Qed.
Lemma begins_no p t : ~ In newline (str p) -> single t -> ~ begins p t -> startswith p (nl t) = false.
Proof. intros N S0 H. apply Bool.not_true_iff_false. rewrite begins_nl by assumption. exact H. Qed.
Lemma begins_yes p t : ~ In newline (str p) -> single t -> begins p t -> startswith p (nl t) = true.
Proof. intros N S0 H. apply begins_nl; assumption. Qed.
Lemma iq_nl : ~ In newline (str "     iq = ").
Proof. vm_compute. intuition discriminate. Qed.
Lemma ik_nl : ~ In newline (str "     ik = ").
Proof. vm_compute. intuition discriminate. Qed.
Lemma iq_not_ik t : begins "     iq = " t -> ~ begins "     ik = " t.
Proof. intros (u & ->) (v & E). vm_compute in E. discriminate. Qed.

Lemma end1 {A} (ws : list A) a b : from_end 1 (ws ++ [a; b]) = Ok b.
Proof. unfold from_end. rewrite rev_app_distr. reflexivity. Qed.
Lemma end2 {A} (ws : list A) a b : from_end 2 (ws ++ [a; b]) = Ok a.
Proof. unfold from_end. rewrite rev_app_distr. reflexivity. Qed.
Lemma index_nat n i : i < n -> index n (Z.of_nat i) = Ok i.
Proof. intros H. unfold index. destruct (Z.leb_spec 0 (Z.of_nat i)); [|lia]. destruct (Z.ltb_spec (Z.of_nat i) (Z.of_nat n)); [|lia]. cbn [andb]. rewrite Nat2Z.id. reflexivity. Qed.

Section Data.
Variables (nq nmodes nk nbnd : nat) (W : nat -> nat -> Q) (G : nat -> nat -> nat -> nat -> nat -> Q).

(** What is known is right. *)
Definition sound (w : freqs) (g : couplings) : Prop :=
  (forall iq nu x, w iq nu = Some x -> x = W iq nu) /\ (forall iq nu ik i j x, g iq nu ik i j = Some x -> x = G iq nu ik i j).
Definition grows (w w' : freqs) (g g' : couplings) : Prop :=
  (forall iq nu, w iq nu <> None -> w' iq nu <> None) /\ (forall iq nu ik i j, g iq nu ik i j <> None -> g' iq nu ik i j <> None).
Lemma grows_trans w w' w'' g g' g'' : grows w w' g g' -> grows w' w'' g' g'' -> grows w w'' g g''.
Proof. intros [A B] [C D]. split; auto. Qed.

Lemma rows_read iq ik : iq < nq -> ik < nk -> forall idx rows rest w g, sound w g ->
  Forall2 (fun '(j, i, nu) l => table_line (W iq nu) (G iq nu ik i j) l) idx rows ->
  exists w' g', prtgkk nq nmodes nk nbnd w g (Z.of_nat iq) (Some (Z.of_nat ik)) (map (fun '(j, i, nu) => ToRead j i nu) idx) (map nl rows ++ rest) =
      prtgkk nq nmodes nk nbnd w' g' (Z.of_nat iq) (Some (Z.of_nat ik)) [] rest /\
    sound w' g' /\ grows w w' g g' /\ (forall j i nu, In (j, i, nu) idx -> w' iq nu <> None /\ g' iq nu ik i j <> None) /\
    (forall iq0 nu ik0 i j, iq0 <> iq \/ ik0 <> ik -> g' iq0 nu ik0 i j = g iq0 nu ik0 i j).
Proof.
  intros Hq Hk. induction idx as [|[[j i] nu] idx IH]; intros rows rest w g S0 F; inversion F as [|? l ? rows' H Fl]; clear F; subst.
  - exists w, g. split; [reflexivity|]. split; [exact S0|]. split; [split; auto|]. split; [intros ? ? ? []|reflexivity].
  - destruct H as (ws & a & b & Sl & Ra & Rb). cbn [map app prtgkk]. rewrite (spaced_nl _ _ Sl), end2. cbn [bind]. unfold real in Ra, Rb. rewrite Ra. cbn [bind]. rewrite (index_nat nq iq Hq). cbn [bind].
    rewrite end1. cbn [bind]. rewrite Rb. cbn [bind]. rewrite (index_nat nk ik Hk). cbn [bind].
    destruct (IH rows' rest (set_w w iq nu (W iq nu)) (set_g g iq nu ik i j (G iq nu ik i j))) as (w' & g' & E & S' & Gr & A & U); [|exact Fl|].
    { destruct S0 as [S1 S2]. split.
      - intros iq0 nu0 z. unfold set_w. destruct (Nat.eqb_spec iq0 iq) as [->|]; cbn [andb]; [|apply S1]. destruct (Nat.eqb_spec nu0 nu) as [->|]; [|apply S1]. intros [= <-]. reflexivity.
      - intros iq0 nu0 ik0 i0 j0 z. unfold set_g.
        destruct (Nat.eqb_spec iq0 iq) as [->|]; cbn [andb]; [|apply S2]. destruct (Nat.eqb_spec nu0 nu) as [->|]; cbn [andb]; [|apply S2].
        destruct (Nat.eqb_spec ik0 ik) as [->|]; cbn [andb]; [|apply S2]. destruct (Nat.eqb_spec i0 i) as [->|]; cbn [andb]; [|apply S2].
        destruct (Nat.eqb_spec j0 j) as [->|]; [|apply S2]. intros [= <-]. reflexivity. }
    exists w', g'. split; [exact E|]. split; [exact S'|].
    assert (G0 : grows w (set_w w iq nu (W iq nu)) g (set_g g iq nu ik i j (G iq nu ik i j))).
    { split; intros; [unfold set_w|unfold set_g]; match goal with |- (if ?b then _ else _) <> None => destruct b; [discriminate|assumption] end. }
    split; [exact (grows_trans _ _ _ _ _ _ G0 Gr)|]. split.
    2:{ intros iq0 nu0 ik0 i0 j0 D. rewrite U by exact D. unfold set_g. destruct (Nat.eqb_spec iq0 iq), (Nat.eqb_spec ik0 ik); cbn [andb]; rewrite ?Bool.andb_false_r; try reflexivity. lia. }
    intros j0 i0 nu0 [Eq|J]; [|apply A, J]. injection Eq as <- <- <-. split.
    + apply (proj1 Gr). unfold set_w. rewrite !Nat.eqb_refl. discriminate.
    + apply (proj2 Gr). unfold set_g. rewrite !Nat.eqb_refl. discriminate.
Qed.

Lemma loops_table w g table : table_of nbnd nmodes w g table -> Forall2 (fun '(j, i, nu) l => table_line (w nu) (g j i nu) l) (loops nbnd nmodes) table.
Proof.
  intros [L T]. unfold loops.
  assert (M : forall j i k0 n t, length t = n -> (forall nu, nu < n -> table_line (w (k0 + nu)) (g j i (k0 + nu)) (nth nu t [])) ->
    Forall2 (fun '(j, i, nu) l => table_line (w nu) (g j i nu) l) (map (fun nu => (j, i, nu)) (seq k0 n)) t).
  { intros j i k0 n. revert k0. induction n as [|n IH]; intros k0 t Lt Ht; destruct t as [|l t]; try discriminate; [constructor|]. cbn [seq map]. constructor.
    - specialize (Ht 0 ltac:(lia)). rewrite Nat.add_0_r in Ht. exact Ht.
    - apply IH; [cbn in Lt; lia|]. intros nu Hn. specialize (Ht (S nu) ltac:(lia)). rewrite Nat.add_succ_r in Ht. exact Ht. }
  assert (P : forall (f : nat -> list (nat * nat * nat)) m n k0 t, length t = n * m ->
    (forall a, a < n -> Forall2 (fun '(j, i, nu) l => table_line (w nu) (g j i nu) l) (f (k0 + a)) (firstn m (skipn (a * m) t))) ->
    Forall2 (fun '(j, i, nu) l => table_line (w nu) (g j i nu) l) (flat_map f (seq k0 n)) t).
  { intros f m n. induction n as [|n IH]; intros k0 t Lt Ht; [destruct t; [constructor|discriminate]|]. cbn [seq flat_map].
    rewrite <- (firstn_skipn m t). apply Forall2_app.
    - specialize (Ht 0 ltac:(lia)). rewrite Nat.add_0_r in Ht. exact Ht.
    - apply IH; [rewrite skipn_length; cbn in Lt; lia|]. intros a Ha. specialize (Ht (S a) ltac:(lia)). rewrite Nat.add_succ_r in Ht.
      assert (SK : forall x y (u : list text), skipn x (skipn y u) = skipn (y + x) u).
      { intros x y. induction y as [|y IHy]; intros u; [reflexivity|]. destruct u; [destruct x; reflexivity|]. cbn [skipn Nat.add]. apply IHy. }
      rewrite SK. exact Ht. }
  assert (NF : forall x y n (u : list text), n < x -> nth n (firstn x (skipn y u)) [] = nth (y + n) u []).
  { intros x y. induction y as [|y IHy]; intros n u Hn.
    - cbn [skipn Nat.add]. revert n u Hn. induction x as [|x IHx]; intros n u Hn; [lia|]. destruct u as [|l u]; [destruct n; reflexivity|]. destruct n as [|n]; [reflexivity|]. cbn [firstn nth]. apply IHx. lia.
    - destruct u as [|l u]; [cbn [skipn]; rewrite firstn_nil; destruct n; reflexivity|]. cbn [skipn nth Nat.add]. apply IHy. exact Hn. }
  apply (P _ (nbnd * nmodes)); [lia|]. intros j Hj. apply (P _ nmodes).
  - rewrite firstn_length, skipn_length. assert (j * (nbnd * nmodes) + nbnd * nmodes <= nbnd * (nbnd * nmodes)) by nia. lia.
  - intros i Hi. cbn [Nat.add]. apply M.
    + rewrite firstn_length, skipn_length, firstn_length, skipn_length. assert (j * (nbnd * nmodes) + nbnd * nmodes <= nbnd * (nbnd * nmodes)) by nia. assert (i * nmodes + nmodes <= nbnd * nmodes) by nia. lia.
    + intros nu Hn. cbn [Nat.add]. rewrite NF by exact Hn. assert (i * nmodes + nmodes <= nbnd * nmodes) by nia. rewrite NF by lia.
      replace (j * (nbnd * nmodes) + (i * nmodes + nu)) with ((j * nbnd + i) * nmodes + nu) by lia. apply T; assumption.
Qed.
Lemma loops_in j i nu : j < nbnd -> i < nbnd -> nu < nmodes -> In (j, i, nu) (loops nbnd nmodes).
Proof.
  intros Hj Hi Hn. unfold loops. apply in_flat_map. exists j. split; [apply in_seq; lia|]. apply in_flat_map. exists i. split; [apply in_seq; lia|].
  apply (in_map (fun nu => (j, i, nu))). apply in_seq. lia.
Qed.

Definition ik_of (iq ik : nat) : option Z := match iq with O => None | S _ => Some (Z.of_nat ik - 1)%Z end.
(** Which blocks lie between two points *)
Definition in_between (iq ik iq' ik' iq0 ik0 : nat) : Prop :=
  (iq <= iq0 \/ (S iq0 = iq /\ ik <= ik0)) /\ (S iq0 < iq' \/ (S iq0 = iq' /\ ik0 < ik')).

Lemma progress_mono iq ik l iq' ik' : progress nq nmodes nk nbnd W G iq ik l iq' ik' -> iq < iq' \/ (iq = iq' /\ ik <= ik').
Proof. induction 1; lia. Qed.
Lemma parts_read iq ik l iq' ik' : progress nq nmodes nk nbnd W G iq ik l iq' ik' -> forall rest w g, sound w g ->
  exists w' g', prtgkk nq nmodes nk nbnd w g (Z.of_nat iq - 1) (ik_of iq ik) [] (map nl (flat_map part_lines l) ++ rest) =
      prtgkk nq nmodes nk nbnd w' g' (Z.of_nat iq' - 1) (ik_of iq' ik') [] rest /\
    sound w' g' /\ grows w w' g g' /\
    (forall iq0 ik0 j i nu, ik0 < nk -> in_between iq ik iq' ik' iq0 ik0 -> j < nbnd -> i < nbnd -> nu < nmodes -> w' iq0 nu <> None /\ g' iq0 nu ik0 i j <> None) /\
    (forall iq0 ik0 j i nu, ~ in_between iq ik iq' ik' iq0 ik0 -> g' iq0 nu ik0 i j = g iq0 nu ik0 i j).
Proof.
  induction 1 as [iq ik|iq ik t l iq' ik' St Nq Nk _ IH|iq ik t l iq' ik' St Bq K P IH|iq ik t h1 h2 table l iq' ik' St S1 S2 Bk Lq Lk T P IH]; intros rest w g S0.
  - exists w, g. split; [reflexivity|]. split; [exact S0|]. split; [split; auto|]. split; [unfold in_between; intros; lia|reflexivity].
  - cbn [flat_map part_lines app map prtgkk]. rewrite (begins_no _ t iq_nl St Nq), (begins_no _ t ik_nl St Nk). apply IH; assumption.
  - cbn [flat_map part_lines app map prtgkk]. rewrite (begins_yes _ t iq_nl St Bq), (begins_no _ t ik_nl St (iq_not_ik _ Bq)).
    destruct (IH rest w g S0) as (w' & g' & E & S' & Gr & A & U). replace (Z.of_nat iq - 1 + 1)%Z with (Z.of_nat (S iq) - 1)%Z by lia. exists w', g'.
    split; [exact E|]. split; [exact S'|]. split; [exact Gr|]. split.
    + intros iq0 ik0 j i nu K0 Lt. apply A; [exact K0|]. unfold in_between in *. lia.
    + intros iq0 ik0 j i nu Lt. apply U. unfold in_between in *. lia.
  - cbn [flat_map part_lines app map prtgkk].
    assert (Bq : ~ begins "     iq = " t) by (intros B; exact (iq_not_ik _ B Bk)).
    rewrite (begins_no _ t iq_nl St Bq), (begins_yes _ t ik_nl St Bk). cbn [ik_of requests prtgkk]. rewrite map_app, <- app_assoc.
    replace (Z.of_nat (S iq) - 1)%Z with (Z.of_nat iq) in * by lia. replace (Z.of_nat ik - 1 + 1)%Z with (Z.of_nat ik) by lia.
    destruct (rows_read iq ik Lq Lk (loops nbnd nmodes) table (map nl (flat_map part_lines l) ++ rest) w g S0 (loops_table _ _ _ T)) as (w1 & g1 & E1 & S1' & G1 & A1 & U1).
    rewrite E1. cbn [ik_of] in IH. replace (Z.of_nat (S ik) - 1)%Z with (Z.of_nat ik) in IH by lia.
    destruct (IH rest w1 g1 S1') as (w' & g' & E & S' & Gr & A & U). exists w', g'. split; [exact E|]. split; [exact S'|]. split; [exact (grows_trans _ _ _ _ _ _ G1 Gr)|].
    split; [|intros iq0 ik0 j i nu Lt; pose proof (progress_mono _ _ _ _ _ P); unfold in_between in Lt; rewrite U by (unfold in_between; lia); apply U1; lia].
    intros iq0 ik0 j i nu K0 Lt Hj Hi Hn. unfold in_between in Lt.
    destruct (Nat.eq_dec iq0 iq) as [->|Dq]; [destruct (Nat.eq_dec ik0 ik) as [->|Dk]|].
    + destruct (A1 j i nu (loops_in j i nu Hj Hi Hn)) as [B1 B2]. split; [apply (proj1 Gr), B1|apply (proj2 Gr), B2].
    + apply A; try assumption. unfold in_between. lia.
    + apply A; try assumption. unfold in_between. lia.
Qed.

(** Too few lines *)
Lemma too_short : forall idx table w g iq ik, length table < length idx ->
  Forall (fun l => exists x y, table_line x y l) table -> iq < nq -> ik < nk ->
  prtgkk nq nmodes nk nbnd w g (Z.of_nat iq) (Some (Z.of_nat ik)) (map (fun '(j, i, nu) => ToRead j i nu) idx) (map nl table) = Raise StopIteration.
Proof.
  induction idx as [|[[j i] nu] idx IH]; intros table w g iq ik L F Hq Hk; [cbn in L; lia|]. destruct table as [|l table]; [reflexivity|].
  apply Forall_cons_iff in F as [(x & y & ws & a & b & Sl & Ra & Rb) F]. cbn [map prtgkk]. rewrite (spaced_nl _ _ Sl), end2. cbn [bind]. unfold real in Ra, Rb. rewrite Ra. cbn [bind]. rewrite (index_nat nq iq Hq). cbn [bind].
  rewrite end1. cbn [bind]. rewrite Rb. cbn [bind]. rewrite (index_nat nk ik Hk). cbn [bind]. apply IH; [cbn in L; lia|exact F|exact Hq|exact Hk].
Qed.
Lemma loops_length : length (loops nbnd nmodes) = nbnd * nbnd * nmodes.
Proof.
  unfold loops. rewrite (length_flat_const _ (nbnd * nmodes)); [rewrite seq_length; lia|]. intros j. rewrite (length_flat_const _ nmodes); [rewrite seq_length; lia|]. intros i. rewrite map_length, seq_length. reflexivity.
Qed.
End Data.

Lemma progress_single nq nmodes nk nbnd W G iq ik l iq' ik' : progress nq nmodes nk nbnd W G iq ik l iq' ik' -> forall t, In t (flat_map part_lines l) -> single t.
Proof.
  induction 1 as [|iq ik t l iq' ik' St _ _ _ IH|iq ik t l iq' ik' St _ _ _ IH|iq ik t h1 h2 table l iq' ik' St S1 S2 _ _ _ T _ IH]; intros u J; cbn [flat_map part_lines app] in J.
  - destruct J.
  - destruct J as [<-|J]; [exact St|apply IH, J].
  - destruct J as [<-|J]; [exact St|apply IH, J].
  - destruct J as [<-|[<-|[<-|J]]]; [exact St|exact S1|exact S2|]. apply in_app_or in J as [J|J]; [|apply IH, J].
    apply (loops_table _ _ W G) in T. clear -T J. revert J. induction T as [|[[j i] nu] y li ly (ws & a & b & S' & _) T IHT]; intros [].
    + subst. exact (spaced_single _ _ S').
    + apply IHT. assumption.
Qed.
Lemma lines_nl ls : (forall l, In l ls -> single l) -> lines (file_of ls) = map nl ls.
Proof. exact (lines_file ls). Qed.

(** ** Range-separation parameter *)
Definition last_of (L : option Q) (l : list remark) : option Q :=
  fold_left (fun L r => match r with Note _ _ => L | Lvalue d _ _ => match to_float d with Ok x => Some x | _ => L end end) l L.
Lemma remarks_read l : forall L, Forall good_remark l -> search_L L (map nl (map remark_line l)) = Ok (last_of L l).
Proof.
  induction l as [|[ws t|d more t] l IH]; intros L H; [reflexivity| |]; apply Forall_cons_iff in H as [H Hl].
  - destruct H as [S0 N]. cbn [map remark_line search_L]. rewrite (spaced_nl _ _ S0). destruct ws as [|w ws]; [exact (IH L Hl)|].
    destruct (NmlModel.teqb w §"L") eqn:E; [apply NmlProofs.teqb_eq in E; subst w; exfalso; exact (N ws eq_refl)|exact (IH L Hl)].
  - destruct H as [S0 (x & R)]. cbn [map remark_line search_L]. rewrite (spaced_nl _ _ S0). rewrite NmlProofs.teqb_refl. unfold real in R. rewrite R. cbn [bind].
    change (last_of L (Lvalue d more t :: l)) with (last_of (match to_float d with Ok x => Some x | _ => L end) l). rewrite R. exact (IH (Some x) Hl).
Qed.
