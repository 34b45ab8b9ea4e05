(** Properties of reading couplings on meshes of q and k points from the output of EPW *)
From Coq Require Import Lia Lqa Qabs.
From Verif Require Import Text TextProofs EpwoModel EpwoSpec EpwoProofs EpwmModel EpwmSpec EpwmProofs TabProofs TabProofs2 GridProofs.
From Verif Require Import GridProps EpwoProps.
From Coq Require Import List QArith.
Import ListNotations.
Local Open Scope nat_scope.

Lemma position_first q iq : iq < length q -> (position (nth iq q (0, 0)%Z) q = iq <-> ~ In (nth iq q (0, 0)%Z) (firstn iq q)).
Proof.
  revert iq. induction q as [|r q IH]; intros iq H; [cbn in H; lia|]. destruct iq as [|iq].
  - cbn [nth position firstn]. assert (same r r = true) as -> by (apply same_eq; reflexivity). split; [intros _ []|reflexivity].
  - cbn [nth position firstn]. cbn in H. specialize (IH iq ltac:(lia)). destruct (same r (nth iq q (0, 0)%Z)) eqn:E.
    + apply same_eq in E. split; [lia|]. intros N. exfalso. apply N. left. exact E.
    + split.
      * intros J [J'|J']; [assert (same r (nth iq q (0, 0)%Z) = true) by (apply same_eq; exact J'); congruence|]. apply IH; [lia|exact J'].
      * intros N. f_equal. apply IH. intros J. apply N. right. exact J.
Qed.

Section Both.
Context {V : Type}.
Variables (decode : list text -> res V) (row : V -> text -> Prop).
Hypothesis row_ok : forall v l, row v l -> decode (str_split (nl l)) = Ok v.
Lemma read_both scale q nq nmodes nk bands eps G l : (0 <= eps < 1 # 2)%Q -> output row nq nk nmodes bands eps G None l ->
  exists warning e, read_with decode scale q nq nmodes nk bands eps (file_with l) = Ok (warning, e) /\
    (forall iq nu k1 k2 i j, iq < length q -> nu < nmodes -> i < bands -> j < bands ->
      let p := nth iq q (0, 0)%Z in let k := (Z.of_nat k1, Z.of_nat k2) in
      (~ In p (firstn iq q) /\ given nq nk eps p k l -> e iq nu k1 k2 i j = Some (scale (G p nu k i j))) /\
      (In p (firstn iq q) \/ ~ given nq nk eps p k l -> e iq nu k1 k2 i j = None)) /\
    (warning = true <-> exists iq nu k1 k2 i j, iq < length q /\ nu < nmodes /\ k1 < nk /\ k2 < nk /\ i < bands /\ j < bands /\ e iq nu k1 k2 i j = None).
Proof.
  intros He O. unfold read_with, file_with. rewrite lines_nl by exact (output_single _ _ _ _ _ _ _ _ _ O).
  destruct (scan_output decode row row_ok q nq nk nmodes bands eps G He None l O (fun _ _ _ _ _ _ => None) q None (0, 0)) as (e & E & A); [discriminate|apply incl_refl|].
  rewrite E. cbn [bind]. eexists _, _. split; [reflexivity|]. split.
  - intros iq nu k1 k2 i j B1 B2 B3 B4. cbv zeta. set (p := nth iq q (0, 0)%Z). set (k := (Z.of_nat k1, Z.of_nat k2)). destruct (A iq nu k1 k2 i j B1 B2 B3 B4) as [A1 A2]. fold p in A1, A2. fold k in A1, A2. split.
    + intros [N Gv]. rewrite A2; [reflexivity|]. right. split; [apply nth_In, B1|]. split; [apply position_first; [exact B1|exact N]|exact Gv].
    + intros N. destruct A1 as [->|[C _]]; [reflexivity|]. exfalso. destruct C as [[C _]|(_ & C2 & C3)]; [discriminate|]. apply (position_first q iq B1) in C2. destruct N as [N|N]; [exact (C2 N)|exact (N C3)].
  - rewrite any_nan_iff. split; intros (iq & nu & k1 & k2 & i & j & H1 & H2 & H3 & H4 & H5 & H6 & H); exists iq, nu, k1, k2, i, j; repeat (split; [assumption|]); destruct (e iq nu k1 k2 i j); cbn in *; congruence.
Qed.
End Both.

(** ** C126 *)

(** The coupling at each selected q point is that of the first table for this point, in units of eV;
    everything else is NaN: k points that are not there, q points that are not there and repeated q
    points. There is a warning if and only if there is an element NaN. *)
Theorem C126_couplings q nq nmodes nk bands eps G l : (0 <= eps < 1 # 2)%Q -> output row_real nq nk nmodes bands eps G None l ->
  exists warning e, read_EPW_output q nq nmodes nk bands eps (file_with l) = Ok (warning, e) /\
    (forall iq nu k1 k2 i j, iq < length q -> nu < nmodes -> i < bands -> j < bands ->
      let p := nth iq q (0, 0)%Z in let k := (Z.of_nat k1, Z.of_nat k2) in
      (~ In p (firstn iq q) /\ given nq nk eps p k l -> e iq nu k1 k2 i j = Some (G p nu k i j * (1 # 1000))%Q) /\
      (In p (firstn iq q) \/ ~ given nq nk eps p k l -> e iq nu k1 k2 i j = None)) /\
    (warning = true <-> exists iq nu k1 k2 i j, iq < length q /\ nu < nmodes /\ k1 < nk /\ k2 < nk /\ i < bands /\ j < bands /\ e iq nu k1 k2 i j = None).
Proof.
  intros He O. refine (read_both _ row_real _ _ q nq nmodes nk bands eps G l He O). intros v t (ws & b & Sp & R). rewrite (spaced_nl _ _ Sp). unfold from_end. rewrite rev_app_distr. exact R.
Qed.
Print Assumptions C126_couplings.

(** Likewise for complex couplings *)
Theorem C126_complex factor q nq nmodes nk bands eps G l : (0 <= eps < 1 # 2)%Q -> output row_complex nq nk nmodes bands eps G None l ->
  exists warning e, read_EPW_output_epf factor q nq nmodes nk bands eps (file_with l) = Ok (warning, e) /\
    (forall iq nu k1 k2 i j, iq < length q -> nu < nmodes -> i < bands -> j < bands ->
      let p := nth iq q (0, 0)%Z in let k := (Z.of_nat k1, Z.of_nat k2) in
      (~ In p (firstn iq q) /\ given nq nk eps p k l -> e iq nu k1 k2 i j = Some (fst (G p nu k i j) * factor, snd (G p nu k i j) * factor)%Q) /\
      (In p (firstn iq q) \/ ~ given nq nk eps p k l -> e iq nu k1 k2 i j = None)) /\
    (warning = true <-> exists iq nu k1 k2 i j, iq < length q /\ nu < nmodes /\ k1 < nk /\ k2 < nk /\ i < bands /\ j < bands /\ e iq nu k1 k2 i j = None).
Proof.
  intros He O. refine (read_both _ row_complex _ _ q nq nmodes nk bands eps G l He O). intros [x y] t (ws & a & b & Sp & Ra & Rb). rewrite (spaced_nl _ _ Sp), end2. cbn [bind]. unfold real in Ra, Rb. cbn [fst snd] in *. rewrite Ra. cbn [bind]. rewrite end1. cbn [bind]. rewrite Rb. reflexivity.
Qed.
Print Assumptions C126_complex.

(** If there is a table for every k point below every selected q point and no q point is selected
    twice, everything is read, and there is no warning. *)
Theorem C126_complete q nq nmodes nk bands eps G l : (0 <= eps < 1 # 2)%Q -> output row_real nq nk nmodes bands eps G None l -> NoDup q ->
  (forall p k1 k2, In p q -> k1 < nk -> k2 < nk -> given nq nk eps p (Z.of_nat k1, Z.of_nat k2) l) ->
  exists e, read_EPW_output q nq nmodes nk bands eps (file_with l) = Ok (false, e) /\
    forall iq nu k1 k2 i j, iq < length q -> nu < nmodes -> k1 < nk -> k2 < nk -> i < bands -> j < bands ->
      e iq nu k1 k2 i j = Some (G (nth iq q (0, 0)%Z) nu (Z.of_nat k1, Z.of_nat k2) i j * (1 # 1000))%Q.
Proof.
  intros He O Nd Hg. destruct (C126_couplings q nq nmodes nk bands eps G l He O) as (warning & e & E & A & W).
  assert (B : forall iq nu k1 k2 i j, iq < length q -> nu < nmodes -> k1 < nk -> k2 < nk -> i < bands -> j < bands -> e iq nu k1 k2 i j = Some (G (nth iq q (0, 0)%Z) nu (Z.of_nat k1, Z.of_nat k2) i j * (1 # 1000))%Q).
  { intros iq nu k1 k2 i j H1 H2 H3 H4 H5 H6. destruct (A iq nu k1 k2 i j H1 H2 H5 H6) as [A1 _]. apply A1. split; [|apply Hg; [apply nth_In, H1|exact H3|exact H4]].
    intros J. apply (In_nth _ _ (0, 0)%Z) in J as (m & Hm & Em). rewrite firstn_length in Hm.
    assert (Em' : nth m q (0, 0)%Z = nth iq q (0, 0)%Z).
    { rewrite <- Em. clear -Hm. assert (m < iq) by lia. clear Hm. revert m iq H. induction q as [|r q IH]; intros m iq H; [rewrite firstn_nil; destruct m; reflexivity|]. destruct iq as [|iq]; [lia|]. destruct m as [|m]; [reflexivity|]. cbn [firstn nth]. apply IH. lia. }
    apply (proj1 (NoDup_nth q (0, 0)%Z) Nd) in Em'; lia. }
  exists e. split; [|exact B]. rewrite E. f_equal. f_equal. destruct warning; [|reflexivity]. exfalso. destruct (proj1 W eq_refl) as (iq & nu & k1 & k2 & i & j & H1 & H2 & H3 & H4 & H5 & H6 & H). rewrite B in H by assumption. discriminate.
Qed.
Print Assumptions C126_complete.

(** A q point that is selected twice is NaN the second time, although its couplings are there. *)
Theorem C126_repeated q nq nmodes nk bands eps G l : (0 <= eps < 1 # 2)%Q -> output row_real nq nk nmodes bands eps G None l ->
  exists warning e, read_EPW_output q nq nmodes nk bands eps (file_with l) = Ok (warning, e) /\
    forall iq iq' nu k1 k2 i j, iq < iq' < length q -> nth iq q (0, 0)%Z = nth iq' q (0, 0)%Z -> nu < nmodes -> i < bands -> j < bands -> e iq' nu k1 k2 i j = None.
Proof.
  intros He O. destruct (C126_couplings q nq nmodes nk bands eps G l He O) as (warning & e & E & A & W). exists warning, e. split; [exact E|].
  intros iq iq' nu k1 k2 i j [H1 H2] Eq H3 H4 H5. destruct (A iq' nu k1 k2 i j H2 H3 H4 H5) as [_ A2]. apply A2. left. rewrite <- Eq.
  clear -H1 H2. revert iq iq' H1 H2. induction q as [|r q IH]; intros iq iq' H1 H2; [cbn in H2; lia|]. destruct iq' as [|iq']; [lia|]. cbn [firstn]. destruct iq as [|iq]; [left; reflexivity|]. right. apply IH; cbn in H2; lia.
Qed.
Print Assumptions C126_repeated.

(** A mesh of 2 times 2 q points, of which one is selected, and a single k point; one band, one mode *)
Definition some_line (kind a b : string) : text := str "    " ++ line_of [kind; "="; "1"; a; b; "0.0"]%string.
Lemma spaced_gap ws g t : ws <> [] -> gap g -> spaced ws t -> spaced ws (g ++ t).
Proof. intros N Hg Sp. destruct Sp as [|s w ws t Hs Hw Ht Sp]; [congruence|]. rewrite app_assoc. apply Spaced_word; try assumption. apply Forall_app. split; assumption. Qed.
Lemma some_point kind u v a b : word (str kind) -> word (str u) -> word (str v) -> real (str u) a -> real (str v) b -> single (some_line kind u v) -> begins ("     " ++ kind ++ " = ")%string (some_line kind u v) ->
  point_line ("     " ++ kind ++ " = ")%string a b (some_line kind u v).
Proof.
  intros Wk Wu Wv Ru Rv S0 B. split; [exact S0|]. split; [exact B|]. exists (map str [kind; "="; "1"]%string), (str u), (str v), (str "0.0"). split; [|split; assumption].
  apply spaced_gap; [discriminate|repeat constructor; discriminate|]. apply (spaced_line [kind; "="; "1"; u; v; "0.0"]%string).
  apply Forall_cons; [exact Wk|]. apply Forall_cons; [split; [discriminate|repeat constructor]|]. apply Forall_cons; [split; [discriminate|repeat constructor]|]. apply Forall_cons; [exact Wu|]. apply Forall_cons; [exact Wv|]. apply Forall_cons; [split; [discriminate|repeat constructor]|apply Forall_nil].
Qed.
Definition value_line (g : string) : text := line_of ["1"; "7"; g]%string.
Definition mesh_items : list item :=
  [Other (str "     Electron-phonon vertex |g| (meV)"); Qpoint (some_line "iq" "0.25" "0.0") (25 # 100) (0 # 10); Kpoint (some_line "ik" "0.0" "0.0") (0 # 10) (0 # 10) (str " ibnd") (str "-----") [value_line "9"];
   Qpoint (some_line "iq" "0.5" "-0.5") (5 # 10) (-5 # 10); Kpoint (some_line "ik" "0.5" "0.0") (5 # 10) (0 # 10) (str " ibnd") (str "-----") [value_line "8"]; Kpoint (some_line "ik" "0.0" "1.0") (0 # 10) (10 # 10) (str " ibnd") (str "-----") [value_line "5"]].
Definition mesh_G (p : Z * Z) (nu : nat) (k : Z * Z) (i j : nat) : Q := 5%Q.
Ltac quiet_tac := split; [single_tac|split; begins_no].
Ltac word_tac := split; [discriminate|repeat constructor].
Ltac point_tac kind := apply (some_point kind); [word_tac|word_tac|word_tac|reflexivity|reflexivity|single_tac|eexists; reflexivity].
Lemma half_off (x : Q) n : (x * inject_Z (Z.of_nat n) == 1 # 2)%Q -> off n (1 # 10000) x.
Proof.
  intros E z. rewrite E. destruct (Z_le_gt_dec z 0) as [L|L].
  - rewrite Zle_Qle in L. rewrite Qabs_pos by (change (inject_Z 0) with 0%Q in L; lra). change (inject_Z 0) with 0%Q in L. lra.
  - assert (L' : (1 <= z)%Z) by lia. rewrite Zle_Qle in L'. change (inject_Z 1) with 1%Q in L'. rewrite Qabs_neg by lra. lra.
Qed.
Lemma mesh_ok : output row_real 2 1 1 1 (1 # 10000) mesh_G None mesh_items.
Proof.
  unfold mesh_items. apply Output_other; [quiet_tac|].
  apply Output_q_off; [point_tac "iq"%string|left; apply half_off; reflexivity|].
  apply Output_k_off; [point_tac "ik"%string|left; reflexivity|quiet_tac|quiet_tac|apply Forall_cons; [quiet_tac|apply Forall_nil]|].
  apply (Output_q _ _ _ _ _ _ _ _ _ _ _ (1, 1)%Z); [point_tac "iq"%string|split; (split; [cbn; lia|])|].
  { exists 0%Z. vm_compute. discriminate. } { exists (-1)%Z. vm_compute. discriminate. }
  apply Output_k_off; [point_tac "ik"%string|right; left; apply half_off; reflexivity|quiet_tac|quiet_tac|apply Forall_cons; [quiet_tac|apply Forall_nil]|].
  apply (Output_k _ _ _ _ _ _ _ _ _ _ _ (0, 0)%Z); [point_tac "ik"%string|split; (split; [cbn; lia|])|quiet_tac|quiet_tac|apply Forall_cons; [quiet_tac|apply Forall_nil]| |apply Output_end].
  { exists 0%Z. vm_compute. discriminate. } { exists 1%Z. vm_compute. discriminate. }
  split; [reflexivity|]. intros j i nu Hj Hi Hn. destruct j; [|lia]. destruct i; [|lia]. destruct nu; [|lia]. exists (map str ["1"; "7"]%string), (str "5"). split; [|reflexivity]. apply (spaced_line ["1"; "7"; "5"]%string). words_tac.
Qed.
Example C126_example : output row_real 2 1 1 1 (1 # 10000) mesh_G None mesh_items /\
  match read_EPW_output [(1, 1)]%Z 2 1 1 1 (1 # 10000) (file_with mesh_items) with Ok (w, e) => w = false /\ e 0 0 0 0 0 0 = Some (5 # 1000)%Q | _ => False end /\
  match read_EPW_output [(1, 1); (1, 1)]%Z 2 1 1 1 (1 # 10000) (file_with mesh_items) with Ok (w, e) => w = true /\ e 1 0 0 0 0 0 = None | _ => False end.
Proof. split; [exact mesh_ok|]. vm_compute. repeat split. Qed.
Example C126_example_complex : output row_complex 2 1 1 1 (1 # 10000) (fun _ _ _ _ _ => (7, 5)%Q) None (skipn 3 mesh_items) /\
  match read_EPW_output_epf (1 # 2) [(1, 1)]%Z 2 1 1 1 (1 # 10000) (file_with (skipn 3 mesh_items)) with Ok (w, e) => w = false /\ e 0 0 0 0 0 0 = Some (7 # 2, 5 # 2)%Q | _ => False end.
Proof.
  split; [|vm_compute; repeat split]. cbn [skipn mesh_items].
  apply (Output_q _ _ _ _ _ _ _ _ _ _ _ (1, 1)%Z); [point_tac "iq"%string|split; (split; [cbn; lia|])|].
  { exists 0%Z. vm_compute. discriminate. } { exists (-1)%Z. vm_compute. discriminate. }
  apply Output_k_off; [point_tac "ik"%string|right; left; apply half_off; reflexivity|quiet_tac|quiet_tac|apply Forall_cons; [quiet_tac|apply Forall_nil]|].
  apply (Output_k _ _ _ _ _ _ _ _ _ _ _ (0, 0)%Z); [point_tac "ik"%string|split; (split; [cbn; lia|])|quiet_tac|quiet_tac|apply Forall_cons; [quiet_tac|apply Forall_nil]| |apply Output_end].
  { exists 0%Z. vm_compute. discriminate. } { exists 1%Z. vm_compute. discriminate. }
  split; [reflexivity|]. intros j i nu Hj Hi Hn. destruct j; [|lia]. destruct i; [|lia]. destruct nu; [|lia]. exists [str "1"], (str "7"), (str "5"). split; [|split; reflexivity]. apply (spaced_line ["1"; "7"; "5"]%string). words_tac.
Qed.
