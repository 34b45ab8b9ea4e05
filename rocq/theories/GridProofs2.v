From Coq Require Import QArith Qabs Lqa Lia.
From Verif Require Import Text TextProofs NmlModel NmlProofs GridModel GridSpec TabProofs TabProofs2 TabProofs3 GridProofs.
From Coq Require Import List.
Import ListNotations.
Local Open Scope nat_scope.

(** ** POSCAR files *)
Lemma firstn_app3 {A} (ws flags : list A) : length ws = 3 -> firstn 3 (ws ++ flags) = ws.
Proof. intros H. rewrite firstn_app, H, Nat.sub_diag, app_nil_r, <- H. apply firstn_all. Qed.
Lemma poscar_positions l : forall ls rest, Forall2 position_line l ls -> poscar_atoms (length l) (map nl ls ++ rest) = Ok (l, rest).
Proof.
  induction l as [|v l IH]; intros ls rest H; inversion H as [|? t ? ls' (ws & fl & S0 & Rw) Hl]; subst; [reflexivity|].
  clear H. cbn [length map app poscar_atoms next bind]. rewrite (spaced_nl _ _ S0). rewrite firstn_app3 by exact (reals_length _ _ Rw).
  rewrite (reals_floats _ _ Rw). cbn [bind]. rewrite set3_vec. cbn [bind]. rewrite IH by exact Hl. reflexivity.
Qed.
Lemma poscar_short l : forall k ls, Forall2 position_line l ls -> length l < k -> poscar_atoms k (map nl ls) = Raise StopIteration.
Proof.
  induction l as [|v l IH]; intros k ls H L; inversion H as [|? t ? ls' (ws & fl & S0 & Rw) Hl]; subst; (destruct k as [|k]; [lia|]); [reflexivity|].
  clear H. cbn [length map app poscar_atoms next bind]. rewrite (spaced_nl _ _ S0). rewrite firstn_app3 by exact (reals_length _ _ Rw).
  rewrite (reals_floats _ _ Rw). cbn [bind]. rewrite set3_vec. cbn [bind]. rewrite IH by (exact Hl || (cbn in L; lia)). reflexivity.
Qed.
Definition counted (l : list (text * list vec)) : list (text * Z) := map (fun x => (fst x, Z.of_nat (length (snd x)))) l.
Definition stored (l : list (text * list vec)) (d : dict (list vec)) : dict (list vec) := fold_left (fun d x => dset d (fst x) (snd x)) l d.
Lemma poscar_kinds l : forall d ls rest, Forall2 position_line (flat_map snd l) ls ->
  poscar_elements (counted l) d (map nl ls ++ rest) = Ok (stored l d).
Proof.
  induction l as [|[x v] l IH]; intros d ls rest H; [reflexivity|]. cbn [flat_map snd] in H. apply Forall2_app_inv_l in H as (l1 & l2 & H1 & H2 & ->).
  cbn [counted map poscar_elements fst snd]. rewrite empty_nat. cbn [bind]. rewrite map_app, <- app_assoc, poscar_positions by exact H1. cbn [bind].
  unfold counted in IH. rewrite (IH _ l2) by exact H2. reflexivity.
Qed.
(** Without the first atom, the file ends too early. *)
Lemma poscar_kinds_short l : forall d m ls, Forall2 position_line m ls -> length m < length (flat_map snd l) ->
  poscar_elements (counted l) d (map nl ls) = Raise StopIteration.
Proof.
  induction l as [|[x v] l IH]; intros d m ls H L; [cbn in L; lia|]. cbn [flat_map snd] in L. rewrite app_length in L.
  cbn [counted map poscar_elements fst snd]. rewrite empty_nat. cbn [bind].
  destruct (le_lt_dec (length v) (length m)) as [Hv|Hv].
  - rewrite <- (firstn_skipn (length v) m) in H. apply Forall2_app_inv_l in H as (l1 & l2 & H1 & H2 & ->).
    rewrite map_app. replace (length v) with (length (firstn (length v) m)) by (rewrite firstn_length; lia).
    rewrite poscar_positions by exact H1. cbn [bind]. unfold counted in IH. apply (IH _ (skipn (length v) m)); [exact H2|rewrite skipn_length; lia].
  - rewrite (poscar_short m _ _ H Hv). reflexivity.
Qed.
Lemma stored_other l : forall d x, ~ In x (map fst l) -> dget (stored l d) x = dget d x.
Proof.
  induction l as [|[y w] l IH]; intros d x H; [reflexivity|]. change (stored ((y, w) :: l) d) with (stored l (dset d y w)). rewrite IH by (intros J; apply H; right; exact J).
  rewrite dget_dset. destruct (teqb y x) eqn:E; [|reflexivity]. apply teqb_eq in E. exfalso. apply H. left. exact E.
Qed.
Lemma stored_last d x v l1 l2 : ~ In x (map fst l2) -> dget (stored (l1 ++ (x, v) :: l2) d) x = Some v.
Proof.
  intros H. unfold stored. rewrite fold_left_app. cbn [fold_left fst snd]. fold (stored l1 d). fold (stored l2 (dset (stored l1 d) x v)). rewrite stored_other by exact H.
  rewrite dget_dset, teqb_refl. reflexivity.
Qed.
Lemma ints_read ws ns : Forall2 (fun w n => integer w (Z.of_nat n)) ws ns -> map_all to_int ws = Ok (map Z.of_nat ns).
Proof. induction 1 as [|w n ws ns H _ IH]; [reflexivity|]. unfold integer in H. cbn [map_all map]. rewrite H. cbn [bind]. rewrite IH. reflexivity. Qed.
Lemma combine_counted l : combine (map fst l) (map Z.of_nat (map (fun x => length (snd x)) l)) = counted l.
Proof. unfold counted. induction l as [|x l IH]; [reflexivity|]. cbn [map combine]. rewrite IH. reflexivity. Qed.

Definition listed (v : vec) : list Q := [fst (fst v); snd (fst v); snd v].

(** [float] strips white space. *)
Lemma float_spaced w l x : spaced [w] l -> real w x -> to_float (nl l) = Ok x.
Proof.
  intros H R. inversion H as [|s w' ws t G W _ T]; subst. inversion T as [g G'|]; subst. unfold real, to_float in *. unfold nl.
  rewrite <- !app_assoc. rewrite strip_word; [|apply gap_spaces, G|exact W|].
  - rewrite <- (app_nil_r w), <- (app_nil_l (w ++ [])) in R. rewrite strip_word in R by first [exact W|constructor]. exact R.
  - apply Forall_app. split; [apply gap_spaces, G'|constructor; [reflexivity|constructor]].
Qed.

Lemma poscar_lines selective p rest f : poscar_file selective p rest f ->
  exists la mode,
  Forall2 position_line (flat_map snd (p_atoms p)) la /\
  readPOSCAR f = do (l, ls) <- next (map nl ((match selective with Some l => [l] | None => [] end) ++ mode :: la ++ rest)) ;; do (l, ls) <- next ls ;;
    do atoms <- poscar_elements (counted (p_atoms p)) [] ls ;; Ok (listed (p_t1 p), listed (p_t2 p), listed (p_t3 p), atoms).
Proof.
  intros (title & scale & l1 & l2 & l3 & names & counts & mode & la & w & ws & -> & Si & Sw & Rw & (w1 & S1 & R1) & (w2 & S2 & R2) & (w3 & S3 & R3) & Sn & Sc & Ic & Fa).
  exists la, mode. split; [exact Fa|]. unfold readPOSCAR. rewrite lines_file.
  2: { rewrite Forall_forall in Si. intros l J. repeat (destruct J as [<-|J]; [first [apply Si; left; reflexivity|eapply spaced_single; eassumption]|]).
    apply in_app_or in J as [J|J]; [apply Si; do 2 right; apply in_or_app; left; exact J|]. destruct J as [<-|J]; [apply Si; right; left; reflexivity|].
    apply in_app_or in J as [J|J]; [|apply Si; do 2 right; apply in_or_app; right; exact J].
    eapply Forall2_single; [|exact Fa|exact J]. intros a t (ws' & fl & S' & _). exact (spaced_single _ _ S'). }
  change (fun l => l ++ [newline]) with nl. cbn [map next bind]. rewrite (float_spaced w scale _ Sw Rw). cbn [bind].
  rewrite (spaced_nl _ _ S1), (spaced_nl _ _ S2), (spaced_nl _ _ S3), (spaced_nl _ _ Sn), (spaced_nl _ _ Sc).
  rewrite (reals_floats _ _ R1). cbn [bind]. rewrite (reals_floats _ _ R2). cbn [bind]. rewrite (reals_floats _ _ R3). cbn [bind].
  rewrite (ints_read _ _ Ic). cbn [bind]. rewrite combine_counted. reflexivity.
Qed.
Lemma poscar_selective s p rest f : poscar_file (Some s) p rest f -> readPOSCAR f = Ok (listed (p_t1 p), listed (p_t2 p), listed (p_t3 p), stored (p_atoms p) []).
Proof.
  intros H. destruct (poscar_lines _ _ _ _ H) as (la & mode & Fa & E). rewrite E. cbn [app map next bind]. rewrite map_app. rewrite poscar_kinds by exact Fa. reflexivity.
Qed.
Lemma poscar_plain p f : poscar_file None p [] f -> flat_map snd (p_atoms p) <> [] -> readPOSCAR f = Raise StopIteration.
Proof.
  intros H N. destruct (poscar_lines _ _ _ _ H) as (la & mode & Fa & E). rewrite E. cbn [app map next bind]. rewrite app_nil_r.
  destruct (flat_map snd (p_atoms p)) as [|v m] eqn:Em; [contradiction|]. inversion Fa as [|? t ? ls Hv Hl]; subst. cbn [map next bind].
  rewrite (poscar_kinds_short _ _ m ls Hl); [reflexivity|]. assert (X : length (flat_map snd (p_atoms p)) = S (length m)) by (rewrite Em; reflexivity).
  eapply Nat.lt_le_trans; [apply Nat.lt_succ_diag_r|]. apply Nat.eq_le_incl. symmetry. exact X.
Qed.

(** ** Grids *)
Local Open Scope Q_scope.
Lemma linspace_0 n : (0 < n)%nat -> linspace n 0 == 0.
Proof.
  intros H. unfold linspace. destruct (n =? 1)%nat; [reflexivity|]. change (inject_Z (Z.of_nat 0)) with 0. unfold Qdiv. ring.
Qed.
Lemma linspace_step n i : (2 <= n)%nat -> linspace n (S i) == linspace n i + 1 / inject_Z (Z.of_nat n - 1).
Proof.
  intros H. unfold linspace. destruct (Nat.eqb_spec n 1); [lia|]. replace (Z.of_nat (S i)) with (Z.of_nat i + 1)%Z by lia. rewrite inject_Z_plus.
  change (inject_Z 1) with 1. field. unfold Qeq. cbn. lia.
Qed.
Lemma linspace_end n : (2 <= n)%nat -> linspace n (n - 1) == 1.
Proof.
  intros H. unfold linspace. destruct (Nat.eqb_spec n 1); [lia|]. replace (Z.of_nat (n - 1)) with (Z.of_nat n - 1)%Z by lia. field. unfold Qeq. cbn. lia.
Qed.
Lemma linspace_at n i : (2 <= n)%nat -> linspace n i == inject_Z (Z.of_nat i) / inject_Z (Z.of_nat n - 1).
Proof. intros H. unfold linspace. destruct (Nat.eqb_spec n 1); [lia|]. reflexivity. Qed.
