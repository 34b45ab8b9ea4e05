(** C114: electron-phonon coupling in XML files. *)
From Coq Require Import Qabs Lqa Lia.
From Verif Require Import Common CommonProofs Text TextProofs TextE TextEProofs MPIModel MPIProofs CoulModel XmlModel XmlSpec XmlProofs.
Local Open Scope nat_scope.

(** The files that are written can be opened. *)
Definition stored (open : Z -> Z -> res text) b1 b2 (data : coupling) : Prop :=
  forall i j t, write_xml_files b1 b2 data i j = Some t -> open i j = Ok t.

Lemma read_part open a1 a2 b1 b2 nQ nmodes nk nbands g sel garbage rep iq : reciprocal a1 a2 b1 b2 -> (Z.of_nat nk <= 1000000)%Z -> stored open b1 b2 (Six nQ nmodes nk nbands g) ->
  (0 <= iq < Z.of_nat nQ)%Z -> (forall r, In r rep -> (0 <= r < Z.of_nat nmodes)%Z) ->
  map_res (fun irep => do file <- open (iq + 1)%Z (irep + 1)%Z ;; read_file true a1 a2 nk (map sel (seq 0 nbands)) garbage file) rep =
  Ok (map (fun irep => fold_left (fun acc k => fold_left (step (g (Z.to_nat iq) (Z.to_nat irep)) sel (fst k) (snd k)) (list_prod (seq 0 nbands) (seq 0 nbands)) acc) (list_prod (seq 0 nk) (seq 0 nk)) garbage) rep).
Proof.
  intros RC HN ST Hq Hr. apply map_res_all. intros irep I. specialize (Hr irep I). rewrite (ST (iq + 1)%Z (irep + 1)%Z (file_text b1 b2 nk nbands (g (Z.to_nat iq) (Z.to_nat irep)))).
  - cbn [bind]. apply read_file_ok; assumption.
  - unfold write_xml_files. destruct (Z.leb_spec 1 (iq + 1)); [|lia]. destruct (Z.leb_spec (iq + 1) (Z.of_nat nQ)); [|lia]. destruct (Z.leb_spec 1 (irep + 1)); [|lia]. destruct (Z.leb_spec (irep + 1) (Z.of_nat nmodes)); [|lia]. cbn [andb].
    rewrite !Z.add_simpl_r. reflexivity.
Qed.

(** Coupling written to files is read from them (with [old=True]): for any number of
    processes and any choice of q points, representations and distinct bands, the elements
    agree with the original ones in 15 decimal digits after the first one. *)
Theorem C114_round_trip : forall a1 a2 b1 b2 open garbage nproc nQ nmodes nk nbands g q rep bands squeeze,
  (0 < nproc)%Z -> reciprocal a1 a2 b1 b2 -> (Z.of_nat nk <= 1000000)%Z ->
  stored open b1 b2 (Six nQ nmodes nk nbands g) ->
  (forall i, In i q -> (0 <= i < Z.of_nat nQ)%Z) -> (forall i, In i rep -> (0 <= i < Z.of_nat nmodes)%Z) -> distinct_below nbands bands ->
  exists h, read_xml_files a1 a2 open garbage nproc q rep bands nbands nk squeeze true = Ok ((length bands =? 1) && squeeze, h)%bool /\
  forall n m k1 k2 s t iq irep i j, nth_error q n = Some iq -> nth_error rep m = Some irep -> k1 < nk -> k2 < nk -> nth_error bands s = Some i -> nth_error bands t = Some j ->
    let x := g (Z.to_nat iq) (Z.to_nat irep) k1 k2 (Z.to_nat i) (Z.to_nat j) in
    same_digits (fst x) (fst (h n m k1 k2 s t)) /\ same_digits (snd x) (snd (h n m k1 k2 s t)).
Proof.
  intros a1 a2 b1 b2 open garbage nproc nQ nmodes nk nbands g q rep bands squeeze Hp RC HN ST Hq Hr Hb. destruct (band_select_ok nbands bands 0 (fun _ => None) Hb) as (sel & Es & P1 & P2 & _). unfold read_xml_files. rewrite Es. cbn [bind].
  rewrite scatter_compute_gather_serial by exact Hp. cbn [bind].
  set (val := fun iq irep => fold_left (fun acc k => fold_left (step (g (Z.to_nat iq) (Z.to_nat irep)) sel (fst k) (snd k)) (list_prod (seq 0 nbands) (seq 0 nbands)) acc) (list_prod (seq 0 nk) (seq 0 nk)) garbage).
  assert (EQ : map_res (fun r : res (list matrices) => r) (map (fun iq => map_res (fun irep => do file <- open (iq + 1)%Z (irep + 1)%Z ;; read_file true a1 a2 nk (map sel (seq 0 nbands)) garbage file) rep) q) = Ok (map (fun iq => map (val iq) rep) q)).
  { clear - ST Hq Hr RC HN. induction q as [|iq q IH]; [reflexivity|]. cbn [map map_res]. rewrite (read_part open a1 a2 b1 b2 nQ nmodes nk nbands g sel garbage rep iq RC HN ST (Hq iq ltac:(left; reflexivity)) Hr). cbn [bind]. rewrite IH by (intros i I; apply Hq; right; exact I). reflexivity. }
  rewrite EQ. cbn [bind]. eexists. split; [reflexivity|]. intros n m k1 k2 s t iq irep i j En Em H1 H2 Ei Ej. cbv zeta beta.
  assert (V : nth m (nth n (map (fun iq => map (val iq) rep) q) []) garbage = val iq irep).
  { rewrite (nth_error_nth (map (fun iq => map (val iq) rep) q) n [] (x := map (val iq) rep)) by exact (map_nth_error (fun iq => map (val iq) rep) n q En). apply nth_error_nth. apply map_nth_error. exact Em. }
  rewrite V. unfold val.
  destruct Hb as [ND B]. pose proof (B i (nth_error_In _ _ Ei)). pose proof (B j (nth_error_In _ _ Ej)).
  assert (U : forall s i, nth_error bands s = Some i -> (0 <= i)%Z -> forall i' m', sel i' = Some m' -> m' = s -> i' = Z.to_nat i).
  { intros s' i' E' P i'' m' Hs ->. destruct (P2 i'' s' Hs) as [X|(s'' & -> & X)]; [discriminate|]. cbn [Nat.add] in E'. rewrite X in E'. injection E' as <-. rewrite Nat2Z.id. reflexivity. }
  rewrite (values_ok nk nbands (g (Z.to_nat iq) (Z.to_nat irep)) sel k1 k2 s t (Z.to_nat i) (Z.to_nat j) garbage); try assumption; try lia; [|exact (P1 s i Ei)|exact (P1 t j Ej)|apply (U s i Ei); lia|apply (U t j Ej); lia].
  unfold round2. cbn [fst snd]. split; apply (rounded_E_near 15).
Qed.
Print Assumptions C114_round_trip.

(** By default ([old=False]), files that have been written cannot be read. *)
Theorem C114_default_refuted : forall a1 a2 b1 b2 open garbage nproc nQ nmodes nk nbands g q rep bands squeeze iq irep,
  (0 < nproc)%Z -> stored open b1 b2 (Six nQ nmodes nk nbands g) -> (0 <= iq < Z.of_nat nQ)%Z -> (0 <= irep < Z.of_nat nmodes)%Z -> distinct_below nbands bands ->
  read_xml_files a1 a2 open garbage nproc (iq :: q) (irep :: rep) bands nbands nk squeeze false = Raise ValueError.
Proof.
  intros a1 a2 b1 b2 open garbage nproc nQ nmodes nk nbands g q rep bands squeeze iq irep Hp ST Hq Hr Hb. destruct (band_select_ok nbands bands 0 (fun _ => None) Hb) as (sel & Es & _). unfold read_xml_files. rewrite Es. cbn [bind].
  rewrite scatter_compute_gather_serial by exact Hp. cbn [bind map map_res]. rewrite (ST (iq + 1)%Z (irep + 1)%Z (file_text b1 b2 nk nbands (g (Z.to_nat iq) (Z.to_nat irep)))).
  - cbn [bind]. rewrite read_file_new. reflexivity.
  - unfold write_xml_files. destruct (Z.leb_spec 1 (iq + 1)); [|lia]. destruct (Z.leb_spec (iq + 1) (Z.of_nat nQ)); [|lia]. destruct (Z.leb_spec 1 (irep + 1)); [|lia]. destruct (Z.leb_spec (irep + 1) (Z.of_nat nmodes)); [|lia]. cbn [andb].
    rewrite !Z.add_simpl_r. reflexivity.
Qed.
Print Assumptions C114_default_refuted.

(** The axes of k points of an array for a single band (as returned by the function that
    reads files) are mistaken for axes of bands: The files are those of a single k point,
    and cannot be read as coupling of a single band. *)
Definition squeezed : nat -> nat -> nat -> nat -> cx := fun _ _ k1 k2 => (inject_Z (Z.of_nat (2 * k1 + k2 + 1)), 1)%Q.
Theorem C114_squeezed_refuted : forall b1 b2 n g nQ nmodes,
  (forall i j, write_xml_files b1 b2 (Four nQ nmodes n g) i j = write_xml_files b1 b2 (Six nQ nmodes 1 n (fun iq irep _ _ => g iq irep)) i j) /\
  read_xml_files (1, 0)%Q (0, 1)%Q (fun i j => match write_xml_files (1, 0)%Q (0, 1)%Q (Four 1 1 2 squeezed) i j with Some t => Ok t | None => Raise FileNotFoundError end)
    (fun _ _ _ _ => (0, 0)%Q) 1 [0%Z] [0%Z] [0%Z] 1 2 true true = Raise StopIteration.
Proof. intros. split; [reflexivity|vm_compute; reflexivity]. Qed.
Print Assumptions C114_squeezed_refuted.

(** Two by two k points, three bands, two of which are read in another order; vectors with
    the rounding errors of floats *)
Definition example_data : nat -> nat -> matrices := fun iq irep k1 k2 i j => (Qmake (Z.of_nat (1 + iq + 2 * irep + 3 * k1 + 5 * k2 + 7 * i) * (-1) ^ Z.of_nat j) 7, Qmake (Z.of_nat j) 3).
Example C114_example : reciprocal (1, 0)%Q (-1 # 2, 866025403784 # 1000000000000)%Q (1, 577350269190 # 1000000000000)%Q (0, 1154700538379 # 1000000000000)%Q /\
  distinct_below 3 [2; 0]%Z /\
  match read_xml_files (1, 0)%Q (-1 # 2, 866025403784 # 1000000000000)%Q
    (fun i j => match write_xml_files (1, 577350269190 # 1000000000000)%Q (0, 1154700538379 # 1000000000000)%Q (Six 2 2 2 3 example_data) i j with Some t => Ok t | None => Raise FileNotFoundError end)
    (fun _ _ _ _ => (0, 0)%Q) 2 [1; 0]%Z [0%Z] [2; 0]%Z 3 2 true true with
  | Ok (squeezed, h) => squeezed = false /\ (fst (h 0 0 1 0 1 1)%nat == 7142857142857143 # 10000000000000000)%Q /\ (fst (h 0 0 1 0 1 0)%nat == 7142857142857143 # 10000000000000000)%Q /\ (snd (h 0 0 1 0 1 0)%nat == 6666666666666667 # 10000000000000000)%Q
  | Raise _ => False
  end.
Proof.
  split; [unfold reciprocal, moderate, close, scalar; cbn [fst snd]; repeat split; vm_compute; discriminate|]. split; [split; [repeat constructor; cbn; intuition lia|cbn; intuition lia]|].
  vm_compute. repeat split; reflexivity.
Qed.
