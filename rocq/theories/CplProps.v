(** C115: matrix elements from files, completed by symmetry. *)
From Coq Require Import Lia.
From Verif Require Import Common CommonProofs Text TextProofs MPIModel MPIProofs CoulModel SymModel SymSpec SymProofs SymProofs3 SymProps CplModel CplSpec CplProofs.
Local Open Scope nat_scope.

Lemma fold_left_same {A B} (f g : A -> B -> A) l : (forall a x, In x l -> f a x = g a x) -> forall a, fold_left f l a = fold_left g l a.
Proof. induction l as [|x l IH]; intros H a; [reflexivity|]. cbn [fold_left]. rewrite (H a x) by (left; reflexivity). apply IH. intros b y I. apply H. right. exact I. Qed.

Lemma complete_k_same {V} nq nk (w w' : nat -> pt -> V) : (forall n k, In k (mesh2 nk) -> w n k = w' n k) -> complete_k nq nk w = complete_k nq nk w'.
Proof.
  intros H. unfold complete_k. destruct (irreducibles nq 60) as [irr|]; [|reflexivity]. cbn [bind]. f_equal. f_equal. apply fold_left_same. intros st sym _. apply fold_left_same. intros [dn m] x _.
  unfold complete_k_step. destruct (pt_mem _ dn); [reflexivity|]. f_equal. apply fold_left_same. intros a k I. rewrite H by exact I. reflexivity.
Qed.

Lemma sorted_length nq irr : (0 < nq)%Z -> irreducibles nq 60 = Ok irr -> length (sorted_points nq irr) = length irr.
Proof.
  intros Hq E. destruct (C20_irreducibles nq 60 ltac:(left; reflexivity) Hq) as (irr' & E' & ND & HI). rewrite E in E'. injection E' as <-. apply Permutation.Permutation_length, Permutation.NoDup_Permutation; [apply NoDup_filter, mesh2_NoDup|exact ND|].
  intros q. rewrite sorted_points_in. split; [tauto|]. intros I. split; [apply HI, I|exact I].
Qed.

(** The files with numbers [qs] exist and have the entries [es]. *)
Definition described (open : Z -> res text) (phase : bool) (nmodes nk : nat) (offset : Z) (qs : list Z) (es : Z -> list entry) : Prop :=
  forall iq, In iq qs -> exists t, open iq = Ok t /\ file_states phase (lines t) (es iq) /\ Forall (valid nmodes nk offset) (es iq).

(** The numbers of the files that are read *)
Definition numbers (nQ : nat) (qs : option (list Z)) : list Z := match qs with Some qs => qs | None => map (fun n => Z.of_nat n + 1)%Z (seq 0 nQ) end.

Lemma coupling_ok open phase nproc nQ nmodes nk bands qs nq offset (completion complete_k squeeze : bool) es : (0 < nproc)%Z ->
  described open phase nmodes nk offset (numbers nQ qs) es ->
  exists elph : nat -> elements, (forall n iq, nth_error (numbers nQ qs) n = Some iq -> exists d,
      (forall nu k1 k2 i j, i < bands -> j < bands -> d nu k1 k2 i j = stated offset (es iq) nu k1 k2 i j) /\ elph n = if completion then completed nk d else d) /\
    coupling open nproc nQ nmodes nk bands qs nq offset completion complete_k squeeze phase =
      do g <- (match nq with
        | Some (S m) => if complete_k then on_mesh (S m) nmodes nk bands (length (numbers nQ qs)) elph else Ok (Listed elph)
        | _ => Ok (Listed elph)
        end) ;; Ok ((bands =? 1) && squeeze, g)%bool.
Proof.
  intros Hp HD. unfold coupling. change (match qs with Some qs0 => qs0 | None => map (fun n => (Z.of_nat n + 1)%Z) (seq 0 nQ) end) with (numbers nQ qs). set (l := numbers nQ qs) in *. clearbody l.
  rewrite scatter_compute_gather_serial by exact Hp. cbn [bind].
  assert (E : exists ds, map_res (fun r : res elements => r) (map (fun iq => do file <- open iq ;; do d <- read_lines phase offset nmodes nk bands (lines file) ;; Ok (if completion then completed nk d else d)) l) = Ok ds /\
    forall n iq, nth_error l n = Some iq -> exists d, (forall nu k1 k2 i j, i < bands -> j < bands -> d nu k1 k2 i j = stated offset (es iq) nu k1 k2 i j) /\ nth n ds (fun _ _ _ _ _ => None) = if completion then completed nk d else d).
  { clear - HD. induction l as [|iq l IH]; [exists []; split; [reflexivity|intros [|n] ? H; discriminate]|].
    destruct IH as (ds & E & P); [intros i I; apply HD; right; exact I|]. destruct (HD iq ltac:(left; reflexivity)) as (t & Ho & Hf & Hv). destruct (read_lines_ok phase offset nmodes nk bands (lines t) (es iq) Hf Hv) as (d & Ed & Pd).
    cbn [map map_res]. rewrite Ho. cbn [bind]. rewrite Ed. cbn [bind]. rewrite E. cbn [bind]. eexists. split; [reflexivity|]. intros [|n] iq' Hn; cbn [nth_error nth] in *; [|exact (P n iq' Hn)]. injection Hn as <-. exists d. split; [exact Pd|reflexivity]. }
  destruct E as (ds & E & P). rewrite E. cbn [bind]. exists (fun n => nth n ds (fun _ _ _ _ _ => None)). split; [exact P|reflexivity].
Qed.

(** Without completion, every element is the last one given for the indices, or NaN; for
    any number of processes. *)
Theorem C115_entries : forall open phase nproc nQ nmodes nk bands qs nq offset squeeze es, (0 < nproc)%Z ->
  described open phase nmodes nk offset (numbers nQ qs) es ->
  exists h, coupling open nproc nQ nmodes nk bands qs nq offset false false squeeze phase = Ok ((bands =? 1) && squeeze, Listed h)%bool /\
  forall n iq nu k1 k2 i j, nth_error (numbers nQ qs) n = Some iq -> i < bands -> j < bands -> h n nu k1 k2 i j = stated offset (es iq) nu k1 k2 i j.
Proof.
  intros open phase nproc nQ nmodes nk bands qs nq offset squeeze es Hp HD. destruct (coupling_ok open phase nproc nQ nmodes nk bands qs nq offset false false squeeze es Hp HD) as (h & P & E). exists h. split; [rewrite E; destruct nq as [[|m]|]; reflexivity|].
  intros n iq nu k1 k2 i j Hn Hi Hj. destruct (P n iq Hn) as (d & Pd & ->). apply Pd; assumption.
Qed.
Print Assumptions C115_entries.

(** The entries of a file agree with a function and include one k point of each class of
    equivalent ones for all modes and bands. *)
Definition agrees (offset : Z) (nmodes bands nk : nat) (F : nat -> pt -> nat -> nat -> value) (es : list entry) : Prop :=
  forall e nu k1 k2 i j, In e es -> k1 < nk -> k2 < nk -> i < bands -> j < bands -> is_for offset nu k1 k2 i j e = true -> e_value e = F nu (Z.of_nat k1, Z.of_nat k2) i j.
Definition includes (offset : Z) (nmodes bands : nat) (points : list pt) (es : list entry) : Prop :=
  forall nu k i j, In k points -> nu < nmodes -> i < bands -> j < bands -> exists e, In e es /\ is_for offset nu (Z.to_nat (fst k)) (Z.to_nat (snd k)) i j e = true.

Lemma stated_in offset es nu k1 k2 i j v : stated offset es nu k1 k2 i j = Some v -> exists e, In e es /\ is_for offset nu k1 k2 i j e = true /\ e_value e = v.
Proof.
  unfold stated. destruct (rev (filter (is_for offset nu k1 k2 i j) es)) as [|e r] eqn:E; [discriminate|]. cbn. intros H. injection H as <-. exists e. assert (I : In e (filter (is_for offset nu k1 k2 i j) es)) by (apply in_rev; rewrite E; left; reflexivity). apply filter_In in I as [I1 I2]. auto.
Qed.
Lemma stated_some offset es nu k1 k2 i j e : In e es -> is_for offset nu k1 k2 i j e = true -> stated offset es nu k1 k2 i j <> None.
Proof.
  intros I F. unfold stated. assert (X : In e (rev (filter (is_for offset nu k1 k2 i j) es))) by (apply -> in_rev; apply filter_In; auto). destruct (rev (filter (is_for offset nu k1 k2 i j) es)); [contradiction|discriminate].
Qed.

Lemma in_mesh_nat nk k : in_mesh (Z.of_nat nk) k -> Z.to_nat (fst k) < nk /\ Z.to_nat (snd k) < nk /\ (Z.of_nat (Z.to_nat (fst k)), Z.of_nat (Z.to_nat (snd k))) = k.
Proof. intros [[A B] [C D]]. split; [lia|]. split; [lia|]. rewrite !Z2Nat.id by lia. symmetry. apply surjective_pairing. Qed.

(** If the elements for each file are symmetric as a function of the k point, those at
    irreducible k points are sufficient. *)
Theorem C115_completed : forall open phase nproc nQ nmodes nk bands qs offset squeeze es irr (F : Z -> nat -> pt -> nat -> nat -> value), (0 < nproc)%Z -> 0 < nk ->
  described open phase nmodes nk offset (numbers nQ qs) es ->
  irreducibles (Z.of_nat nk) 60 = Ok irr ->
  (forall iq nu i j k k', in_mesh (Z.of_nat nk) k -> in_mesh (Z.of_nat nk) k' -> equivalent 60 (Z.of_nat nk) k k' -> F iq nu k i j = F iq nu k' i j) ->
  (forall iq, In iq (numbers nQ qs) -> agrees offset nmodes bands nk (F iq) (es iq) /\ includes offset nmodes bands irr (es iq)) ->
  exists h, coupling open nproc nQ nmodes nk bands qs None offset true false squeeze phase = Ok ((bands =? 1) && squeeze, Listed h)%bool /\
  forall n iq nu k1 k2 i j, nth_error (numbers nQ qs) n = Some iq -> nu < nmodes -> k1 < nk -> k2 < nk -> i < bands -> j < bands ->
    h n nu k1 k2 i j = Some (F iq nu (Z.of_nat k1, Z.of_nat k2) i j).
Proof.
  intros open phase nproc nQ nmodes nk bands qs offset squeeze es irr F Hp Hn HD EI HF HE. destruct (coupling_ok open phase nproc nQ nmodes nk bands qs None offset true false squeeze es Hp HD) as (h & P & E). exists h. split; [rewrite E; reflexivity|].
  intros n iq nu k1 k2 i j Hq Hnu H1 H2 Hi Hj. destruct (P n iq Hq) as (d & Pd & ->). unfold completed. destruct (HE iq (nth_error_In _ _ Hq)) as [HA HI].
  apply (C21_irreducible veqb veqb_ok 60 (Z.of_nat nk) (fun k => F iq nu k i j) _ irr); [left; reflexivity|lia|intros; apply HF; assumption| |exact EI| |split; cbn [fst snd]; lia].
  - intros k v Hk Hv. rewrite Pd in Hv by assumption. apply stated_in in Hv as (e & Ie & Fe & <-). destruct (in_mesh_nat nk k Hk) as (B1 & B2 & B3). rewrite <- B3. apply (HA e nu _ _ i j Ie B1 B2 Hi Hj Fe).
  - intros k Ik. rewrite Pd by assumption. destruct (HI nu k i j Ik Hnu Hi Hj) as (e & Ie & Fe). apply (stated_some offset (es iq) nu _ _ i j e Ie Fe).
Qed.
Print Assumptions C115_completed.

(** If the elements are invariant under simultaneous symmetry operations on both arguments,
    those for the irreducible q points (in ascending order) yield them for all q points. *)
Theorem C115_mesh : forall open phase nproc nQ nmodes nk bands qs nq offset completion squeeze es irr (F : nat -> nat -> nat -> pt -> pt -> value), (0 < nproc)%Z -> 0 < nk -> 0 < nq ->
  described open phase nmodes nk offset (numbers nQ qs) es ->
  irreducibles (Z.of_nat nq) 60 = Ok irr -> length (numbers nQ qs) = length irr ->
  (forall nu i j sym q k, In sym (syms 60 true) -> in_mesh (Z.of_nat nq) q -> in_mesh (Z.of_nat nk) k ->
     F nu i j (get_image 60 (Z.of_nat nq) sym q) (get_image 60 (Z.of_nat nk) sym k) = F nu i j q k) ->
  (forall n iq q, nth_error (numbers nQ qs) n = Some iq -> nth_error (sorted_points (Z.of_nat nq) irr) n = Some q ->
     agrees offset nmodes bands nk (fun nu k i j => F nu i j q k) (es iq) /\ includes offset nmodes bands (mesh2 (Z.of_nat nk)) (es iq)) ->
  exists h, coupling open nproc nQ nmodes nk bands qs (Some nq) offset completion true squeeze phase = Ok ((bands =? 1) && squeeze, Meshed h)%bool /\
  forall q1 q2 nu k1 k2 i j, q1 < nq -> q2 < nq -> nu < nmodes -> k1 < nk -> k2 < nk -> i < bands -> j < bands ->
    h q1 q2 nu k1 k2 i j = Some (Some (F nu i j (Z.of_nat q1, Z.of_nat q2) (Z.of_nat k1, Z.of_nat k2))).
Proof.
  intros open phase nproc nQ nmodes nk bands qs nq offset completion squeeze es irr F Hp Hn Hq HD EI EL HF HE. destruct (coupling_ok open phase nproc nQ nmodes nk bands qs (Some nq) offset completion true squeeze es Hp HD) as (g & P & E).
  destruct nq as [|m]; [lia|]. rewrite E. unfold on_mesh. rewrite EI. cbn [bind]. rewrite EL, Nat.ltb_irrefl, Bool.andb_false_r. cbn [bind]. eexists. split; [reflexivity|].
  intros q1 q2 nu k1 k2 i j Hq1 Hq2 Hnu H1 H2 Hi Hj. cbv beta.
  pose (wedge := fun n k => if existsb (fun p => if pt_eq_dec p k then true else false) (mesh2 (Z.of_nat nk)) then g n nu (Z.to_nat (fst k)) (Z.to_nat (snd k)) i j else Some (F nu i j (nth n (sorted_points (Z.of_nat (S m)) irr) (0, 0)%Z) k)).
  assert (W : forall n q, nth_error (sorted_points (Z.of_nat (S m)) irr) n = Some q -> forall k, in_mesh (Z.of_nat nk) k -> g n nu (Z.to_nat (fst k)) (Z.to_nat (snd k)) i j = Some (F nu i j q k)).
  { intros n q Hnq k Hk. assert (Ln : n < length (numbers nQ qs)). { rewrite EL. pose proof (nth_error_Some (sorted_points (Z.of_nat (S m)) irr) n) as X. rewrite Hnq in X. rewrite <- (sorted_length (Z.of_nat (S m)) irr ltac:(lia) EI). apply X. discriminate. }
    destruct (nth_error (numbers nQ qs) n) as [iq|] eqn:Eq; [|apply nth_error_None in Eq; lia]. destruct (HE n iq q Eq Hnq) as [HA HI]. destruct (P n iq Eq) as (d & Pd & ->). destruct (in_mesh_nat nk k Hk) as (B1 & B2 & B3).
    assert (V : d nu (Z.to_nat (fst k)) (Z.to_nat (snd k)) i j = Some (F nu i j q k)).
    { rewrite Pd by assumption. destruct (HI nu k i j ltac:(apply in_mesh2; exact Hk) Hnu Hi Hj) as (e & Ie & Fe). pose proof (stated_some offset (es iq) nu _ _ i j e Ie Fe) as NN. destruct (stated offset (es iq) nu (Z.to_nat (fst k)) (Z.to_nat (snd k)) i j) as [v|] eqn:Es; [|contradiction].
      apply stated_in in Es as (e' & Ie' & Fe' & <-). rewrite (HA e' nu _ _ i j Ie' B1 B2 Hi Hj Fe'), B3. reflexivity. }
    destruct completion; [|exact V]. unfold completed. rewrite B3. apply (C21_keeps veqb veqb_ok 60); [left; reflexivity|lia|exact V]. }
  destruct (C77_complete_k (Z.of_nat (S m)) (Z.of_nat nk) (fun q k => Some (F nu i j q k)) wedge irr) as (mm & Em & Pm); [lia|lia|intros; rewrite HF by assumption; reflexivity|exact EI| |].
  { intros n q Hnq k. unfold wedge. destruct (existsb (fun p => if pt_eq_dec p k then true else false) (mesh2 (Z.of_nat nk))) eqn:Ex.
    - apply existsb_exists in Ex as (p & Ip & Ep). destruct (pt_eq_dec p k) as [->|]; [|discriminate]. apply W; [exact Hnq|apply in_mesh2; exact Ip].
    - f_equal. f_equal. apply nth_error_nth. exact Hnq. }
  assert (EQ : complete_k (Z.of_nat (S m)) (Z.of_nat nk) (fun iq k => g iq nu (Z.to_nat (fst k)) (Z.to_nat (snd k)) i j) = complete_k (Z.of_nat (S m)) (Z.of_nat nk) wedge) by (apply complete_k_same; intros n k Ik; unfold wedge; replace (existsb (fun p => if pt_eq_dec p k then true else false) (mesh2 (Z.of_nat nk))) with true; [reflexivity|]; symmetry; apply existsb_exists; exists k; split; [exact Ik|]; destruct (pt_eq_dec k k); [reflexivity|contradiction]).
  rewrite EQ, Em. apply Pm; split; cbn [fst snd]; lia.
Qed.
Print Assumptions C115_mesh.

(** Bands up to the offset are not skipped: their elements overwrite those of other bands,
    or there is an error. *)
Definition two_bands : text := §"1 1 2 2 1 5.0" ++ [newline] ++ §"1 1 1 1 1 7.0" ++ [newline].
Theorem C115_offset_refuted :
  match coupling (fun _ => Ok two_bands) 1 1 1 1 1 None None 1 false false true false with Ok (true, Listed h) => h 0 0 0 0 0 0 = Some (7, 0)%Q | _ => False end /\
  coupling (fun _ => Ok two_bands) 1 1 1 1 1 None None 2 false false true false = Raise IndexError /\
  exists e f, file_states false (lines two_bands) [e; f] /\ is_for 1 0 0 0 0 0 e = true /\ e_value e = (5, 0)%Q /\ e_i f = 1%Z.
Proof.
  split; [vm_compute; reflexivity|]. split; [vm_compute; reflexivity|].
  exists (Entry 1 1 2 2 1 (5, 0)%Q), (Entry 1 1 1 1 1 (7, 0)%Q). split; [|vm_compute; auto].
  apply next_entry; [|apply next_entry; [|apply no_lines]].
  - exists (§"1"), (§"1"), [], (§"2"), (§"2"), (§"1"), (§"5.0"), [], (50 # 10)%Q, 0%Q. repeat split; discriminate.
  - exists (§"1"), (§"1"), [], (§"1"), (§"1"), (§"1"), (§"7.0"), [], (70 # 10)%Q, 0%Q. repeat split; discriminate.
Qed.
Print Assumptions C115_offset_refuted.

(** Two irreducible points of a mesh of two by two points *)
Definition example_file : text := §"# k1 k2 jbnd ibnd nu g2" ++ [newline] ++ §"1 1 1 1 1 0.50" ++ [newline] ++ §"1 2 1 1 1 0.25" ++ [newline].
Definition example_entries : list entry := [Entry 1 1 1 1 1 (1 # 2, 0)%Q; Entry 1 2 1 1 1 (1 # 4, 0)%Q].
Definition example_F (iq : Z) (nu : nat) (k : pt) (i j : nat) : value := if pt_eq_dec k (0, 0)%Z then (1 # 2, 0)%Q else (1 # 4, 0)%Q.
Example C115_example : described (fun _ => Ok example_file) false 1 2 0 (numbers 3 None) (fun _ => example_entries) /\ irreducibles 2 60 = Ok [(0, 0); (0, 1)]%Z /\
  agrees 0 1 1 2 (example_F 1) example_entries /\ includes 0 1 1 [(0, 0); (0, 1)]%Z example_entries /\
  match coupling (fun _ => Ok example_file) 2 3 1 2 1 None None 0 true false true false with Ok (true, Listed h) => h 2 0 1 1 0 0 = Some (1 # 4, 0)%Q /\ h 1 0 0 0 0 0 = Some (1 # 2, 0)%Q | _ => False end.
Proof.
  split; [|split; [vm_compute; reflexivity|split; [|split; [|vm_compute; split; reflexivity]]]].
  - intros iq _. exists example_file. split; [reflexivity|]. split; [|unfold example_entries, valid; repeat apply Forall_cons; try apply Forall_nil; cbn [e_nu e_k1 e_k2 e_i e_j]; lia].
    apply skip_comment; [exists (§"#"), [§"k1"; §"k2"; §"jbnd"; §"ibnd"; §"nu"; §"g2"]; split; reflexivity|]. apply next_entry; [|apply next_entry; [|apply no_lines]].
    + exists (§"1"), (§"1"), [], (§"1"), (§"1"), (§"1"), (§"0.50"), [], (50 # 100)%Q, 0%Q. repeat split; discriminate.
    + exists (§"1"), (§"2"), [], (§"1"), (§"1"), (§"1"), (§"0.25"), [], (25 # 100)%Q, 0%Q. repeat split; discriminate.
  - intros e nu k1 k2 i j I H1 H2 Hi Hj. unfold is_for. rewrite !Bool.andb_true_iff, !Z.eqb_eq. intros ((((A & B) & C) & D) & X). unfold example_F. destruct I as [<-|[<-|[]]]; cbn [e_k1 e_k2 e_value] in *; destruct (pt_eq_dec _ _) as [E|E]; try reflexivity.
    + exfalso. apply E. f_equal; lia.
    + exfalso. injection E as E1 E2. lia.
  - intros nu k i j [<-|[<-|[]]] Hn Hi Hj; [exists (Entry 1 1 1 1 1 (1 # 2, 0)%Q)|exists (Entry 1 2 1 1 1 (1 # 4, 0)%Q)]; (split; [cbn; tauto|]); destruct nu; [|lia| |lia]; destruct i; [|lia| |lia]; destruct j; [|lia| |lia]; reflexivity.
Qed.

(** Two irreducible q points, one k point *)
Example C115_mesh_example :
  match coupling (fun iq => Ok (if (iq =? 1)%Z then §"1 1 1 1 1 0.50" ++ [newline] else §"1 1 1 1 1 0.25" ++ [newline])) 2 2 1 1 1 None (Some 2) 0 true true false false with
  | Ok (false, Meshed h) => h 0 0 0 0 0 0 0 = Some (Some (1 # 2, 0)%Q) /\ h 0 1 0 0 0 0 0 = Some (Some (1 # 4, 0)%Q) /\ h 1 1 0 0 0 0 0 = Some (Some (1 # 4, 0)%Q)
  | _ => False
  end /\
  forallb (fun sym => forallb (fun q => veqb (example_F 1 0 (get_image 60 2 sym q) 0 0) (example_F 1 0 q 0 0)) (mesh2 2)) (syms 60 true) = true.
Proof. split; [vm_compute; repeat split; reflexivity|vm_compute; reflexivity]. Qed.
