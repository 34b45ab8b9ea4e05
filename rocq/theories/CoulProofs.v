(** Proofs about files with Coulomb interactions. *)
From Coq Require Import Qabs Lia Lqa.
From Verif Require Import Text TextProofs HrProofs CoulModel CoulSpec.
Local Open Scope nat_scope.

(** ** Files with one element per line *)
Section Lines.
  Variables (step : tensor -> text -> res tensor) (p : list nat) (L : text -> Q * Q -> Prop) (M : text -> Prop).

  Lemma each_line_spec : forall ls U, (forall l, In l ls -> forall U, exists U', step U l = Ok U' /\ (forall v, L l v -> U' p = Some v) /\ (~ M l -> U' p = U p)) ->
    exists U', each_line step U ls = Ok U' /\
      (forall before l after v, ls = before ++ l :: after -> L l v -> (forall l', In l' after -> ~ M l') -> U' p = Some v) /\
      ((forall l, In l ls -> ~ M l) -> U' p = U p).
  Proof.
    induction ls as [|l ls IH]; intros U H.
    - exists U. split; [reflexivity|]. split; [intros [|? ?] ? ? ? E; discriminate|reflexivity].
    - destruct (H l (or_introl eq_refl) U) as (U1 & E1 & A1 & B1). destruct (IH U1 (fun l' Hl' => H l' (or_intror Hl'))) as (U2 & E2 & A2 & B2).
      exists U2. split; [cbn [each_line]; rewrite E1; exact E2|]. split.
      + intros [|b before] l' after v E HL HM; injection E as E0 E.
        * subst. rewrite B2 by exact HM. apply A1, HL.
        * apply (A2 before l' after v E HL HM).
      + intros HM. rewrite B2 by (intros l' Hl'; apply HM; right; exact Hl'). apply B1, HM. left. reflexivity.
  Qed.
End Lines.

Lemma each_line_sim (step step' : tensor -> text -> res tensor) (R : tensor -> tensor -> Prop) : forall ls,
  (forall l U U', In l ls -> R U U' -> exists V V', step U l = Ok V /\ step' U' l = Ok V' /\ R V V') ->
  forall U U', R U U' -> exists V V', each_line step U ls = Ok V /\ each_line step' U' ls = Ok V' /\ R V V'.
Proof.
  induction ls as [|l ls IH]; intros H U U' HR; [exists U, U'; auto|]. destruct (H l U U' (or_introl eq_refl) HR) as (V & V' & E & E' & HV).
  cbn [each_line]. rewrite E, E'. cbn [bind]. apply IH; [|exact HV]. intros l' W W' Hl. apply H. right. exact Hl.
Qed.

Lemma store_same U p v : store U p v p = Some v.
Proof. unfold store. destruct (list_eq_dec Nat.eq_dec p p); [reflexivity|contradiction]. Qed.
Lemma store_other U p v p' : p' <> p -> store U p v p' = U p'.
Proof. intros H. unfold store. destruct (list_eq_dec Nat.eq_dec p' p); [contradiction|reflexivity]. Qed.

Lemma position_in n i : i < n -> position n (Z.of_nat i) = Ok i.
Proof. intros H. unfold position. destruct (Z.leb_spec 0 (Z.of_nat i)); [|lia]. destruct (Z.ltb_spec (Z.of_nat i) (Z.of_nat n)); [|lia]. cbn [andb]. rewrite Nat2Z.id. reflexivity. Qed.
Lemma position_nonneg n z i : (0 <= z)%Z -> position n z = Ok i -> z = Z.of_nat i /\ i < n.
Proof.
  intros H. unfold position. destruct (Z.leb_spec 0 z); [|lia]. destruct (Z.ltb_spec z (Z.of_nat n)); cbn [andb].
  - intros E. injection E as <-. lia.
  - destruct (Z.ltb_spec z 0); [lia|]. rewrite andb_false_r. discriminate.
Qed.
Lemma position_error n z e : position n z = Raise e -> e = IndexError.
Proof. unfold position. destruct (_ && _); [discriminate|]. destruct (_ && _); [discriminate|]. intros H. injection H as <-. reflexivity. Qed.

Lemma map_res_nil {A B} (f : A -> res B) : map_res f [] = Ok [].
Proof. reflexivity. Qed.

(** [assign]: either the element is stored, or there is an IndexError. *)
Lemma assign_cases shape U zs v : (exists p, map_res (fun nz => position (fst nz) (snd nz)) (combine shape zs) = Ok p /\ assign shape U zs v = Ok (store U p v)) \/ assign shape U zs v = Raise IndexError.
Proof.
  unfold assign. destruct (map_res _ _) as [p|e] eqn:E; cbn [bind]; [left; exists p; auto|right]. f_equal.
  revert e E. generalize (combine shape zs) as l. induction l as [|[n z] l IH]; intros e E; [discriminate|]. cbn [map_res fst snd] in E.
  destruct (position n z) as [i|e'] eqn:P; cbn [bind] in E; [|injection E as <-; apply (position_error _ _ _ P)].
  destruct (map_res _ l) as [q|e']; cbn [bind] in E; [discriminate|]. injection E as <-. apply IH. reflexivity.
Qed.

Lemma assign_ok shape U p v : Forall2 lt p shape -> assign shape U (map Z.of_nat p) v = Ok (store U p v).
Proof.
  intros H. unfold assign. replace (map_res _ _) with (@Ok (list nat) p); [reflexivity|]. symmetry.
  induction H as [|i n p shape Hi _ IH]; [reflexivity|]. cbn [map combine map_res fst snd]. rewrite position_in by exact Hi. cbn [bind]. rewrite IH. reflexivity.
Qed.

Lemma assign_inv shape (U : tensor) zs (v : Q * Q) p : length zs = length shape -> Forall (fun z => (0 <= z)%Z) zs ->
  map_res (fun nz => position (fst nz) (snd nz)) (combine shape zs) = Ok p -> zs = map Z.of_nat p /\ Forall2 lt p shape.
Proof.
  revert shape p. induction zs as [|z zs IH]; intros [|n shape] p L F E; try discriminate; cbn [combine map_res fst snd] in E.
  - injection E as <-. split; [reflexivity|constructor].
  - inversion F as [|? ? Hz F']; subst. destruct (position n z) as [i|] eqn:P; cbn [bind] in E; [|discriminate].
    destruct (map_res _ _) as [q|] eqn:M; cbn [bind] in E; [|discriminate]. injection E as <-.
    apply (position_nonneg _ _ _ Hz) in P. destruct P as [-> Hi]. destruct (IH shape q ltac:(injection L as L; exact L) F' M) as [-> H2]. split; [reflexivity|constructor; assumption].
Qed.

(** ** Entries of the local tensor *)
Definition counted_entry (e : Z * Z * Z * Z * (Q * Q)) : Prop := let '(i, j, k, l, _) := e in (0 <= i /\ 0 <= j /\ 0 <= k /\ 0 <= l)%Z.

Lemma to_int_error w e : to_int w = Raise e -> e = ValueError.
Proof. unfold to_int. destruct (sign (strip w)) as [s t]. destruct (scan 0 0 t) as [[v k] r]. destruct k; [intros H; injection H as <-; reflexivity|]. destruct r; [discriminate|]. intros H; injection H as <-; reflexivity. Qed.
Lemma to_float_error w e : to_float w = Raise e -> e = ValueError.
Proof.
  unfold to_float. destruct (sign (strip w)) as [s t]. destruct (scan 0 0 t) as [[v k] r].
  assert (F : forall v' k' d' r', match k' with | 0 => Raise ValueError | S _ => match r' with | [] => Ok (power_of_ten (s * v') (- Z.of_nat d')) | c :: t0 =>
    if (Ascii.eqb c "e" || Ascii.eqb c "E")%bool then let '(se, t1) := sign t0 in let '(e0, ke, t2) := scan 0 0 t1 in match ke with | 0 => Raise ValueError | S _ => match t2 with | [] => Ok (power_of_ten (s * v') (se * e0 - Z.of_nat d')) | _ :: _ => Raise ValueError end end else Raise ValueError end end = Raise e -> e = ValueError).
  { intros v' k' d' r'. destruct k'; [intros H; injection H as <-; reflexivity|]. destruct r' as [|c t0]; [discriminate|]. destruct (_ || _); [|intros H; injection H as <-; reflexivity].
    destruct (sign t0) as [se t1]. destruct (scan 0 0 t1) as [[e0 ke] t2]. destruct ke; [intros H; injection H as <-; reflexivity|]. destruct t2; [discriminate|]. intros H; injection H as <-; reflexivity. }
  destruct r as [|c r']; [apply (F v k 0 [])|]. destruct (Ascii.eqb c "."); [|apply (F v k 0 (c :: r'))]. destruct (scan v 0 r') as [[v' k'] r'']. apply (F v' (k + k') k' r'').
Qed.
Lemma map_res_error {A B} (f : A -> res B) e0 : (forall x e, f x = Raise e -> e = e0) -> forall l e, map_res f l = Raise e -> e = e0.
Proof.
  intros H. induction l as [|x l IH]; intros e E; [discriminate|]. cbn [map_res] in E. destruct (f x) eqn:Ex; cbn [bind] in E; [|injection E as <-; apply (H _ _ Ex)].
  destruct (map_res f l) eqn:El; cbn [bind] in E; [discriminate|]. injection E as <-. apply IH. reflexivity.
Qed.
Lemma minus_one_error w e : minus_one w = Raise e -> e = ValueError.
Proof. unfold minus_one. destruct (to_int w) eqn:E; cbn [bind]; [discriminate|]. intros H; injection H as <-. apply (to_int_error _ _ E). Qed.

Lemma local_entry_error line e : local_entry line = Raise e -> e = ValueError.
Proof.
  unfold local_entry. destruct (map_res minus_one _) as [x|e'] eqn:E; cbn [bind].
  - destruct x as [|i [|j [|k [|l [|? ?]]]]]; try (intros H; injection H as <-; reflexivity).
    destruct (map_res to_float _) as [y|e'] eqn:E'; cbn [bind].
    + destruct y as [|re [|im [|? ?]]]; try (intros H; injection H as <-; reflexivity). discriminate.
    + intros H; injection H as <-. apply (map_res_error _ _ to_float_error _ _ E').
  - intros H; injection H as <-. apply (map_res_error _ _ minus_one_error _ _ E).
Qed.

Lemma minus_one_ok w z : minus_one w = Ok z <-> to_int w = Ok (z + 1)%Z.
Proof.
  unfold minus_one. destruct (to_int w) as [y|]; cbn [bind]; split; try discriminate; intros H; injection H as H; f_equal; lia.
Qed.

Lemma map_res_4 {A B} (f : A -> res B) l a b c d : map_res f l = Ok [a; b; c; d] -> exists x1 x2 x3 x4, l = [x1; x2; x3; x4] /\ f x1 = Ok a /\ f x2 = Ok b /\ f x3 = Ok c /\ f x4 = Ok d.
Proof.
  intros E. pose proof (map_res_length _ _ _ E) as L. destruct l as [|x1 [|x2 [|x3 [|x4 [|? ?]]]]]; try discriminate. exists x1, x2, x3, x4. split; [reflexivity|]. cbn [map_res] in E.
  destruct (f x1); [|discriminate]. destruct (f x2); [|discriminate]. destruct (f x3); [|discriminate]. destruct (f x4); [|discriminate]. cbn [bind] in E. injection E as -> -> -> ->. auto.
Qed.
Lemma map_res_2 {A B} (f : A -> res B) l a b : map_res f l = Ok [a; b] -> exists x1 x2, l = [x1; x2] /\ f x1 = Ok a /\ f x2 = Ok b.
Proof.
  intros E. pose proof (map_res_length _ _ _ E) as L. destruct l as [|x1 [|x2 [|? ?]]]; try discriminate. exists x1, x2. split; [reflexivity|]. cbn [map_res] in E.
  destruct (f x1); [|discriminate]. destruct (f x2); [|discriminate]. cbn [bind] in E. injection E as -> ->. auto.
Qed.

Lemma local_entry_words line i j k l v : local_entry line = Ok (i, j, k, l, v) <->
  exists w1 w2 w3 w4 w5 w6, str_split line = [w1; w2; w3; w4; w5; w6] /\ to_int w1 = Ok (i + 1)%Z /\ to_int w2 = Ok (j + 1)%Z /\ to_int w3 = Ok (k + 1)%Z /\ to_int w4 = Ok (l + 1)%Z /\ to_float w5 = Ok (fst v) /\ to_float w6 = Ok (snd v).
Proof.
  unfold local_entry. split.
  - destruct (map_res minus_one _) as [x|] eqn:E; cbn [bind]; [|discriminate].
    destruct x as [|i' [|j' [|k' [|l' [|? ?]]]]]; try discriminate. destruct (map_res to_float _) as [y|] eqn:E'; cbn [bind]; [|discriminate].
    destruct y as [|re [|im [|? ?]]]; try discriminate. intros H. injection H as -> -> -> -> <-.
    destruct (map_res_4 _ _ _ _ _ _ E) as (w1 & w2 & w3 & w4 & W & H1 & H2 & H3 & H4). destruct (map_res_2 _ _ _ _ E') as (w5 & w6 & W' & H5 & H6).
    apply minus_one_ok in H1, H2, H3, H4. exists w1, w2, w3, w4, w5, w6. split; [|auto 10]. rewrite <- (firstn_skipn 4 (str_split line)), W, W'. reflexivity.
  - intros (w1 & w2 & w3 & w4 & w5 & w6 & -> & H1 & H2 & H3 & H4 & H5 & H6). apply minus_one_ok in H1, H2, H3, H4. cbn [firstn skipn map_res]. rewrite H1, H2, H3, H4. cbn [bind]. rewrite H5, H6. cbn [bind]. destruct v; reflexivity.
Qed.

Lemma lists_local_entry line i j k l v : lists_local line i j k l v <-> local_entry line = Ok (Z.of_nat i, Z.of_nat j, Z.of_nat k, Z.of_nat l, v).
Proof.
  rewrite local_entry_words. split.
  - intros [line' w1 w2 w3 w4 w5 w6 i' j' k' l' re im H0 H1 H2 H3 H4 H5 H6]. exists w1, w2, w3, w4, w5, w6. cbn [fst snd]. auto 10.
  - intros (w1 & w2 & w3 & w4 & w5 & w6 & H0 & H1 & H2 & H3 & H4 & H5 & H6). destruct v as [re im]. econstructor; eassumption.
Qed.

Lemma counted_local line e : counted 0 line -> local_entry line = Ok e -> counted_entry e.
Proof.
  destruct e as [[[[i j] k] l] v]. intros C E. apply local_entry_words in E. destruct E as (w1 & w2 & w3 & w4 & w5 & w6 & H0 & H1 & H2 & H3 & H4 & _).
  unfold counted in C. rewrite H0 in C. cbn [skipn firstn] in C. cbn [counted_entry].
  pose proof (C w1 _ ltac:(cbn; auto) H1). pose proof (C w2 _ ltac:(cbn; auto) H2). pose proof (C w3 _ ltac:(cbn; auto) H3). pose proof (C w4 _ ltac:(cbn; auto) H4). lia.
Qed.

Lemma read_local_step no line i j k l U : counted 0 line -> i < no -> j < no -> k < no -> l < no ->
  exists U', read_local_line no false U line = Ok U' /\ (forall v, lists_local line i j k l v -> U' [i; j; k; l] = Some v) /\ (~ (exists v, lists_local line i j k l v) -> U' [i; j; k; l] = U [i; j; k; l]).
Proof.
  intros C Hi Hj Hk Hl. unfold read_local_line. destruct (local_entry line) as [e|x] eqn:E; cbn [bind].
  - pose proof (counted_local _ _ C E) as P. destruct e as [[[[i' j'] k'] l'] v]. cbn [counted_entry] in P. cbn [negb].
    destruct (assign_cases [no; no; no; no] U [i'; j'; k'; l'] v) as [(p & M & ->)|A].
    + exists (store U p v). split; [reflexivity|]. apply (assign_inv _ U _ v) in M; [|reflexivity|repeat constructor; lia]. destruct M as [M F].
      destruct p as [|a [|b [|c [|d [|? ?]]]]]; try discriminate. cbn [map] in M. injection M as -> -> -> ->. split.
      * intros v' HL. apply lists_local_entry in HL. rewrite HL in E. injection E as E1 E2 E3 E4 E5. apply Nat2Z.inj in E1, E2, E3, E4. subst. apply store_same.
      * intros NL. apply store_other. intros Eq. injection Eq as -> -> -> ->. apply NL. exists v. apply lists_local_entry, E.
    + rewrite A. exists U. split; [reflexivity|]. split; [|reflexivity]. intros v' HL. exfalso. apply lists_local_entry in HL. rewrite HL in E. injection E as <- <- <- <- <-.
      pose proof (assign_ok [no; no; no; no] U [i; j; k; l] v' ltac:(repeat constructor; assumption)) as A'. cbn [map] in A'. rewrite A' in A. discriminate.
  - rewrite (local_entry_error _ _ E). exists U. split; [reflexivity|]. split; [|reflexivity]. intros v HL. apply lists_local_entry in HL. rewrite HL in E. discriminate.
Qed.

Lemma below4 a b c d n1 n2 n3 n4 : Forall2 lt [a; b; c; d] [n1; n2; n3; n4] -> a < n1 /\ b < n2 /\ c < n3 /\ d < n4.
Proof. intros F. repeat match goal with H : Forall2 _ (_ :: _) _ |- _ => inversion H; clear H; subst end. auto. Qed.
Lemma below2 a b n1 n2 : Forall2 lt [a; b] [n1; n2] -> a < n1 /\ b < n2.
Proof. intros F. repeat match goal with H : Forall2 _ (_ :: _) _ |- _ => inversion H; clear H; subst end. auto. Qed.

(** Density-density terms *)
Definition diagonal (no : nat) (U V : tensor) : Prop := forall i k, i < no -> k < no -> V [i; k] = U [i; i; k; k].

Lemma read_local_dd no line U V : counted 0 line -> diagonal no U V -> exists U' V', read_local_line no false U line = Ok U' /\ read_local_line no true V line = Ok V' /\ diagonal no U' V'.
Proof.
  intros C D. unfold read_local_line. destruct (local_entry line) as [e|x] eqn:E; cbn [bind]; [|rewrite (local_entry_error _ _ E); exists U, V; auto].
  pose proof (counted_local _ _ C E) as P. destruct e as [[[[i j] k] l] v]. cbn [counted_entry] in P. cbn [negb].
  destruct (Z.eqb_spec i j) as [<-|N1]; cbn [andb]; [destruct (Z.eqb_spec k l) as [<-|N2]|]; cbn [andb].
  - destruct (Z.ltb_spec i (Z.of_nat no)) as [Bi|Bi]; [destruct (Z.ltb_spec k (Z.of_nat no)) as [Bk|Bk]|].
    + pose proof (assign_ok [no; no; no; no] U [Z.to_nat i; Z.to_nat i; Z.to_nat k; Z.to_nat k] v ltac:(repeat constructor; lia)) as A1. pose proof (assign_ok [no; no] V [Z.to_nat i; Z.to_nat k] v ltac:(repeat constructor; lia)) as A2.
      cbn [map] in A1, A2. rewrite !Z2Nat.id in A1, A2 by lia. rewrite A1, A2. do 2 eexists. split; [reflexivity|]. split; [reflexivity|].
      intros a c Ha Hc. destruct (Nat.eq_dec a (Z.to_nat i)) as [->|Na]; [destruct (Nat.eq_dec c (Z.to_nat k)) as [->|Nc]|].
      * rewrite !store_same. reflexivity.
      * rewrite !store_other by congruence. apply D; assumption.
      * rewrite !store_other by congruence. apply D; assumption.
    + exists U, V. repeat split; try exact D.
      * destruct (assign_cases [no; no; no; no] U [i; i; k; k] v) as [(p & M & _)|A]; [|rewrite A; reflexivity]. exfalso. apply (assign_inv _ U _ v) in M; [|reflexivity|repeat constructor; lia]. destruct M as [M F].
        destruct p as [|a [|b [|c [|d [|? ?]]]]]; try discriminate. cbn [map] in M. injection M as M1 M2 M3 M4. apply below4 in F. lia.
      * destruct (assign_cases [no; no] V [i; k] v) as [(p & M & _)|A]; [|rewrite A; reflexivity]. exfalso. apply (assign_inv _ V _ v) in M; [|reflexivity|repeat constructor; lia]. destruct M as [M F].
        destruct p as [|a [|c [|? ?]]]; try discriminate. cbn [map] in M. injection M as M1 M2. apply below2 in F. lia.
    + exists U, V. repeat split; try exact D.
      * destruct (assign_cases [no; no; no; no] U [i; i; k; k] v) as [(p & M & _)|A]; [|rewrite A; reflexivity]. exfalso. apply (assign_inv _ U _ v) in M; [|reflexivity|repeat constructor; lia]. destruct M as [M F].
        destruct p as [|a [|b [|c [|d [|? ?]]]]]; try discriminate. cbn [map] in M. injection M as M1 M2 M3 M4. apply below4 in F. lia.
      * destruct (assign_cases [no; no] V [i; k] v) as [(p & M & _)|A]; [|rewrite A; reflexivity]. exfalso. apply (assign_inv _ V _ v) in M; [|reflexivity|repeat constructor; lia]. destruct M as [M F].
        destruct p as [|a [|c [|? ?]]]; try discriminate. cbn [map] in M. injection M as M1 M2. apply below2 in F. lia.
  - exists (match assign [no; no; no; no] U [i; i; k; l] v with Ok U' => U' | Raise _ => U end), V. destruct (assign_cases [no; no; no; no] U [i; i; k; l] v) as [(p & M & ->)| ->].
    + split; [reflexivity|]. split; [reflexivity|]. apply (assign_inv _ U _ v) in M; [|reflexivity|repeat constructor; lia]. destruct M as [M F].
      destruct p as [|a [|b [|c [|d [|? ?]]]]]; try discriminate. cbn [map] in M. injection M as M1 M2 M3 M4. intros x y Hx Hy. rewrite store_other by (intros X; injection X as -> -> -> ->; lia). apply D; assumption.
    + auto.
  - exists (match assign [no; no; no; no] U [i; j; k; l] v with Ok U' => U' | Raise _ => U end), V. destruct (assign_cases [no; no; no; no] U [i; j; k; l] v) as [(p & M & ->)| ->].
    + split; [reflexivity|]. split; [reflexivity|]. apply (assign_inv _ U _ v) in M; [|reflexivity|repeat constructor; lia]. destruct M as [M F].
      destruct p as [|a [|b [|c [|d [|? ?]]]]]; try discriminate. cbn [map] in M. injection M as M1 M2 M3 M4. intros x y Hx Hy. rewrite store_other by (intros X; injection X as -> -> -> ->; lia). apply D; assumption.
    + auto.
Qed.

(** ** Entries of the interaction in the orbital basis *)
Definition fits (shape : list nat) (zs : list Z) : bool := forallb (fun nz => (snd nz <? Z.of_nat (fst nz))%Z) (combine shape zs).

Lemma assign_fits shape U zs v : length zs = length shape -> Forall (fun z => (0 <= z)%Z) zs ->
  assign shape U zs v = if fits shape zs then Ok (store U (map Z.to_nat zs) v) else Raise IndexError.
Proof.
  intros L F. unfold assign, fits.
  assert (E : map_res (fun nz => position (fst nz) (snd nz)) (combine shape zs) = if forallb (fun nz => (snd nz <? Z.of_nat (fst nz))%Z) (combine shape zs) then Ok (map Z.to_nat zs) else Raise IndexError).
  { revert shape L. induction F as [|z zs Hz F IH]; intros [|n shape] L; try discriminate; [reflexivity|]. cbn [combine map_res forallb fst snd map]. unfold position.
    destruct (Z.leb_spec 0 z); [|lia]. destruct (Z.ltb_spec z (Z.of_nat n)); cbn [andb bind].
    - rewrite IH by (injection L as L; exact L). destruct (forallb _ _); reflexivity.
    - destruct (Z.ltb_spec z 0); [lia|]. rewrite andb_false_r. reflexivity. }
  rewrite E. destruct (forallb _ _); reflexivity.
Qed.

Definition orbital_entry (n1 n2 n3 : nat) (line : text) : res (Z * Z * Z * (Z * Z * Z * Z) * (Q * Q)) :=
  let columns := str_split line in
  do q1 <- mesh_point columns n1 0 ;; do q2 <- mesh_point columns n2 1 ;; do q3 <- mesh_point columns n3 2 ;;
  do ijkl <- map_res minus_one (firstn 4 (skipn 3 columns)) ;;
  match ijkl with
  | [i; j; k; l] => do w <- column columns 7 ;; do re <- to_float w ;; do w <- column columns 8 ;; do im <- to_float w ;; Ok (q1, q2, q3, (i, j, k, l), (re, im))
  | _ => Raise ValueError
  end.

Definition harmless {A} (r : res A) : Prop := match r with Ok _ => True | Raise e => e = ValueError \/ e = IndexError end.
Lemma harmless_bind {A B} (r : res A) (f : A -> res B) : harmless r -> (forall x, harmless (f x)) -> harmless (do x <- r ;; f x).
Proof. destruct r; cbn [bind harmless]; auto. Qed.
Lemma harmless_column cs c : harmless (column cs c).
Proof. unfold column. destruct (nth_error cs c); cbn; auto. Qed.
Lemma harmless_float w : harmless (to_float w).
Proof. destruct (to_float w) eqn:E; [exact I|]. left. apply (to_float_error _ _ E). Qed.
Lemma harmless_mesh cs n c : 0 < n -> harmless (mesh_point cs n c).
Proof.
  intros H. unfold mesh_point. apply harmless_bind; [apply harmless_column|]. intros w. apply harmless_bind; [apply harmless_float|]. intros x.
  destruct (Nat.eqb_spec n 0); [lia|exact I].
Qed.
Lemma harmless_ints l : harmless (map_res minus_one l).
Proof. destruct (map_res minus_one l) eqn:E; [exact I|]. left. apply (map_res_error _ _ minus_one_error _ _ E). Qed.

Lemma attempt_harmless U r : harmless r -> attempt U r = match r with Ok V => Ok V | Raise _ => Ok U end.
Proof. destruct r as [V|e]; [reflexivity|]. intros [->| ->]; reflexivity. Qed.

Lemma harmless_entry n1 n2 n3 line : 0 < n1 -> 0 < n2 -> 0 < n3 -> harmless (orbital_entry n1 n2 n3 line).
Proof.
  intros H1 H2 H3. unfold orbital_entry. repeat (apply harmless_bind; [apply harmless_mesh; assumption|intros ?]). apply harmless_bind; [apply harmless_ints|]. intros zs.
  destruct zs as [|i [|j [|k [|l [|? ?]]]]]; try (left; reflexivity). repeat (apply harmless_bind; [first [apply harmless_column|apply harmless_float]|intros ?]). exact I.
Qed.

Lemma mesh_range cs n c q : 0 < n -> mesh_point cs n c = Ok q -> (0 <= q < Z.of_nat n)%Z.
Proof.
  intros H. unfold mesh_point. destruct (column cs c) as [w|]; [|discriminate]. cbn [bind]. destruct (to_float w) as [x|]; [|discriminate]. cbn [bind]. destruct (Nat.eqb_spec n 0); [lia|].
  intros E. injection E as <-. apply Z.mod_pos_bound. lia.
Qed.

Definition orbital_full (n1 n2 n3 no : nat) (U : tensor) (e : Z * Z * Z * (Z * Z * Z * Z) * (Q * Q)) : res tensor :=
  let '(q1, q2, q3, (i, j, k, l), v) := e in assign [n1; n2; n3; no; no; no; no] U [q1; q2; q3; j; i; l; k] v.
Definition orbital_dd (n1 n2 n3 no : nat) (U : tensor) (e : Z * Z * Z * (Z * Z * Z * Z) * (Q * Q)) : res tensor :=
  let '(q1, q2, q3, (i, j, k, l), v) := e in if ((i =? j) && (k =? l))%Z then assign [n1; n2; n3; no; no] U [q1; q2; q3; i; k] v else Ok U.

Lemma read_orbital_full n1 n2 n3 no U line : 0 < n1 -> 0 < n2 -> 0 < n3 -> read_orbital_line n1 n2 n3 no false U line = attempt U (do e <- orbital_entry n1 n2 n3 line ;; orbital_full n1 n2 n3 no U e).
Proof.
  intros H1 H2 H3. unfold read_orbital_line, orbital_entry. cbv zeta. destruct (mesh_point _ n1 0) as [q1|]; [|reflexivity]. cbn [bind]. destruct (mesh_point _ n2 1) as [q2|]; [|reflexivity]. cbn [bind]. destruct (mesh_point _ n3 2) as [q3|]; [|reflexivity]. cbn [bind].
  destruct (map_res minus_one _) as [x|]; [|reflexivity]. cbn [bind]. destruct x as [|i [|j [|k [|l [|? ?]]]]]; try reflexivity. cbn [negb orb].
  destruct (column _ 7) as [w|]; [|reflexivity]. cbn [bind]. destruct (to_float w) as [re|]; [|reflexivity]. cbn [bind]. destruct (column _ 8) as [w'|]; [|reflexivity]. cbn [bind]. destruct (to_float w') as [im|]; reflexivity.
Qed.

Lemma read_orbital_dd n1 n2 n3 no U line : 0 < n1 -> 0 < n2 -> 0 < n3 -> read_orbital_line n1 n2 n3 no true U line = attempt U (do e <- orbital_entry n1 n2 n3 line ;; orbital_dd n1 n2 n3 no U e).
Proof.
  intros H1 H2 H3. pose proof (harmless_entry n1 n2 n3 line H1 H2 H3) as HE. unfold read_orbital_line, orbital_entry in *. cbv zeta in *. destruct (mesh_point _ n1 0) as [q1|]; [|reflexivity]. cbn [bind] in *. destruct (mesh_point _ n2 1) as [q2|]; [|reflexivity]. cbn [bind] in *. destruct (mesh_point _ n3 2) as [q3|]; [|reflexivity]. cbn [bind] in *.
  destruct (map_res minus_one _) as [x|]; [|reflexivity]. cbn [bind] in *. destruct x as [|i [|j [|k [|l [|? ?]]]]]; try reflexivity. cbn [negb orb].
  destruct (column _ 7) as [w|e]; cbn [bind] in *; [|destruct (_ && _); [reflexivity|destruct HE as [->| ->]; reflexivity]].
  destruct (to_float w) as [re|e]; cbn [bind] in *; [|destruct (_ && _); [reflexivity|destruct HE as [->| ->]; reflexivity]].
  destruct (column _ 8) as [w'|e]; cbn [bind] in *; [|destruct (_ && _); [reflexivity|destruct HE as [->| ->]; reflexivity]].
  destruct (to_float w') as [im|e]; cbn [bind] in *; [|destruct (_ && _); [reflexivity|destruct HE as [->| ->]; reflexivity]].
  unfold orbital_dd. destruct ((i =? j)%Z && (k =? l)%Z); reflexivity.
Qed.

(** Rounding *)
Lemma round_near y : (Qabs (y - inject_Z (round_half_even y)) <= 1 # 2)%Q.
Proof.
  destruct y as [a b]. unfold round_half_even. cbn [Qnum Qden]. pose proof (round_div_near a (Zpos b) ltac:(lia)) as H. 
  unfold Qabs, Qminus, Qplus, Qopp, inject_Z, Qle. cbn [Qnum Qden]. rewrite !Pos.mul_1_r. rewrite Z.mul_1_r. rewrite Z.mul_opp_l, Z.add_opp_r. lia.
Qed.
Lemma round_unique y z : (Qabs (y - inject_Z z) < 1 # 2)%Q -> round_half_even y = z.
Proof.
  intros H. pose proof (round_near y) as R. apply Qabs_Qlt_condition in H. apply Qabs_Qle_condition in R.
  assert (A : (inject_Z (round_half_even y - z) < 1)%Q) by (unfold Z.sub; rewrite inject_Z_plus, inject_Z_opp; lra).
  assert (B : (inject_Z (z - round_half_even y) < 1)%Q) by (unfold Z.sub; rewrite inject_Z_plus, inject_Z_opp; lra).
  change 1%Q with (inject_Z 1) in A, B. rewrite <- Zlt_Qlt in A, B. lia.
Qed.

Lemma near_strict n x q : near Qlt n x q -> (round_half_even (x * inject_Z (Z.of_nat n)) mod Z.of_nat n)%Z = Z.of_nat q.
Proof. intros (Hq & m & H). rewrite (round_unique _ _ H). rewrite Z.mod_add by lia. apply Z.mod_small. lia. Qed.
Lemma near_weak n x q : 0 < n -> (round_half_even (x * inject_Z (Z.of_nat n)) mod Z.of_nat n)%Z = Z.of_nat q -> near Qle n x q.
Proof.
  intros Hn E. set (y := (x * inject_Z (Z.of_nat n))%Q) in *. pose proof (Z.mod_pos_bound (round_half_even y) (Z.of_nat n) ltac:(lia)). split; [lia|].
  exists (round_half_even y / Z.of_nat n)%Z. rewrite <- E. replace (round_half_even y mod Z.of_nat n + round_half_even y / Z.of_nat n * Z.of_nat n)%Z with (round_half_even y) by (pose proof (Z.div_mod (round_half_even y) (Z.of_nat n) ltac:(lia)); lia).
  apply round_near.
Qed.

Lemma mesh_strict cs n c w x q : nth_error cs c = Some w -> to_float w = Ok x -> near Qlt n x q -> mesh_point cs n c = Ok (Z.of_nat q).
Proof.
  intros E1 E2 N. unfold mesh_point, column. rewrite E1. cbn [bind]. rewrite E2. cbn [bind]. rewrite near_strict with (q := q) by exact N. destruct N as [N _]. destruct (Nat.eqb_spec n 0); [lia|reflexivity].
Qed.
Lemma mesh_weak cs n c q : 0 < n -> mesh_point cs n c = Ok q -> exists w x, nth_error cs c = Some w /\ to_float w = Ok x /\ near Qle n x (Z.to_nat q).
Proof.
  intros Hn E. pose proof (mesh_range _ _ _ _ Hn E) as R. unfold mesh_point, column in E. destruct (nth_error cs c) as [w|]; [|discriminate]. cbn [bind] in E. destruct (to_float w) as [x|] eqn:Ex; [|discriminate]. cbn [bind] in E.
  destruct (Nat.eqb_spec n 0); [lia|]. injection E as E. exists w, x. split; [reflexivity|]. split; [exact Ex|]. apply near_weak; [exact Hn|]. rewrite E. lia.
Qed.

Lemma orbital_strict n1 n2 n3 line q1 q2 q3 i j k l v : lists_orbital Qlt n1 n2 n3 line (q1, q2, q3) i j k l v ->
  orbital_entry n1 n2 n3 line = Ok (Z.of_nat q1, Z.of_nat q2, Z.of_nat q3, (Z.of_nat i, Z.of_nat j, Z.of_nat k, Z.of_nat l), v).
Proof.
  intros H. inversion H as [line' u1 u2 u3 w1 w2 w3 w4 w5 w6 rest x1 x2 x3 q1' q2' q3' i' j' k' l' re im Ew F1 F2 F3 N1 N2 N3 I1 I2 I3 I4 F5 F6]; subst. 
  unfold orbital_entry. rewrite Ew. cbv zeta. set (cs := u1 :: _). rewrite (mesh_strict cs n1 0 u1 x1 q1 eq_refl F1 N1), (mesh_strict cs n2 1 u2 x2 q2 eq_refl F2 N2), (mesh_strict cs n3 2 u3 x3 q3 eq_refl F3 N3). unfold cs. cbn [bind skipn firstn map_res].
  rewrite (proj2 (minus_one_ok w1 _) I1), (proj2 (minus_one_ok w2 _) I2), (proj2 (minus_one_ok w3 _) I3), (proj2 (minus_one_ok w4 _) I4). cbn [bind]. unfold column. cbn [nth_error bind]. rewrite F5. cbn [bind]. rewrite F6. reflexivity.
Qed.

Lemma nth_split {A} (l : list A) a b c e f : nth_error l 0 = Some a -> nth_error l 1 = Some b -> nth_error l 2 = Some c -> forall w1 w2 w3 w4, firstn 4 (skipn 3 l) = [w1; w2; w3; w4] ->
  nth_error l 7 = Some e -> nth_error l 8 = Some f -> exists rest, l = a :: b :: c :: w1 :: w2 :: w3 :: w4 :: e :: f :: rest.
Proof.
  intros H0 H1 H2 w1 w2 w3 w4 Hw H7 H8. destruct l as [|x0 [|x1 [|x2 [|x3 [|x4 [|x5 [|x6 [|x7 [|x8 l]]]]]]]]]; try discriminate. cbn in *. injection H0 as ->. injection H1 as ->. injection H2 as ->. injection Hw as -> -> -> ->. injection H7 as ->. injection H8 as ->. exists l. reflexivity.
Qed.

Lemma orbital_weak n1 n2 n3 line q1 q2 q3 i j k l v : 0 < n1 -> 0 < n2 -> 0 < n3 -> counted 3 line -> orbital_entry n1 n2 n3 line = Ok (q1, q2, q3, (i, j, k, l), v) ->
  (0 <= q1 < Z.of_nat n1 /\ 0 <= q2 < Z.of_nat n2 /\ 0 <= q3 < Z.of_nat n3 /\ 0 <= i /\ 0 <= j /\ 0 <= k /\ 0 <= l)%Z /\
  lists_orbital Qle n1 n2 n3 line (Z.to_nat q1, Z.to_nat q2, Z.to_nat q3) (Z.to_nat i) (Z.to_nat j) (Z.to_nat k) (Z.to_nat l) v.
Proof.
  intros H1 H2 H3 C E. unfold orbital_entry in E. cbv zeta in E. destruct (mesh_point _ n1 0) as [q1'|] eqn:M1; [|discriminate]. cbn [bind] in E. destruct (mesh_point _ n2 1) as [q2'|] eqn:M2; [|discriminate]. cbn [bind] in E. destruct (mesh_point _ n3 2) as [q3'|] eqn:M3; [|discriminate]. cbn [bind] in E.
  destruct (map_res minus_one _) as [x|] eqn:EI; [|discriminate]. cbn [bind] in E. destruct x as [|i' [|j' [|k' [|l' [|? ?]]]]]; try discriminate.
  unfold column in E. destruct (nth_error _ 7) as [w5|] eqn:N7; [|discriminate]. cbn [bind] in E. destruct (to_float w5) as [re|] eqn:F5; [|discriminate]. cbn [bind] in E. destruct (nth_error _ 8) as [w6|] eqn:N8; [|discriminate]. cbn [bind] in E. destruct (to_float w6) as [im|] eqn:F6; [|discriminate]. cbn [bind] in E.
  injection E as -> -> -> -> -> -> -> <-. destruct (map_res_4 _ _ _ _ _ _ EI) as (w1 & w2 & w3 & w4 & W & I1 & I2 & I3 & I4). apply minus_one_ok in I1, I2, I3, I4.
  unfold counted in C. rewrite W in C. pose proof (C w1 _ ltac:(cbn; auto) I1). pose proof (C w2 _ ltac:(cbn; auto) I2). pose proof (C w3 _ ltac:(cbn; auto) I3). pose proof (C w4 _ ltac:(cbn; auto) I4).
  pose proof (mesh_range _ _ _ _ H1 M1). pose proof (mesh_range _ _ _ _ H2 M2). pose proof (mesh_range _ _ _ _ H3 M3). split; [lia|].
  destruct (mesh_weak _ _ _ _ H1 M1) as (u1 & x1 & U1 & X1 & Y1). destruct (mesh_weak _ _ _ _ H2 M2) as (u2 & x2 & U2 & X2 & Y2). destruct (mesh_weak _ _ _ _ H3 M3) as (u3 & x3 & U3 & X3 & Y3).
  destruct (nth_split _ _ _ _ _ _ U1 U2 U3 _ _ _ _ W N7 N8) as (rest & Ew). econstructor; try eassumption; rewrite Z2Nat.id by lia; assumption.
Qed.

Lemma read_orbital_step n1 n2 n3 no line q1 q2 q3 i j k l U : 0 < n1 -> 0 < n2 -> 0 < n3 -> counted 3 line -> i < no -> j < no -> k < no -> l < no ->
  exists U', read_orbital_line n1 n2 n3 no false U line = Ok U' /\ (forall v, lists_orbital Qlt n1 n2 n3 line (q1, q2, q3) i j k l v -> U' [q1; q2; q3; j; i; l; k] = Some v) /\
    (~ (exists v, lists_orbital Qle n1 n2 n3 line (q1, q2, q3) i j k l v) -> U' [q1; q2; q3; j; i; l; k] = U [q1; q2; q3; j; i; l; k]).
Proof.
  intros H1 H2 H3 C Hi Hj Hk Hl. rewrite read_orbital_full by assumption. pose proof (harmless_entry n1 n2 n3 line H1 H2 H3) as HE.
  destruct (orbital_entry n1 n2 n3 line) as [e|x] eqn:E; cbn [bind].
  - destruct e as [[[[z1 z2] z3] [[[a b] c] d]] v]. destruct (orbital_weak _ _ _ _ _ _ _ _ _ _ _ _ H1 H2 H3 C E) as [R W]. unfold orbital_full.
    rewrite assign_fits by (try reflexivity; repeat constructor; lia). destruct (fits _ _) eqn:F.
    + exists (store U (map Z.to_nat [z1; z2; z3; b; a; d; c]) v). split; [reflexivity|]. cbn [map]. split.
      * intros v' HL. apply orbital_strict in HL. rewrite HL in E. injection E as <- <- <- <- <- <- <- <-. rewrite !Nat2Z.id. apply store_same.
      * intros N. apply store_other. intros X. injection X as -> -> -> -> -> -> ->. apply N. exists v. exact W.
    + exists U. split; [reflexivity|]. split; [|reflexivity]. intros v' HL. exfalso. pose proof (orbital_strict _ _ _ _ _ _ _ _ _ _ _ _ HL) as HS. rewrite HS in E. injection E as <- <- <- <- <- <- <- <-.
      unfold fits in F. cbn [combine forallb fst snd] in F. destruct R as (R1 & R2 & R3 & _).
      repeat match type of F with context [(Z.of_nat ?x <? Z.of_nat ?y)%Z] => destruct (Z.ltb_spec (Z.of_nat x) (Z.of_nat y)); [|lia] end. discriminate.
  - rewrite attempt_harmless by exact HE. exists U. split; [reflexivity|]. split; [|reflexivity]. intros v HL. apply orbital_strict in HL. rewrite HL in E. discriminate.
Qed.

Definition diagonal_q (no : nat) (U V : tensor) : Prop := forall q1 q2 q3 i k, i < no -> k < no -> V [q1; q2; q3; i; k] = U [q1; q2; q3; i; i; k; k].

Lemma read_orbital_diagonal n1 n2 n3 no line U V : 0 < n1 -> 0 < n2 -> 0 < n3 -> counted 3 line -> diagonal_q no U V ->
  exists U' V', read_orbital_line n1 n2 n3 no false U line = Ok U' /\ read_orbital_line n1 n2 n3 no true V line = Ok V' /\ diagonal_q no U' V'.
Proof.
  intros H1 H2 H3 C D. rewrite read_orbital_full, read_orbital_dd by assumption. pose proof (harmless_entry n1 n2 n3 line H1 H2 H3) as HE.
  destruct (orbital_entry n1 n2 n3 line) as [e|x] eqn:E; cbn [bind]; [|rewrite !attempt_harmless by exact HE; exists U, V; auto].
  destruct e as [[[[z1 z2] z3] [[[a b] c] d]] v]. destruct (orbital_weak _ _ _ _ _ _ _ _ _ _ _ _ H1 H2 H3 C E) as [R W]. unfold orbital_full, orbital_dd.
  rewrite assign_fits by (try reflexivity; repeat constructor; lia).
  destruct ((a =? b)%Z && (c =? d)%Z) eqn:EQ.
  - apply andb_true_iff in EQ. destruct EQ as [EQ1 EQ2]. apply Z.eqb_eq in EQ1, EQ2. subst b d. rewrite assign_fits by (try reflexivity; repeat constructor; lia).
    unfold fits. cbn [combine forallb fst snd]. rewrite !andb_true_r.
    destruct (Z.ltb_spec z1 (Z.of_nat n1)); [|lia]. destruct (Z.ltb_spec z2 (Z.of_nat n2)); [|lia]. destruct (Z.ltb_spec z3 (Z.of_nat n3)); [|lia]. cbn [andb].
    destruct (Z.ltb_spec a (Z.of_nat no)); cbn [andb]; [|exists U, V; auto]. destruct (Z.ltb_spec c (Z.of_nat no)); cbn [andb]; [|exists U, V; auto].
    do 2 eexists. split; [reflexivity|]. split; [reflexivity|]. cbn [map]. intros p1 p2 p3 i k Hi Hk.
    destruct (list_eq_dec Nat.eq_dec [p1; p2; p3; i; k] [Z.to_nat z1; Z.to_nat z2; Z.to_nat z3; Z.to_nat a; Z.to_nat c]) as [X|X].
    + injection X as -> -> -> -> ->. rewrite !store_same. reflexivity.
    + rewrite store_other by exact X. rewrite store_other; [apply D; assumption|]. intros Y. apply X. injection Y as -> -> -> Y1 _ Y2 _. rewrite Y1, Y2. reflexivity.
  - destruct (fits _ _); [|exists U, V; auto]. exists (store U (map Z.to_nat [z1; z2; z3; b; a; d; c]) v), V. split; [reflexivity|]. split; [reflexivity|]. cbn [map]. intros p1 p2 p3 i k Hi Hk.
    rewrite store_other; [apply D; assumption|]. intros X. injection X as X1 X2 X3 X4 X5 X6 X7. apply andb_false_iff in EQ. destruct EQ as [EQ|EQ]; apply Z.eqb_neq in EQ; lia.
Qed.

(** ** Files with the interaction in the band basis *)
Lemma indices_length shape : length (indices shape) = fold_right Nat.mul 1 shape.
Proof.
  induction shape as [|n shape IH]; [reflexivity|]. cbn [indices fold_right]. rewrite <- IH. generalize 0 as s. induction n as [|n IHn]; intros s; [reflexivity|].
  cbn [seq flat_map]. rewrite app_length, map_length, IHn. lia.
Qed.

Fixpoint flat_index (shape p : list nat) : nat :=
  match shape, p with n :: shape, i :: p => i * fold_right Nat.mul 1 shape + flat_index shape p | _, _ => 0 end.

Lemma flat_index_below shape p : Forall2 lt p shape -> flat_index shape p < fold_right Nat.mul 1 shape.
Proof. induction 1 as [|i n p shape Hi _ IH]; cbn [flat_index fold_right]; [lia|]. nia. Qed.

Lemma indices_nth shape p : Forall2 lt p shape -> nth_error (indices shape) (flat_index shape p) = Some p.
Proof.
  induction 1 as [|i n p shape Hi H IH]; [reflexivity|]. cbn [indices flat_index].
  assert (G : forall n s i, i < n -> nth_error (flat_map (fun i => map (cons i) (indices shape)) (seq s n)) (i * fold_right Nat.mul 1 shape + flat_index shape p) = Some ((s + i) :: p)).
  { clear i n Hi. induction n as [|n IHn]; intros s i Hi; [lia|]. cbn [seq flat_map]. destruct i as [|i].
    - rewrite nth_error_app1 by (rewrite map_length, indices_length; cbn; apply flat_index_below, H). cbn [Nat.mul Nat.add]. rewrite nth_error_map, IH. cbn. rewrite Nat.add_0_r. reflexivity.
    - rewrite nth_error_app2; rewrite map_length, indices_length; [|cbn; lia]. replace (S i * fold_right Nat.mul 1 shape + flat_index shape p - fold_right Nat.mul 1 shape) with (i * fold_right Nat.mul 1 shape + flat_index shape p) by (cbn; lia).
      rewrite IHn by lia. f_equal. f_equal. lia. }
  apply (G n 0 i Hi).
Qed.

Lemma indices_nodup shape : NoDup (indices shape).
Proof.
  induction shape as [|n shape IH]; [repeat constructor; intros []|]. cbn [indices]. generalize 0 as s. induction n as [|n IHn]; intros s; [constructor|]. cbn [seq flat_map].
  assert (D : forall l1 l2 : list (list nat), NoDup l1 -> NoDup l2 -> (forall x, In x l1 -> ~ In x l2) -> NoDup (l1 ++ l2)).
  { induction l1 as [|x l1 IH1]; intros l2 N1 N2 DJ; [exact N2|]. inversion N1; subst. cbn [app]. constructor; [rewrite in_app_iff; intros [?|?]; [contradiction|apply (DJ x); [left; reflexivity|assumption]]|]. apply IH1; try assumption. intros y Hy. apply DJ. right. exact Hy. }
  apply D; [|apply IHn|].
  - apply FinFun.Injective_map_NoDup; [|exact IH]. intros a b E. injection E as ->. reflexivity.
  - intros x Hx Hx'. apply in_map_iff in Hx. destruct Hx as (y & <- & _). apply in_flat_map in Hx'. destruct Hx' as (i & Hi & Hx'). apply in_map_iff in Hx'. destruct Hx' as (z & E & _). injection E as -> _. apply in_seq in Hi. lia.
Qed.

Lemma two_read l v : two_numbers l v -> map_res to_float (str_split l) = Ok [fst v; snd v].
Proof. intros (w1 & w2 & -> & F1 & F2). cbn [map_res]. rewrite F1. cbn [bind]. rewrite F2. reflexivity. Qed.

Lemma read_entries_ok : forall ps vs ls U, NoDup ps -> length vs = length ps -> Forall2 two_numbers (firstn (length ps) ls) vs ->
  exists U', read_entries ps ls U = Ok U' /\ (forall m p v, nth_error ps m = Some p -> nth_error vs m = Some v -> U' p = Some v) /\ (forall p, ~ In p ps -> U' p = U p).
Proof.
  induction ps as [|p ps IH]; intros vs ls U ND L F.
  - exists U. split; [reflexivity|]. split; [intros [|m] p v H; discriminate|reflexivity].
  - destruct vs as [|v vs]; [discriminate|]. destruct ls as [|l ls]; [inversion F|]. cbn [length firstn] in F. inversion F as [|? ? ? ? Fv F']; subst. inversion ND as [|? ? N1 N2]; subst.
    destruct (IH vs ls (store U p v) N2 ltac:(injection L as L; exact L) F') as (U' & E & A & B). exists U'. split.
    + cbn [read_entries]. rewrite (two_read _ _ Fv). cbn [bind]. destruct v; exact E.
    + split.
      * intros [|m] q w Hq Hw; cbn [nth_error] in *; [|apply (A m); assumption]. injection Hq as <-. injection Hw as <-. rewrite B by exact N1. apply store_same.
      * intros q Hq. rewrite B by (intros I; apply Hq; right; exact I). apply store_other. intros ->. apply Hq. left. reflexivity.
Qed.

Lemma read_entries_short : forall ps ls U, (forall l, In l ls -> exists v, two_numbers l v) -> length ls < length ps -> read_entries ps ls U = Raise StopIteration.
Proof.
  induction ps as [|p ps IH]; intros ls U H L; [cbn in L; lia|]. cbn [read_entries]. destruct ls as [|l ls]; [reflexivity|].
  destruct (H l (or_introl eq_refl)) as (v & Hv). rewrite (two_read _ _ Hv). cbn [bind]. apply IH; [intros l' Hl; apply H; right; exact Hl|cbn in L; lia].
Qed.

Definition rounded9 (v : Q * Q) : Q * Q := (rounded 9 (fst v), rounded 9 (snd v)).
Lemma written_lines (U : list nat -> Q * Q) ps : exists ls, lines (concat (map (fun p => pad 14 (fmt_f 9 (fst (U p))) ++ blank :: pad 14 (fmt_f 9 (snd (U p))) ++ [newline]) ps)) = ls /\
  Forall2 two_numbers ls (map (fun p => rounded9 (U p)) ps).
Proof.
  induction ps as [|p ps (ls & E & F)]; [exists []; split; [reflexivity|constructor]|]. cbn [map concat]. set (rest := concat _) in *.
  set (t := pad 14 (fmt_f 9 (fst (U p))) ++ blank :: pad 14 (fmt_f 9 (snd (U p)))). exists ((t ++ [newline]) :: ls). split.
  - replace ((pad 14 (fmt_f 9 (fst (U p))) ++ blank :: pad 14 (fmt_f 9 (snd (U p))) ++ [newline]) ++ rest) with (t ++ newline :: rest) by (unfold t; rewrite <- !app_assoc; cbn [app]; rewrite <- !app_assoc; reflexivity).
    rewrite lines_app, E; [reflexivity|]. unfold t. apply no_newline_app; [apply no_newline_pad, no_newline_f|]. constructor; [intros X; discriminate|]. apply no_newline_pad, no_newline_f.
  - constructor; [|exact F]. exists (fmt_f 9 (fst (U p))), (fmt_f 9 (snd (U p))). split; [|split; apply to_float_fmt; lia].
    unfold t. rewrite <- app_assoc. cbn [app]. rewrite split_pad; [|apply word_fmt_f|reflexivity]. f_equal. rewrite split_blank_pad; [reflexivity|apply word_fmt_f|reflexivity].
Qed.
