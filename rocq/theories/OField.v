(** Numbers with division and a test [x < y], used for models that divide and
    compare. Instances: the real numbers and the canonical rational numbers,
    with which examples can be computed. *)
From Coq Require Import Permutation Reals Lra Lia Qcanon Field.
From Verif Require Import Common.
From Coq Require Export Field_theory.

Record ofield := OField {
  kcar :> Type;
  k0 : kcar;
  k1 : kcar;
  kadd : kcar -> kcar -> kcar;
  kmul : kcar -> kcar -> kcar;
  ksub : kcar -> kcar -> kcar;
  kopp : kcar -> kcar;
  kdiv : kcar -> kcar -> kcar;
  kinv : kcar -> kcar;
  kltb : kcar -> kcar -> bool;
  k_field : field_theory k0 k1 kadd kmul ksub kopp kdiv kinv eq;
  k_irrefl : forall x, kltb x x = false;
  k_trans : forall x y z, kltb x y = true -> kltb y z = true -> kltb x z = true;
  k_total : forall x y, kltb x y = false -> kltb y x = false -> x = y;
  k_plus : forall x y z, kltb x y = true -> kltb (kadd x z) (kadd y z) = true;
  k_mult : forall x y, kltb k0 x = true -> kltb k0 y = true -> kltb k0 (kmul x y) = true
}.
Arguments k0 {_}.
Arguments k1 {_}.
Arguments kadd {_}.
Arguments kmul {_}.
Arguments ksub {_}.
Arguments kopp {_}.
Arguments kdiv {_}.
Arguments kinv {_}.
Arguments kltb {_}.

Declare Scope k_scope.
Delimit Scope k_scope with k.
Infix "+" := kadd : k_scope.
Infix "*" := kmul : k_scope.
Infix "-" := ksub : k_scope.
Infix "/" := kdiv : k_scope.
Notation "- x" := (kopp x) : k_scope.

Fixpoint ksum {K : ofield} {A} (f : A -> K) (l : list A) : K :=
  match l with [] => k0 | x :: l => kadd (f x) (ksum f l) end.

Definition Rfield : ofield.
Proof.
  refine {| kcar := R; kltb := fun x y => if Rlt_dec x y then true else false; k_field := RealField.Rfield |}.
  - intros x. destruct (Rlt_dec x x); [lra|reflexivity].
  - intros x y z. destruct (Rlt_dec x y), (Rlt_dec y z), (Rlt_dec x z); try reflexivity; try discriminate; lra.
  - intros x y. destruct (Rlt_dec x y), (Rlt_dec y x); try discriminate. intros _ _. lra.
  - intros x y z. destruct (Rlt_dec x y), (Rlt_dec (x + z) (y + z)); try reflexivity; try discriminate; lra.
  - intros x y. destruct (Rlt_dec 0 x) as [H1|], (Rlt_dec 0 y) as [H2|]; try discriminate. intros _ _.
    destruct (Rlt_dec 0 (x * y)) as [|H]; [reflexivity|]. exfalso. apply H. apply Rmult_lt_0_compat; assumption.
Defined.

Definition Qcltb (x y : Qc) : bool := if Qclt_le_dec x y then true else false.

Definition Qfield : ofield.
Proof.
  refine {| kcar := Qc; kltb := Qcltb; k_field := Qcft |}; unfold Qcltb.
  - intros x. destruct (Qclt_le_dec x x) as [H|H]; [|reflexivity]. exfalso. exact (Qclt_not_eq x x H eq_refl).
  - intros x y z. destruct (Qclt_le_dec x y) as [H1|], (Qclt_le_dec y z) as [H2|], (Qclt_le_dec x z) as [|H3]; try reflexivity; try discriminate.
    intros _ _. exfalso. pose proof (Qclt_trans _ _ _ H1 H2) as H4. exact (Qclt_not_le _ _ H4 H3).
  - intros x y. destruct (Qclt_le_dec x y) as [|H1], (Qclt_le_dec y x) as [|H2]; try discriminate. intros _ _. apply Qcle_antisym; assumption.
  - intros x y z. destruct (Qclt_le_dec x y) as [H1|], (Qclt_le_dec (x + z) (y + z)) as [|H2]; try reflexivity; try discriminate. intros _. exfalso.
    apply (Qclt_not_le _ _ H1). assert (H3 := Qcplus_le_compat _ _ _ _ H2 (Qcle_refl (- z)%Qc)).
    replace (y + z + - z)%Qc with y in H3 by ring. replace (x + z + - z)%Qc with x in H3 by ring. exact H3.
  - intros x y. destruct (Qclt_le_dec 0 x) as [H1|], (Qclt_le_dec 0 y) as [H2|]; try discriminate. intros _ _.
    destruct (Qclt_le_dec 0 (x * y)) as [|H]; [reflexivity|]. exfalso. apply (Qclt_not_le 0 (x * y)); [|exact H].
    pose proof (Qcmult_lt_compat_r 0 x y H2 H1) as H3. replace (0 * y)%Qc with (0%Qc) in H3 by ring. exact H3.
Defined.

Section Facts.
  Context {K : ofield}.
  Add Field K_field : (k_field K).
  Local Open Scope k_scope.

  Lemma ksum_app {A} (f : A -> K) l l' : ksum f (l ++ l') = ksum f l + ksum f l'.
  Proof. induction l as [|x l IH]; cbn; [ring|]. rewrite IH. ring. Qed.
  Lemma ksum_ext {A} (f g : A -> K) l : (forall x, In x l -> f x = g x) -> ksum f l = ksum g l.
  Proof.
    induction l as [|x l IH]; cbn; intros H; [reflexivity|]. rewrite (H x (or_introl eq_refl)), IH; [reflexivity|].
    intros y Hy. apply H. right; exact Hy.
  Qed.
  Lemma ksum_map {A B} (f : B -> K) (g : A -> B) l : ksum f (map g l) = ksum (fun x => f (g x)) l.
  Proof. induction l as [|x l IH]; cbn; [reflexivity|]. rewrite IH. reflexivity. Qed.
  Lemma ksum_add {A} (f g : A -> K) l : ksum (fun x => f x + g x) l = ksum f l + ksum g l.
  Proof. induction l as [|x l IH]; cbn; [ring|]. rewrite IH. ring. Qed.
  Lemma ksum_sub {A} (f g : A -> K) l : ksum (fun x => f x - g x) l = ksum f l - ksum g l.
  Proof. induction l as [|x l IH]; cbn; [ring|]. rewrite IH. ring. Qed.
  Lemma ksum_mul_l {A} c (f : A -> K) l : ksum (fun x => c * f x) l = c * ksum f l.
  Proof. induction l as [|x l IH]; cbn; [ring|]. rewrite IH. ring. Qed.
  Lemma ksum_mul_r {A} c (f : A -> K) l : ksum (fun x => f x * c) l = ksum f l * c.
  Proof. induction l as [|x l IH]; cbn; [ring|]. rewrite IH. ring. Qed.
  Lemma ksum_zero {A} (f : A -> K) l : (forall x, In x l -> f x = k0) -> ksum f l = k0.
  Proof.
    induction l as [|x l IH]; cbn; intros H; [reflexivity|]. rewrite (H x (or_introl eq_refl)), IH; [ring|]. intros y Hy. apply H. right; exact Hy.
  Qed.
  Lemma ksum_perm {A} (f : A -> K) l l' : Permutation l l' -> ksum f l = ksum f l'.
  Proof. induction 1; cbn; [reflexivity|congruence|ring|congruence]. Qed.
  Lemma ksum_prod {A B} (f : A * B -> K) l l' : ksum f (list_prod l l') = ksum (fun a => ksum (fun b => f (a, b)) l') l.
  Proof. induction l as [|a l IH]; cbn [list_prod ksum]; [reflexivity|]. rewrite ksum_app, ksum_map, IH. reflexivity. Qed.
  Lemma ksum_swap {A B} (f : A -> B -> K) l l' : ksum (fun x => ksum (f x) l') l = ksum (fun y => ksum (fun x => f x y) l) l'.
  Proof.
    induction l as [|x l IH]; cbn [ksum]; [symmetry; apply ksum_zero; reflexivity|]. rewrite IH, <- ksum_add. reflexivity.
  Qed.
  Lemma ksum_single {A} (f : A -> K) l x : NoDup l -> In x l -> (forall y, In y l -> y <> x -> f y = k0) -> ksum f l = f x.
  Proof.
    induction l as [|a l IH]; intros Hnd Hin H; [destruct Hin|]. inversion Hnd; subst. cbn [ksum]. destruct Hin as [->|Hin].
    - rewrite (ksum_zero f l); [ring|]. intros y Hy. apply H; [right; exact Hy|]. intros ->. contradiction.
    - rewrite (H a (or_introl eq_refl)) by (intros ->; contradiction). rewrite IH; [ring|assumption|assumption|].
      intros y Hy. apply H. right; exact Hy.
  Qed.

  Definition knn (x : K) : Prop := kltb x k0 = false.

  Lemma k_opp_pos (x : K) : kltb x k0 = true -> kltb k0 (- x) = true.
  Proof.
    intros H. apply (k_plus K _ _ (- x)) in H. replace (x + - x) with (@k0 K) in H by ring. replace (k0 + - x) with (- x) in H by ring. exact H.
  Qed.

  Lemma knn_sq (x : K) : knn (x * x).
  Proof.
    unfold knn. destruct (kltb (x * x) k0) eqn:E; [|reflexivity]. exfalso.
    destruct (kltb k0 x) eqn:E1.
    - pose proof (k_mult K x x E1 E1) as H. pose proof (k_trans K _ _ _ H E) as H'. rewrite k_irrefl in H'. discriminate.
    - destruct (kltb x k0) eqn:E2.
      + apply k_opp_pos in E2. pose proof (k_mult K _ _ E2 E2) as H. replace (- x * - x) with (x * x) in H by ring.
        pose proof (k_trans K _ _ _ H E) as H'. rewrite k_irrefl in H'. discriminate.
      + assert (x = k0) by (symmetry; apply k_total; assumption). subst. replace (k0 * k0) with (@k0 K) in E by ring. rewrite k_irrefl in E. discriminate.
  Qed.

  Lemma knn_add (x y : K) : knn x -> knn y -> knn (x + y) /\ (x + y = k0 -> x = k0 /\ y = k0).
  Proof.
    unfold knn. intros Hx Hy.
    destruct (kltb k0 y) eqn:Ey.
    - assert (H : kltb x (x + y) = true).
      { apply (k_plus K _ _ x) in Ey. replace (k0 + x) with x in Ey by ring. replace (y + x) with (x + y) in Ey by ring. exact Ey. }
      split.
      + destruct (kltb (x + y) k0) eqn:E; [|reflexivity]. rewrite (k_trans K _ _ _ H E) in Hx. discriminate.
      + intros E. rewrite E, Hx in H. discriminate.
    - assert (y = k0) by (apply k_total; assumption). subst. replace (x + k0) with x by ring. auto.
  Qed.

  Lemma ksum_nn {A} (f : A -> K) l : (forall x, In x l -> knn (f x)) -> knn (ksum f l) /\ (ksum f l = k0 -> forall x, In x l -> f x = k0).
  Proof.
    induction l as [|a l IH]; intros H; cbn [ksum].
    - split; [apply k_irrefl|]. intros _ x [].
    - destruct (IH (fun x Hx => H x (or_intror Hx))) as [H1 H2]. destruct (knn_add _ _ (H a (or_introl eq_refl)) H1) as [H3 H4].
      split; [exact H3|]. intros E. destruct (H4 E) as [E1 E2]. intros x [<-|Hx]; [exact E1|]. apply H2; assumption.
  Qed.

  Lemma k_integral (x y : K) : x * y = k0 -> x = k0 \/ y = k0.
  Proof.
    intros H. destruct (kltb k0 x) eqn:E1; [right|destruct (kltb x k0) eqn:E2; [right|left; symmetry; apply k_total; assumption]].
    - assert (x <> k0) by (intros ->; rewrite k_irrefl in E1; discriminate). transitivity (x * y / x); [field; assumption|]. rewrite H. field. assumption.
    - assert (x <> k0) by (intros ->; rewrite k_irrefl in E2; discriminate). transitivity (x * y / x); [field; assumption|]. rewrite H. field. assumption.
  Qed.

  Lemma ksum_sq_zero {A} (f : A -> K) l : ksum (fun x => f x * f x) l = k0 -> forall x, In x l -> f x = k0.
  Proof.
    intros H x Hx. destruct (ksum_nn (fun x => f x * f x) l (fun x _ => knn_sq (f x))) as [_ G]. specialize (G H x Hx). cbn beta in G.
    apply k_integral in G. tauto.
  Qed.
End Facts.
