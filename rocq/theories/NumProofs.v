(** Lemmas about sums of numbers. *)
From Coq Require Import Permutation.
From Verif Require Import Common Num.

Section Sums.
  Context {F : num}.
  Add Ring F_ring : (n_ring F).
  Local Open Scope num_scope.

  Lemma nsum_app {A} (f : A -> F) l l' : nsum f (l ++ l') = nsum f l + nsum f l'.
  Proof. induction l as [|x l IH]; cbn; [ring|]. rewrite IH. ring. Qed.

  Lemma nsum_ext {A} (f g : A -> F) l : (forall x, In x l -> f x = g x) -> nsum f l = nsum g l.
  Proof.
    induction l as [|x l IH]; cbn; intros H; [reflexivity|].
    rewrite (H x (or_introl eq_refl)), IH; [reflexivity|]. intros y Hy. apply H. right; exact Hy.
  Qed.

  Lemma nsum_map {A B} (f : B -> F) (g : A -> B) l : nsum f (map g l) = nsum (fun x => f (g x)) l.
  Proof. induction l as [|x l IH]; cbn; [reflexivity|]. rewrite IH. reflexivity. Qed.

  Lemma nsum_add {A} (f g : A -> F) l : nsum (fun x => f x + g x) l = nsum f l + nsum g l.
  Proof. induction l as [|x l IH]; cbn; [ring|]. rewrite IH. ring. Qed.

  Lemma nsum_0 {A} (l : list A) : nsum (fun _ => @n0 F) l = n0.
  Proof. induction l as [|x l IH]; cbn; [reflexivity|]. rewrite IH. ring. Qed.

  Lemma nsum_zero {A} (f : A -> F) l : (forall x, In x l -> f x = n0) -> nsum f l = n0.
  Proof. intros H. rewrite (nsum_ext f (fun _ => n0)); [apply nsum_0|exact H]. Qed.

  Lemma nsum_mul_l {A} (c : F) (f : A -> F) l : nsum (fun x => c * f x) l = c * nsum f l.
  Proof. induction l as [|x l IH]; cbn; [ring|]. rewrite IH. ring. Qed.

  Lemma nsum_mul_r {A} (c : F) (f : A -> F) l : nsum (fun x => f x * c) l = nsum f l * c.
  Proof. induction l as [|x l IH]; cbn; [ring|]. rewrite IH. ring. Qed.

  Lemma nsum_opp {A} (f : A -> F) l : nsum (fun x => - f x) l = - nsum f l.
  Proof. induction l as [|x l IH]; cbn; [ring|]. rewrite IH. ring. Qed.

  Lemma nsum_perm {A} (f : A -> F) l l' : Permutation l l' -> nsum f l = nsum f l'.
  Proof. induction 1; cbn; [reflexivity|congruence|ring|congruence]. Qed.

  Lemma n_conj_0 : nconj n0 = @n0 F.
  Proof.
    assert (H : nconj n0 = nconj n0 + nconj (@n0 F)).
    { rewrite <- n_conj_add. f_equal. ring. }
    transitivity (nconj n0 + nconj (@n0 F) - nconj n0); [ring|]. rewrite <- H. ring.
  Qed.

  Lemma n_conj_sum {A} (f : A -> F) l : nconj (nsum f l) = nsum (fun x => nconj (f x)) l.
  Proof. induction l as [|x l IH]; cbn; [apply n_conj_0|]. rewrite n_conj_add, IH. reflexivity. Qed.

  Lemma nsum_swap {A B} (f : A -> B -> F) l l' :
    nsum (fun x => nsum (f x) l') l = nsum (fun y => nsum (fun x => f x y) l) l'.
  Proof.
    induction l as [|x l IH]; cbn; [symmetry; apply nsum_0|].
    rewrite IH, <- nsum_add. reflexivity.
  Qed.

  Lemma nsum_flat_map {A B} (f : B -> F) (g : A -> list B) l :
    nsum f (flat_map g l) = nsum (fun x => nsum f (g x)) l.
  Proof. induction l as [|x l IH]; cbn; [reflexivity|]. rewrite nsum_app, IH. reflexivity. Qed.

  (** A sum with a single nonzero term. *)
  Lemma nsum_single {A} (f : A -> F) l x : NoDup l -> In x l ->
    (forall y, In y l -> y <> x -> f y = n0) -> nsum f l = f x.
  Proof.
    intros Hnd Hin Hz. induction Hnd as [|y l Hy Hnd IH]; [destruct Hin|]. cbn.
    destruct Hin as [->|Hin].
    - rewrite nsum_zero; [ring|]. intros z Hz'. apply Hz; [right; exact Hz'|]. intros ->. contradiction.
    - rewrite IH; [|exact Hin|intros z Hz'; apply Hz; right; exact Hz'].
      rewrite (Hz y); [ring|left; reflexivity|]. intros ->. contradiction.
  Qed.

  Lemma neqb_refl (x : F) : neqb x x = true.
  Proof. apply n_eqb. reflexivity. Qed.
End Sums.
