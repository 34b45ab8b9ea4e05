(** Numbers with an exact arithmetic, used for matrix elements in the models.

    NumPy computes with complex floating-point numbers. The models are
    parametric in the type of numbers: any commutative ring with an involution
    (complex conjugation) and a decision procedure for equality. Rounding is
    not modelled. Instances: Gaussian integers (computable, used in examples)
    and the complex numbers (NumC.v). *)
From Verif Require Import Common.
From Coq Require Export Ring.

Record num := Num {
  car :> Type;
  n0 : car;
  n1 : car;
  nadd : car -> car -> car;
  nmul : car -> car -> car;
  nsub : car -> car -> car;
  nopp : car -> car;
  nconj : car -> car;
  neqb : car -> car -> bool;
  n_ring : ring_theory n0 n1 nadd nmul nsub nopp eq;
  n_conj_add : forall x y, nconj (nadd x y) = nadd (nconj x) (nconj y);
  n_conj_mul : forall x y, nconj (nmul x y) = nmul (nconj x) (nconj y);
  n_conj_conj : forall x, nconj (nconj x) = x;
  n_eqb : forall x y, neqb x y = true <-> x = y
}.
Arguments n0 {_}.
Arguments n1 {_}.
Arguments nadd {_}.
Arguments nmul {_}.
Arguments nsub {_}.
Arguments nopp {_}.
Arguments nconj {_}.
Arguments neqb {_}.

Declare Scope num_scope.
Delimit Scope num_scope with num.
Infix "+" := nadd : num_scope.
Infix "*" := nmul : num_scope.
Infix "-" := nsub : num_scope.
Notation "- x" := (nopp x) : num_scope.

(** Sums over lists. *)
Fixpoint nsum {F : num} {A} (f : A -> F) (l : list A) : F :=
  match l with [] => n0 | x :: l => nadd (f x) (nsum f l) end.

(** ** Gaussian integers *)
Lemma gauss_ring : ring_theory (0, 0)%Z (1, 0)%Z
  (fun x y => (fst x + fst y, snd x + snd y))%Z
  (fun x y => (fst x * fst y - snd x * snd y, fst x * snd y + snd x * fst y))%Z
  (fun x y => (fst x - fst y, snd x - snd y))%Z
  (fun x => (- fst x, - snd x))%Z eq.
Proof.
  constructor; intros; repeat match goal with x : (Z * Z)%type |- _ => destruct x end;
  cbn [fst snd]; apply f_equal2; ring.
Qed.

Definition gauss : num.
Proof.
  refine {| car := (Z * Z)%type; nconj := fun x => (fst x, - snd x)%Z;
            neqb := fun x y => (fst x =? fst y)%Z && (snd x =? snd y)%Z; n_ring := gauss_ring |}.
  - intros [a b] [c d]. cbn [fst snd]. apply f_equal2; ring.
  - intros [a b] [c d]. cbn [fst snd]. apply f_equal2; ring.
  - intros [a b]. cbn [fst snd]. apply f_equal2; ring.
  - intros [a b] [c d]. cbn [fst snd]. rewrite andb_true_iff, !Z.eqb_eq. split; [intros [-> ->]; reflexivity|].
    intros H. injection H as -> ->. auto.
Defined.
