(** Model of elphmod/models: chain.py, graphene.py and tas2.py.

    Simplifications: real and complex numbers are exact. The numerical values of
    the parameters are left open (section variables), and so are the bond vectors
    of graphene. [create] is not modelled. *)
From Coq Require Import Reals.
From Verif Require Import Common Num NumC.
Local Open Scope R_scope.

(** Matrices as functions of row and column; stacks of matrices *)
Definition rmat := nat -> nat -> R.
Definition cmat := nat -> nat -> C.
Definition rows (l : list (list R)) : rmat := fun i j => nth j (nth i l []) 0.
Definition diag (x y z : R) : rmat := rows [[x; 0; 0]; [0; y; 0]; [0; 0; z]].
Definition mmul (A B : rmat) : rmat := fun i j => A i 0%nat * B 0%nat j + A i 1%nat * B 1%nat j + A i 2%nat * B 2%nat j.
Definition tr {A} (M : nat -> nat -> A) : nat -> nat -> A := fun i j => M j i.
Definition rplus (A B : rmat) : rmat := fun i j => A i j + B i j.
Definition rminus (A B : rmat) : rmat := fun i j => A i j - B i j.
Definition rscale (x : R) (A : rmat) : rmat := fun i j => x * A i j.
Definition cplus (A B : cmat) : cmat := fun i j => nadd (A i j) (B i j).
Definition cminus (A B : cmat) : cmat := fun i j => nsub (A i j) (B i j).
Definition real (A : rmat) : cmat := fun i j => RtoC (A i j).
Definition times (A : rmat) (z : C) : cmat := fun i j => nmul (RtoC (A i j)) z.
Definition conj (A : cmat) : cmat := fun i j => nconj (A i j).
Definition deg : R := PI / 180. (* bravais.py:14 *)

(** ** models/chain.py *)
Section Chain.
  Variables t w0 g0 : R.

  (** chain.py:35-42 *)
  Definition chain_hamiltonian (k1 k2 k3 : R) : cmat := fun _ _ => RtoC (-2 * t * cos k1).

  (** chain.py:44-51 *)
  Definition chain_dynamical_matrix (q1 q2 q3 : R) : cmat := fun i j => RtoC ((if Nat.eqb i j then 1 else 0) * (w0 ^ 2 * (1 - cos q1))).

  (** chain.py:53-60 *)
  Definition chain_coupling (q1 q2 q3 k1 k2 k3 : R) : nat -> cmat :=
    fun x _ _ => if Nat.eqb x 0 then nmul (nmul Ci (RtoC g0)) (RtoC (sin (k1 + q1) - sin k1)) else n0.
End Chain.

(** ** models/graphene.py *)
Section Graphene.
  Variables M t Cx Cy Cz beta tau : R.
  (** graphene.py:90-92: bond vectors by Cartesian component *)
  Variables tau0 tau1 tau2 : nat -> R.
  Variables U00 U01 U02 U03 : R.

  (** graphene.py:41-49 *)
  Definition graphene_hamiltonian (k1 k2 k3 : R) : cmat :=
    let h := nmul (RtoC t) (nadd (nadd (expi k1) n1) (expi (- k2))) in
    fun i j => match i, j with 0%nat, 1%nat => h | 1%nat, 0%nat => nconj h | _, _ => n0 end.

  (** graphene.py:51-59 *)
  Definition g_rotate (A : rmat) (phi : R) : rmat :=
    let phi := phi * (PI / 180) in
    let c := cos phi in
    let s := sin phi in
    let R := rows [[c; - s; 0]; [s; c; 0]; [0; 0; 1]] in
    mmul (mmul R A) (tr R).

  (** graphene.py:61-71 *)
  Definition K : rmat := diag Cx Cy Cz.
  Definition K1 : rmat := g_rotate K 30.
  Definition K2 : rmat := g_rotate K 150.
  Definition K3 : rmat := g_rotate K 270.
  Definition L : rmat := diag 0 (- Cy / 6) (- Cz / 6).
  Definition L1 : rmat := g_rotate L 0.
  Definition L2 : rmat := g_rotate L 120.
  Definition L3 : rmat := g_rotate L 240.

  (** graphene.py:73-88 *)
  Definition graphene_dynamical_matrix (q1 q2 q3 : R) : cmat :=
    let C10 := cplus (cplus (times K1 (expi q1)) (real K2)) (times K3 (expi (- q2))) in
    let C00 := cplus (cplus (times L1 (expi q1)) (times L2 (expi q2))) (times L3 (expi (- (q1 + q2)))) in
    let C00 := cplus C00 (conj C00) in
    let C00 := cminus C00 (real (rplus (rplus (rplus K1 K2) K3) (rscale 2 (rplus (rplus L1 L2) L3)))) in
    let C01 := tr (conj C10) in
    let C11 := conj C00 in
    fun x y =>
      let block := if Nat.ltb x 3 then if Nat.ltb y 3 then C00 else C01 else if Nat.ltb y 3 then C10 else C11 in
      nmul (block (x mod 3)%nat (y mod 3)%nat) (RtoC (/ M)).

  (** graphene.py:95-107 *)
  Definition graphene_coupling (q1 q2 q3 k1 k2 k3 : R) : nat -> cmat :=
    let k1' := k1 + q1 in
    let k2' := k2 + q2 in
    let d01 := fun x => nadd (nadd (RtoC (tau0 x)) (nmul (RtoC (tau1 x)) (expi k1))) (nmul (RtoC (tau2 x)) (expi (- k2))) in
    let d10 := fun x => nadd (nadd (RtoC (tau0 x)) (nmul (RtoC (tau1 x)) (expi (- k1')))) (nmul (RtoC (tau2 x)) (expi k2')) in
    let d : nat -> cmat := fun x i j => match i, j with 0%nat, 1%nat => d01 x | 1%nat, 0%nat => d10 x | _, _ => n0 end in
    fun x i j => nmul (RtoC (beta * t / (tau ^ 2 * sqrt M))) (if Nat.ltb x 3 then d x i j else nopp (nconj (d (x - 3)%nat j i))).

  (** graphene.py:114-126 *)
  Definition coulomb_interaction (q1 q2 q3 : R) : cmat :=
    let u00 := RtoC (U00 + 2 * U02 * (cos q1 + cos (q1 + q2) + cos q2)) in
    let u01 := nadd (nmul (RtoC U01) (nadd (nadd (expi q1) n1) (expi (- q2))))
      (nmul (RtoC U03) (nadd (RtoC (2 * cos (q1 + q2))) (expi (q1 - q2)))) in
    fun i j => match i, j with 0%nat, 0%nat => u00 | 0%nat, _ => u01 | _, 0%nat => nconj u01 | _, _ => u00 end.
End Graphene.

(** ** models/tas2.py *)
Section TaS2.
  Variables M m e_z2 e_x2y2 t_z2 t_z2_x2y2 t_z2_xy t_x2y2 t_x2y2_xy t_xy : R.
  Variables ax ay az axz azx by_ bz cx cy cz dx dy dz dyz ex ez fx fy fz fyz beta a : R.

  (** tas2.py:70-76 *)
  Definition e0 : rmat := diag e_z2 e_x2y2 e_x2y2.
  Definition t0 : rmat := rows [[t_z2; t_z2_x2y2; t_z2_xy]; [t_z2_x2y2; t_x2y2; t_x2y2_xy]; [- t_z2_xy; - t_x2y2_xy; t_xy]].

  (** tas2.py:78-83 *)
  Definition R2 (phi : R) : rmat := rows [[1; 0; 0]; [0; cos (2 * phi); - sin (2 * phi)]; [0; sin (2 * phi); cos (2 * phi)]].
  (** tas2.py:85-86 *)
  Definition hopping (t0 : rmat) (phi : R) : rmat := mmul (mmul (R2 phi) t0) (R2 (- phi)).
  (** tas2.py:88-93 *)
  Definition dR2_dphi (phi : R) : rmat := rscale 2 (rows [[0; 0; 0]; [0; - sin (2 * phi); - cos (2 * phi)]; [0; cos (2 * phi); - sin (2 * phi)]]).

  (** tas2.py:95-103 *)
  Definition derivative (t0 : rmat) (phi : R) : nat -> rmat :=
    let dt_dr := rscale (- beta / a) (hopping t0 phi) in
    let dt_dphi := rminus (mmul (mmul (dR2_dphi phi) t0) (R2 (- phi))) (mmul (mmul (R2 phi) t0) (dR2_dphi (- phi))) in
    let dt_dx := rminus (rscale (cos phi) dt_dr) (rscale (sin phi / a) dt_dphi) in
    let dt_dy := rplus (rscale (sin phi) dt_dr) (rscale (cos phi / a) dt_dphi) in
    fun x => match x with 0%nat => dt_dx | _ => dt_dy end.

  (** tas2.py:105-112: the loop over [n]; even and odd elements of the arrays *)
  Definition t (i : nat) : rmat :=
    let n := INR (i / 2) in
    if Nat.even i then hopping t0 (n * 120 * deg) else hopping (tr t0) ((120 * n + 60) * deg).
  Definition dt (i : nat) : nat -> rmat :=
    let n := INR (i / 2) in
    fun x => if Nat.ltb x 2 then (if Nat.even i then derivative t0 (n * 120 * deg) else derivative (tr t0) ((120 * n + 60) * deg)) x else fun _ _ => 0.

  (** tas2.py:114-124 *)
  Definition tas2_hamiltonian (k1 k2 k3 : R) : cmat :=
    cplus (real e0) (cplus (cplus (cplus (cplus (cplus
      (times (t 0) (expi k1)) (times (t 3) (expi (- k1)))) (times (t 1) (expi (k1 + k2)))) (times (t 4) (expi (- (k1 + k2)))))
      (times (t 2) (expi k2))) (times (t 5) (expi (- k2)))).

  (** tas2.py:126-131 *)
  Definition Rz (phi : R) : rmat := rows [[cos phi; - sin phi; 0]; [sin phi; cos phi; 0]; [0; 0; 1]].
  (** tas2.py:133-134 *)
  Definition rotate (A : rmat) (phi : R) : rmat := mmul (mmul (Rz phi) A) (Rz (- phi)).
  (** tas2.py:136-142: rows and columns of which exactly one is the first change sign *)
  Definition xreflect (A : rmat) : rmat := fun i j => if xorb (Nat.eqb i 0) (Nat.eqb j 0) then - A i j else A i j.
  (** tas2.py:144-150: ... the last; also for complex matrices *)
  Definition zreflect (A : cmat) : cmat := fun i j => if xorb (Nat.eqb i 2) (Nat.eqb j 2) then nopp (A i j) else A i j.

  (** tas2.py:152-203 *)
  Definition A0 : rmat := rows [[ax; 0; axz]; [0; ay; 0]; [azx; 0; az]].
  Definition A1 : rmat := rotate A0 (-30 * deg).
  Definition A2 : rmat := rotate A0 (90 * deg).
  Definition A3 : rmat := rotate A0 (210 * deg).
  Definition B : rmat := diag by_ by_ bz.
  Definition C1 : rmat := diag cx cy cz.
  Definition C3 : rmat := rotate C1 (120 * deg).
  Definition C5 : rmat := rotate C1 (240 * deg).
  Definition C4 : rmat := xreflect C1.
  Definition C2 : rmat := xreflect C3.
  Definition C6 : rmat := xreflect C5.
  Definition D1 : rmat := rows [[dx; 0; 0]; [0; dy; dyz]; [- 0; dyz; dz]].
  Definition D3 : rmat := rotate D1 (120 * deg).
  Definition D5 : rmat := rotate D1 (240 * deg).
  Definition D4 : rmat := xreflect D1.
  Definition D2 : rmat := xreflect D3.
  Definition D6 : rmat := xreflect D5.
  Definition E0 : rmat := diag ex ex ez.
  Definition E1 : rmat := rotate E0 (30 * deg).
  Definition E2 : rmat := rotate E0 (150 * deg).
  Definition E3 : rmat := rotate E0 (270 * deg).
  Definition F1 : rmat := rows [[fx; 0; 0]; [0; fy; fyz]; [0; - fyz; fz]].
  Definition F3 : rmat := rotate F1 (120 * deg).
  Definition F5 : rmat := rotate F1 (240 * deg).
  Definition F4 : rmat := xreflect F1.
  Definition F2 : rmat := xreflect F3.
  Definition F6 : rmat := xreflect F5.

  (** [D[3 * p:3 * p + 3, 3 * q:3 * q + 3]] and its modifications *)
  Definition blocks := nat -> nat -> cmat.
  Definition set (p q : nat) (A : cmat) (D : blocks) : blocks := fun p' q' => if Nat.eqb p' p && Nat.eqb q' q then A else D p' q'.
  Definition inc (p q : nat) (A : cmat) (D : blocks) : blocks := set p q (cplus (D p q) A) D.
  Definition dec (p q : nat) (A : cmat) (D : blocks) : blocks := set p q (cminus (D p q) A) D.

  (** Sums over the six neighbors in directions (1, 0), (1, 1), (0, 1) and opposite
      (tas2.py:231-238, 240-247, 271-278) *)
  Definition six (f : R -> C) (Q1 Q2 Q3 Q4 Q5 Q6 : rmat) (q1 q2 : R) : cmat :=
    cplus (cplus (cplus (cplus (cplus (times Q1 (f q1)) (times Q2 (f (q1 + q2)))) (times Q3 (f q2))) (times Q4 (f (- q1)))) (times Q5 (f (- (q1 + q2))))) (times Q6 (f (- q2))).

  (** tas2.py:205-286: before the division by masses *)
  Definition tas2_springs (q1 q2 q3 : R) : blocks :=
    let D : blocks := fun _ _ _ _ => n0 in
    let intra := real (rplus (rplus A1 A2) A3) in
    let inter := cplus (cplus (real A1) (times A2 (expi q2))) (times A3 (expi (- q1))) in
    let D := inc 0 0 intra D in
    let D := dec 0 1 inter D in
    let D := inc 1 1 (tr intra) D in
    let intra := zreflect intra in
    let inter := zreflect inter in
    let D := inc 0 0 intra D in
    let D := dec 0 2 inter D in
    let D := inc 2 2 (tr intra) D in
    let D := inc 2 2 (real B) D in
    let D := dec 2 1 (real B) D in
    let D := inc 1 1 (real (tr B)) D in
    let D := inc 0 0 (six (fun x => nsub n1 (expi x)) C1 C2 C3 C4 C5 C6 q1 q2) D in
    let both := six (fun x => nsub n1 (expi x)) D1 D2 D3 D4 D5 D6 q1 q2 in
    let D := inc 1 1 both D in
    let D := inc 2 2 (zreflect both) D in
    let intra := real (rplus (rplus E1 E2) E3) in
    let inter := cplus (cplus (times E1 (expi (q1 + q2))) (times E2 (expi (- (q1 - q2))))) (times E3 (expi (- (q1 + q2)))) in
    let D := inc 0 0 intra D in
    let D := dec 0 1 inter D in
    let D := inc 1 1 (tr intra) D in
    let intra := zreflect intra in
    let inter := zreflect inter in
    let D := inc 0 0 intra D in
    let D := dec 0 2 inter D in
    let D := inc 2 2 (tr intra) D in
    let intra := real (rplus (rplus (rplus (rplus (rplus F1 F2) F3) F4) F5) F6) in
    let inter := six expi F1 F2 F3 F4 F5 F6 q1 q2 in
    let D := inc 2 2 intra D in
    let D := dec 2 1 inter D in
    let D := inc 1 1 (tr intra) D in
    let D := set 1 0 (tr (conj (D 0%nat 1%nat))) D in
    let D := set 2 0 (tr (conj (D 0%nat 2%nat))) D in
    let D := set 1 2 (tr (conj (D 2%nat 1%nat))) D in
    D.

  (** tas2.py:288-294 *)
  Definition tas2_dynamical_matrix (q1 q2 q3 : R) : cmat :=
    let D := tas2_springs q1 q2 q3 in
    let root := fun x => RtoC (/ sqrt (if Nat.ltb x 3 then M else m)) in
    fun x y => nmul (nmul (D (x / 3)%nat (y / 3)%nat (x mod 3)%nat (y mod 3)%nat) (root x)) (root y).

  (** tas2.py:298-311 *)
  Definition tas2_coupling (q1 q2 q3 k1 k2 k3 : R) : nat -> cmat :=
    let K1 := k1 + q1 in
    let K2 := k2 + q2 in
    fun x =>
      let sum :=
        cplus (cplus (cplus (cplus (cplus (times (dt 0 x) (nsub (expi K1) (expi k1))) (times (dt 3 x) (nsub (expi (- K1)) (expi (- k1)))))
          (times (dt 1 x) (nsub (expi (K1 + K2)) (expi (k1 + k2))))) (times (dt 4 x) (nsub (expi (- (K1 + K2))) (expi (- (k1 + k2))))))
          (times (dt 2 x) (nsub (expi K2) (expi k2)))) (times (dt 5 x) (nsub (expi (- K2)) (expi (- k2)))) in
      fun i j => nmul (sum i j) (RtoC (/ sqrt (if Nat.ltb x 3 then M else m))).
End TaS2.
