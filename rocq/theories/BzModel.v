(** Model of plot.toBZ (plot.py:222-327) and bravais.BZ (bravais.py:1776-1794).

    Simplifications: floats are real numbers. Of the data, there are the interpolants
    [fun_ 0], [fun_ 1] etc. (line 278) of arbitrary results; that is, any function may be
    passed as [interpolation]. The results with [return_only_k] are a separate function; those
    with [return_k] are the results of both. Status messages are left out. *)
From Coq Require Export Reals List ZArith.
From Verif Require Export Common GeoModel.
From Verif Require Import MPIModel DiagModel.
Import ListNotations.
Local Open Scope R_scope.

(** [np.arctan2] *)
Definition atan2 (y x : R) : R :=
  if Rlt_dec 0 x then atan (y / x)
  else if Rlt_dec x 0 then (if Rlt_dec y 0 then atan (y / x) - PI else atan (y / x) + PI)
  else if Rlt_dec 0 y then PI / 2
  else if Rlt_dec y 0 then - (PI / 2)
  else 0.

Definition sub2 (u v : r2) : r2 := (fst u - fst v, snd u - snd v).

(** Lines 233-252: vectors and bound. Other angles leave variables undefined. *)
Record frame := Frame { a1 : r2; a2 : r2; a3 : r2; b1 : r2; b2 : r2; b3 : r2; M_ : R }.
Definition frame_of (angle : Z) (angle0 : R) : res frame :=
  let (a1, a2) := translations2 (IZR angle) angle0 in
  let (b1, b2) := reciprocals2 a1 a2 in
  if (angle =? 60)%Z then Ok (Frame a1 a2 (sub2 a1 a2) b1 b2 (add2 b1 b2) (2 / 3))
  else if (angle =? 90)%Z then Ok (Frame a1 a2 a1 b1 b2 b1 (1 / 2))
  else if (angle =? 120)%Z then Ok (Frame a1 a2 (add2 a1 a2) b1 b2 (sub2 b1 b2) (2 / 3))
  else Raise UnboundLocalError.

(** Lines 254-255 *)
Definition max3 (x y z : R) : R := Rmax (Rmax x y) z.
Definition kxmax (f : frame) : R := max3 (Rabs (fst (a1 f))) (Rabs (fst (a2 f))) (Rabs (fst (a3 f))) * M_ f.
Definition kymax (f : frame) : R := max3 (Rabs (snd (a1 f))) (Rabs (snd (a2 f))) (Rabs (snd (a3 f))) * M_ f.

(** Lines 257-262 *)
Definition pixels (points : Z) (even : bool) (kmax : R) : nat :=
  let n := np_round (IZR points * kmax) in
  Z.to_nat (if even then n + n mod 2 else n)%Z.

(** Lines 264-271: midpoints of intervals. *)
Definition midpoint (kmax : R) (n i : nat) : R :=
  let dk := 2 * kmax / INR n in - kmax + INR i * dk + dk / 2.

(** Lines 276-327: one pixel and the image, row by row *)
Section Image.
  Context {A : Type}.
  Variables (f : frame) (angle0 : R) (points : Z) (even : bool) (ndata : nat) (fun_ : nat -> R -> R -> A) (nk : nat) (outside : A).

  Definition nkx : nat := pixels points even (kxmax f).
  Definition nky : nat := pixels points even (kymax f).
  Definition kx (j : nat) : R := midpoint (kxmax f) nkx j.
  Definition ky (i : nat) : R := midpoint (kymax f) nky (nky - 1 - i).

  Definition sector (k : r2) : nat :=
    let scale := INR ndata / (2 * PI) in
    Z.to_nat (Int_part ((atan2 (snd k) (fst k) - angle0 * (PI / 180)) * scale) mod Z.of_nat ndata).

  Definition pixel (m : nat) : A :=
    let i := (m / nkx)%nat in
    let j := (m mod nkx)%nat in
    let k := (kx j, ky i) in
    let k1 := dot2 k (a1 f) in
    let k2 := dot2 k (a2 f) in
    if Rlt_dec (M_ f) (Rabs (dot2 k (b1 f))) then outside
    else if Rlt_dec (M_ f) (Rabs (dot2 k (b2 f))) then outside
    else if Rlt_dec (M_ f) (Rabs (dot2 k (b3 f))) then outside
    else fun_ (sector k) (k1 * INR nk) (k2 * INR nk).

  Definition image (nproc : Z) : res (list A) := distributed nproc (nky * nkx) pixel.
End Image.

Definition toBZ {A} (nproc : Z) (ndata : nat) (fun_ : nat -> R -> R -> A) (nk : nat) (points : Z) (angle : Z) (angle0 : R) (outside : A) (even : bool) : res (list A) :=
  do f <- frame_of angle angle0 ;;
  image f angle0 points even ndata fun_ nk outside nproc.

(** Lines 273-274: [return_only_k] *)
Definition toBZ_only_k (points : Z) (angle : Z) (angle0 : R) (even : bool) : res (R * R * list R * list R) :=
  do f <- frame_of angle angle0 ;;
  Ok (kxmax f, kymax f, map (kx f points even) (seq 0 (nkx f points even)), map (ky f points even) (seq 0 (nky f points even))).

(** bravais.py:1776-1794 *)
Definition corners (b1 b2 : r2) (divisor : R) (K : list (Z * Z)) : list r2 :=
  map (fun k => scale2 (/ divisor) (add2 (scale2 (IZR (fst k)) b1) (scale2 (IZR (snd k)) b2))) K.
Definition BZ (angle : Z) (angle0 : R) : res (list r2) :=
  let (a1, a2) := translations2 (IZR angle) angle0 in
  let (b1, b2) := reciprocals2 a1 a2 in
  if (angle =? 60)%Z then Ok (corners b1 b2 3 [(1, 2); (-1, 1); (-2, -1); (-1, -2); (1, -1); (2, 1); (1, 2)]%Z)
  else if (angle =? 90)%Z then Ok (corners b1 b2 1 [(1, 1); (-1, 1); (-1, -1); (1, -1); (1, 1)]%Z)
  else if (angle =? 120)%Z then Ok (corners b1 b2 3 [(1, 1); (-1, 2); (-2, 1); (-1, -1); (1, -2); (2, -1); (1, 1)]%Z)
  else Raise UnboundLocalError.
