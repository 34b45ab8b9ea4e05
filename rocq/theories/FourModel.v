(** Model of elphmod/bravais.py:1411-1489, Fourier_interpolation, over complex
    numbers. [data i j] is the value at the mesh point (i, j). *)
From Coq Require Import Reals.
From Verif Require Import Common LatModel SymModel VorModel Num NumC.
Local Open Scope R_scope.

(** Line 1442: element of [transform]. [sign] is 1 or -1. *)
Definition transform (sign N a b : Z) : C :=
  nmul (expi (IZR sign * (2 * PI / IZR N) * IZR (a * b))) (RtoC (/ IZR N)).

(** Line 1444. *)
Definition coefficient (sign N : Z) (data : Z -> Z -> C) (n m : Z) : C :=
  nsum (fun i => nsum (fun j => nmul (nmul (transform sign N n i) (data i j)) (transform sign N j m))
    (zrange 0 N)) (zrange 0 N).

(** Line 1455: [abs(data[n, m]) < 1e-6]. *)
Definition tiny (z : C) : bool :=
  if Rlt_dec (sqrt (Re z * Re z + Im z * Im z)) (1 / 1000000) then true else false.

(** Lines 1448-1476: points with coefficients divided by the number of images. *)
Definition fourier_points (sign angle N : Z) (data : Z -> Z -> C) : res (list (pt * C)) :=
  fold_left (fun points k =>
    do points <- points ;;
    let c := coefficient sign N data (fst k) (snd k) in
    if tiny c then Ok points
    else
      do images <- to_Voronoi k N (180 - angle) 0 0 0 ;;
      Ok (points ++ map (fun p => (p, nmul c (RtoC (/ INR (length images))))) images))
    (mesh2 N) (Ok []).

(** Lines 1480-1483. *)
Definition interpolant (sign N : Z) (points : list (pt * C)) (x y : R) : R :=
  Re (nsum (fun p => nmul (expi (- IZR sign * (2 * PI / IZR N) * (IZR (fst (fst p)) * x + IZR (snd (fst p)) * y))) (snd p)) points).

(** [function=True] (line 1485). [N = 0]: division by zero at line 1442. *)
Definition Fourier_interpolation (data : Z -> Z -> C) (N angle sign : Z) : res (R -> R -> R) :=
  if (N =? 0)%Z then Raise ZeroDivisionError
  else do points <- fourier_points sign angle N data ;; Ok (interpolant sign N points).
