(** Model of elphmod/plot.py:23-76 (plot), 181-201 (colorbar), 329-383 (rectify) and 385-434
    (color).

    Simplifications: rational numbers in place of floats, without NaN. An exception in one of
    several processes is an exception here. Where NumPy warns about a division by zero and
    returns NaN, ZeroDivisionError is raised here. *)
From Verif Require Import Common MPIModel StackModel LinModel.
From Verif Require Text.
Local Open Scope Q_scope.

(** [int(round(x))] *)
Definition round_q (x : Q) : Z := Text.round_div (Qnum x) (Zpos (Qden x)).
(** [np.empty(n)], [np.linspace(..., n)] *)
Definition size_of (n : Z) : res nat := if (n <? 0)%Z then Raise ValueError else Ok (Z.to_nat n).
Definition inj (n : nat) : Q := inject_Z (Z.of_nat n).

(** ** Loops over [range( *bounds[comm.rank:comm.rank + 2] )] and [Gatherv] or [Allgatherv] *)
Fixpoint parts {B} (f : nat -> B) (bounds : list Z) : list (list B) :=
  match bounds with
  | lo :: ((hi :: _) as bounds) => map f (seq (Z.to_nat lo) (Z.to_nat (hi - lo))) :: parts f bounds
  | _ => []
  end.
Definition parallel {B} (f : nat -> B) (nproc : Z) (n : nat) : res (list B) :=
  do (sizes, bounds) <- distribute (Z.of_nat n) nproc ;;
  Gatherv (map Z.to_nat sizes) (parts f bounds).

(** ** plot: plot.py:23-76

    [a1], [a2]: the results of [bravais.translations(180 - angle)]. The image is a flat list. *)
Definition plot argsort (nproc : Z) (mesh : list (list Q)) (kxmin kxmax kymin kymax resolution : Q) (angle : Z) (a1 a2 : Q * Q) : res (nat * nat * list Q) :=
  let nk := inject_Z (shape1 mesh) in
  do nkx <- size_of (round_q (resolution * (kxmax - kxmin))) ;;
  do nky <- size_of (round_q (resolution * (kymax - kymin))) ;;
  let dkx := (kxmax - kxmin) / inj nkx in
  let dky := (kymax - kymin) / inj nky in
  let kx j := kxmin + inj j * dkx + dkx / 2 in
  let ky i := kymin + inj (nky - 1 - i) * dky + dky / 2 in
  do values <- parallel (fun m =>
    let i := (m / nkx)%nat in
    let j := (m mod nkx)%nat in
    let k1 := kx j * fst a1 + ky i * snd a1 in
    let k2 := kx j * fst a2 + ky i * snd a2 in
    interpolant2 argsort angle None mesh (k1 * nk) (k2 * nk)) nproc (nky * nkx) ;;
  do image <- collect (fun x => x) values ;;
  Ok (nky, nkx, image).

(** ** rectify: plot.py:329-383 *)
Definition rectify argsort (image : list (list Q)) (width height : Q) (lt rt lb rb : Q * Q) (angle : Z) (period : option Q) : res (list (list Q)) :=
  let Ny := inject_Z (shape0 image) in
  let Nx := inject_Z (shape1 image) in
  let nx := round_q (Nx * width) in
  let ny := round_q (Ny * height) in
  let scale p := (Nx * fst p, Ny * snd p) in
  let lt := scale lt in let rt := scale rt in let lb := scale lb in let rb := scale rb in
  do nyn <- size_of ny ;;
  do nxn <- size_of nx ;;
  let mix (b t : Q * Q) i n := ((fst b * inj i + fst t * (inj n - inj i)) / inj n, (snd b * inj i + snd t * (inj n - inj i)) / inj n) in
  collect (fun iy =>
    let l := mix lb lt iy nyn in
    let r := mix rb rt iy nyn in
    collect (fun ix =>
      let (ixf, iyf) := mix r l ix nxn in
      interpolant2 argsort angle period image (Ny - iyf) ixf) (seq 0 nxn)) (seq 0 nyn).

(** ** Smallest and largest value: [np.nanmin], [np.nanmax] *)
Definition qmin (x y : Q) : Q := if Qlt_le_dec y x then y else x.
Definition qmax (x y : Q) : Q := if Qlt_le_dec x y then y else x.
Definition nanmin (l : list Q) : res Q := match l with [] => Raise ValueError | x :: l => Ok (fold_left qmin l x) end.
Definition nanmax (l : list Q) : res Q := match l with [] => Raise ValueError | x :: l => Ok (fold_left qmax l x) end.
Definition given (x : option Q) (d : res Q) : res Q := match x with Some x => Ok x | None => d end.

(** ** colorbar: plot.py:181-201. The image, which is changed in place, is the result. *)
Record image := Img { ih : nat; iw : nat; pixel : nat -> nat -> Q }.
Definition pixels (im : image) : list Q := flat_map (fun y => map (pixel im y) (seq 0 (iw im))) (seq 0 (ih im)).
(** Start or end of a slice of [n] elements *)
Definition slice_index (n : nat) (z : Z) : nat := if (z <? 0)%Z then Z.to_nat (z + Z.of_nat n) else Nat.min (Z.to_nat z) n.
(** [image[y, x1:x2 + 1] = v] *)
Definition set_row (im : image) (y x1 x2 : Z) (v : Q) : res image :=
  let H := Z.of_nat (ih im) in
  if (y <? H)%Z && (- H <=? y)%Z then
    let y0 := Z.to_nat (if (y <? 0)%Z then y + H else y) in
    let i := slice_index (iw im) x1 in
    let j := slice_index (iw im) (x2 + 1) in
    Ok (Img (ih im) (iw im) (fun y' x' => if (y' =? y0)%nat && ((i <=? x')%nat && (x' <? j)%nat) then v else pixel im y' x'))
  else Raise IndexError.
Fixpoint set_rows (im : image) (f : Z -> res Q) (x1 x2 : Z) (ys : list Z) : res image :=
  match ys with [] => Ok im | y :: ys => do v <- f y ;; do im <- set_row im y x1 x2 v ;; set_rows im f x1 x2 ys end.
Definition colorbar (im : image) (left bottom width height : Q) (minimum maximum : option Q) : res image :=
  let W := inj (iw im) in
  let H := inj (ih im) in
  let x1 := round_q (W * left) in
  let x2 := round_q (W * (left + width)) in
  let y1 := round_q (H * (1 - bottom)) in
  let y2 := round_q (H * (1 - bottom - height)) in
  do lo <- given minimum (nanmin (pixels im)) ;;
  do hi <- given maximum (nanmax (pixels im)) ;;
  let value y := if (y2 =? y1)%Z then Raise ZeroDivisionError else Ok ((lo * inject_Z (y2 - y) - hi * inject_Z (y1 - y)) / inject_Z (y2 - y1)) in
  let low := Z.min y1 y2 in
  let high := Z.max y1 y2 in
  set_rows im value x1 x2 (map (fun i => (low + Z.of_nat i)%Z) (seq 0 (Z.to_nat (high + 1 - low)))).

(** ** color: plot.py:385-434

    The anchor points of a colormap are numbers or strings (data values) at first. Strings are
    replaced for good. [cmap anchors x]: the color. *)
Inductive anchor := Num (x : Q) | Str (x : Q).
Definition color {C} (nproc : Z) (data : list Q) (cmap : list anchor -> Q -> C) (anchors : list anchor) (minimum maximum : option Q) : res (list C * list anchor) :=
  do lo <- given minimum (nanmin data) ;;
  do hi <- given maximum (nanmax data) ;;
  if Qeq_bool hi lo then Raise ZeroDivisionError
  else
    let anchors := map (fun a => match a with Num x => Num x | Str x => Num ((x - lo) / (hi - lo)) end) anchors in
    let data := map (fun x => qmin (qmax ((x - lo) / (hi - lo)) 0) 1) data in
    do image <- parallel (fun i => cmap anchors (nth i data 0)) nproc (length data) ;;
    Ok (image, anchors).
