(** Properties C122 (plots, rectified images, colour bars and colours). *)
From Coq Require Import QArith Lqa.
From Verif Require Import Common MPIModel StackModel StackSpec LinModel LinSpec LinProofs PltModel PltSpec PltProofs PltProofs2 PltProofs3.
Local Open Scope Q_scope.

(** ** Plots

    [a1], [a2] are the lattice vectors. Pixels are numbered from the upper left. Every pixel
    shows the interpolated mesh at its centre, for any number of processes. *)
Theorem C122_plot argsort nproc mesh kxmin kxmax kymin kymax resolution angle a1 a2 nkx nky :
  (0 < nproc)%Z -> lattice_angle angle -> rectangular mesh ->
  nearest (resolution * (kxmax - kxmin)) (Z.of_nat nkx) -> nearest (resolution * (kymax - kymin)) (Z.of_nat nky) ->
  exists image, plot argsort nproc mesh kxmin kxmax kymin kymax resolution angle a1 a2 = Ok (nky, nkx, image) /\
    length image = (nky * nkx)%nat /\
    forall i j, (i < nky)%nat -> (j < nkx)%nat ->
      let k := (centre kxmin kxmax nkx j, centre kymax kymin nky i) in
      let nk := inject_Z (Z.of_nat (length (hd [] mesh))) in
      exists y, interpolant2 argsort angle None mesh (dot k a1 * nk) (dot k a2 * nk) = Ok y /\
        nth (i * nkx + j) image 0 == y.
Proof.
  intros Hp Ha Hm Hx Hy. destruct (plot_ok argsort nproc mesh _ _ _ _ _ angle a1 a2 _ _ Hp Ha Hm Hx Hy) as (image & E & L & P).
  exists image. split; [exact E|]. split; [exact L|]. intros i j Hi Hj. cbv zeta. eexists. split; [apply interpolant2_ok; [assumption|assumption|exact I]|].
  apply (P i j Hi Hj).
Qed.
Print Assumptions C122_plot.

Theorem C122_plot_processes argsort nproc nproc' mesh kxmin kxmax kymin kymax resolution angle a1 a2 :
  (0 < nproc)%Z -> (0 < nproc')%Z ->
  plot argsort nproc mesh kxmin kxmax kymin kymax resolution angle a1 a2 = plot argsort nproc' mesh kxmin kxmax kymin kymax resolution angle a1 a2.
Proof.
  intros H H'. unfold plot. destruct (size_of _) as [nkx|]; [|reflexivity]. cbn [bind]. destruct (size_of _) as [nky|]; [|reflexivity]. cbn [bind].
  rewrite !parallel_ok by assumption. reflexivity.
Qed.
Print Assumptions C122_plot_processes.

(** A pixel centred at a point of the (square) mesh, or at an equivalent one, shows the value
    at this point. *)
Theorem C122_plot_mesh argsort nproc mesh kxmin kxmax kymin kymax resolution angle a1 a2 b1 b2 nkx nky :
  (0 < nproc)%Z -> lattice_angle angle -> rectangular mesh ->
  nearest (resolution * (kxmax - kxmin)) (Z.of_nat nkx) -> nearest (resolution * (kymax - kymin)) (Z.of_nat nky) ->
  dual a1 a2 b1 b2 ->
  exists image, plot argsort nproc mesh kxmin kxmax kymin kymax resolution angle a1 a2 = Ok (nky, nkx, image) /\
    forall i j m1 m2, (i < nky)%nat -> (j < nkx)%nat ->
      let nk := inject_Z (Z.of_nat (length (hd [] mesh))) in
      nk * centre kxmin kxmax nkx j == inject_Z m1 * fst b1 + inject_Z m2 * fst b2 ->
      nk * centre kymax kymin nky i == inject_Z m1 * snd b1 + inject_Z m2 * snd b2 ->
      nth (i * nkx + j) image 0 == value2 mesh m1 m2.
Proof.
  intros Hp Ha Hm Hx Hy (D11 & D12 & D21 & D22). destruct (plot_ok argsort nproc mesh _ _ _ _ _ angle a1 a2 _ _ Hp Ha Hm Hx Hy) as (image & E & L & P).
  exists image. split; [exact E|]. intros i j m1 m2 Hi Hj nk X Y. rewrite (P i j Hi Hj). rewrite <- (cell_int angle mesh m1 m2 Ha Hm).
  fold nk in X, Y |- *. unfold dot in *. cbn [fst snd]. change (inject_Z (shape1 mesh)) with nk.
  apply cell_comp.
  - transitivity (nk * centre kxmin kxmax nkx j * fst a1 + nk * centre kymax kymin nky i * snd a1); [ring|]. rewrite X, Y.
    transitivity (inject_Z m1 * (fst a1 * fst b1 + snd a1 * snd b1) + inject_Z m2 * (fst a1 * fst b2 + snd a1 * snd b2)); [ring|]. rewrite D11, D12. ring.
  - transitivity (nk * centre kxmin kxmax nkx j * fst a2 + nk * centre kymax kymin nky i * snd a2); [ring|]. rewrite X, Y.
    transitivity (inject_Z m1 * (fst a2 * fst b1 + snd a2 * snd b1) + inject_Z m2 * (fst a2 * fst b2 + snd a2 * snd b2)); [ring|]. rewrite D21, D22. ring.
Qed.
Print Assumptions C122_plot_mesh.

(** Moving the window by a reciprocal lattice vector does not change the plot. *)
Theorem C122_plot_periodic argsort nproc mesh kxmin kxmax kymin kymax resolution angle a1 a2 b1 b2 z1 z2 nkx nky :
  (0 < nproc)%Z -> lattice_angle angle -> rectangular mesh -> length mesh = length (hd [] mesh) ->
  nearest (resolution * (kxmax - kxmin)) (Z.of_nat nkx) -> nearest (resolution * (kymax - kymin)) (Z.of_nat nky) ->
  dual a1 a2 b1 b2 ->
  let gx := inject_Z z1 * fst b1 + inject_Z z2 * fst b2 in
  let gy := inject_Z z1 * snd b1 + inject_Z z2 * snd b2 in
  exists image image',
    plot argsort nproc mesh kxmin kxmax kymin kymax resolution angle a1 a2 = Ok (nky, nkx, image) /\
    plot argsort nproc mesh (kxmin + gx) (kxmax + gx) (kymin + gy) (kymax + gy) resolution angle a1 a2 = Ok (nky, nkx, image') /\
    forall m, (m < nky * nkx)%nat -> nth m image' 0 == nth m image 0.
Proof.
  intros Hp Ha Hm Hsq Hx Hy (D11 & D12 & D21 & D22) gx gy.
  assert (Hx' : nearest (resolution * (kxmax + gx - (kxmin + gx))) (Z.of_nat nkx)).
  { unfold nearest in *. assert (X : resolution * (kxmax + gx - (kxmin + gx)) == resolution * (kxmax - kxmin)) by ring. rewrite X. exact Hx. }
  assert (Hy' : nearest (resolution * (kymax + gy - (kymin + gy))) (Z.of_nat nky)).
  { unfold nearest in *. assert (X : resolution * (kymax + gy - (kymin + gy)) == resolution * (kymax - kymin)) by ring. rewrite X. exact Hy. }
  destruct (plot_ok argsort nproc mesh _ _ _ _ _ angle a1 a2 _ _ Hp Ha Hm Hx Hy) as (image & E & L & P).
  destruct (plot_ok argsort nproc mesh _ _ _ _ _ angle a1 a2 _ _ Hp Ha Hm Hx' Hy') as (image' & E' & L' & P').
  exists image, image'. split; [exact E|]. split; [exact E'|]. intros m Hm'.
  assert (0 < nkx)%nat by nia. rewrite (Nat.div_mod m nkx) by lia. rewrite (Nat.mul_comm nkx).
  assert (Hi : (m / nkx < nky)%nat) by (apply Nat.div_lt_upper_bound; lia). assert (Hj : (m mod nkx < nkx)%nat) by (apply Nat.mod_upper_bound; lia).
  rewrite (P _ _ Hi Hj), (P' _ _ Hi Hj). set (i := (m / nkx)%nat) in *. set (j := (m mod nkx)%nat) in *.
  rewrite <- (cell_periodic angle mesh (dot (centre kxmin kxmax nkx j, centre kymax kymin nky i) a1 * inject_Z (shape1 mesh)) _ z1 z2 Ha Hm).
  assert (S01 : shape0 mesh = shape1 mesh) by (unfold shape0, shape1; rewrite Hsq; reflexivity). rewrite S01, !inject_Z_mult.
  assert (Cx : centre (kxmin + gx) (kxmax + gx) nkx j == centre kxmin kxmax nkx j + gx) by (unfold centre; ring).
  assert (Cy : centre (kymax + gy) (kymin + gy) nky i == centre kymax kymin nky i + gy) by (unfold centre; ring).
  unfold dot in *. cbn [fst snd].
  apply cell_comp; rewrite Cx, Cy; unfold gx, gy; set (n := inject_Z (shape1 mesh)); set (x := centre kxmin kxmax nkx j); set (y := centre kymax kymin nky i).
  - transitivity ((x * fst a1 + y * snd a1) * n + (inject_Z z1 * (fst a1 * fst b1 + snd a1 * snd b1) + inject_Z z2 * (fst a1 * fst b2 + snd a1 * snd b2)) * n); [ring|]. rewrite D11, D12. ring.
  - transitivity ((x * fst a2 + y * snd a2) * n + (inject_Z z1 * (fst a2 * fst b1 + snd a2 * snd b1) + inject_Z z2 * (fst a2 * fst b2 + snd a2 * snd b2)) * n); [ring|]. rewrite D21, D22. ring.
Qed.
Print Assumptions C122_plot_periodic.

(** Four processes, 5 times 3 pixels. *)
Example C122_plot_example :
  match plot (fun _ => []) 4 [[1; 2]; [3; 4]] (-(1 # 2)) 2 0 (3 # 2) 2 90 (1, 0) (0, 1) with
  | Ok (h, w, l) => (h, w) = (3, 5)%nat /\ length l = 15%nat /\ Forall2 Qeq (firstn 5 l) [5 # 2; 5 # 2; 5 # 2; 5 # 2; 5 # 2]
  | _ => False end /\
  nearest (2 * (2 - -(1 # 2))) 5 /\ nearest (2 * ((3 # 2) - 0)) 3 /\ dual (1, 0) (0, 1) (1, 0) (0, 1).
Proof. split; [vm_compute; repeat constructor|]. split; [split; vm_compute; reflexivity|]. split; [split; vm_compute; reflexivity|]. vm_compute. repeat split. Qed.

(** ** Rectified selections *)

(** Corners are given in units of the width and height of the image, counted from its lower
    left. *)
Theorem C122_rectify argsort image width height lt rt lb rb angle period nx ny :
  lattice_angle angle -> rectangular image -> no_period period ->
  nearest (inject_Z (Z.of_nat (length (hd [] image))) * width) (Z.of_nat nx) ->
  nearest (inject_Z (Z.of_nat (length image)) * height) (Z.of_nat ny) ->
  exists view, rectify argsort image width height lt rt lb rb angle period = Ok view /\ length view = ny /\
    Forall (fun row => length row = nx) view /\
    forall iy ix, (iy < ny)%nat -> (ix < nx)%nat ->
      let v := inject_Z (Z.of_nat iy) / inject_Z (Z.of_nat ny) in
      let u := inject_Z (Z.of_nat ix) / inject_Z (Z.of_nat nx) in
      let x := inside_quadrangle (fst lt) (fst rt) (fst lb) (fst rb) u v in
      let y := inside_quadrangle (snd lt) (snd rt) (snd lb) (snd rb) u v in
      exists value, interpolant2 argsort angle period image
        (inject_Z (Z.of_nat (length image)) * (1 - y)) (inject_Z (Z.of_nat (length (hd [] image))) * x) = Ok value /\
        nth ix (nth iy view []) 0 == value.
Proof.
  intros Ha Hi Hp Hx Hy. destruct (rectify_ok argsort image width height lt rt lb rb angle period nx ny Ha Hi Hp Hx Hy) as (view & E & L & R & P).
  exists view. split; [exact E|]. split; [exact L|]. split; [exact R|]. intros iy ix H1 H2. cbv zeta.
  eexists. split; [apply interpolant2_ok; assumption|]. apply (P iy ix H1 H2).
Qed.
Print Assumptions C122_rectify.

(** A rectangle of [w] times [h] pixels that begins [y0] pixels from the top and [x0] pixels
    from the left is cut out; beyond the edges, the image is repeated. *)
Theorem C122_rectify_crop argsort image angle period (x0 y0 : Z) (w h : nat) :
  lattice_angle angle -> rectangular image -> no_period period -> (0 < w)%nat -> (0 < h)%nat ->
  let Nx := inject_Z (Z.of_nat (length (hd [] image))) in
  let Ny := inject_Z (Z.of_nat (length image)) in
  let l := inject_Z x0 / Nx in
  let r := inject_Z (x0 + Z.of_nat w) / Nx in
  let t := 1 - inject_Z y0 / Ny in
  let b := 1 - inject_Z (y0 + Z.of_nat h) / Ny in
  exists view, rectify argsort image (inject_Z (Z.of_nat w) / Nx) (inject_Z (Z.of_nat h) / Ny) (l, t) (r, t) (l, b) (r, b) angle period = Ok view /\
    length view = h /\ Forall (fun row => length row = w) view /\
    forall iy ix, (iy < h)%nat -> (ix < w)%nat -> nth ix (nth iy view []) 0 == value2 image (y0 + Z.of_nat iy) (x0 + Z.of_nat ix).
Proof.
  intros Ha Hi Hp Hw Hh Nx Ny l r t b. destruct (shape_pos image Hi) as [P0 P1].
  assert (Dx : ~ Nx == 0) by (unfold Nx, Qeq; cbn; unfold shape1 in P1; lia).
  assert (Dy : ~ Ny == 0) by (unfold Ny, Qeq; cbn; unfold shape0 in P0; lia).
  destruct (rectify_ok argsort image (inject_Z (Z.of_nat w) / Nx) (inject_Z (Z.of_nat h) / Ny) (l, t) (r, t) (l, b) (r, b) angle period w h Ha Hi Hp) as (view & E & L & R & P).
  - apply nearest_int. change (inject_Z (shape1 image)) with Nx. field. exact Dx.
  - apply nearest_int. change (inject_Z (shape0 image)) with Ny. field. exact Dy.
  - exists view. split; [exact E|]. split; [exact L|]. split; [exact R|]. intros iy ix H1 H2.
    rewrite (P iy ix H1 H2). rewrite <- (cell_int angle image _ _ Ha Hi). cbn [fst snd].
    change (inject_Z (shape1 image)) with Nx. change (inject_Z (shape0 image)) with Ny.
    pose proof (inj_0 w Hw) as Dw. pose proof (inj_0 h Hh) as Dh. unfold inj in Dw, Dh.
    apply cell_comp; unfold inside_quadrangle, l, r, t, b; rewrite !inject_Z_plus; field; repeat split; assumption.
Qed.
Print Assumptions C122_rectify_crop.

Example C122_rectify_example :
  match rectify (fun _ => []) [[1; 2; 3]; [4; 5; 6]] (2 # 3) 1 (1 # 3, 1) (1, 1) (1 # 3, 0) (1, 0) 60 None with
  | Ok view => Forall2 (Forall2 Qeq) view [[2; 3]; [5; 6]] | _ => False end.
Proof. vm_compute. repeat constructor. Qed.

(** ** Colour bars *)

(** Within the bar, the values grow linearly from the minimum in the bottom row to the maximum
    in the top row. Everything else is as before. *)
Theorem C122_colorbar im left bottom width height minimum maximum lo hi x1 x2 y1 y2 :
  nearest (inject_Z (Z.of_nat (iw im)) * left) x1 -> nearest (inject_Z (Z.of_nat (iw im)) * (left + width)) x2 ->
  nearest (inject_Z (Z.of_nat (ih im)) * (1 - bottom)) y1 -> nearest (inject_Z (Z.of_nat (ih im)) * (1 - bottom - height)) y2 ->
  (0 <= x1)%Z -> (0 <= x2)%Z -> (0 <= y2 < y1)%Z -> (y1 < Z.of_nat (ih im))%Z ->
  let in_image v := exists i j, (i < ih im)%nat /\ (j < iw im)%nat /\ v = pixel im i j in
  lower_end minimum in_image lo -> upper_end maximum in_image hi ->
  exists im', colorbar im left bottom width height minimum maximum = Ok im' /\ ih im' = ih im /\ iw im' = iw im /\
    forall y x, (y < ih im)%nat -> (x < iw im)%nat ->
      ((y2 <= Z.of_nat y <= y1)%Z -> (x1 <= Z.of_nat x <= x2)%Z ->
        pixel im' y x == lo + (hi - lo) * (inject_Z (y1 - Z.of_nat y) / inject_Z (y1 - y2))) /\
      (~ (y2 <= Z.of_nat y <= y1)%Z \/ ~ (x1 <= Z.of_nat x <= x2)%Z -> pixel im' y x = pixel im y x).
Proof. intros. eapply colorbar_ok; eassumption. Qed.
Print Assumptions C122_colorbar.

(** A bar at the very bottom of an image is not drawn; there is an exception. *)
Theorem C122_colorbar_bottom_refuted im left width height minimum maximum lo hi x1 x2 y2 :
  nearest (inject_Z (Z.of_nat (iw im)) * left) x1 -> nearest (inject_Z (Z.of_nat (iw im)) * (left + width)) x2 ->
  nearest (inject_Z (Z.of_nat (ih im)) * (1 - height)) y2 ->
  (0 <= x1)%Z -> (0 <= x2)%Z -> (0 <= y2 < Z.of_nat (ih im))%Z ->
  let in_image v := exists i j, (i < ih im)%nat /\ (j < iw im)%nat /\ v = pixel im i j in
  lower_end minimum in_image lo -> upper_end maximum in_image hi ->
  colorbar im left 0 width height minimum maximum = Raise IndexError.
Proof. intros. eapply colorbar_bottom; eassumption. Qed.
Print Assumptions C122_colorbar_bottom_refuted.

Example C122_colorbar_example :
  let im := Img 5 4 (fun i j => inject_Z (Z.of_nat (i * 4 + j))) in
  match colorbar im (1 # 4) (1 # 5) (1 # 4) (3 # 5) None (Some 30) with
  | Ok im' => Forall2 Qeq (map (fun i => pixel im' i 1%nat) (seq 0 5)) [1; 30; 20; 10; 0]
  | _ => False end /\
  colorbar im (1 # 4) 0 (1 # 4) (3 # 5) None None = Raise IndexError.
Proof. split; [vm_compute; repeat constructor|vm_compute; reflexivity]. Qed.

(** ** Colours *)

(** The colour of every data point belongs to its position between the smallest and largest
    value, for any number of processes. Anchor points given as data values are replaced by the
    position of these values. *)
Theorem C122_color {C} nproc data (cmap : list anchor -> Q -> C) anchors minimum maximum lo hi : (0 < nproc)%Z ->
  lower_end minimum (fun x => In x data) lo -> upper_end maximum (fun x => In x data) hi -> lo < hi ->
  exists image anchors', color nproc data cmap anchors minimum maximum = Ok (image, anchors') /\
    Forall2 (fun a b => match a with Num x => b = Num x | Str x => exists p, b = Num p /\ lo + p * (hi - lo) == x end) anchors anchors' /\
    Forall2 (fun x c => exists p, position lo hi x p /\ c = cmap anchors' p) data image.
Proof. exact (color_ok nproc data cmap anchors minimum maximum lo hi). Qed.
Print Assumptions C122_color.

(** Shifting and (positive) scaling of the data does not change the colours. *)
Theorem C122_color_affine {C} nproc nproc' data (cmap : list anchor -> Q -> C) anchors s c lo hi : (0 < nproc)%Z -> (0 < nproc')%Z -> 0 < s ->
  (forall a p p', p == p' -> cmap a p = cmap a p') -> Forall (fun a => exists x, a = Num x) anchors ->
  lower_end None (fun x => In x data) lo -> upper_end None (fun x => In x data) hi -> lo < hi ->
  color nproc' (map (fun x => s * x + c) data) cmap anchors None None = color nproc data cmap anchors None None.
Proof.
  intros Hp Hp' Hs Hc Ha Hlo Hhi H.
  destruct (color_ok nproc data cmap anchors None None lo hi Hp Hlo Hhi H) as (im & an & E & A & P).
  destruct (color_ok nproc' (map (fun x => s * x + c) data) cmap anchors None None (s * lo + c) (s * hi + c) Hp') as (im' & an' & E' & A' & P').
  - destruct Hlo as ((x & Hx & Ex) & L). split; [exists (s * x + c); split; [apply (in_map (fun x => s * x + c)); exact Hx|rewrite Ex; reflexivity]|].
    intros y Hy. apply in_map_iff in Hy as (z & <- & Hz). pose proof (L z Hz). nra.
  - destruct Hhi as ((x & Hx & Ex) & L). split; [exists (s * x + c); split; [apply (in_map (fun x => s * x + c)); exact Hx|rewrite Ex; reflexivity]|].
    intros y Hy. apply in_map_iff in Hy as (z & <- & Hz). pose proof (L z Hz). nra.
  - nra.
  - assert (X : forall lo hi l m, Forall (fun a => exists x, a = Num x) l -> Forall2 (resolved lo hi) l m -> m = l).
    { clear. intros lo hi l m F G. induction G as [|a b l m Hab G IH]; [reflexivity|]. apply Forall_cons_iff in F as [[x ->] F]. cbn [resolved] in Hab. rewrite Hab, IH by exact F. reflexivity. }
    apply X in A; [|exact Ha]. apply X in A'; [|exact Ha]. subst an an'. rewrite E, E'. f_equal. f_equal.
    clear -Hs Hc H P P'. revert im' P'. induction P as [|x y data im (p & Hp & ->) P IH]; intros im' P'.
    + inversion P'. reflexivity.
    + cbn [map] in P'. inversion P' as [|x' y' l l' (p' & Hp' & Ey) Hl]. subst. f_equal; [|apply IH; exact Hl].
      apply Hc. apply (position_det (s * lo + c) (s * hi + c) (s * x + c)); [nra|exact Hp'|apply position_affine; assumption].
Qed.
Print Assumptions C122_color_affine.

(** A colormap whose anchor points are data values cannot be used twice: in the second image,
    they are where they were in the first. *)
Theorem C122_color_again_refuted :
  exists (data1 data2 : list Q) (cmap : list anchor -> Q -> Q) anchors anchors1 image1 image2 fresh,
    color 1 data1 cmap anchors None None = Ok (image1, anchors1) /\
    color 1 data2 cmap anchors1 None None = Ok (image2, anchors1) /\
    (exists anchors2, color 1 data2 cmap anchors None None = Ok (fresh, anchors2)) /\
    ~ Forall2 Qeq image2 fresh.
Proof.
  exists [0; 1], [0; 1; 2], (fun a p => match a with [_; Num x; _] => if Qlt_le_dec p x then 0 else 1 | _ => 0 end), [Num 0; Str 1; Num 1].
  eexists _, _, _, _. split; [vm_compute; reflexivity|]. split; [vm_compute; reflexivity|]. split; [eexists; vm_compute; reflexivity|].
  intros X. inversion X as [|? ? ? ? _ Y]. inversion Y as [|? ? ? ? Z _]. vm_compute in Z. discriminate.
Qed.
Print Assumptions C122_color_again_refuted.

Example C122_color_example :
  match color 3 [1; 3; 2; 5] (fun _ p => p) [Str 2] None (Some 4) with
  | Ok (l, [Num x]) => Forall2 Qeq l [0; 2 # 3; 1 # 3; 1] /\ x == 1 # 3 | _ => False end.
Proof. vm_compute. split; [repeat constructor|reflexivity]. Qed.
