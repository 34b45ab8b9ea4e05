(** Property C23: linear interpolation (elphmod/bravais.py). *)
From Coq Require Import Qabs Qround Lqa.
From Verif Require Import Common CommonProofs StackModel StackSpec StackProofs LinModel LinSpec LinProofs.
Local Open Scope Q_scope.

(** C23. At integer indices (of any sign and size), the data is reproduced. *)
Theorem C23_reproduces argsort angle period data i j : lattice_angle angle -> rectangular data -> no_period period ->
  exists y, interpolant2 argsort angle period data (inject_Z i) (inject_Z j) = Ok y /\ y == value2 data i j.
Proof. exact (interpolant2_int argsort angle period data i j). Qed.
Print Assumptions C23_reproduces.

Theorem C23_reproduces_1d argsort period data i : data <> [] -> no_period period ->
  exists y, interpolant1 argsort period data (inject_Z i) = Ok y /\ y == value1 data i.
Proof. exact (interpolant1_int argsort period data i). Qed.
Print Assumptions C23_reproduces_1d.

(** C23. The result is a weighted average of the values at the corners of the
    cell... *)
Theorem C23_average argsort angle period data n m : lattice_angle angle -> rectangular data -> no_period period ->
  exists y, interpolant2 argsort angle period data n m = Ok y /\
    average (corners2 n m) (fun c => value2 data (fst c) (snd c)) y.
Proof. exact (interpolant2_average argsort angle period data n m). Qed.
Print Assumptions C23_average.

Theorem C23_average_1d argsort period data n : data <> [] -> no_period period ->
  exists y, interpolant1 argsort period data n = Ok y /\ average (corners1 n) (value1 data) y.
Proof. exact (interpolant1_average argsort period data n). Qed.
Print Assumptions C23_average_1d.

(** ... hence within the bounds of these values. *)
Theorem C23_bounds argsort angle period data n m lo hi y : lattice_angle angle -> rectangular data -> no_period period ->
  (forall i j, In (i, j) (corners2 n m) -> lo <= value2 data i j <= hi) ->
  interpolant2 argsort angle period data n m = Ok y -> lo <= y <= hi.
Proof.
  exact (fun Ha H Hp Hb E => match interpolant2_average argsort angle period data n m Ha H Hp with
    ex_intro _ y' (conj E' A) =>
      eq_ind y' (fun y => lo <= y <= hi) (average_bounds _ _ _ lo hi A (fun a => match a with (i, j) => Hb i j end)) y
        (f_equal (get_ok 0) (eq_trans (eq_sym E') E)) end).
Qed.
Print Assumptions C23_bounds.

(** C23. Where the data is an affine function, so is the interpolant. *)
Theorem C23_affine argsort angle period data n m a b c : lattice_angle angle -> rectangular data -> no_period period ->
  (forall i j, In (i, j) (corners2 n m) -> value2 data i j == a + b * inject_Z i + c * inject_Z j) ->
  exists y, interpolant2 argsort angle period data n m = Ok y /\ y == a + b * n + c * m.
Proof. exact (interpolant2_affine argsort angle period data n m a b c). Qed.
Print Assumptions C23_affine.

Theorem C23_affine_1d argsort period data n a b : data <> [] -> no_period period ->
  (forall i, In i (corners1 n) -> value1 data i == a + b * inject_Z i) ->
  exists y, interpolant1 argsort period data n = Ok y /\ y == a + b * n.
Proof. exact (interpolant1_affine argsort period data n a b). Qed.
Print Assumptions C23_affine_1d.

(** C23. Continuity, also across borders of cells and triangles: the slope does
    nowhere exceed that between neighboring data points. *)
Theorem C23_continuous argsort angle period data n m n' m' L1 L2 : lattice_angle angle -> rectangular data -> no_period period ->
  (forall i j, Qabs (value2 data (i + 1) j - value2 data i j) <= L1) ->
  (forall i j, Qabs (value2 data i (j + 1) - value2 data i j) <= L2) ->
  exists y y', interpolant2 argsort angle period data n m = Ok y /\ interpolant2 argsort angle period data n' m' = Ok y' /\
    Qabs (y' - y) <= L1 * Qabs (n' - n) + L2 * Qabs (m' - m).
Proof. exact (interpolant2_lip argsort angle period data n m n' m' L1 L2). Qed.
Print Assumptions C23_continuous.

Theorem C23_continuous_1d argsort period data n n' L : data <> [] -> no_period period ->
  (forall i, Qabs (value1 data (i + 1) - value1 data i) <= L) ->
  exists y y', interpolant1 argsort period data n = Ok y /\ interpolant1 argsort period data n' = Ok y' /\
    Qabs (y' - y) <= L * Qabs (n' - n).
Proof. exact (interpolant1_lip argsort period data n n' L). Qed.
Print Assumptions C23_continuous_1d.

(** C23. Shifting the point by multiples of the mesh size changes nothing. *)
Theorem C23_periodic argsort angle period data n m z w : lattice_angle angle -> rectangular data -> no_period period ->
  exists y y', interpolant2 argsort angle period data n m = Ok y /\
    interpolant2 argsort angle period data (n + inject_Z (z * Z.of_nat (length data)))
      (m + inject_Z (w * Z.of_nat (length (hd [] data)))) = Ok y' /\ y == y'.
Proof. exact (interpolant2_periodic argsort angle period data n m z w). Qed.
Print Assumptions C23_periodic.

(** C23. Data on a periodic axis: an average of values that are equal to the data
    up to full periods; the data is reproduced up to full periods. *)
Theorem C23_period argsort angle p data n m : lattice_angle angle -> rectangular data -> sorts argsort -> 0 < p ->
  exists f y, interpolant2 argsort angle (Some p) data n m = Ok y /\
    (forall i j, In (i, j) (corners2 n m) -> congruent p (value2 data i j) (f (i, j))) /\
    average (corners2 n m) f y /\
    (forall i j, n == inject_Z i -> m == inject_Z j -> y == f (i, j)).
Proof. exact (interpolant2_period argsort angle p data n m). Qed.
Print Assumptions C23_period.

(** In one dimension, the interpolation is across the shortest distance. *)
Theorem C23_period_1d argsort p data n : sorts argsort -> 0 < p -> data <> [] ->
  exists A B y, interpolant1 argsort (Some p) data n = Ok y /\
    congruent p (value1 data (Qfloor n)) A /\ congruent p (value1 data (Qfloor n + 1)) B /\
    Qabs (B - A) <= p / 2 /\
    y == (1 - (n - inject_Z (Qfloor n))) * A + (n - inject_Z (Qfloor n)) * B.
Proof. exact (interpolant1_period argsort p data n). Qed.
Print Assumptions C23_period_1d.

(** C23. Resizing to a multiple of the size (one in particular) keeps the original
    data points; without periodicity, the ends and affine functions are kept. *)
Theorem C23_resize argsort angle period data k l : lattice_angle angle -> rectangular data -> no_period period -> (0 < k)%nat -> (0 < l)%nat ->
  let N := length data in let M := length (hd [] data) in
  exists ys, resize2 argsort angle period true data (k * N) (l * M) = Ok ys /\ length ys = (k * N * (l * M))%nat /\
    forall i j, (i < N)%nat -> (j < M)%nat -> nth (k * i * (l * M) + l * j) ys 0 == nth j (nth i data []) 0.
Proof. exact (resize2_multiple argsort angle period data k l). Qed.
Print Assumptions C23_resize.

Theorem C23_resize_1d argsort period data k : data <> [] -> no_period period -> (0 < k)%nat ->
  exists ys, resize1 argsort period true data (k * length data) = Ok ys /\ length ys = (k * length data)%nat /\
    forall i, (i < length data)%nat -> nth (k * i) ys 0 == nth i data 0.
Proof. exact (resize1_multiple argsort period data k). Qed.
Print Assumptions C23_resize_1d.

Theorem C23_resize_open argsort period data n : data <> [] -> no_period period -> (1 < n)%nat ->
  exists ys, resize1 argsort period false data n = Ok ys /\ length ys = n /\
    nth 0 ys 0 == hd 0 data /\ nth (n - 1) ys 0 == last data 0 /\
    (forall a b, (forall i, (i < length data)%nat -> nth i data 0 == a + b * inject_Z (Z.of_nat i)) ->
      forall i, (i < n)%nat -> nth i ys 0 == a + b * (inject_Z (Z.of_nat (i * (length data - 1))) / inject_Z (Z.of_nat (n - 1)))).
Proof. exact (resize1_open argsort period data n). Qed.
Print Assumptions C23_resize_open.

(** Other angles are refused. *)
Theorem C23_angle argsort angle period data n m : ~ lattice_angle angle ->
  interpolant2 argsort angle period data n m = Raise UnboundLocalError.
Proof.
  unfold lattice_angle, interpolant2. intros H.
  destruct (Z.eqb_spec angle 60); [tauto|]. destruct (Z.eqb_spec angle 90); [tauto|].
  destruct (Z.eqb_spec angle 120); [tauto|]. reflexivity.
Qed.
Print Assumptions C23_angle.

(** A three-by-two mesh; 1 1/2 and -1/4 are fractional indices. *)
Definition ex_data : list (list Q) := [[1; 5]; [2; 8]; [7; 3]].
Example C23_example :
  rectangular ex_data /\ lattice_angle 120 /\
  map (fun angle => Qred (get_ok 0 (interpolant2 ref_argsort angle None ex_data (3 # 2) (-1 # 4)))) [60; 90; 120]%Z
    = [7 # 2; 19 # 4; 6] /\
  map (fun angle => Qred (get_ok 0 (interpolant2 ref_argsort angle None ex_data (3 # 2) (1 # 4)))) [60; 90; 120]%Z
    = [6; 19 # 4; 7 # 2] /\
  map Qred (get_ok [] (resize1 ref_argsort None true [1; 3; 8] 6)) = [1; 2; 3; 11 # 2; 8; 9 # 2] /\
  map Qred (get_ok [] (resize1 ref_argsort (Some 10) true [1; 9] 4)) = [11; 10; 9; 10].
Proof.
  split; [|split; [right; right; reflexivity|]].
  - split; [discriminate|split; [discriminate|repeat constructor]].
  - vm_compute. repeat split.
Qed.
