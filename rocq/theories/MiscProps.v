(** Properties C09, C10 and C12-C16: elphmod/misc.py (and to_Wmat of
    elphmod/elel.py). *)
From Coq Require Import QArith Qabs Permutation.
From Verif Require Import Common MiscModel MiscSpec MiscProofs.
Local Open Scope nat_scope.

(** C09. *)
Theorem C09_first_match vectors vector i :
  vector_index vectors vector = Some i <->
  nth_error vectors i = Some vector /\
  (forall j, j < i -> nth_error vectors j <> Some vector).
Proof. exact (vector_index_Some vectors vector i). Qed.
Print Assumptions C09_first_match.

Theorem C09_none vectors vector :
  vector_index vectors vector = None <-> ~ In vector vectors.
Proof. exact (vector_index_None vectors vector). Qed.
Print Assumptions C09_none.

Example C09_example :
  vector_index [[1; 0]; [0; 1]; [0; 1]]%Z [0; 1]%Z = Some 1 /\
  vector_index [[1; 0]; [0; 1]]%Z [1; 0]%Z = Some 0 /\
  vector_index [[1; 0]; [0; 1]]%Z [1; 1]%Z = None.
Proof. repeat split; reflexivity. Qed.

(** C10. The groups partition the indices... *)
Theorem C10_partition eps points :
  Permutation (concat (group eps points)) (seq 0 (length points)) /\
  Forall (fun g => g <> []) (group eps points).
Proof. exact (group_partition eps points). Qed.
Print Assumptions C10_partition.

(** ... and are the connected components. *)
Theorem C10_components eps points dim :
  Forall (fun p => length p = dim) points ->
  forall i j, i < length points -> j < length points ->
  (exists g, In g (group eps points) /\ In i g /\ In j g) <-> linked eps points i j.
Proof. exact (group_linked eps points dim). Qed.
Print Assumptions C10_components.

Example C10_example :
  group (15 # 10) [[0]; [2]; [1]; [5]; [6]]%Q = [[0; 1; 2]; [3; 4]].
Proof. reflexivity. Qed.

(** The docstring ("eps: maximum distance between points within the same
    group") is not satisfied. *)
Theorem C10_docstring_refuted :
  exists eps points i j p q g,
    In g (group eps points) /\ In i g /\ In j g /\
    nth_error points i = Some [p] /\ nth_error points j = Some [q] /\
    (eps < Qabs (q - p))%Q.
Proof.
  exists (15 # 10), [[0]; [2]; [1]]%Q, 0, 1, 0%Q, 2%Q, [0; 1; 2].
  repeat split; try reflexivity; vm_compute; auto 10.
Qed.
Print Assumptions C10_docstring_refuted.

(** C12. The weights are those of the trapezoidal rule. *)
Theorem C12_trapezoid x f : 2 <= length x -> length f = length x ->
  exists dx, differential x = Ok dx /\ length dx = length x /\ (dotQ dx f == trapezoid x f)%Q.
Proof. exact (differential_trapezoid x f). Qed.
Print Assumptions C12_trapezoid.

Theorem C12_total x d : 2 <= length x ->
  exists dx, differential x = Ok dx /\ (fold_right Qplus 0 dx == last x d - hd d x)%Q.
Proof. exact (differential_total x d). Qed.
Print Assumptions C12_total.

Theorem C12_affine x a b d : 2 <= length x ->
  exists dx, differential x = Ok dx /\
    (dotQ dx (map (fun t => a * t + b) x) ==
     a * (last x d ^ 2 - hd d x ^ 2) / 2 + b * (last x d - hd d x))%Q.
Proof. exact (differential_affine x a b d). Qed.
Print Assumptions C12_affine.

Theorem C12_too_few x : length x < 2 -> differential x = Raise IndexError.
Proof. exact (differential_error x). Qed.
Print Assumptions C12_too_few.

Example C12_example : exists dx, differential [0; 1; 3]%Q = Ok dx /\
  Forall2 Qeq dx [1 # 2; 3 # 2; 1]%Q.
Proof. eexists. split; [reflexivity|]. repeat constructor. Qed.

(** C13. The round trip does not return the data written, ... *)
Theorem C13_round_trip_refuted :
  exists n1 n2 n3 (data : nat -> nat -> nat -> Z) i j k,
    i < n1 /\ j < n2 /\ k < n3 /\
    xsf_round_trip n1 n2 n3 data i j k <> Ok (Some (data i j k)).
Proof.
  exists 2, 2, 1, (fun i j k => Z.of_nat (2 * i + j)), 1, 0, 0.
  repeat split; try lia. cbn. intros H. discriminate.
Qed.
Print Assumptions C13_round_trip_refuted.

(** ... but permutes it: the value found at (i, j, k) is the one whose position
    in C order is the position of (i, j, k) in Fortran order. In particular all
    lines are read back completely, whatever the grid. *)
Theorem C13_round_trip_partial {V} n1 n2 n3 (data : nat -> nat -> nat -> V) i j k i' j' k' :
  i' < n1 -> j' < n2 -> k' < n3 ->
  (i' * n2 + j') * n3 + k' = (k * n2 + j) * n1 + i ->
  xsf_round_trip n1 n2 n3 data i j k = Ok (Some (data i' j' k')).
Proof. exact (xsf_permuted n1 n2 n3 data i j k i' j' k'). Qed.
Print Assumptions C13_round_trip_partial.

Theorem C13_values {V} n1 n2 n3 (data : nat -> nat -> nat -> V) :
  read_values (n1 * n2 * n3) [] (write_values (n1 * n2 * n3) 0 [] (flat n1 n2 n3 data)) =
  Ok (flat n1 n2 n3 data).
Proof. exact (xsf_values n1 n2 n3 data). Qed.
Print Assumptions C13_values.

Example C13_example :
  write_values 8 0 [] [1; 2; 3; 4; 5; 6; 7; 8] = [[1; 2; 3; 4; 5; 6]; [7; 8]].
Proof. reflexivity. Qed.

(** C14. *)
Theorem C14_round_trip {V} size R (data : nat -> nat -> nat -> V * V) : 1 <= size -> R <> [] ->
  exists Ra Wa, read_dat_mat (to_Wmat size R data) = Ok (length R, size, Ra, Wa) /\
    (forall n, Ra n = nth_error R n) /\
    (forall n a b, n < length R -> a < size -> b < size -> Wa n a b = Some (data n a b)) /\
    (forall n a b, ~ (n < length R /\ a < size /\ b < size) -> Wa n a b = None).
Proof. exact (Wmat_round_trip size R data). Qed.
Print Assumptions C14_round_trip.

(** A tensor without lattice vectors cannot be read back. *)
Theorem C14_empty {V} size (data : nat -> nat -> nat -> V * V) :
  read_dat_mat (to_Wmat size [] data) = Raise UnboundLocalError.
Proof. exact (Wmat_empty size data). Qed.
Print Assumptions C14_empty.

Example C14_example :
  to_Wmat 1 [(0, 0, 0); (1, 0, 0)]%Z (fun n _ _ => (n, n)) =
  [[Word]; [Word]; [Word]; [I 0; I 0; I 0]%Z; [I 1%Z; I 1%Z; F 0; F 0]; [];
   [I 1; I 0; I 0]%Z; [I 1%Z; I 1%Z; F 1; F 1]; []].
Proof. reflexivity. Qed.

(** C15. Called from Python, six coordinates are ignored and the interpreter
    exits unless it was itself started with six arguments. *)
Theorem C15_api_refuted args argv : six args <> None ->
  (match argv with Some a => six a = None | None => True end) ->
  minimum args argv = Raise SystemExit.
Proof. exact (minimum_api args argv). Qed.
Print Assumptions C15_api_refuted.

(** On the command line, the result is where the derivative of the parabola
    through the three points vanishes. *)
Theorem C15_command_line_partial args a b c x1 x2 x3 y1 y2 y3 :
  (~ x1 == x2 -> ~ x2 == x3 -> ~ x1 == x3 ->
   y1 == a * x1 ^ 2 + b * x1 + c -> y2 == a * x2 ^ 2 + b * x2 + c -> y3 == a * x3 ^ 2 + b * x3 + c ->
   exists r, minimum args (Some [x1; x2; x3; y1; y2; y3]) = Ok r /\
   match r with
   | Some x0 => ~ a == 0 /\ 2 * a * x0 + b == 0
   | None => a == 0
   end)%Q.
Proof. exact (minimum_command_line args a b c x1 x2 x3 y1 y2 y3). Qed.
Print Assumptions C15_command_line_partial.

Example C15_example : exists x, minimum [] (Some [0; 1; 3; 4; 1; 1]%Q) = Ok (Some x) /\ (x == 2)%Q.
Proof. eexists. split; reflexivity. Qed.

(** C16. A bar of [c > 0] steps and [w] columns started while no other bar is
    active, followed by any history of its own updates, updates of other bars
    and creations of other bars. As long as it has received less than [c]
    updates, it is the active bar, only it has printed, and it has printed
    [w * updates / c] columns... *)
Theorem C16_running s c w ops :
  (foreign s = false -> active s = None -> 0 < c -> 0 <= w ->
   updates_of (created s) ops < c ->
   (exists x, active (bar_run true s (New c w :: ops)) = Some (created s, x)) /\
   exists ev, out (bar_run true s (New c w :: ops)) = out s ++ Title (created s) :: ev /\
     Forall (my_columns (created s)) ev /\ columns_of ev = w * updates_of (created s) ops / c)%Z.
Proof. exact (bar_running s c w ops). Qed.
Print Assumptions C16_running.

(** ... and with update number [c], all columns have been printed, the line is
    finished and the next bar can start. *)
Theorem C16_finished s c w ops :
  (foreign s = false -> active s = None -> 0 < c -> 0 <= w ->
   updates_of (created s) ops = c - 1 ->
   active (bar_run true s (New c w :: ops ++ [Update (created s)])) = None /\
   exists ev, out (bar_run true s (New c w :: ops ++ [Update (created s)])) =
     out s ++ Title (created s) :: ev ++ [Newline (created s)] /\
     Forall (my_columns (created s)) ev /\ columns_of ev = w)%Z.
Proof. exact (bar_finishing s c w ops). Qed.
Print Assumptions C16_finished.

(** Other processes and low verbosity: no output at all. *)
Theorem C16_silent verbose s ops : foreign s = true \/ verbose = false -> active s = None ->
  out (bar_run verbose s ops) = out s /\ active (bar_run verbose s ops) = None.
Proof. exact (bar_silent verbose s ops). Qed.
Print Assumptions C16_silent.

Example C16_example :
  out (bar_run true (bars_init 0) [New 3 60; New 2 60; Update 0; Update 1; Update 0; Update 0; New 1 5; Update 2]%Z) =
  [Title 0; Columns 0 20; Columns 0 20; Columns 0 20; Newline 0; Title 2; Columns 2 5; Newline 2]%Z.
Proof. reflexivity. Qed.
