(** Model of elphmod/elph.py:1184-1307 (read_EPW_output), which reads couplings on meshes of q and k
    points from the output of EPW.

    Simplifications: as in Text.v (decimal numbers are rational and rounding errors are neglected). The
    process of rank 0 is modelled, and [squeeze = False]. The case [defpot] (multiplication by a square
    root) is not modelled. Without [epf] the array is real and scaled by 1/1000, with [epf] it consists
    of pairs of a real and an imaginary part, and the factor [1e-3 ** 1.5] is a parameter. Messages are
    not modelled, except that the result says if there is a warning. *)
From Coq Require Import Qabs.
From Verif Require Import EpwoModel.
From Verif Require Export Text.
From Verif Require CoulModel.
Local Open Scope nat_scope.

(** elph.py:1240-1252, 1264-1276: integer coordinates of a point on a mesh of [n] times [n] points *)
Definition mesh_point (n : nat) (eps : Q) (columns : list text) : res (option (Z * Z)) :=
  do u <- from_end 3 columns ;; do x <- to_float u ;;
  do v <- from_end 2 columns ;; do y <- to_float v ;;
  let x := (x * inject_Z (Z.of_nat n))%Q in
  let y := (y * inject_Z (Z.of_nat n))%Q in
  let q1 := CoulModel.round_half_even x in
  let q2 := CoulModel.round_half_even y in
  if negb (Qle_bool (Qabs (x - inject_Z q1)) eps) || negb (Qle_bool (Qabs (y - inject_Z q2)) eps) then Ok None
  else if n =? 0 then Raise ZeroDivisionError
  else Ok (Some (q1 mod Z.of_nat n, q2 mod Z.of_nat n)%Z).

(** Equality of tuples of integers (elph.py:1254) *)
Definition same (p r : Z * Z) : bool := ((fst p =? fst r) && (snd p =? snd r))%Z.
(** [q.index(p)] (elph.py:1257), called if [p] is an element only *)
Fixpoint position (p : Z * Z) (q : list (Z * Z)) : nat := match q with r :: q => if same r p then 0 else S (position p q) | [] => 0 end.
(** [q_set.remove(p)] (elph.py:1258) *)
Definition discard (p : Z * Z) (q : list (Z * Z)) : list (Z * Z) := filter (fun r => negb (same r p)) q.

Section Values.
Context {V : Type}.
(** elph.py:1286-1295: value from columns *)
Variable decode : list text -> res V.
(** elph.py:1220-1228: [None] is NaN *)
Definition array : Type := nat -> nat -> nat -> nat -> nat -> nat -> option V.
(** Assignment of lines 1286-1295 *)
Definition set_e (e : array) (iq nu k1 k2 i j : nat) (x : V) : array :=
  fun iq' nu' k1' k2' i' j' => if (iq' =? iq) && (nu' =? nu) && (k1' =? k1) && (k2' =? k2) && (i' =? i) && (j' =? j) then Some x else e iq' nu' k1' k2' i' j'.

(** elph.py:1230-1295: [k] is the current k point, [todo] the lines still to be requested via [next(data)].
    The loops over bands and modes are those of [EpwoModel.loops] (elph.py:1281-1283), the two lines skipped
    are those of lines 1278 and 1279. *)
Fixpoint scan (nq nk nmodes bands : nat) (q : list (Z * Z)) (eps : Q) (e : array) (q_set : list (Z * Z)) (iq : option nat) (k : nat * nat) (todo : list request) (ls : list text) : res array :=
  match ls with
  | [] => match todo with [] => Ok e | _ => Raise StopIteration end
  | line :: ls =>
    match todo with
    | ToSkip :: todo => scan nq nk nmodes bands q eps e q_set iq k todo ls
    | ToRead jbnd ibnd nu :: todo =>
      do x <- decode (str_split line) ;;
      match iq with
      | Some i => scan nq nk nmodes bands q eps (set_e e i nu (fst k) (snd k) ibnd jbnd x) q_set iq k todo ls
      | None => Raise IndexError (* not reached *)
      end
    | [] =>
      if startswith "     iq = " line then
        match q_set with
        | [] => Ok e (* break *)
        | _ =>
          do p <- mesh_point nq eps (str_split line) ;;
          match p with
          | None => scan nq nk nmodes bands q eps e q_set None k [] ls
          | Some p =>
            if existsb (same p) q_set then scan nq nk nmodes bands q eps e (discard p q_set) (Some (position p q)) k [] ls
            else scan nq nk nmodes bands q eps e q_set None k [] ls
          end
        end
      else
        match iq with
        | Some _ =>
          if startswith "     ik = " line then
            do p <- mesh_point nk eps (str_split line) ;;
            match p with
            | None => scan nq nk nmodes bands q eps e q_set iq k [] ls
            | Some (k1, k2) => scan nq nk nmodes bands q eps e q_set iq (Z.to_nat k1, Z.to_nat k2) (requests bands nmodes) ls
            end
          else scan nq nk nmodes bands q eps e q_set iq k [] ls
        | None => scan nq nk nmodes bands q eps e q_set iq k [] ls
        end
    end
  end.
(** elph.py:1297: [np.isnan(elph).any()] *)
Definition any_nan (nq' nmodes nk bands : nat) (e : array) : bool :=
  existsb (fun iq => existsb (fun nu => existsb (fun k1 => existsb (fun k2 => existsb (fun i => existsb (fun j =>
    match e iq nu k1 k2 i j with None => true | Some _ => false end) (seq 0 bands)) (seq 0 bands)) (seq 0 nk)) (seq 0 nk)) (seq 0 nmodes)) (seq 0 nq').
(** elph.py:1220-1307: the array and if there is a warning *)
Definition read_with (scale : V -> V) (q : list (Z * Z)) (nq nmodes nk bands : nat) (eps : Q) (file : text) : res (bool * array) :=
  do e <- scan nq nk nmodes bands q eps (fun _ _ _ _ _ _ => None) q None (0, 0) [] (lines file) ;;
  Ok (any_nan (length q) nmodes nk bands e, fun iq nu k1 k2 i j => option_map scale (e iq nu k1 k2 i j)).
End Values.

(** elph.py:1294, 1295, 1303 *)
Definition read_EPW_output (q : list (Z * Z)) (nq nmodes nk bands : nat) (eps : Q) (file : text) : res (bool * array) :=
  read_with (fun columns => do b <- from_end 1 columns ;; to_float b) (fun x => (x * (1 # 1000))%Q) q nq nmodes nk bands eps file.
(** elph.py:1286-1288, 1301; [factor] is [1e-3 ** 1.5]. *)
Definition read_EPW_output_epf (factor : Q) (q : list (Z * Z)) (nq nmodes nk bands : nat) (eps : Q) (file : text) : res (bool * array) :=
  read_with (fun columns => do a <- from_end 2 columns ;; do x <- to_float a ;; do b <- from_end 1 columns ;; do y <- to_float b ;; Ok (x, y))
    (fun z => (fst z * factor, snd z * factor)%Q) q nq nmodes nk bands eps file.
