(** Model of parts of elphmod/misc.py (and elel.Model.to_Wmat, the writer that
    belongs to misc.read_dat_mat). *)
From Coq Require Export QArith Qabs.
From Verif Require Import Common.

(** ** vector_index: misc.py:741-761 *)

(** [vectors == vector] compares row by row, [np.all(..., axis=1)] yields one
    Boolean per row. Rows are lists of integers of equal length. *)
Definition row_match (vector row : list Z) : bool :=
  if list_eq_dec Z.eq_dec row vector then true else false.

(** [np.argmax] of a Boolean array: the first position of its maximum, i.e. of
    True if there is one, else 0. (An empty array would raise ValueError; it is
    not reached because of the [np.any] guard.) *)
Definition argmax_bool (l : list bool) : nat :=
  match find_index (fun b => b) l with Some i => i | None => 0 end.

Definition vector_index (vectors : list (list Z)) (vector : list Z) : option nat :=
  let m := map (row_match vector) vectors in
  if existsb (fun b => b) m then Some (argmax_bool m) else None.

(** ** group: misc.py:198-220 *)

(** [np.all(np.absolute(points[j] - points[i]) < eps)]; coordinates and [eps]
    are exact rational numbers (floating-point rounding of the difference is
    not modelled). *)
Definition Qltb (x y : Q) : bool := negb (Qle_bool y x).

Definition near (eps : Q) (p q : list Q) : bool :=
  forallb (fun xy => Qltb (Qabs (snd xy - fst xy)) eps) (combine p q).

(** [groups[np.where(groups == groups[j])] = groups[i]] *)
Definition relabel (groups : list nat) (i j : nat) : list nat :=
  match nth_error groups i, nth_error groups j with
  | Some gi, Some gj => map (fun g => if g =? gj then gi else g) groups
  | _, _ => groups
  end.

(** The double loop, lines 215-218. *)
Definition group_labels (eps : Q) (points : list (list Q)) : list nat :=
  let n := length points in
  fold_left (fun groups i =>
    fold_left (fun groups j =>
      match nth_error points i, nth_error points j with
      | Some p, Some q => if near eps p q then relabel groups i j else groups
      | _, _ => groups
      end) (seq (S i) (n - S i)) groups) (seq 0 n) (seq 0 n).

(** [[np.where(groups == group)[0] for group in set(groups)]], line 220. The
    order in which Python iterates over the set is not specified; here: order of
    last occurrence of the label. *)
Definition group (eps : Q) (points : list (list Q)) : list (list nat) :=
  let groups := group_labels eps points in
  map (fun g => filter (fun i => match nth_error groups i with
      | Some h => h =? g | None => false end) (seq 0 (length groups)))
    (nodup Nat.eq_dec groups).

(** ** differential: misc.py:222-243 *)

(** [dx[0] = x[1] - x[0]; dx[1:-1] = x[2:] - x[:-2]; dx[-1] = x[-1] - x[-2]],
    then [dx /= 2]. Fewer than two points: [x[1]] raises IndexError. With two
    points the middle assignment concerns empty slices. Note that the last
    assignment comes last. *)
Definition differential (x : list Q) : res (list Q) :=
  let n := length x in
  match nth_error x 0, nth_error x 1, nth_error x (n - 2), nth_error x (n - 1) with
  | Some x0, Some x1, Some y1, Some y0 =>
    let middle := map (fun ab => snd ab - fst ab)
      (combine (firstn (n - 2) x) (skipn 2 x)) in
    Ok (map (fun d => d / 2) ((x1 - x0) :: middle ++ [y0 - y1]))
  | _, _, _, _ => Raise IndexError
  end.

(** ** minimum: misc.py:763-791 *)

(** [args]: the arguments of the call; [argv]: the interpreter's command line
    converted to numbers without the program name, if it has exactly seven
    entries, else [None]. Result: the abscissa, or None if there is no extremum.
    If both are given the command line wins (the second [if] is not an
    [elif]). *)
Definition six {A} (l : list A) : option (A * A * A * A * A * A) :=
  match l with [a; b; c; d; e; f] => Some (a, b, c, d, e, f) | _ => None end.

Definition extremum (x1 x2 x3 y1 y2 y3 : Q) : option Q :=
  let enum := x1 ^ 2 * (y2 - y3) + x2 ^ 2 * (y3 - y1) + x3 ^ 2 * (y1 - y2) in
  let deno := x1 * 2 * (y2 - y3) + x2 * 2 * (y3 - y1) + x3 * 2 * (y1 - y2) in
  if Qeq_bool deno 0 then None else Some (enum / deno).

Definition minimum (args : list Q) (argv : option (list Q)) : res (option Q) :=
  let pts := six args in                              (* if len(args) == 6 *)
  match argv with
  | Some a =>
    match six a with                                  (* if len(sys.argv) == 7 *)
    | Some (x1, x2, x3, y1, y2, y3) => Ok (extremum x1 x2 x3 y1 y2 y3)
    | None => Raise SystemExit
    end
  | None => Raise SystemExit                          (* else *)
  end.

Local Open Scope nat_scope.

(** ** StatusBar: misc.py:123-177 *)

Record bar := { counter : Z; count : Z; width : Z; progress : Z }.

(** What is written to standard output, tagged with the bar it belongs to. *)
Inductive printed := Title (b : nat) | Columns (b : nat) (n : Z) | Newline (b : nat).

(** [foreign]: [in_progress] is constantly True (process of rank > 0).
    [active]: the instance in [StatusBar.in_progress] with its attributes; other
    instances have no attributes or are finished. [created]: number of
    instances so far. *)
Record bars := { foreign : bool; active : option (nat * bar); created : nat; out : list printed }.

Inductive bar_op := New (count width : Z) | Update (b : nat).

(** Python's [width * counter // count] (floor division, also for negative
    [count]); [StatusBar.__init__] (lines 143-155) and [update] (157-177).
    [verbose] is [verbosity >= 3]. *)
Definition bar_step (verbose : bool) (s : bars) (op : bar_op) : bars :=
  match op with
  | New c w =>
    let me := created s in
    let s' := {| foreign := foreign s; active := active s;
                 created := S me; out := out s |} in
    if (c =? 0)%Z || foreign s || (match active s with Some _ => true | None => false end)
       || negb verbose
    then s'
    else {| foreign := foreign s;
            active := Some (me, {| counter := 0; count := c; width := w; progress := 0 |});
            created := S me; out := out s ++ [Title me] |}
  | Update b =>
    match active s with
    | Some (a, x) =>
      if (a =? b) then
        let k := (counter x + 1)%Z in
        let p := (width x * k / count x)%Z in
        let cols := if (p =? progress x)%Z then [] else [Columns b (Z.max 0 (p - progress x))] in
        let p' := if (p =? progress x)%Z then progress x else p in
        if (k =? count x)%Z
        then {| foreign := foreign s; active := None; created := created s;
                out := out s ++ cols ++ [Newline b] |}
        else {| foreign := foreign s;
                active := Some (a, {| counter := k; count := count x; width := width x; progress := p' |});
                created := created s; out := out s ++ cols |}
      else s
    | None => s
    end
  end.

Definition bar_run (verbose : bool) (s : bars) (ops : list bar_op) : bars :=
  fold_left (bar_step verbose) ops s.

(** The state after import on the first (other) process, line 141. *)
Definition bars_init (rank : nat) : bars :=
  {| foreign := negb (rank =? 0); active := None; created := 0; out := [] |}.

(** ** Grid data in xsf files: misc.py:422-474 (writer), 332-420 (reader) *)

Section Grid.
  Context {V : Type}.

  (** [data.flat]: last index runs fastest (C order). *)
  Definition flat (n1 n2 n3 : nat) (data : nat -> nat -> nat -> V) : list V :=
    concat (map (fun i => concat (map (fun j => map (data i j) (seq 0 n3)) (seq 0 n2))) (seq 0 n1)).

  (** Lines 467-471: a newline after every sixth value and after the last one.
      [cur] is the line being written, [i] the number of values so far. *)
  Fixpoint write_values (size i : nat) (cur : list V) (vs : list V) : list (list V) :=
    match vs with
    | [] => match cur with [] => [] | _ => [cur] end
    | v :: vs =>
      let cur := cur ++ [v] in
      if (S i mod 6 =? 0) || (S i =? size)
      then cur :: write_values size (S i) [] vs
      else write_values size (S i) cur vs
    end.

  (** Lines 406-409: read lines until [data.size] numbers are there; a line with
      too many numbers or a missing line raises. *)
  Fixpoint read_values (size : nat) (got : list V) (lines : list (list V)) : res (list V) :=
    if size <=? length got then
      if length got =? size then Ok got else Raise IndexError
    else
      match lines with
      | [] => Raise StopIteration
      | l :: lines => read_values size (got ++ l) lines
      end.

  (** Lines 411-412: [np.transpose(np.reshape(data, n[::-1]))]. *)
  Definition xsf_read_at (n1 n2 : nat) (vs : list V) (i j k : nat) : option V :=
    nth_error vs ((k * n2 + j) * n1 + i).

  (** Writing and reading back the value at a grid point. *)
  Definition xsf_round_trip (n1 n2 n3 : nat) (data : nat -> nat -> nat -> V) (i j k : nat)
      : res (option V) :=
    let vs := flat n1 n2 n3 data in
    do got <- read_values (n1 * n2 * n3) [] (write_values (n1 * n2 * n3) 0 [] vs) ;;
    Ok (xsf_read_at n1 n2 got i j k).
End Grid.

(** ** Wmat files: elel.py:266-282 (writer), misc.py:632-691 (reader) *)

Section Wmat.
  Context {V : Type}.

  (** A line is a list of fields: integers, floating-point numbers or words.
      That neighbouring fields stay separated needs numbers that fit their
      columns (['%12d'], ['%5d%4d%20.10f%20.10f']); this is assumed. *)
  Inductive field := I (z : Z) | F (v : V) | Word.

  Definition vec := (Z * Z * Z)%type.

  Definition Wmat_block (size : nat) (R : vec) (W : nat -> nat -> V * V) : list (list field) :=
    let '(r1, r2, r3) := R in
    [I r1; I r2; I r3] ::
    concat (map (fun a => map (fun b =>
      [I (Z.of_nat (a + 1)); I (Z.of_nat (b + 1)); F (fst (W a b)); F (snd (W a b))])
      (seq 0 size)) (seq 0 size)) ++ [[]].

  Definition to_Wmat (size : nat) (R : list vec) (data : nat -> nat -> nat -> V * V)
      : list (list field) :=
    [[Word]; [Word]; [Word]] ++
    concat (map (fun n => match nth_error R n with
      | Some r => Wmat_block size r (data n) | None => [] end) (seq 0 (length R))).

  (** Lines 653-656: the first empty line after the header ends the first
      block; the line before it starts with the number of orbitals. *)
  Fixpoint find_num_wann (prev : list field) (lines : list (list field)) : option (res nat) :=
    match lines with
    | [] => None
    | [] :: _ =>
      match prev with
      | I z :: _ => Some (Ok (Z.to_nat z))
      | [] => Some (Raise IndexError)
      | _ => Some (Raise ValueError)
      end
    | l :: lines => find_num_wann l lines
    end.

  Record Wmat_state := { Rcount : nat; Rarr : nat -> option vec;
                         Warr : nat -> nat -> nat -> option (V * V) }.

  (** One pass of the loop of lines 666-690. Writing beyond the allocated
      arrays raises IndexError; orbital numbers below one (which Python would
      wrap around) are rejected here, own files never contain them. *)
  Definition Wmat_line (nR size : nat) (s : Wmat_state) (l : list field) : res Wmat_state :=
    match l with
    | [I r1; I r2; I r3] =>
      if Rcount s <? nR then
        Ok {| Rcount := Rcount s;
              Rarr := fun n => if n =? Rcount s then Some (r1, r2, r3) else Rarr s n;
              Warr := Warr s |}
      else Raise IndexError
    | [I a; I b; F re; F im] =>
      if (Rcount s <? nR) && (1 <=? a)%Z && (a <=? Z.of_nat size)%Z
         && (1 <=? b)%Z && (b <=? Z.of_nat size)%Z then
        Ok {| Rcount := Rcount s; Rarr := Rarr s;
              Warr := fun n i j =>
                if (n =? Rcount s) && (i =? Z.to_nat (a - 1)) && (j =? Z.to_nat (b - 1))
                then Some (re, im) else Warr s n i j |}
      else Raise IndexError
    | [] => Ok {| Rcount := S (Rcount s); Rarr := Rarr s; Warr := Warr s |}
    | [_; _; _] => Raise ValueError
    | [_; _; _; _] => Raise ValueError
    | _ => Ok s
    end.

  Fixpoint Wmat_lines (nR size : nat) (s : Wmat_state) (ls : list (list field)) : res Wmat_state :=
    match ls with
    | [] => Ok s
    | l :: ls => do s <- Wmat_line nR size s l ;; Wmat_lines nR size s ls
    end.

  (** Returns the number of lattice vectors, of orbitals, and the arrays. *)
  Definition read_dat_mat (lines : list (list field))
      : res (nat * nat * (nat -> option vec) * (nat -> nat -> nat -> option (V * V))) :=
    match find_num_wann (nth 2 lines []) (skipn 3 lines) with
    | None => Raise UnboundLocalError
    | Some (Raise e) => Raise e
    | Some (Ok size) =>
      let block := 1 + size ^ 2 + 1 in
      let nR := (length lines - 3) / block in
      do s <- Wmat_lines nR size
        {| Rcount := 0; Rarr := fun _ => None; Warr := fun _ _ _ => None |} (skipn 3 lines) ;;
      Ok (nR, size, Rarr s, Warr s)
    end.
End Wmat.
