(** Model of elphmod/elph.py:1388-1426 (read_patterns).

    Simplifications: as in Text.v. The q points are not distributed among processes: how [distribute],
    [Scatterv] and [Allgatherv] do this is modelled in MPIModel.v. Of the messages, only the warning is
    modelled. A file that does not exist is [None]. *)
From Verif Require Import XmlModel.
From Verif Require Export Text.
Local Open Scope nat_scope.

(** elph.py:1420-1422: one row of a displacement pattern *)
Definition pat_element (l : text) : res Q := to_float (hd [] (split_at "," l)).
Fixpoint pat_row (n : nat) (ls : list text) : res (list Q * list text) :=
  match n with
  | O => Ok ([], ls)
  | S n => do (l, ls) <- next ls ;; do x <- pat_element l ;; do (xs, ls) <- pat_row n ls ;; Ok (x :: xs, ls)
  end.
(** elph.py:1417-1422 *)
Fixpoint pat_rows (k nrep : nat) (ls : list text) : res (list (list Q)) :=
  match k with
  | O => Ok []
  | S k =>
    let ls := snd (goto (str "<DISPLACEMENT_PATTERN ") ls) in
    do (row, ls) <- pat_row nrep ls ;; do rows <- pat_rows k nrep ls ;; Ok (row :: rows)
  end.
(** elph.py:1407-1422: pattern, and whether there is a warning *)
Definition pat_file (nrep : nat) (f : text) : res (list (list Q) * bool) :=
  let ls := snd (goto (str "<NUMBER_IRR_REP ") (lines f)) in
  do (l, ls) <- next ls ;; do z <- to_int l ;;
  do rows <- pat_rows nrep nrep ls ;;
  Ok (rows, negb (Z.of_nat nrep =? z)%Z).
(** elph.py:1403-1426; [file n]: contents of the file with the number [n] *)
Fixpoint read_patterns (file : Z -> option text) (q : list Z) (nrep : nat) : res (list (list (list Q)) * list bool) :=
  match q with
  | [] => Ok ([], [])
  | iq :: q =>
    match file (iq + 1)%Z with
    | None => Raise FileNotFoundError
    | Some f => do (p, w) <- pat_file nrep f ;; do (ps, ws) <- read_patterns file q nrep ;; Ok (p :: ps, w :: ws)
    end
  end.
