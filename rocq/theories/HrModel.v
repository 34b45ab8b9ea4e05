(** Model of elphmod/el.py, write_hrdat (lines 695-744) and read_hrdat (lines 602-693),
    character by character.

    Simplifications: The matrices [H[i, a, b]] are a function of three indices, real and
    imaginary parts are rational. Degeneracies are integers ('%5d' truncates others).
    Date and time in the header are parameters. The lattice vectors and the matrices are
    broadcast to all processes, which is not shown. Elements of the matrices that have never
    been assigned (numpy.empty) are [None]. *)
From Verif Require Export Text.
Local Open Scope nat_scope.

Definition cx : Type := (Q * Q)%type.
Definition cell : Type := (Z * Z * Z)%type.

(** ** write_hrdat *)

(** el.py, lines 713-715: up to three columns *)
Definition pad_cell (R : list Z) : res cell :=
  match R with
  | [] => Ok (0, 0, 0)%Z
  | [x] => Ok (x, 0, 0)%Z
  | [x; y] => Ok (x, y, 0)%Z
  | [x; y; z] => Ok (x, y, z)
  | _ => Raise ValueError
  end.

(** el.py, line 723: order = np.lexsort(R.T[::-1]), the stable sorting permutation with
    respect to the first, second and third component *)
Definition cell_leb (a b : cell) : bool :=
  let '(x, y, z) := a in let '(x', y', z') := b in
  ((x <? x') || (x =? x') && ((y <? y') || (y =? y') && (z <=? z')))%Z.
Fixpoint insert_cell (x : nat * cell) (l : list (nat * cell)) : list (nat * cell) :=
  match l with
  | [] => [x]
  | y :: l => if cell_leb (snd x) (snd y) then x :: y :: l else y :: insert_cell x l
  end.
Definition lexsort (R : list cell) : list nat :=
  map fst (fold_right insert_cell [] (combine (seq 0 (length R)) R)).

(** el.py, lines 733-737: [n] counts from one *)
Fixpoint degeneracy_lines (n total : nat) (l : list Z) : text :=
  match l with
  | [] => []
  | d :: l => pad 5 (fmt_d d) ++ (if (n mod 15 =? 0) || (n =? total) then [newline] else []) ++ degeneracy_lines (S n) total l
  end.

(** el.py, lines 739-744 *)
Definition hopping_line (R : cell) (a b : nat) (h : cx) : text :=
  let '(x, y, z) := R in
  pad 5 (fmt_d x) ++ pad 5 (fmt_d y) ++ pad 5 (fmt_d z) ++ pad 5 (fmt_d (Z.of_nat (a + 1))) ++ pad 5 (fmt_d (Z.of_nat (b + 1))) ++
  pad 12 (fmt_f 6 (fst h)) ++ pad 12 (fmt_f 6 (snd h)) ++ [newline].
Definition hopping_lines (size : nat) (R : cell) (H : nat -> nat -> cx) : text :=
  concat (flat_map (fun b => map (fun a => hopping_line R a b (H a b)) (seq 0 size)) (seq 0 size)).

Fixpoint lookups {A} (l : list A) (idx : list nat) : res (list A) :=
  match idx with
  | [] => Ok []
  | i :: idx => match nth_error l i with Some x => do xs <- lookups l idx ;; Ok (x :: xs) | None => Raise IndexError end
  end.

Definition write_hrdat (day clock : text) (R : list (list Z)) (size : nat) (H : nat -> nat -> nat -> cx) (ndegen : option (list Z)) : res text :=
  do R <- map_res pad_cell R ;;
  let ndegen := match ndegen with Some l => l | None => repeat 1%Z (length R) end in
  let order := lexsort R in
  do degeneracies <- lookups ndegen order ;;
  Ok (§" written on " ++ day ++ §" at " ++ clock ++ [newline] ++
      pad 12 (fmt_d (Z.of_nat size)) ++ [newline] ++
      pad 12 (fmt_d (Z.of_nat (length R))) ++ [newline] ++
      degeneracy_lines 1 (length R) degeneracies ++
      concat (map (fun i => hopping_lines size (nth i R (0, 0, 0)%Z) (H i)) order)).

(** ** read_hrdat *)

(** el.py, lines 627-633: cols() returns the words of the next line that is not empty, so
    that the file is a list of nonempty lists of words. At the end of the file, cols()
    returns None, which cannot be indexed or iterated over. *)
Definition content (t : text) : list (list text) :=
  filter (fun ws => match ws with [] => false | _ => true end) (map str_split (lines t)).
Definition cols (f : list (list text)) : res (list text * list (list text)) :=
  match f with [] => Raise TypeError | ws :: f => Ok (ws, f) end.

(** tmp[n], tmp[-n] *)
Definition item {A} (l : list A) (n : nat) : res A := match nth_error l n with Some x => Ok x | None => Raise IndexError end.
Definition item_back {A} (l : list A) (n : nat) : res A := item (rev l) (n - 1).

(** el.py, lines 651-654 *)
Fixpoint read_degeneracies (fuel nrpts : nat) (acc : list Q) (f : list (list text)) : res (list Q * list (list text)) :=
  if length acc <? nrpts then
    match fuel with
    | O => Ok (acc, f)
    | S fuel =>
        do (ws, f) <- cols f ;;
        do ds <- map_res to_float ws ;;
        read_degeneracies fuel nrpts (acc ++ ds) f
    end
  else Ok (acc, f).

(** Indices of arrays may be negative. *)
Definition position (size : nat) (z : Z) : res nat :=
  if ((0 <=? z) && (z <? Z.of_nat size))%Z then Ok (Z.to_nat z)
  else if ((- Z.of_nat size <=? z) && (z <? 0))%Z then Ok (Z.to_nat (z + Z.of_nat size))
  else Raise IndexError.

Definition matrix : Type := nat -> nat -> option cx.
Definition assign (m : matrix) (a b : nat) (x : cx) : matrix := fun a' b' => if (a' =? a) && (b' =? b) then Some x else m a' b'.

(** Division of a complex number by a float *)
Definition divide (x : cx) (d : Q) : res cx := if Qeq_bool d 0 then Raise ZeroDivisionError else Ok ((fst x / d)%Q, (snd x / d)%Q).

(** el.py, lines 679-683 *)
Fixpoint read_hoppings (size k : nat) (d : Q) (m : matrix) (tmp : option (list text)) (f : list (list text)) : res (matrix * option (list text) * list (list text)) :=
  match k with
  | O => Ok (m, tmp, f)
  | S k =>
      do (tmp, f) <- cols f ;;
      do re <- item_back tmp 2 ;; do re <- to_float re ;;
      do im <- item_back tmp 1 ;; do im <- to_float im ;;
      do x <- divide (re, im) d ;;
      do a <- item_back tmp 4 ;; do a <- to_int a ;;
      do b <- item_back tmp 3 ;; do b <- to_int b ;;
      do a <- position size (a - 1) ;; do b <- position size (b - 1) ;;
      read_hoppings size k d (assign m a b x) (Some tmp) f
  end.

(** A list of integers assigned to a row of length three *)
Definition to_cell (l : list Z) : res cell :=
  match l with [x; y; z] => Ok (x, y, z) | [x] => Ok (x, x, x) | _ => Raise ValueError end.

(** el.py, lines 674-686 *)
Fixpoint read_cells (tb : bool) (size : nat) (ndegen : list Q) (n k : nat) (f : list (list text)) : res (list (cell * matrix)) :=
  match k with
  | O => Ok []
  | S k =>
      do (before, f) <- (if tb then do (ws, f) <- cols f ;; do zs <- map_res to_int ws ;; do R <- to_cell zs ;; Ok (Some R, f) else Ok (None, f)) ;;
      do d <- (if size ^ 2 =? 0 then Ok 1%Q else item ndegen n) ;;
      do (m, tmp, f) <- read_hoppings size (size ^ 2) d (fun _ _ => None) None f ;;
      do R <- match before, tmp with
        | Some R, _ => Ok R
        | None, Some tmp => do zs <- map_res to_int (firstn 3 tmp) ;; to_cell zs
        | None, None => Raise UnboundLocalError
        end ;;
      do rest <- read_cells tb size ndegen (S n) k f ;;
      Ok ((R, m) :: rest)
  end.

(** el.py, lines 635-693 *)
Definition read_content (tb divide_ndegen : bool) (f : list (list text)) : res (list (cell * matrix)) :=
  do (header, f) <- cols f ;;
  do _ <- item header 2 ;;
  do f <- (if tb then do (_, f) <- cols f ;; do (_, f) <- cols f ;; do (_, f) <- cols f ;; Ok f else Ok f) ;;
  do (ws, f) <- cols f ;; do w <- item ws 0 ;; do num_wann <- to_int w ;;
  do (ws, f) <- cols f ;; do w <- item ws 0 ;; do nrpts <- to_int w ;;
  do (ndegen, f) <- read_degeneracies (Z.to_nat nrpts) (Z.to_nat nrpts) [] f ;;
  let ndegen := if divide_ndegen then ndegen else map (fun _ => 1%Q) ndegen in
  if ((nrpts <? 0) || (num_wann <? 0))%Z then Raise ValueError
  else read_cells tb (Z.to_nat num_wann) ndegen 0 (Z.to_nat nrpts) f.

(** el.py, lines 602-693; the files are [None] if they do not exist *)
Definition read_hrdat (hr tb : option text) (divide_ndegen : bool) : res (list (cell * matrix)) :=
  match hr, tb with
  | Some t, _ => read_content false divide_ndegen (content t)
  | None, Some t => read_content true divide_ndegen (content t)
  | None, None => Raise FileNotFoundError
  end.
