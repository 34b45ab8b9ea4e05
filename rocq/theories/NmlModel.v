(** Model of misc.read_namelists and misc.read_input_data (misc.py:510-619), and of
    the representation of values in input files.

    Simplifications: characters are bytes (Text.v), letters beyond ASCII do not
    count as such. Regular expressions are written out as functions. *)
From Verif Require Export Text.
Local Open Scope nat_scope.

(** Values of input parameters *)
Inductive value := VStr (t : text) | VBool (b : bool) | VInt (z : Z) | VFloat (x : Q) | VNone | VList (l : list value).

Definition teqb (s t : text) : bool := if list_eq_dec Ascii.ascii_dec s t then true else false.

(** ** Dictionaries, in order of insertion *)
Definition dict A := list (text * A).
Definition dget {A} (d : dict A) (k : text) : option A :=
  match find (fun x => teqb (fst x) k) d with Some x => Some (snd x) | None => None end.
Fixpoint dset {A} (d : dict A) (k : text) (v : A) : dict A :=
  match d with [] => [(k, v)] | x :: d => if teqb (fst x) k then (k, v) :: d else x :: dset d k v end.

(** ** Characters *)
Definition is_upper (c : ascii) : bool := (65 <=? nat_of_ascii c) && (nat_of_ascii c <=? 90).
Definition is_lower (c : ascii) : bool := (97 <=? nat_of_ascii c) && (nat_of_ascii c <=? 122).
Definition is_digit (c : ascii) : bool := match digit c with Some _ => true | None => false end.
Definition lower (t : text) : text := map (fun c => if is_upper c then ascii_of_nat (nat_of_ascii c + 32) else c) t.
Definition squote : ascii := ascii_of_nat 39.
Definition dquote : ascii := ascii_of_nat 34.
Definition is_quote (c : ascii) : bool := Ascii.eqb c squote || Ascii.eqb c dquote.
(** [\w] *)
Definition is_word (c : ascii) : bool := is_upper c || is_lower c || is_digit c || Ascii.eqb c "_".
(** [[;,\s]] *)
Definition is_sep (c : ascii) : bool := is_space c || Ascii.eqb c ";" || Ascii.eqb c ",".

(** The longest prefix of which all characters fulfil [f], and the rest *)
Fixpoint span (f : ascii -> bool) (t : text) : text * text :=
  match t with [] => ([], []) | c :: t' => if f c then let (u, r) := span f t' in (c :: u, r) else ([], t) end.

(** ** Comments: misc.py:530 *)
Fixpoint uncomment (inside : bool) (t : text) : text :=
  match t with
  | [] => []
  | c :: t =>
    if Ascii.eqb c newline then c :: uncomment false t
    else if inside || Ascii.eqb c "!" then uncomment true t
    else c :: uncomment false t
  end.

(** ** Strings: misc.py:534-547 *)
Fixpoint closing (q : ascii) (t : text) : option text :=
  match t with
  | [] => None
  | c :: t => if is_quote c then if Ascii.eqb c q then Some [] else None else match closing q t with Some u => Some (c :: u) | None => None end
  end.

Definition mark (n : nat) : text := §"___" ++ fmt_d (Z.of_nat n) ++ §"___".

(** One pass of [re.subn]; [skip] counts characters of the current match. Result:
    text, groups, number of replacements *)
Fixpoint subn (skip : nat) (t : text) (groups : list text) (count : nat) : text * list text * nat :=
  match t with
  | [] => ([], groups, count)
  | c :: t =>
    match skip with
    | S k => subn k t groups count
    | O =>
      match (if is_quote c then closing c t else None) with
      | Some u =>
        let groups := groups ++ [c :: u ++ [c]] in
        let '(x, g, n) := subn (length u + 1) t groups (S count) in (mark (length groups) ++ x, g, n)
      | None => let '(x, g, n) := subn 0 t groups count in (c :: x, g, n)
      end
    end
  end.

(** The passes are repeated until nothing changes. Every but the last pass removes
    two quotation marks, so that as many passes as there are characters are enough. *)
Fixpoint protect (fuel : nat) (t : text) (groups : list text) : text * list text :=
  let '(t, groups, n) := subn 0 t groups 0 in
  match n, fuel with
  | O, _ | _, O => (t, groups)
  | _, S fuel => protect fuel t groups
  end.

(** [re.subn(r'___\d+___', place, item)] *)
Definition bars (t : text) : option text :=
  match t with
  | a :: b :: c :: t => if Ascii.eqb a "_" && Ascii.eqb b "_" && Ascii.eqb c "_" then Some t else None
  | _ => None
  end.
Definition match_mark (t : text) : option (Z * nat) :=
  match bars t with
  | None => None
  | Some r =>
    let '(v, k, r) := scan 0 0 r in
    match k, bars r with S _, Some _ => Some (v, k + 6) | _, _ => None end
  end.

(** [groups[i]], where negative indices count from the end *)
Definition item_at (l : list text) (i : Z) : res text :=
  let i := (if i <? 0 then i + Z.of_nat (length l) else i)%Z in
  if (i <? 0)%Z then Raise IndexError else match nth_error l (Z.to_nat i) with Some x => Ok x | None => Raise IndexError end.

Fixpoint place (skip : nat) (t : text) (groups : list text) (count : nat) : res (text * nat) :=
  match t with
  | [] => Ok ([], count)
  | c :: t' =>
    match skip with
    | S k => place k t' groups count
    | O =>
      match match_mark t with
      | Some (v, n) =>
        do g <- item_at groups (v - 1) ;;
        do (x, n) <- place (n - 1) t' groups (S count) ;; Ok (g ++ x, n)
      | None => do (x, n) <- place 0 t' groups count ;; Ok (c :: x, n)
      end
    end
  end.

(** Again repeated until nothing changes. If strings do not refer to each other in
    circles, as many passes as there are groups and another one are enough. Otherwise
    the program does not end, for which [OverflowError] stands here. *)
Fixpoint place_all (fuel : nat) (t : text) (groups : list text) : res text :=
  do (t, n) <- place 0 t groups 0 ;;
  match n, fuel with
  | O, _ => Ok t
  | _, O => Raise OverflowError
  | _, S fuel => place_all fuel t groups
  end.

(** ** Namelists: misc.py:553

    [&(\w+)(.+?)/]: The name is as long as possible, unless nothing would remain, the
    content as short as possible, but not empty. *)
Definition not_slash (c : ascii) : bool := negb (Ascii.eqb c "/").
Definition match_namelist (t : text) : option (text * text) :=
  let (w, r) := span is_word t in
  match w, r with
  | [], _ | _, [] => None
  | _, c :: r =>
    let (u, r) := span not_slash r in
    match r with
    | _ :: _ => Some (w, c :: u)
    | [] => if Ascii.eqb c "/" && (2 <=? length w) then Some (removelast w, [last w c]) else None
    end
  end.

Fixpoint namelists (skip : nat) (t : text) : list (text * text) :=
  match t with
  | [] => []
  | c :: t =>
    match skip with
    | S k => namelists k t
    | O =>
      match (if Ascii.eqb c "&" then match_namelist t else None) with
      | Some (name, content) => (name, content) :: namelists (length name + length content + 1) t
      | None => namelists 0 t
      end
    end
  end.

(** ** Items: misc.py:558-560 *)
Definition spread (t : text) : text := flat_map (fun c => if Ascii.eqb c "=" then §" = " else [c]) t.
(** [re.sub(r'\s+\(', '(', content)] *)
Definition opens (t : text) : bool := match lstrip t with c :: _ => Ascii.eqb c "(" | [] => false end.
Fixpoint glue (t : text) : text :=
  match t with [] => [] | c :: t => if is_space c && opens t then glue t else c :: glue t end.

(** [re.split] yields empty items at most at the beginning and at the end, which are
    skipped (line 564) and cannot be equality signs. Here they are left out. *)
Fixpoint items_from (cur t : text) : list text :=
  match t with
  | [] => emit cur
  | c :: t => if is_sep c then emit cur ++ items_from [] t else items_from (cur ++ [c]) t
  end.
Definition items (content : text) : list text := items_from [] (glue (spread content)).

(** ** Keys: misc.py:567-575 *)
Definition match_key (t : text) : text * Z :=
  let (key, r) := span (fun c => negb (Ascii.eqb c "(")) (lower t) in
  let (_, r) := span (fun c => Ascii.eqb c "(" || Ascii.eqb c blank) r in
  let '(v, k, _) := scan 0 0 r in
  (key, match k with O => 0 | S _ => v - 1 end)%Z.

Definition fill (l : list value) (n : Z) : list value := l ++ repeat VNone (Z.to_nat n - length l).

(** [l[n:n + 1] = [x]]; for n = -1, the value is inserted before the last one. *)
Definition assign (l : list value) (n : Z) (x : value) : list value :=
  if (n <? 0)%Z then let i := (length l - 1)%nat in firstn i l ++ x :: skipn i l
  else firstn (Z.to_nat n) l ++ x :: skipn (Z.to_nat n + 1) l.

(** ** Values: misc.py:578-594 *)
Definition quoted (t : text) : bool :=
  match t with
  | q :: r => is_quote q && match rev r with q' :: _ => Ascii.eqb q q' | [] => false end && forallb (fun c => negb (Ascii.eqb c newline)) t
  | [] => false
  end.
Definition has (cs t : text) : bool := existsb (fun c => existsb (Ascii.eqb c) cs) t.
Definition exponent (t : text) : text := map (fun c => if has (§"dDE") [c] then "e"%char else c) t.

Definition convert (t : text) : value :=
  if quoted t then VStr (removelast (tl t))
  else if has (§"Tt") t then VBool true
  else if has (§"Ff") t then VBool false
  else match to_int t with
    | Ok z => VInt z
    | Raise _ => match to_float (exponent t) with Ok x => VFloat x | Raise _ => VStr t end
    end.

(** ** Loop over items: misc.py:562-597 *)
Fixpoint parse (groups : list text) (its : list text) (key : option (text * Z)) (d : dict (list value)) : res (dict (list value)) :=
  match its with
  | [] => Ok d
  | it :: its =>
    if match its with e :: _ => teqb e (§"=") | [] => false end then
      let (k, n) := match_key it in
      let l := match dget d k with Some l => l | None => [] end in
      parse groups its (Some (k, n)) (dset d k (fill l n))
    else match key with
      | Some (k, n) =>
        if teqb it (§"=") then parse groups its key d
        else
          do t <- place_all (length groups) it groups ;;
          match dget d k with
          | Some l => parse groups its (Some (k, (n + 1)%Z)) (dset d k (assign l n (convert t)))
          | None => Raise KeyError
          end
      | None => parse groups its key d
      end
  end.

(** Lines 599-601 *)
Definition unwrap (l : list value) : value := match l with [v] => v | _ => VList l end.

Definition read_content (groups : list text) (content : text) : res (dict value) :=
  do d <- parse groups (items content) None [] ;; Ok (map (fun x => (fst x, unwrap (snd x))) d).

(** Lines 549-603 *)
Fixpoint read_all (groups : list text) (nls : list (text * text)) (data : dict (dict value)) : res (dict (dict value)) :=
  match nls with
  | [] => Ok data
  | (name, content) :: nls => do d <- read_content groups content ;; read_all groups nls (dset data (lower name) d)
  end.

Definition read_namelists (t : text) : res (dict (dict value)) :=
  let t := uncomment false t in
  let (t, groups) := protect (length t) t [] in
  read_all groups (namelists 0 t) [].

(** [dict.update] *)
Definition update (d e : dict value) : dict value := fold_left (fun d x => dset d (fst x) (snd x)) e d.

(** read_input_data: misc.py:605-633, on one process; the others get the result. *)
Definition read_input_data (t : text) : res (dict value) :=
  do data <- read_namelists t ;; Ok (fold_left (fun d x => update d (snd x)) data []).

(** ** [repr]

    Control characters other than tabulators and ends of lines are left out. [repr_f]:
    representation of floats. *)
Section Repr.
  Variable repr_f : Q -> text.

  Definition backslash : ascii := ascii_of_nat 92.
  Definition escape (q c : ascii) : text :=
    if Ascii.eqb c q || Ascii.eqb c backslash then [backslash; c]
    else if Ascii.eqb c newline then [backslash; "n"%char]
    else if Ascii.eqb c (ascii_of_nat 9) then [backslash; "t"%char]
    else if Ascii.eqb c (ascii_of_nat 13) then [backslash; "r"%char]
    else [c].
  Definition repr_str (t : text) : text :=
    let q := if has [squote] t && negb (has [dquote] t) then dquote else squote in q :: flat_map (escape q) t ++ [q].

  Fixpoint repr (v : value) : text :=
    match v with
    | VStr t => repr_str t
    | VBool true => §"True"
    | VBool false => §"False"
    | VInt z => fmt_d z
    | VFloat x => repr_f x
    | VNone => §"None"
    | VList l => §"[" ++ (fix join (l : list value) : text := match l with [] => [] | [v] => repr v | v :: l => repr v ++ §", " ++ join l end) l ++ §"]"
    end.

  (** [bool] *)
  Definition truth (v : value) : bool :=
    match v with
    | VStr t => match t with [] => false | _ => true end
    | VBool b => b
    | VInt z => negb (Z.eqb z 0)
    | VFloat x => negb (Qeq_bool x 0)
    | VNone => false
    | VList l => match l with [] => false | _ => true end
    end.

  (** [data.write('%s = %r\n' % (key, value))] *)
  Definition entry (key : text) (v : value) : text := key ++ §" = " ++ repr v ++ [newline].

  (** [for key in keys: if key in struct: ...] *)
  Definition put (s : dict value) (keys : list string) : text :=
    flat_map (fun k => match dget s (str k) with Some v => entry (str k) v | None => [] end) keys.

  (** [for i, x in enumerate(struct[key], 1): if x: data.write('key(%d) = %r\n' % (i, x))]
      if the key is present. Values that are not lists are not iterable, except for
      strings, which are left out. *)
  Fixpoint put_list (key : text) (i : nat) (l : list value) : text :=
    match l with
    | [] => []
    | v :: l => (if truth v then entry (key ++ §"(" ++ fmt_d (Z.of_nat i) ++ §")") v else []) ++ put_list key (S i) l
    end.
  Definition put_indexed (s : dict value) (key : string) : res text :=
    match dget s (str key) with
    | None => Ok []
    | Some (VList l) => Ok (put_list (str key) 1 l)
    | Some _ => Raise TypeError
    end.
End Repr.
