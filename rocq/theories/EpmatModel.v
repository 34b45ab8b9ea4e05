(** Model of elphmod/elph.py, [Model.__init__], [Model.divide_degeneracy] and
    [Model.to_epmatwp], and of elphmod/bravais.py, [read_wigner_file], for files with
    electron-phonon coupling and Wigner-Seitz data.

    Simplifications: only the text format of the Wigner-Seitz data, which is the one that
    is written; integers do not overflow; exact arithmetic; the binary file of the
    coupling is a list of complex numbers (tofile and fromfile are inverse to each other);
    all processes receive the data of process 0 (C03, C04). *)
From Coq Require Import Reals.
From Verif Require Import Text FrcModel LatModel Num NumC.
Local Open Scope nat_scope.

(** [self.dk], an array of shape (k0, k1, len(Rk)), and [self.dg], an array of shape
    (g0, g1, g2, len(Rg)) *)
Record deg_k := DegK { k0 : nat; k1 : nat; kdeg : nat -> nat -> nat -> Z }.
Record deg_g := DegG { g0 : nat; g1 : nat; g2 : nat; gdeg : nat -> nat -> nat -> nat -> Z }.

(** The attributes of [el] and [ph] that matter: [el.size], [ph.nat], [ph.M],
    [bool(ph.lr)] and [ph.divide_mass]; [ph.size = 3 * ph.nat] *)
Record crystal := Crystal { nel : nat; nat_ : nat; M : nat -> R; lr : bool; ph_mass : bool }.

(** elph.py:19-88: attributes; [edata g x k a b] *)
Record emodel := Emodel {
  eRk : list vec;
  eRg : list vec;
  edk : option deg_k;
  edg : option deg_g;
  edata : nat -> nat -> nat -> nat -> nat -> C;
  emass : bool;
  endegen : bool
}.

Definition scale (x : C) (r : R) : C := (Re x * r, Im x * r)%R.
Definition divide (x : C) (r : R) : C := (Re x / r, Im x / r)%R.

(** ** to_epmatwp: elph.py:763-814 *)

(** [' '.join('%d' % ...) + '\n'] *)
Fixpoint joined (l : list Z) : text :=
  match l with
  | [] => []
  | [z] => fmt_d z
  | z :: l => fmt_d z ++ [blank] ++ joined l
  end.

(** Lines 789, 796: ['%6d %5d %5d\n' % tuple(R)] *)
Definition vec_line (R : vec) : text :=
  pad 6 (fmt_d (vx R)) ++ [blank] ++ pad 5 (fmt_d (vy R)) ++ [blank] ++ pad 5 (fmt_d (vz R)) ++ [newline].

(** Lines 788-793 and 795-800: one lattice vector with [rows] lines of degeneracies *)
Definition block (R : vec) (rows : nat) (row : nat -> list Z) : text :=
  vec_line R ++ concat (map (fun iw => joined (row iw) ++ [newline]) (seq 0 rows)).

Definition wigner_text (Rk Rg : list vec) (dims dims2 : nat) (dk : nat -> nat -> nat -> Z) (dg : nat -> nat -> nat -> nat -> Z) : text :=
  fmt_d (Z.of_nat (length Rk)) ++ §" 0 " ++ fmt_d (Z.of_nat (length Rg)) ++ [blank] ++
  fmt_d (Z.of_nat dims) ++ [blank] ++ fmt_d (Z.of_nat dims2) ++ [newline] ++
  concat (map (fun ir => block (nth ir Rk vzero) dims (fun iw => map (fun iw2 => dk iw2 iw ir) (seq 0 dims))) (seq 0 (length Rk))) ++
  concat (map (fun ir => block (nth ir Rg vzero) dims (fun iw => map (fun na => dg 0 iw na ir) (seq 0 dims2))) (seq 0 (length Rg))).

(** Lines 775-800. Indices beyond the shape of [dk] and an empty first dimension of [dg]
    raise IndexError (negative indices do not occur). *)
Definition to_wigner (m : emodel) : res text :=
  if endegen m then Ok (wigner_text (eRk m) (eRg m) 1 1 (fun _ _ _ => 1%Z) (fun _ _ _ _ => 1%Z))
  else match edg m with
    | None => Raise AttributeError
    | Some dg =>
      match edk m with
      | None => if (0 <? length (eRk m)) && (0 <? g1 dg) then Raise TypeError
                else Ok (wigner_text (eRk m) (eRg m) (g1 dg) (g2 dg) (fun _ _ _ => 0%Z) (gdeg dg))
      | Some dk =>
        if (0 <? length (eRk m)) && ((k0 dk <? g1 dg) || (k1 dk <? g1 dg)) || (0 <? length (eRg m)) && (0 <? g1 dg) && (0 <? g2 dg) && (g0 dg =? 0) then Raise IndexError
        else Ok (wigner_text (eRk m) (eRg m) (g1 dg) (g2 dg) (kdeg dk) (gdeg dg))
      end
    end.

(** Lines 802-814: [buf.swapaxes(-2, -1)] is written with the last index changing fastest. *)
Definition to_epmatwp (c : crystal) (m : emodel) : list C :=
  flat_map (fun g => flat_map (fun na => flat_map (fun i => flat_map (fun k => flat_map (fun b => map (fun a =>
    let x := edata m g (3 * na + i) k a b in
    if emass m then scale x (sqrt (M c na)) else x) (seq 0 (nel c))) (seq 0 (nel c))) (seq 0 (length (eRk m)))) (seq 0 3)) (seq 0 (nat_ c))) (seq 0 (length (eRg m))).

(** ** read_wigner_file: bravais.py:1109-1226, text format *)

(** Lines 1190-1191: [list(map(int, next(lines).split()[:n]))] *)
Definition integers (n : option nat) (f : list (list text)) : res (list Z * list (list text)) :=
  match f with
  | [] => Raise StopIteration
  | ws :: f => do l <- map_res to_int (match n with Some n => firstn n ws | None => ws end) ;; Ok (l, f)
  end.

(** Assignment of a list to an array of [n] elements: a single number is broadcast. *)
Definition assign_row (n : nat) (l : list Z) : res (nat -> Z) :=
  if length l =? n then Ok (fun i => nth i l 0%Z)
  else if length l =? 1 then Ok (fun _ => nth 0 l 0%Z)
  else Raise ValueError.

(** [irvec_k[ir] = integers(3)] *)
Definition read_vec (f : list (list text)) : res (vec * list (list text)) :=
  do (l, f) <- integers (Some 3) f ;; do v <- assign_row 3 l ;; Ok (V3 (v 0) (v 1) (v 2), f).

Fixpoint read_rows (rows cols : nat) (f : list (list text)) : res (list (nat -> Z) * list (list text)) :=
  match rows with
  | O => Ok ([], f)
  | S rows =>
    do (l, f) <- integers None f ;; do v <- assign_row cols l ;;
    do (T, f) <- read_rows rows cols f ;; Ok (v :: T, f)
  end.

(** Lines 1203-1207, 1209-1213, 1215-1219 *)
Fixpoint read_blocks (n rows cols : nat) (f : list (list text)) : res (list (vec * list (nat -> Z)) * list (list text)) :=
  match n with
  | O => Ok ([], f)
  | S n =>
    do (R, f) <- read_vec f ;; do (T, f) <- read_rows rows cols f ;;
    do (l, f) <- read_blocks n rows cols f ;; Ok ((R, T) :: l, f)
  end.

Definition entry (l : list (vec * list (nat -> Z))) (ir row col : nat) : Z :=
  nth row (snd (nth ir l (vzero, []))) (fun _ => 0%Z) col.

(** Lines 1187-1221. [np.empty] with a negative dimension raises ValueError. *)
Definition read_wigner (t : text) : res (list vec * deg_k * list vec * deg_g) :=
  do (h, f) <- integers None (words_of t) ;;
  match h with
  | [nrr_k; nrr_q; nrr_g; dims; dims2] =>
    if existsb (fun z => z <? 0)%Z h then Raise ValueError
    else
      let dims := Z.to_nat dims in
      let dims2 := Z.to_nat dims2 in
      do (lk, f) <- read_blocks (Z.to_nat nrr_k) dims dims f ;;
      do (lq, f) <- read_blocks (Z.to_nat nrr_q) dims2 dims2 f ;;
      do (lg, f) <- read_blocks (Z.to_nat nrr_g) dims dims2 f ;;
      Ok (map fst lk, {| k0 := dims; k1 := dims; kdeg := fun iw2 iw ir => entry lk ir iw iw2 |},
          map fst lg, {| g0 := 1; g1 := dims; g2 := dims2; gdeg := fun _ iw na ir => entry lg ir iw na |})
  | _ => Raise ValueError
  end.

(** ** __init__: elph.py:226-308 *)

(** Lines 265-278: [np.fromfile] returns what is left; [reshape] raises ValueError if this
    is not enough. What follows is only reported. *)
Fixpoint read_slabs (ng count : nat) (f : list C) : res (list (list C)) :=
  match ng with
  | O => Ok []
  | S ng => if length f <? count then Raise ValueError
            else do l <- read_slabs ng count (skipn count f) ;; Ok (firstn count f :: l)
  end.

Definition read_coupling (ng nph nk nel : nat) (f : list C) : res (nat -> nat -> nat -> nat -> nat -> C) :=
  do l <- read_slabs ng (nph * nk * nel * nel) f ;;
  Ok (fun g x k a b => nth (((x * nk + k) * nel + b) * nel + a) (nth g l []) (RtoC 0)).

(** elph.py:322, 325, 333 etc.: the index used for an axis of length [s] *)
Definition axis (s i : nat) : nat := if 1 <? s then i else 0.
(** All indices below [n] are within the bounds. *)
Definition fits (s n : nat) : bool := if 1 <? s then n <=? s else (s =? 1) || (n =? 0).

(** elph.py:310-341 *)
Definition divide_degeneracy (c : crystal) (nk ng : nat) (dk : deg_k) (dg : deg_g) (d : nat -> nat -> nat -> nat -> nat -> C) : res (nat -> nat -> nat -> nat -> nat -> C) :=
  if (0 <? nk) && negb (fits (k0 dk) (nel c) && fits (k1 dk) (nel c)) || (0 <? ng) && (0 <? nat_ c) && (0 <? nel c) && negb (fits (g0 dg) (nel c) && fits (g1 dg) (nel c) && fits (g2 dg) (nat_ c))
  then Raise IndexError
  else Ok (fun g x k m n =>
    let w := kdeg dk (axis (k0 dk) n) (axis (k1 dk) m) k in
    let v := gdeg dg (axis (g0 dg) n) (axis (g1 dg) m) (axis (g2 dg) (x / 3)) g in
    let y := if (w =? 0)%Z then RtoC 0 else divide (d g x k m n) (IZR w) in
    if (v =? 0)%Z then RtoC 0 else divide y (IZR v)).

(** elph.py:226-308; line 293 overrides the argument but not the attribute. *)
Definition construct (c : crystal) (wigner : text) (epmatwp : list C) (divide_mass divide_ndegen : bool) : res emodel :=
  do w <- read_wigner wigner ;;
  let '(Rk, dk, Rg, dg) := w in
  do d <- read_coupling (length Rg) (3 * nat_ c) (length Rk) (nel c) epmatwp ;;
  do d <- (if divide_ndegen then divide_degeneracy c (length Rk) (length Rg) dk dg d else Ok d) ;;
  let mass := if lr c && negb (Bool.eqb (ph_mass c) divide_mass) then ph_mass c else divide_mass in
  Ok {| eRk := Rk; eRg := Rg; edk := Some dk; edg := Some dg;
        edata := if mass then fun g x k a b => divide (d g x k a b) (sqrt (M c (x / 3))) else d;
        emass := divide_mass; endegen := divide_ndegen |}.

(** elph.py:658-659: the degeneracies after [standardize] *)
Definition no_degeneracy (m : emodel) : emodel :=
  {| eRk := eRk m; eRg := eRg m; edk := None; edg := None; edata := edata m; emass := emass m; endegen := endegen m |}.
