(** Model of elphmod/ph.py: supercells, unit cells, order and position of the
    atoms of a mass-spring model.

    Arrays that NumPy shares between objects matter here: [unit_cell] takes
    slices of the array of positions, which are views, and [shift_atoms] changes
    positions in place. Arrays of positions therefore live on a heap. The other
    arrays are never changed in place by these functions. *)
From Coq Require InitialRing.
From Verif Require Import OField Common LatModel Num ElModel.
Local Open Scope nat_scope.

Section Ph.
  (** Numbers for force constants and for masses and Cartesian coordinates. *)
  Context {F : num} {K : ofield}.

  Definition ofZ : Z -> K := InitialRing.gen_phiZ k0 k1 kadd kmul kopp.

  Definition cart := (K * K * K)%type.
  Definition cadd (u v : cart) : cart :=
    (kadd (fst (fst u)) (fst (fst v)), kadd (snd (fst u)) (snd (fst v)), kadd (snd u) (snd v)).
  Definition cmul (s : K) (u : cart) : cart := (kmul s (fst (fst u)), kmul s (snd (fst u)), kmul s (snd u)).
  Definition czero : cart := (k0, k0, k0).

  (** Three lattice vectors. *)
  Definition basis := (cart * cart * cart)%type.
  (** [n1 * a[0] + n2 * a[1] + n3 * a[2]] *)
  Definition lattice (a : basis) (n : vec) : cart :=
    cadd (cadd (cmul (ofZ (vx n)) (fst (fst a))) (cmul (ofZ (vy n)) (snd (fst a)))) (cmul (ofZ (vz n)) (snd a)).

  (** [base] holds [R], [data], [size], [N] and [cells]; [r_at] is the address of
      the array of positions, of which the first [natoms] rows are visible.
      [M]: masses; [names]: [atom_order] (any labels); [Z]: [Z] and [Q] per atom
      (any type; None if they are None). Not modelled: the derived quantities
      of long-range terms and the scaling of [alpha]. *)
  Record ph (L ZQ : Type) := Ph {
    base : @el F;
    natoms : nat;
    M : list K;
    names : list L;
    r_at : nat;
    a_ : basis;
    ZQ_ : option (list ZQ)
  }.
  Context {L ZQ : Type}.
  Arguments base {_ _}.
  Arguments natoms {_ _}.
  Arguments M {_ _}.
  Arguments names {_ _}.
  Arguments r_at {_ _}.
  Arguments a_ {_ _}.
  Arguments ZQ_ {_ _}.
  Notation model := (ph L ZQ).

  Definition heap := list (list cart).

  (** The attribute [r]. *)
  Definition positions (h : heap) (p : model) : list cart := firstn (natoms p) (nth (r_at p) h []).

  (** [np.tile], [list * int] *)
  Fixpoint tile {A} (l : list A) (n : nat) : list A := match n with O => [] | S n => l ++ tile l n end.

  (** ** supercell: ph.py:558-680 (dense branch) *)
  Definition ph_supercell (a1 a2 a3 : narg) (p : model) (h : heap) : res (model * heap) :=
    do sc <- supercell a1 a2 a3 ;;
    do m <- el_supercell a1 a2 a3 (base p) ;;
    let cells := sc_cells sc in
    let r := flat_map (fun n => map (fun na => cadd (lattice (a_ p) n) (nth na (positions h p) czero)) (seq 0 (natoms p))) cells in
    Ok ({| base := m; natoms := natoms p * length cells; M := tile (M p) (length cells); names := tile (names p) (length cells);
           r_at := length h; a_ := (lattice (a_ p) (sc_N1 sc), lattice (a_ p) (sc_N2 sc), lattice (a_ p) (sc_N3 sc));
           ZQ_ := option_map (fun z => tile z (length cells)) (ZQ_ p) |}, h ++ [r]).

  (** ** unit_cell: ph.py:682-762

      [np.cross] of rows of [N]; the new lattice vectors are rows of
      [dot(array([B1, B2, B3]).T, a) / len(cells)]. *)
  Definition ph_unit_cell (p : model) : res model :=
    match Nsc (base p) with
    | None => Raise AttributeError
    | Some (N1, N2, N3) =>
      do m <- el_unit_cell (base p) ;;
      let n := length (cells (base p)) in
      let B1 := cross N2 N3 in
      let B2 := cross N3 N1 in
      let B3 := cross N1 N2 in
      let row (x : vec -> Z) := cmul (kinv (ofZ (Z.of_nat n))) (lattice (a_ p) (V3 (x B1) (x B2) (x B3))) in
      Ok {| base := m; natoms := natoms p / n; M := firstn (natoms p / n) (M p); names := firstn (natoms p / n) (names p);
            r_at := r_at p; a_ := (row vx, row vy, row vz); ZQ_ := option_map (firstn (natoms p / n)) (ZQ_ p) |}
    end.

  (** ** order_atoms: ph.py:764-795

      Fancy indexing raises IndexError for indices out of range (indices are
      natural numbers here). The last reshape fails if the number of atoms
      has changed, unless there are no lattice vectors. *)
  Definition blocks (order : list nat) : list nat := flat_map (fun na => [3 * na; 3 * na + 1; 3 * na + 2]) order.
  Definition pick {A} (l : list A) (order : list nat) : list A :=
    flat_map (fun na => match nth_error l na with Some x => [x] | None => [] end) order.

  Definition ph_order_atoms (order : list nat) (p : model) (h : heap) : res (model * heap) :=
    if negb (forallb (fun na => na <? natoms p) order) then Raise IndexError else
    if negb (length order =? natoms p) && match hop (base p) with [] => false | _ => true end then Raise ValueError else
    do m <- order_orbitals (blocks order) (base p) ;;
    Ok ({| base := m; natoms := natoms p; M := pick (M p) order; names := pick (names p) order; r_at := length h; a_ := a_ p;
           ZQ_ := option_map (fun z => pick z order) (ZQ_ p) |}, h ++ [pick (positions h p) order]).

  (** ** shift_atoms: ph.py:797-839

      [s] tells whether an atom is in the slice. *)
  Fixpoint update {A} (n : nat) (f : A -> A) (l : list A) : list A :=
    match l, n with
    | [], _ => []
    | x :: l, O => f x :: l
    | x :: l, S n => x :: update n f l
    end.

  Definition move (s : nat -> bool) (n : nat) (d : cart) (r : list cart) : list cart :=
    map (fun ix => if (fst ix <? n) && s (fst ix) then cadd (snd ix) d else snd ix) (combine (seq 0 (length r)) r).

  Definition ph_shift_atoms (s : nat -> bool) (S : vec) (p : model) (h : heap) : model * heap :=
    ({| base := shift_orbitals (fun a => s (a / 3)) S (base p); natoms := natoms p; M := M p; names := names p; r_at := r_at p;
        a_ := a_ p; ZQ_ := ZQ_ p |},
     update (r_at p) (move s (natoms p) (lattice (a_ p) S)) h).

  (** ** standardize: ph.py:841-900

      As for electrons (ElModel.v); the transpose is not conjugated, which makes
      no difference for real force constants. *)
  Definition ph_standardize (half : F -> F) (small : option (F -> bool)) (symmetrize : bool) (p : model) : model :=
    {| base := standardize half small symmetrize (base p); natoms := natoms p; M := M p; names := names p; r_at := r_at p; a_ := a_ p; ZQ_ := ZQ_ p |}.
End Ph.
Arguments ph : clear implicits.
Arguments base {F K L ZQ}.
Arguments natoms {F K L ZQ}.
Arguments M {F K L ZQ}.
Arguments names {F K L ZQ}.
Arguments r_at {F K L ZQ}.
Arguments a_ {F K L ZQ}.
Arguments ZQ_ {F K L ZQ}.
