(** What it means that an input file of Quantum ESPRESSO can be read back. *)
From Coq Require Import Qabs.
From Verif Require Import Text NmlModel QeModel.
Import ListNotations.
Local Open Scope nat_scope.

(** ** Values that can be read back

    Characters without meaning in namelists *)
Definition special (c : ascii) : bool := existsb (Ascii.eqb c) (§";,=!&/""'").
Definition plain_char (c : ascii) : bool := negb (is_space c) && negb (special c).
Definition token_ok (t : text) : Prop := t <> [] /\ Forall (fun c => plain_char c = true) t.

(** Strings without quotation marks, backslashes, exclamation marks, control characters
    and three underscores in a row *)
Definition harmless (c : ascii) : bool :=
  negb (is_quote c) && negb (Ascii.eqb c backslash) && negb (Ascii.eqb c "!") && (32 <=? nat_of_ascii c) && negb (nat_of_ascii c =? 127).
Fixpoint has_bars (t : text) : bool :=
  match t with
  | [] => false
  | a :: t' => match t' with b :: c :: _ => Ascii.eqb a "_" && Ascii.eqb b "_" && Ascii.eqb c "_" | _ => false end || has_bars t'
  end.
Definition plain_string (s : text) : Prop := Forall (fun c => harmless c = true) s /\ has_bars s = false.

Section Values.
  Variable repr_f : Q -> text.

  (** What is assumed about the representation of a float: It consists of digits, signs,
      a point and an exponent (thus is finite), is not the one of an integer, and is
      read as the same number. *)
  Definition float_ok (x : Q) : Prop :=
    token_ok (repr_f x) /\ has_bars (repr_f x) = false /\ has (§"tTfF(") (repr_f x) = false /\
    (exists e, to_int (repr_f x) = Raise e) /\ to_float (exponent (repr_f x)) = Ok x.

  Definition good (v : value) : Prop :=
    match v with VStr s => plain_string s | VBool _ | VInt _ => True | VFloat x => float_ok x | VNone | VList _ => False end.

  (** The parameters of the given names can be read back. *)
  Definition good_params (s : dict value) (keys : list string) : Prop := forall k v, In k keys -> dget s (str k) = Some v -> good v.

  (** Lists written element by element. Elements that are zero, empty, false, or [None]
      are not written. *)
  Definition good_list (s : dict value) (key : string) : Prop :=
    forall v, dget s (str key) = Some v -> exists l, v = VList l /\ Forall (fun x => truth x = true -> good x) l.
End Values.

(** What remains of a list: Elements not written are [None], except at the end. *)
Definition hole (v : value) : value := if truth v then v else VNone.
Fixpoint trim (l : list value) : list value :=
  match l with [] => [] | v :: l => match trim l with [] => if truth v then [v] else [] | r => hole v :: r end end.
Definition kept (v : option value) : option value :=
  match v with Some (VList l) => match trim l with [] => None | l => Some (VList l) end | _ => None end.

(** ** Parameters of the different programs *)
Definition ph_keys : list string :=
  ["prefix"; "outdir"; "fildyn"; "fildvscf"; "ldisp"; "nq1"; "nq2"; "nq3"; "tr2_ph"; "alpha_mix"; "cdfpt"; "subspace"; "cdfpt_bnd"; "cdfpt_orb"]%string.
Definition q2r_keys : list string := ["fildyn"; "flfrc"; "zasr"]%string.
Definition matdyn_keys : list string :=
  ["flfrc"; "flfrq"; "fldos"; "fleig"; "flvec"; "asr"; "loto_2d"; "q_in_band_form"; "q_in_cryst_coord"]%string.
Definition epw_keys : list string :=
  ["prefix"; "outdir"; "dvscf_dir"; "wannierize"; "elph"; "epbwrite"; "epwwrite"; "epbread"; "epwread"; "use_ws"; "nbndsub"; "bands_skipped";
   "dis_win_min"; "dis_win_max"; "dis_froz_min"; "dis_froz_max"; "num_iter"; "nk1"; "nk2"; "nk3"; "nq1"; "nq2"; "nq3"; "nkf1"; "nkf2"; "nkf3";
   "nqf1"; "nqf2"; "nqf3"]%string.
Definition pw_keys : list string :=
  ["title"; "prefix"; "outdir"; "pseudo_dir"; "calculation"; "tprnfor"; "tstress"; "nstep"; "forc_conv_thr";
   "ibrav"; "ntyp"; "nat"; "a"; "b"; "c"; "cosbc"; "cosac"; "cosab"; "ecutwfc"; "ecutrho"; "nbnd"; "occupations"; "smearing"; "degauss";
   "nosym"; "noinv"; "tot_charge"; "assume_isolated"; "nspin"; "noncolin"; "lspinorb"; "tot_magnetization"; "starting_magnetization";
   "space_group"; "uniqueb"; "origin_choice"; "rhombohedral";
   "electron_maxstep"; "conv_thr"; "diagonalization"; "diago_full_acc"; "mixing_beta"; "startingpot"; "startingwfc"; "scf_must_converge"]%string.
Definition ion_keys : list string := ["ion_dynamics"; "upscale"]%string.
Definition cell_keys : list string := ["cell_dynamics"; "cell_dofree"; "press"; "press_conv_thr"]%string.

(** Parameters of ions and cell are only written if they move. *)
Definition moving (s : dict value) (kinds : list string) : bool :=
  match dget s (§"calculation") with Some (VStr t) => existsb (fun x => teqb t (str x)) kinds | _ => false end.
Definition pw_keys_of (s : dict value) : list string :=
  pw_keys ++ (if moving s ["relax"; "md"; "vc-relax"; "vc-md"]%string then ion_keys else []) ++
  (if moving s ["vc-relax"; "vc-md"]%string then cell_keys else []).

Definition is_key (k : text) (keys : list string) : bool := existsb (fun x => teqb k (str x)) keys.

(** ** Cards *)
Definition safe_char (c : ascii) : bool := negb (is_space c) && negb (existsb (Ascii.eqb c) (§"!&""'")).
(** Names of atoms, pseudopotential files etc. *)
Definition name_ok (t : text) : Prop := t <> [] /\ Forall (fun c => safe_char c = true) t.
(** Types of coordinates and points: also in lower case and without braces *)
Definition option_ok (t : text) : Prop := name_ok t /\ lower t = t /\ Forall (fun c => no_brace c = true) t.

(** Numbers are written with nine decimals. *)
Definition near (x y : Q) : Prop := (Qabs (x - y) <= 1 # 2000000000)%Q.
Definition near_row (x y : row) : Prop :=
  let '(a, b, c) := x in let '(a', b', c') := y in near a a' /\ near b b' /\ near c c'.

Section Cards.
  Variable fmt_g : Q -> text.
  Variable g12 : Q -> Q.
  (** What is assumed about numbers written with twelve significant digits *)
  Definition mass_ok (x : Q) : Prop := name_ok (fmt_g x) /\ to_float (fmt_g x) = Ok (g12 x).

  Inductive good_positions : text -> positions -> nat -> Prop :=
  | good_cart c r : contains (§"crystal_sg") c = false -> good_positions c (Cart r) (length r)
  | good_wyckoff c r : contains (§"crystal_sg") c = true -> Forall name_ok r -> good_positions c (Wyckoff r) (length r).

  Inductive good_points (g : geometry) : Prop :=
  | no_points : ktyp g = None -> good_points g
  | good_grid t a b c d e f : ktyp g = Some t -> option_ok t -> contains (§"automatic") t = true -> k_points g = Some (Grid [a; b; c; d; e; f]) -> good_points g
  | good_gamma t : ktyp g = Some t -> option_ok t -> contains (§"automatic") t = false -> contains (§"gamma") t = true -> good_points g
  | good_list_of t k : ktyp g = Some t -> option_ok t -> contains (§"automatic") t = false -> contains (§"gamma") t = false ->
      nks g = Some (Z.of_nat (length k)) -> k_points g = Some (Points k) -> good_points g.

  (** Geometries for which the numbers of types, atoms and points are right *)
  Record good_geometry (s : dict value) (g : geometry) : Prop := {
    types : exists X m p, at_species g = Some X /\ amass g = Some m /\ pp g = Some p /\ length m = length X /\ length p = length X /\
      dget s (§"ntyp") = Some (VInt (Z.of_nat (length X))) /\ Forall name_ok X /\ Forall mass_ok m /\ Forall name_ok p;
    atoms_ : exists c X r, coords g = Some c /\ option_ok c /\ at_ g = Some X /\ Forall name_ok X /\ r_ g = Some r /\ good_positions c r (length X) /\
      dget s (§"nat") = Some (VInt (Z.of_nat (length X)));
    points_ : good_points g;
    vectors : forall r, r_cell g = Some r -> length r = 3 /\ exists u, cell_units g = Some u /\ name_ok u
  }.

  Definition near_positions (x y : option positions) : Prop :=
    match x, y with
    | Some (Cart r), Some (Cart r') => Forall2 near_row r r'
    | Some (Wyckoff r), Some (Wyckoff r') => r = r'
    | _, _ => False
    end.
  Definition near_points (g g' : geometry) : Prop :=
    match ktyp g with
    | None => ktyp g' = None /\ nks g' = None /\ k_points g' = None
    | Some t => ktyp g' = Some t /\
      if contains (§"automatic") t then nks g' = None /\ k_points g' = k_points g
      else if contains (§"gamma") t then nks g' = None /\ k_points g' = None
      else nks g' = nks g /\
        match k_points g, k_points g' with
        | Some (Points k), Some (Points k') => Forall2 (fun x y => near_row (fst x) (fst y) /\ near (snd x) (snd y)) k k'
        | _, _ => False
        end
    end.
  Definition near_cell (g g' : geometry) : Prop :=
    match r_cell g with
    | None => cell_units g' = None /\ r_cell g' = None
    | Some r => cell_units g' = cell_units g /\ match r_cell g' with Some r' => Forall2 near_row r r' | None => False end
    end.

  Record same_geometry (g g' : geometry) : Prop := {
    same_types : at_species g' = at_species g /\ amass g' = option_map (map g12) (amass g) /\ pp g' = pp g;
    same_atoms : coords g' = coords g /\ at_ g' = at_ g /\ near_positions (r_ g) (r_ g');
    same_points : near_points g g';
    same_cell : near_cell g g'
  }.
End Cards.
