(** Specification of files: which lines they have. Nothing here refers to the functions that
    read them. *)
From Coq Require Import Qabs.
From Verif Require Import Text TextProofs.
From Verif Require Export PwoSpec.
Local Open Scope nat_scope.

(** Formats of numbers ([F], [I], [fits]), [printed] and [occurs] are the ones for the output of pw.x. *)
Definition single (t : text) : Prop := ~ In newline t.
Definition file_of (ls : list text) : text := concat (map (fun l => l ++ [newline]) ls).

(** ** Energy contributions *)

(** Parts of a line between blanks and equals signs *)
Definition separator (c : ascii) : bool := is_space c || Ascii.eqb c "=".
Fixpoint tokens_from (cur t : text) : list text :=
  match t with
  | [] => match cur with [] => [] | _ => [cur] end
  | c :: t => if separator c then match cur with [] => [] | _ => [cur] end ++ tokens_from [] t else tokens_from (cur ++ [c]) t
  end.
Definition tokens (t : text) : list text := tokens_from [] t.
Definition first_token (t w : text) : Prop := exists ws, tokens t = w :: ws.

(** First token, name in the dictionary, and which token is the value *)
Definition quantities : list (text * text * nat) :=
  [(§"sum", §"sum bands", 2); (§"one-electron", §"one-electron", 2); (§"hartree", §"hartree", 2); (§"xc", §"xc", 2);
   (§"ewald", §"ewald", 2); (§"smearing", §"smearing", 3); (§"!", §"total", 3)].
(** The last line that starts with [w] has the value [v]. *)
Definition last_line (ls : list text) (w : text) (n : nat) (v : text) : Prop :=
  exists l1 l l2, ls = l1 ++ l :: l2 /\ first_token l w /\ nth_error (tokens l) n = Some v /\ forall l', In l' l2 -> ~ first_token l' w.

(** Lines of pw.x, with any other lines in between *)
Inductive kind := Bands | One_electron | Hartree | Xc | Ewald | Smearing | Total.
Definition name (k : kind) : text :=
  match k with Bands => §"sum bands" | One_electron => §"one-electron" | Hartree => §"hartree" | Xc => §"xc" | Ewald => §"ewald" | Smearing => §"smearing" | Total => §"total" end.
Definition label (k : kind) : text :=
  match k with
  | Bands => §"     sum bands                 ="
  | One_electron => §"     one-electron contribution ="
  | Hartree => §"     hartree contribution      ="
  | Xc => §"     xc contribution           ="
  | Ewald => §"     ewald contribution        ="
  | Smearing => §"     smearing contrib. (-TS)   ="
  | Total => §"!    total energy              ="
  end.
Inductive entry := Other (t : text) | Energy (k : kind) (x : Q).
Definition entry_line (e : entry) : text := match e with Other t => t | Energy k x => label k ++ F 17 8 x ++ §" Ry" end.
Definition quiet (t : text) : Prop := single t /\ forall w n m, In (w, n, m) quantities -> ~ first_token t w.
Definition last_energy (l : list entry) (k : kind) (x : Q) : Prop :=
  exists l1 l2, l = l1 ++ Energy k x :: l2 /\ forall y, ~ In (Energy k y) l2.

(** ** Symmetry points: output of bands.x *)
Inductive mark := Text (t : text) | Point (q : Q * Q * Q) (x : Q).
Definition mark_line (m : mark) : text :=
  match m with
  | Text t => t
  | Point (a, b, c) x => §"     high-symmetry point: " ++ F 7 4 a ++ F 7 4 b ++ F 7 4 c ++ §"   x coordinate" ++ F 9 4 x
  end.
Definition good_mark (m : mark) : Prop :=
  match m with Text t => single t /\ ~ occurs §"x coordinate" t | Point _ x => fits 9 4 x end.
Definition positions (l : list mark) : list Q := flat_map (fun m => match m with Text _ => [] | Point _ x => [x] end) l.

(** ** Energies for Wannier90: band, k point and energy, with numbers from one *)
Definition eig_line (l : nat * nat * Q) : text := let '(n, k, e) := l in I 5 (Z.of_nat n) ++ I 5 (Z.of_nat k) ++ F 18 12 e.
(** Each band at each k point is in the file once, in any order. *)
Definition complete (nb nk : nat) (e : nat -> nat -> Q) (l : list (nat * nat * Q)) : Prop :=
  (forall n k x, In (n, k, x) l -> 1 <= n <= nb /\ 1 <= k <= nk /\ x = e (n - 1) (k - 1)) /\
  (forall n k, n < nb -> k < nk -> In (S n, S k, e n k) l).

(** ** Bands for Gnuplot: blocks of lines for each band, separated by an empty line *)
Definition plot_line (ke : Q * Q) : text := F 10 4 (fst ke) ++ F 10 4 (snd ke).
Definition plot_lines (k : list Q) (e : list (list Q)) : list text :=
  flat_map (fun band => map plot_line (combine k band) ++ [[]]) e.

(** ** Decay of the Hamiltonian: lines with two words *)
Inductive decay := Comment (t : text) | Decay (r h : text).
Definition decay_line (l : decay) : text := match l with Comment t => t | Decay r h => §"  " ++ r ++ §"  " ++ h end.
(** Comments do not have two words; words of other lines are numbers. *)
Definition good_decay (l : decay) : Prop :=
  match l with Comment t => single t /\ length (str_split t) <> 2 | Decay r h => word r /\ word h /\ (exists x, to_float r = Ok x) /\ (exists x, to_float h = Ok x) end.
