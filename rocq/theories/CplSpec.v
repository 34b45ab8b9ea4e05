(** Specification vocabulary for files with electron-phonon matrix elements. *)
From Verif Require Import Common Text SymModel SymSpec CplModel.
Local Open Scope nat_scope.

(** An entry of a file: k point, mode and bands counted from one, value *)
Record entry := Entry { e_k1 : Z; e_k2 : Z; e_j : Z; e_i : Z; e_nu : Z; e_value : value }.

(** The columns of a line: k point, anything, bands and mode, value *)
Definition states (phase : bool) (l : text) (e : entry) : Prop :=
  exists w1 w2 other wj wi wn re im x y,
    str_split l = [w1; w2] ++ other ++ [wj; wi; wn; re] ++ (if phase then [im] else []) /\ hd_error w1 <> Some "#"%char /\
    to_int w1 = Ok (e_k1 e) /\ to_int w2 = Ok (e_k2 e) /\ to_int wj = Ok (e_j e) /\ to_int wi = Ok (e_i e) /\ to_int wn = Ok (e_nu e) /\
    to_float re = Ok x /\ (if phase then to_float im = Ok y else y = 0%Q) /\ e_value e = (Qred x, Qred y).
Definition comment (l : text) : Prop := exists c ws, str_split l = c :: ws /\ hd_error c = Some "#"%char.

(** The entries of a file are those of its lines other than comments. *)
Inductive file_states (phase : bool) : list text -> list entry -> Prop :=
| no_lines : file_states phase [] []
| skip_comment l ls es : comment l -> file_states phase ls es -> file_states phase (l :: ls) es
| next_entry l ls e es : states phase l e -> file_states phase ls es -> file_states phase (l :: ls) (e :: es).

(** Entries with valid indices; bands up to [offset] must not occur. *)
Definition valid (nmodes nk : nat) (offset : Z) (e : entry) : Prop :=
  (1 <= e_nu e <= Z.of_nat nmodes /\ 1 <= e_k1 e <= Z.of_nat nk /\ 1 <= e_k2 e <= Z.of_nat nk /\ offset < e_i e /\ offset < e_j e)%Z.

(** The entry for given indices counted from zero *)
Definition is_for (offset : Z) (nu k1 k2 i j : nat) (e : entry) : bool :=
  ((e_nu e =? Z.of_nat nu + 1) && (e_k1 e =? Z.of_nat k1 + 1) && (e_k2 e =? Z.of_nat k2 + 1) && (e_i e =? Z.of_nat i + 1 + offset) && (e_j e =? Z.of_nat j + 1 + offset))%Z%bool.

(** The last entry counts. *)
Definition stated (offset : Z) (es : list entry) (nu k1 k2 i j : nat) : option value :=
  option_map e_value (hd_error (rev (filter (is_for offset nu k1 k2 i j) es))).
