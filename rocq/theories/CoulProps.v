(** C109: files with Coulomb interactions. *)
From Coq Require Import Qabs Lia.
From Verif Require Import Text TextProofs HrProofs CoulModel CoulSpec CoulProofs.
Local Open Scope nat_scope.

(** Local tensor: the last line with four given orbitals counts, all other lines
    (headers, other orbitals, orbitals outside the range) are irrelevant, and elements
    without a line are not set. *)
Theorem C109_local : forall file no, Forall (counted 0) (lines file) -> forall i j k l, i < no -> j < no -> k < no -> l < no ->
  exists U, read_local file no false = Ok U /\
    (forall before line after v, lines file = before ++ line :: after -> lists_local line i j k l v ->
      (forall line', In line' after -> ~ exists v', lists_local line' i j k l v') -> U [i; j; k; l] = Some v) /\
    ((forall line, In line (lines file) -> ~ exists v, lists_local line i j k l v) -> U [i; j; k; l] = None).
Proof.
  intros file no C i j k l Hi Hj Hk Hl.
  destruct (each_line_spec (read_local_line no false) [i; j; k; l] (fun line v => lists_local line i j k l v) (fun line => exists v, lists_local line i j k l v) (lines file) empty) as (U & E & A & B).
  - intros line HI U. apply read_local_step; try assumption. rewrite Forall_forall in C. apply C, HI.
  - exists U. split; [exact E|]. split; [exact A|]. intros N. rewrite B by exact N. reflexivity.
Qed.
Print Assumptions C109_local.

(** Density-density terms only: the corresponding elements of the full tensor *)
Theorem C109_local_dd : forall file no, Forall (counted 0) (lines file) ->
  exists U V, read_local file no false = Ok U /\ read_local file no true = Ok V /\ forall i k, i < no -> k < no -> V [i; k] = U [i; i; k; k].
Proof.
  intros file no C. apply (each_line_sim _ _ (diagonal no)); [|intros i k _ _; reflexivity]. intros line U V HI D. apply read_local_dd; [|exact D]. rewrite Forall_forall in C. apply C, HI.
Qed.
Print Assumptions C109_local_dd.

(** If orbitals are not counted from one, elements are overwritten instead of an error,
    and the density-density terms differ from the full tensor. *)
Theorem C109_local_refuted :
  (exists U, read_local (§"1 1 1 1 5. 0." ++ newline :: §"0 0 0 0 7. 0." ++ [newline]) 1 false = Ok U /\ U [0; 0; 0; 0] = Some (7 # 1, 0 # 1)%Q) /\
  (exists U V, read_local (§"0 1 1 1 7. 0." ++ [newline]) 1 false = Ok U /\ read_local (§"0 1 1 1 7. 0." ++ [newline]) 1 true = Ok V /\ U [0; 0; 0; 0] = Some (7 # 1, 0 # 1)%Q /\ V [0; 0] = None).
Proof.
  split; [eexists; split; reflexivity|]. do 2 eexists. repeat split; reflexivity.
Qed.
Print Assumptions C109_local_refuted.

(** Interaction in the orbital basis: the same for each point of the q mesh; q points may
    differ by reciprocal lattice vectors and are rounded to the next point of the mesh. *)
Theorem C109_orbital : forall file n1 n2 n3 no, 0 < n1 -> 0 < n2 -> 0 < n3 -> Forall (counted 3) (lines file) -> forall q1 q2 q3 i j k l, i < no -> j < no -> k < no -> l < no ->
  exists U, read_orbital file n1 n2 n3 no false = Ok U /\
    (forall before line after v, lines file = before ++ line :: after -> lists_orbital Qlt n1 n2 n3 line (q1, q2, q3) i j k l v ->
      (forall line', In line' after -> ~ exists v', lists_orbital Qle n1 n2 n3 line' (q1, q2, q3) i j k l v') -> U [q1; q2; q3; j; i; l; k] = Some v) /\
    ((forall line, In line (lines file) -> ~ exists v, lists_orbital Qle n1 n2 n3 line (q1, q2, q3) i j k l v) -> U [q1; q2; q3; j; i; l; k] = None).
Proof.
  intros file n1 n2 n3 no H1 H2 H3 C q1 q2 q3 i j k l Hi Hj Hk Hl.
  destruct (each_line_spec (read_orbital_line n1 n2 n3 no false) [q1; q2; q3; j; i; l; k] (fun line v => lists_orbital Qlt n1 n2 n3 line (q1, q2, q3) i j k l v)
    (fun line => exists v, lists_orbital Qle n1 n2 n3 line (q1, q2, q3) i j k l v) (lines file) empty) as (U & E & A & B).
  - intros line HI U. apply read_orbital_step; try assumption. rewrite Forall_forall in C. apply C, HI.
  - exists U. split; [exact E|]. split; [exact A|]. intros N. rewrite B by exact N. reflexivity.
Qed.
Print Assumptions C109_orbital.

Theorem C109_orbital_dd : forall file n1 n2 n3 no, 0 < n1 -> 0 < n2 -> 0 < n3 -> Forall (counted 3) (lines file) ->
  exists U V, read_orbital file n1 n2 n3 no false = Ok U /\ read_orbital file n1 n2 n3 no true = Ok V /\
    forall q1 q2 q3 i k, i < no -> k < no -> V [q1; q2; q3; i; k] = U [q1; q2; q3; i; i; k; k].
Proof.
  intros file n1 n2 n3 no H1 H2 H3 C. apply (each_line_sim _ _ (diagonal_q no)); [|intros q1 q2 q3 i k _ _; reflexivity].
  intros line U V HI D. apply read_orbital_diagonal; try assumption. rewrite Forall_forall in C. apply C, HI.
Qed.
Print Assumptions C109_orbital_dd.

(** Interaction in the band basis: line number (((iQ nk + k1) nk + k2) nk + K1) nk + K2
    (counted from zero) contains the element iQ, k1, k2, K1, K2. *)
Theorem C109_band : forall file nQ nk vs, length vs = nQ * (nk * (nk * (nk * nk))) -> Forall2 two_numbers (firstn (length vs) (lines file)) vs ->
  exists U, read_band file nQ nk = Ok U /\ forall iQ k1 k2 K1 K2, iQ < nQ -> k1 < nk -> k2 < nk -> K1 < nk -> K2 < nk ->
    U [iQ; k1; k2; K1; K2] = nth_error vs ((((iQ * nk + k1) * nk + k2) * nk + K1) * nk + K2).
Proof.
  intros file nQ nk vs L F. assert (LI : length vs = length (indices [nQ; nk; nk; nk; nk])) by (rewrite indices_length, L; cbn [fold_right]; lia). rewrite LI in F.
  destruct (read_entries_ok (indices [nQ; nk; nk; nk; nk]) vs (lines file) empty (indices_nodup _) LI F) as (U & E & A & _).
  exists U. split; [exact E|]. intros iQ k1 k2 K1 K2 H0 H1 H2 H3 H4.
  assert (B : Forall2 lt [iQ; k1; k2; K1; K2] [nQ; nk; nk; nk; nk]) by (repeat constructor; assumption).
  pose proof (indices_nth _ _ B) as N. pose proof (flat_index_below _ _ B) as M. rewrite <- indices_length, <- LI in M.
  replace ((((iQ * nk + k1) * nk + k2) * nk + K1) * nk + K2) with (flat_index [nQ; nk; nk; nk; nk] [iQ; k1; k2; K1; K2]) by (cbn [flat_index fold_right]; ring).
  destruct (nth_error vs _) as [v|] eqn:V; [|apply nth_error_None in V; lia]. apply (A _ _ _ N V).
Qed.
Print Assumptions C109_band.

Theorem C109_band_truncated : forall file nQ nk, (forall line, In line (lines file) -> exists v, two_numbers line v) ->
  length (lines file) < nQ * (nk * (nk * (nk * nk))) -> read_band file nQ nk = Raise StopIteration.
Proof. intros file nQ nk H L. apply read_entries_short; [exact H|]. rewrite indices_length. cbn [fold_right]. lia. Qed.
Print Assumptions C109_band_truncated.

Theorem C109_band_round_trip : forall (U : list nat -> Q * Q) nQ nk, exists V, read_band (write_band U nQ nk) nQ nk = Ok V /\
  forall iQ k1 k2 K1 K2, iQ < nQ -> k1 < nk -> k2 < nk -> K1 < nk -> K2 < nk -> exists v, V [iQ; k1; k2; K1; K2] = Some v /\ close9 (U [iQ; k1; k2; K1; K2]) v.
Proof.
  intros U nQ nk. destruct (written_lines U (indices [nQ; nk; nk; nk; nk])) as (ls & E & F). fold (write_band U nQ nk) in E.
  set (ps := indices [nQ; nk; nk; nk; nk]) in *. assert (L : length ls = length ps) by (rewrite <- (map_length (fun p => rounded9 (U p)) ps); clear - F; induction F; cbn; congruence).
  destruct (read_entries_ok ps (map (fun p => rounded9 (U p)) ps) (lines (write_band U nQ nk)) empty (indices_nodup _) (map_length _ _)) as (V & EV & A & _).
  { rewrite E, firstn_all2 by lia. exact F. }
  exists V. split; [exact EV|]. intros iQ k1 k2 K1 K2 H0 H1 H2 H3 H4. exists (rounded9 (U [iQ; k1; k2; K1; K2])).
  assert (B : Forall2 lt [iQ; k1; k2; K1; K2] [nQ; nk; nk; nk; nk]) by (repeat constructor; assumption). pose proof (indices_nth _ _ B) as N. fold ps in N. split.
  - apply (A _ _ _ N). rewrite nth_error_map, N. reflexivity.
  - unfold close9, rounded9. cbn [fst snd]. split; [exact (rounded_near 9 (fst (U [iQ; k1; k2; K1; K2])))|exact (rounded_near 9 (snd (U [iQ; k1; k2; K1; K2])))].
Qed.
Print Assumptions C109_band_round_trip.

(** ** Examples *)
Definition local_example : text := §"# I J K L  RE IM" ++ newline :: §"1 2 2 1  0.5 -1E-3" ++ newline :: newline :: §" 1 1 2 2 3 0 " ++ newline :: §"1 1 2 2 4 0" ++ newline :: §"9 1 1 1 1 1" ++ [newline].
Example local_meets : Forall (counted 0) (lines local_example) /\ lists_local (§"1 1 2 2 4 0" ++ [newline]) 0 0 1 1 (4 # 1, 0 # 1)%Q.
Proof.
  split.
  - assert (D : forall line, forallb (fun w => match to_int w with Ok z => (0 <? z)%Z | _ => true end) (firstn 4 (skipn 0 (str_split line))) = true -> counted 0 line).
    { intros line H w z Hw Hz. rewrite forallb_forall in H. specialize (H w Hw). rewrite Hz in H. apply Z.ltb_lt, H. }
    apply Forall_forall. intros line Hl. apply D. revert line Hl. apply forallb_forall. reflexivity.
  - eapply local_line; reflexivity.
Qed.
Example local_read : exists U V, read_local local_example 2 false = Ok U /\ read_local local_example 2 true = Ok V /\
  U [0; 1; 1; 0] = Some (5 # 10, -1 # 1000)%Q /\ U [0; 0; 1; 1] = Some (4 # 1, 0 # 1)%Q /\ U [0; 0; 0; 0] = None /\ V [0; 1] = Some (4 # 1, 0 # 1)%Q.
Proof. do 2 eexists. repeat split; vm_compute; reflexivity. Qed.

Example orbital_meets : lists_orbital Qlt 3 3 1 (§"-0.333 0.667 0.0 1 2 1 1 0.5 0.25 x" ++ [newline]) (2, 2, 0) 0 1 0 0 (5 # 10, 25 # 100)%Q.
Proof.
  eapply (orbital_line _ _ _ _ _ _ _ _ _ _ _ _ _ _ _ (-333 # 1000)%Q (667 # 1000)%Q (0 # 10)%Q); try reflexivity; (split; [lia|]).
  - exists (-1)%Z. reflexivity.
  - exists 0%Z. reflexivity.
  - exists 0%Z. reflexivity.
Qed.
Example band_example : exists V, read_band (write_band (fun p => (inject_Z (Z.of_nat (fold_right Nat.add 0%nat p)), (1 # 3)%Q)) 2 2) 2 2 = Ok V /\ V [1; 0; 1; 1; 0] = Some (3000000000 # 1000000000, 333333333 # 1000000000)%Q.
Proof. eexists. split; vm_compute; reflexivity. Qed.
