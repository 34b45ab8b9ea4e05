From Coq Require Import Qabs Lia.
From Verif Require Import Text TextProofs NmlModel NmlProofs GridModel GridSpec TabProofs TabProofs2 TabProofs3.
From Coq Require Import List.
Import ListNotations.
Local Open Scope nat_scope.

Lemma gap_spaces s : gap s -> spaces s.
Proof. unfold gap, spaces. apply Forall_impl. tauto. Qed.
Lemma gap_single s : gap s -> single s.
Proof. intros H J. unfold gap in H. rewrite Forall_forall in H. destruct (H _ J) as [_ K]. apply K. reflexivity. Qed.
Lemma word_single w : word w -> single w.
Proof. intros [_ H] J. unfold solid in H. rewrite Forall_forall in H. specialize (H _ J). discriminate. Qed.
Lemma spaced_single ws t : spaced ws t -> single t.
Proof.
  induction 1 as [s H|s w ws t H W S0 _ IH]; [apply gap_single, H|].
  apply single_app; [apply gap_single, H|]. apply single_app; [apply word_single, W|exact IH].
Qed.
Lemma spaced_split ws t : spaced ws t -> str_split (t ++ [newline]) = ws.
Proof.
  induction 1 as [s H|s w ws t H W S0 _ IH].
  - rewrite words_spaces by (apply gap_spaces, H). reflexivity.
  - rewrite <- !app_assoc. rewrite split_word; [rewrite IH; reflexivity|apply gap_spaces, H|exact W|]. destruct t; [reflexivity|exact S0].
Qed.
Lemma reals_floats ws v : reals ws v -> map_all to_float ws = Ok [fst (fst v); snd (fst v); snd v].
Proof. intros (a & b & c & -> & A & B & C). unfold real in *. cbn [map_all]. rewrite A. cbn [bind]. rewrite B. cbn [bind]. rewrite C. reflexivity. Qed.
Lemma reals_length ws v : reals ws v -> length ws = 3.
Proof. intros (a & b & c & -> & _). reflexivity. Qed.
Lemma set3_vec (v : vec) : set3 [fst (fst v); snd (fst v); snd v] = Ok v.
Proof. destruct v as [[x y] z]. reflexivity. Qed.
Lemma empty_nat n : empty (Z.of_nat n) = Ok n.
Proof. unfold empty. destruct (Z.ltb_spec (Z.of_nat n) 0); [lia|]. rewrite Nat2Z.id. reflexivity. Qed.

Definition nl (t : text) : text := t ++ [newline].
Lemma spaced_nl ws t : spaced ws t -> str_split (nl t) = ws.
Proof. apply spaced_split. Qed.
Lemma slice_app {A} (a : A) ws more : length ws = 3 -> slice 1 4 (a :: ws ++ more) = ws.
Proof. intros H. unfold slice. cbn [skipn Nat.sub]. rewrite firstn_app, H, Nat.sub_diag, app_nil_r, <- H. apply firstn_all. Qed.
Lemma slice_app2 {A} (a b : A) ws : length ws = 3 -> slice 2 5 (a :: b :: ws) = ws.
Proof. intros H. unfold slice. cbn [skipn Nat.sub]. rewrite <- H. apply firstn_all. Qed.

Definition spanned (a : nat * vec) : Z * vec := let '(n, (x, y, z)) := a in (Z.of_nat n, (x * inject_Z (Z.of_nat n), y * inject_Z (Z.of_nat n), z * inject_Z (Z.of_nat n))%Q).
Lemma axes_read l : forall ls rest, Forall2 axis_line l ls -> cube_axes (length l) (map nl ls ++ rest) = Ok (map spanned l, rest).
Proof.
  induction l as [|[n v] l IH]; intros ls rest H; inversion H as [|? t ? ls' (w & ws & S0 & Iw & Rw) Hl]; subst; [reflexivity|].
  clear H. cbn [length map app cube_axes next bind]. cbn [fst snd] in *. rewrite (spaced_nl _ _ S0). cbn [first bind].
  unfold integer in Iw. rewrite Iw. cbn [bind]. rewrite <- (app_nil_r ws) at 1; rewrite slice_app by (exact (reals_length _ _ Rw)).
  rewrite (reals_floats _ _ Rw). cbn [bind]. rewrite set3_vec. cbn [bind]. destruct v as [[x y] z]. rewrite IH by exact Hl. reflexivity.
Qed.
Lemma atoms_read l : forall ls rest, Forall2 atom_line l ls -> cube_atoms (length l) (map nl ls ++ rest) = Ok (map (fun a => (fst (fst a), snd a)) l, rest).
Proof.
  induction l as [|[[n q] v] l IH]; intros ls rest H; inversion H as [|? t ? ls' (w & u & ws & S0 & Iw & Ru & Rw) Hl]; subst; [reflexivity|].
  clear H. cbn [length map app cube_atoms next bind]. cbn [fst snd] in *. rewrite (spaced_nl _ _ S0). cbn [first bind].
  unfold integer in Iw. rewrite Iw. cbn [bind]. rewrite slice_app2 by (exact (reals_length _ _ Rw)).
  rewrite (reals_floats _ _ Rw). cbn [bind]. rewrite set3_vec. cbn [bind]. rewrite IH by exact Hl. reflexivity.
Qed.
Lemma data_words wss ls : Forall2 spaced wss ls -> flat_map str_split (map nl ls) = concat wss.
Proof. induction 1 as [|ws l wss ls H _ IH]; [reflexivity|]. cbn [map flat_map concat]. rewrite (spaced_nl _ _ H), IH. reflexivity. Qed.
Lemma numbers_read ws xs : Forall2 real ws xs -> cube_numbers (length xs) ws = Ok (map Some xs).
Proof. induction 1 as [|w x ws xs H _ IH]; [reflexivity|]. cbn [length cube_numbers map]. unfold real in H. rewrite H. cbn [bind]. rewrite IH. reflexivity. Qed.
Lemma numbers_many ws xs : Forall2 real ws xs -> forall n, n < length xs -> cube_numbers n ws = Raise IndexError.
Proof.
  induction 1 as [|w x ws xs H _ IH]; intros n L; [cbn in L; lia|]. unfold real in H. destruct n as [|n]; cbn [cube_numbers]; rewrite H; cbn [bind]; [reflexivity|].
  rewrite IH by (cbn in L; lia). reflexivity.
Qed.
Lemma numbers_few ws xs : Forall2 real ws xs -> forall n, length xs <= n -> cube_numbers n ws = Ok (map Some xs ++ repeat None (n - length xs)).
Proof.
  induction 1 as [|w x ws xs H _ IH]; intros n L; [cbn [length map app]; rewrite Nat.sub_0_r; destruct n; reflexivity|].
  unfold real in H. destruct n as [|n]; [cbn in L; lia|]. cbn [cube_numbers]. rewrite H; cbn [bind]. rewrite IH by (cbn in L; lia). reflexivity.
Qed.

Lemma Forall2_single {A} (P : A -> text -> Prop) l ls : (forall a t, P a t -> single t) -> Forall2 P l ls -> forall t, In t ls -> single t.
Proof. intros H F. induction F as [|a t l ls Ht _ IH]; intros u J; [destruct J|]. destruct J as [<-|J]; [apply (H a), Ht|apply IH, J]. Qed.

Definition points (c : content) : Z := product (map (fun a => Z.of_nat (fst a)) (c_axes c)).
Lemma product_nonneg l : (0 <= product (map Z.of_nat l))%Z.
Proof. induction l as [|n l IH]; cbn [map product fold_right]; [lia|]. unfold product in IH. nia. Qed.
Lemma points_nonneg c : (0 <= points c)%Z.
Proof. unfold points. rewrite <- (map_map fst Z.of_nat). apply product_nonneg. Qed.

Lemma cube_read fresh (only_header : bool) c f : cube_file c f ->
  read_cube fresh only_header f =
    if only_header then Ok (Cube fresh (map (fun a => snd (spanned a)) (c_axes c)) (map (fun a => fst (fst a)) (c_atoms c)) (map snd (c_atoms c)) (map (fun a => Z.of_nat (fst a)) (c_axes c)) [])
    else if (points c <? Z.of_nat (length (c_data c)))%Z then Raise IndexError
    else Ok (Cube fresh (map (fun a => snd (spanned a)) (c_axes c)) (map (fun a => fst (fst a)) (c_atoms c)) (map snd (c_atoms c)) (map (fun a => Z.of_nat (fst a)) (c_axes c))
      (map Some (c_data c) ++ repeat None (Z.to_nat (points c) - length (c_data c)))).
Proof.
  intros (t1 & t2 & head & la & lb & ld & wss & -> & S1 & S2 & (w & ws & more & Sh & Iw & Rw) & La & Fa & Fb & Fd & Fr).
  unfold read_cube. rewrite lines_file.
  2: { intros l [<-|[<-|[<-|J]]]; [exact S1|exact S2|exact (spaced_single _ _ Sh)|].
    apply in_app_or in J as [J|J]; [|apply in_app_or in J as [J|J]].
    - eapply Forall2_single; [|exact Fa|exact J]. intros a t (w' & ws' & S' & _). exact (spaced_single _ _ S').
    - eapply Forall2_single; [|exact Fb|exact J]. intros a t (w' & u' & ws' & S' & _). exact (spaced_single _ _ S').
    - eapply Forall2_single; [|exact Fd|exact J]. intros a t S'. exact (spaced_single _ _ S'). }
  fold nl. change (fun l => l ++ [newline]) with nl. cbn [map next bind]. rewrite (spaced_nl _ _ Sh). cbn [first bind].
  unfold integer in Iw. rewrite Iw. cbn [bind]. rewrite slice_app by (exact (reals_length _ _ Rw)). rewrite (reals_floats _ _ Rw). cbn [bind].
  rewrite empty_nat. cbn [bind].
  assert (L3 : length (c_axes c) = 3) by (rewrite <- La; clear -Fa; induction Fa; cbn; lia).
  rewrite !map_app. rewrite <- L3, axes_read by exact Fa. cbn [bind]. rewrite atoms_read by exact Fb. cbn [bind].
  rewrite !map_map. cbn [fst snd].
  assert (En : map (fun a => fst (spanned a)) (c_axes c) = map (fun a => Z.of_nat (fst a)) (c_axes c)).
  { apply map_ext. intros [n [[x y] z]]. reflexivity. }
  rewrite !En. destruct only_header; [reflexivity|].
  fold (points c). pose proof (points_nonneg c) as P. unfold empty. destruct (Z.ltb_spec (points c) 0) as [|_]; [lia|]. cbn [bind].
  match goal with |- context [flat_map ?a ?b] => replace (flat_map a b) with (concat wss) by (symmetry; exact (data_words _ _ Fd)) end.
  assert (Ex : existsb (fun z => (z <? 0)%Z) (map (fun a => Z.of_nat (fst a)) (c_axes c)) = false).
  { clear. induction (c_axes c) as [|a l IH]; [reflexivity|]. cbn [map existsb]. rewrite IH. destruct (Z.ltb_spec (Z.of_nat (fst a)) 0); [lia|reflexivity]. }
  destruct (Z.ltb_spec (points c) (Z.of_nat (length (c_data c)))) as [L|L].
  - rewrite (numbers_many _ _ Fr) by lia. reflexivity.
  - rewrite (numbers_few _ _ Fr) by lia. cbn [bind]. rewrite Ex. reflexivity.
Qed.

(** ** Order of data *)
Lemma length_flat_const {A B} (f : A -> list B) m l : (forall x, length (f x) = m) -> length (flat_map f l) = length l * m.
Proof. intros H. induction l as [|x l IH]; [reflexivity|]. cbn [flat_map length]. rewrite app_length, H, IH. reflexivity. Qed.
Lemma nth_flat_seq {B} (f : nat -> list B) m d : (forall x, length (f x) = m) -> forall n s i j, i < n -> j < m ->
  nth (i * m + j) (flat_map f (seq s n)) d = nth j (f (s + i)) d.
Proof.
  intros H. induction n as [|n IH]; intros s i j Hi Hj; [lia|]. cbn [seq flat_map]. destruct i as [|i].
  - rewrite app_nth1 by (rewrite H; lia). rewrite Nat.add_0_r. reflexivity.
  - rewrite app_nth2 by (rewrite H; lia). rewrite H. replace (S i * m + j - m) with (i * m + j) by lia. rewrite IH by lia. f_equal. f_equal. lia.
Qed.
Lemma in_order_length n1 n2 n3 g : length (in_order n1 n2 n3 g) = n1 * (n2 * n3).
Proof.
  unfold in_order. rewrite (length_flat_const _ (n2 * n3)); [rewrite seq_length; reflexivity|].
  intros i. rewrite (length_flat_const _ n3); [rewrite seq_length; reflexivity|]. intros j. rewrite map_length, seq_length. reflexivity.
Qed.
Lemma in_order_nth n1 n2 n3 g i j k : i < n1 -> j < n2 -> k < n3 -> nth ((i * n2 + j) * n3 + k) (in_order n1 n2 n3 g) 0%Q = g i j k.
Proof.
  intros Hi Hj Hk. unfold in_order. replace ((i * n2 + j) * n3 + k) with (i * (n2 * n3) + (j * n3 + k)) by lia.
  rewrite (nth_flat_seq _ (n2 * n3)); [|intros x; rewrite (length_flat_const _ n3); [rewrite seq_length; reflexivity|]; intros y; rewrite map_length, seq_length; reflexivity|exact Hi|nia].
  rewrite (nth_flat_seq _ n3); [|intros y; rewrite map_length, seq_length; reflexivity|exact Hj|exact Hk].
  rewrite (nth_indep _ 0%Q (g (0 + i) (0 + j) 0)) by (rewrite map_length, seq_length; exact Hk). rewrite map_nth, seq_nth by exact Hk. reflexivity.
Qed.
