(** C118: the output of pw.x is read correctly, wherever the energies are in it. *)
From Coq Require Import Lia Qabs.
From Verif Require WinProofs ProjModel.
From Verif Require Import Common Text TextProofs NmlModel PwoModel PwoSpec PwoProofs PwoProofs2 PwoProofs3 PwoProofs4.
Local Open Scope nat_scope.

Lemma printed_rounded d x : printed d (rounded d x) x.
Proof. apply rounded_near. Qed.
Lemma printed_levels r : Forall2 (Forall2 (printed 4)) (levels r) (map snd (bands r)).
Proof.
  unfold levels. induction (bands r) as [|[t e] bs IH]; cbn [map snd]; constructor; [|exact IH].
  induction e as [|x e IHe]; cbn [map]; constructor; [apply printed_rounded|exact IHe].
Qed.
Lemma printed_points (ks : list (Q * Q * Q * Q)) : Forall2 printed_point (map rounded_k ks) ks.
Proof. induction ks as [|[[[x y] z] w] ks IH]; cbn [map]; constructor; [repeat split; apply printed_rounded|exact IH]. Qed.

(** The Fermi level of a metal and the highest occupied level of an insulator without empty
    bands are found. If there are empty bands, nothing is found. *)
Theorem C118_Fermi_level : forall r, good r -> exists level, read_Fermi_level (output_file r) = Ok level /\
  match fermi r with
  | Fermi e | Highest e => exists x, level = Some x /\ printed 4 x e
  | Highest_lowest _ _ => level = None
  end.
Proof.
  intros r G. rewrite (fermi_read r G). eexists. split; [reflexivity|].
  destruct (fermi r) as [e|e|e e']; [exists (rounded 4 e)|exists (rounded 4 e)|]; try reflexivity; split; try reflexivity; apply printed_rounded.
Qed.
Print Assumptions C118_Fermi_level.

(** read_pwo: all energies of all bands at all k points, with respect to the Fermi level or
    the center of the gap, the number of electrons, and the total energy in eV *)
Theorem C118_energies : forall Ry r, good r -> (forall e, fermi r <> Highest e) ->
  exists es mu n E, read_pwo Ry (output_file r) = Ok (Some (map (map (fun e => e - mu)%Q) es), Some n, Some (E * Ry)%Q) /\
    Forall2 (Forall2 (printed 4)) es (map snd (bands r)) /\ printed 2 n (electrons r) /\ printed 8 E (total r) /\
    match fermi r with
    | Fermi e => printed 4 mu e
    | Highest_lowest e e' => exists x x', printed 4 x e /\ printed 4 x' e' /\ (mu == (x + x') / 2)%Q
    | Highest _ => False
    end.
Proof.
  intros Ry r G N. rewrite (pwo_read r G). unfold reference. destruct (fermi r) as [e|e|e e'] eqn:El.
  - exists (levels r), (rounded 4 e), (rounded 2 (electrons r)), (rounded 8 (total r)). split; [reflexivity|]. repeat split; try apply printed_rounded. apply printed_levels.
  - exfalso. exact (N e eq_refl).
  - eexists (levels r), _, (rounded 2 (electrons r)), (rounded 8 (total r)). split; [reflexivity|]. repeat split; try apply printed_rounded. { apply printed_levels. }
    exists (rounded 4 e), (rounded 4 e'). repeat split; try apply printed_rounded. rewrite Qplus_0_r. reflexivity.
Qed.
Print Assumptions C118_energies.

(** For all insulators without empty bands, read_pwo fails. *)
Theorem C118_insulator_refuted : forall Ry r e, good r -> fermi r = Highest e -> read_pwo Ry (output_file r) = Raise UnboundLocalError.
Proof. intros Ry r e G E. rewrite (pwo_read r G). unfold reference. rewrite E. reflexivity. Qed.
Print Assumptions C118_insulator_refuted.

(** read_eps_nk_from_qe_pwo: energies, k points and weights, kind and width of the smearing (eV)
    and the chemical potential, for less than 10000 k points *)
Theorem C118_k_points : forall Ry known r name width e, good r -> smearing r = Some (name, width) -> known (str name) = true -> fermi r = Fermi e ->
  (Z.of_nat (length (points r)) < 10000)%Z ->
  exists es ks mu kT, read_eps Ry known (output_file r) = Ok (es, ks, str name, mu, (kT * Ry)%Q) /\
    Forall2 (Forall2 (printed 4)) es (map snd (bands r)) /\ Forall2 printed_point ks (points r) /\ printed 4 mu e /\ printed 4 kT width.
Proof.
  intros Ry known r name width e G S K E N. exists (levels r), (map rounded_k (points r)), (rounded 4 e), (rounded 4 width). split.
  - apply eps_read; try assumption. rewrite (fermi_read r G), E. reflexivity.
  - repeat split; try apply printed_rounded. { apply printed_levels. } apply printed_points.
Qed.
Print Assumptions C118_k_points.

(** Both functions agree on the energies. *)
Theorem C118_agree : forall Ry known r name width e, good r -> smearing r = Some (name, width) -> known (str name) = true -> fermi r = Fermi e ->
  (Z.of_nat (length (points r)) < 10000)%Z ->
  exists es ks mu kT n E, read_eps Ry known (output_file r) = Ok (es, ks, str name, mu, kT) /\
    read_pwo Ry (output_file r) = Ok (Some (map (map (fun e => e - mu)%Q) es), n, E).
Proof.
  intros Ry known r name width e G S K E N. exists (levels r), (map rounded_k (points r)), (rounded 4 e), (rounded 4 width * Ry)%Q. eexists _, _. split.
  - apply eps_read; try assumption. rewrite (fermi_read r G), E. reflexivity.
  - rewrite (pwo_read r G). unfold reference. rewrite E. reflexivity.
Qed.
Print Assumptions C118_agree.

(** With 10000 k points or more, read_eps_nk_from_qe_pwo always fails: the number of the k
    point is not separated from "k(" anymore. *)
Theorem C118_many_k_points_refuted : forall Ry known r name width, good r -> smearing r = Some (name, width) -> (10000 <= Z.of_nat (length (points r)))%Z ->
  read_eps Ry known (output_file r) = Raise ValueError.
Proof. intros Ry known r name width G S N. eapply eps_many; eassumption. Qed.
Print Assumptions C118_many_k_points_refuted.

(** Without smearing, it fails as well. *)
Theorem C118_no_smearing_refuted : forall Ry known r, good r -> smearing r = None -> read_eps Ry known (output_file r) = Raise IndexError.
Proof. intros Ry known r G S. apply eps_no_smearing; assumption. Qed.
Print Assumptions C118_no_smearing_refuted.

(** ** A concrete output, with nine bands at two k points *)
Definition graphene : run := Run 8 9 (Some ("Fermi-Dirac"%string, 1 # 100)) [(0, 0, 0, 1 # 2); (1 # 2, -(1 # 3), 0, 3 # 2)]%Q
  [(§"          k = 0.0000 0.0000 0.0000 (   531 PWs)   bands (ev):", [-(19 # 1); -(7 # 1); -(3 # 1); -(3 # 1); 1 # 3; 2; 3; 4; 5]%Q);
   (§"          k = 0.5000-0.3333 0.0000 (   522 PWs)   bands (ev):", [-(17 # 1); -(6 # 1); -(2 # 1); -(1 # 1); 1 # 7; 1; 2; 3; 4]%Q)]
  (Fermi (-(12345 # 10000))) (-(2345678 # 100000))
  [[]; §"     Program PWSCF v.7.2 starts on ..."] [§"     kinetic-energy cutoff     =      60.0000  Ry"] [] §"                       cart. coord. in units 2pi/alat" [§"     Self-consistent Calculation"] [[]] [[]] [§"     The total energy is the sum of the following terms:"].
Definition find (t : text) : bool := existsb (fun k => ProjModel.contains (str k) t) keywords || existsb (Ascii.eqb newline) t.
Lemma quiet_find t : find t = false -> quiet t.
Proof.
  unfold find. intros H. apply Bool.orb_false_iff in H. destruct H as [H1 H2]. split.
  - intros J. assert (X : existsb (Ascii.eqb newline) t = true) by (apply existsb_exists; exists newline; split; [exact J|reflexivity]). congruence.
  - intros k K O. assert (X : existsb (fun k => ProjModel.contains (str k) t) keywords = true) by (apply existsb_exists; exists k; split; [exact K|apply WinProofs.contains_iff; exact O]). congruence.
Qed.
Example C118_good : good graphene.
Proof.
  split.
  - intros t J. apply quiet_find. cbn in J. repeat (destruct J as [<-|J]; [vm_compute; reflexivity|]). contradiction.
  - intros name width E. injection E as <- <-. split; [cbn; tauto|vm_compute; lia].
  - reflexivity.
  - vm_compute. reflexivity.
  - intros t e J. cbn in J. repeat (destruct J as [J|J]; [injection J as <- <-; split; [reflexivity|intros x K; cbn in K; repeat (destruct K as [<-|K]; [vm_compute; lia|]); contradiction]|]). contradiction.
  - intros x y z w J. cbn in J. repeat (destruct J as [J|J]; [injection J as <- <- <- <-; vm_compute; lia|]). contradiction.
  - exact Logic.I.
  - vm_compute; lia.
Qed.
Example C118_example : match read_eps 13 (fun _ => true) (output_file graphene) with
  | Ok ([[_; _; _; _; _; _; _; _; x]; [_; _; _; _; y; _; _; _; _]], [_; (_, k, _, w)], s, mu, kT) =>
    (x == 5 /\ y == 1429 # 10000 /\ k == -(3333333 # 10000000) /\ w == 3 # 2 /\ mu == -(12345 # 10000) /\ kT == 13 # 100)%Q /\ s = §"Fermi-Dirac"
  | _ => False end.
Proof. vm_compute. repeat split. Qed.
Example C118_example_insulator : good (Run 8 4 None [(0, 0, 0, 2)]%Q [([], [-(5 # 1); 1; 2; 3]%Q)] (Highest 3) (-(10 # 1)) [] [] [] [] [] [] [] []) .
Proof.
  split.
  - intros t J. apply quiet_find. cbn in J. repeat (destruct J as [<-|J]; [vm_compute; reflexivity|]). contradiction.
  - intros name width E. discriminate E.
  - reflexivity.
  - vm_compute. reflexivity.
  - intros t e J. cbn in J. repeat (destruct J as [J|J]; [injection J as <- <-; split; [reflexivity|intros x K; cbn in K; repeat (destruct K as [<-|K]; [vm_compute; lia|]); contradiction]|]). contradiction.
  - intros x y z w J. cbn in J. repeat (destruct J as [J|J]; [injection J as <- <- <- <-; vm_compute; lia|]). contradiction.
  - exact Logic.I.
  - vm_compute; lia.
Qed.
(** A run with 10000 k points *)
Example C118_example_many : let r := Run 8 0 (Some ("gaussian"%string, 1 # 100)) (repeat (0, 0, 0, 0)%Q (Z.to_nat 10000)) (repeat ([], []) (Z.to_nat 10000)) (Fermi 0) 0 [] [] [] [] [] [] [] [] in
  good r /\ (10000 <= Z.of_nat (length (points r)))%Z.
Proof.
  set (n := Z.to_nat 10000). assert (N : Z.of_nat n = 10000%Z) by (apply Z2Nat.id; lia). clearbody n. cbn zeta. split.
  - split; cbn [o0 o1 o2 o3 o4 o5 o6 header bands points smearing fermi total nbnd app].
    + intros t J. assert (t = []) as ->. { destruct J as [J|J]; [congruence|]. rewrite app_nil_r, in_map_iff in J. destruct J as ([u e] & <- & J). apply repeat_spec in J. injection J as -> _. reflexivity. } apply quiet_find. reflexivity.
    + intros name width E. injection E as <- <-. split; [cbn; tauto|vm_compute; lia].
    + rewrite !repeat_length. reflexivity.
    + rewrite repeat_length, N. reflexivity.
    + intros t e J. apply repeat_spec in J. injection J as -> ->. split; [reflexivity|intros x []].
    + intros x y z w J. apply repeat_spec in J. injection J as -> -> -> ->. vm_compute. lia.
    + exact Logic.I.
    + vm_compute. lia.
  - cbn [points]. rewrite repeat_length, N. lia.
Qed.
