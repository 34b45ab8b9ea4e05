(** Input files of Wannier90. *)
From Coq Require Import Ascii String Qabs.
From Verif Require Import Common CommonProofs Text TextProofs NmlModel NmlProofs WinModel WinSpec WinProofs WinProofs2.
Import ListNotations.
Local Open Scope nat_scope.

(** ** C117 *)

(** Refuted: no file written by write_win can be read by read_win, whatever the input data.
    The writer separates the keyword of the mesh from its dimensions by a colon, which the reader
    takes as part of the keyword, and the k points cannot be read without knowledge of the mesh. *)
Theorem C117_round_trip_refuted repr_f s : good s -> good_repr repr_f s ->
  exists file, write_win repr_f s = Ok file /\ read_win file = Raise UnboundLocalError.
Proof. intros H R. exact (colon repr_f s R H). Qed.
Print Assumptions C117_round_trip_refuted.

(** Except for this character, the file is right: if it is replaced by an equality sign, all
    input data that are written are read back, coordinates up to nine decimals. Other input data,
    among them wannier_plot, are lost. *)
Theorem C117_corrected_round_trip repr_f s : good s -> good_repr repr_f s -> good_mesh s ->
  exists file s', write_win_with repr_f §"=" s = Ok file /\ read_win file = Ok s' /\
    forall k, (written k -> match dget s k, dget s' k with Some v, Some v' => near_value v v' | None, None => True | _, _ => False end) /\
      (~ written k -> dget s' k = None).
Proof. intros H R M. exact (trip repr_f s R H M). Qed.
Print Assumptions C117_corrected_round_trip.

(** The two files differ in this character only. *)
Theorem C117_one_character repr_f s a b c file : dget s §"mp_grid" = Some (WGrid a b c) -> write_win repr_f s = Ok file ->
  exists before after, file = before ++ §"mp_grid" ++ §":" ++ after /\ write_win_with repr_f §"=" s = Ok (before ++ §"mp_grid" ++ §"=" ++ after).
Proof.
  intros Eg.
  assert (G : forall ls, write_lines repr_f §":" s = Ok ls -> exists l1 l2, ls = l1 ++ nl (§"mp_grid" ++ §":" ++ blank :: fmt_d a ++ blank :: fmt_d b ++ blank :: fmt_d c) :: l2 /\
    write_lines repr_f §"=" s = Ok (l1 ++ nl (§"mp_grid" ++ §"=" ++ blank :: fmt_d a ++ blank :: fmt_d b ++ blank :: fmt_d c) :: l2)).
  { intros ls. unfold write_lines. rewrite Eg. cbn [grid_lines].
    destruct (params repr_f s ["num_bands"; "num_wann"]%string) as [l1|]; cbn [bind]; [|discriminate].
    destruct (params repr_f s ["dis_win_min"; "dis_win_max"; "dis_froz_min"; "dis_froz_max"]%string) as [l2|]; cbn [bind]; [|discriminate].
    destruct (need s "proj") as [v3|]; cbn [bind]; [|discriminate]. destruct (proj_lines v3) as [l3|]; cbn [bind]; [|discriminate].
    destruct (params repr_f s ["write_hr"; "bands_plot"]%string) as [l4|]; cbn [bind]; [|discriminate].
    destruct (params repr_f s ["dis_num_iter"; "num_iter"; "search_shells"]%string) as [l5|]; cbn [bind]; [|discriminate].
    destruct (need s "kpoint_path") as [v6|]; cbn [bind]; [|discriminate]. destruct (path_lines v6) as [l6|]; cbn [bind]; [|discriminate].
    destruct (need s "unit_cell") as [v7|]; cbn [bind]; [|discriminate]. destruct (cell_lines v7) as [l7|]; cbn [bind]; [|discriminate].
    destruct (need s "atoms_coords") as [v8|]; cbn [bind]; [|discriminate]. destruct (need s "at") as [a8|]; cbn [bind]; [|discriminate].
    destruct (need s "atoms") as [r8|]; cbn [bind]; [|discriminate]. destruct (atoms_lines v8 a8 r8) as [l8|]; cbn [bind]; [|discriminate].
    destruct (need s "kpoints") as [v10|]; cbn [bind]; [|discriminate]. destruct (points_lines v10) as [l10|]; cbn [bind]; [|discriminate].
    intros [= <-]. exists (l1 ++ empty ++ l2 ++ empty ++ l3 ++ empty ++ l4 ++ empty ++ l5 ++ empty ++ l6 ++ empty ++ l7 ++ empty ++ l8 ++ empty), (empty ++ l10).
    rewrite <- !app_assoc. split; reflexivity. }
  unfold write_win, write_win_with. destruct (write_lines repr_f §":" s) as [ls|]; cbn [bind]; [|discriminate]. intros [= <-].
  destruct (G ls eq_refl) as (l1 & l2 & -> & E). rewrite E. cbn [bind].
  exists (concat l1), (blank :: fmt_d a ++ blank :: fmt_d b ++ blank :: fmt_d c ++ [newline] ++ concat l2).
  rewrite !concat_app. cbn [concat]. unfold nl. repeat (rewrite <- ?app_assoc; cbn [app]). split; reflexivity.
Qed.
Print Assumptions C117_one_character.

(** A crystal with two atoms; the parameters are written with three decimals here. *)
Definition boron_nitride : dict wval := [
  (§"num_wann", WInt 2); (§"dis_win_max", WFloat (1500 # 1000)); (§"write_hr", WBool true);
  (§"wannier_plot", WBool true);
  (§"proj", WProj [(§"B", §"pz"); (§"N", §"s; p")]); (§"kpoint_path", WTexts [§"G 0 0 0 M 1/2 0 0"]);
  (§"unit_cell", WRows [(5 # 2, 0, 0); (- 5 # 4, 2165063509 # 1000000000, 0); (0, 0, 15)]%Q);
  (§"atoms_coords", WText §"frac"); (§"at", WTexts [§"B"; §"N"]); (§"atoms", WRows [(2 # 3, 1 # 3, 0); (1 # 3, 2 # 3, 0)]%Q);
  (§"mp_grid", WGrid 2 1 1); (§"kpoints", WPoints [((0, 0, 0), 1 # 2); ((1 # 2, 0, 0), 1 # 2)]%Q)].

Ltac key := repeat match goal with H : In _ _ |- _ => cbn in H; repeat destruct H as [<-|H]; try contradiction end.

Example C117_good : good boron_nitride /\ good_repr (fmt_f 3) boron_nitride /\ good_mesh boron_nitride.
Proof.
  assert (S : forall t : text, forallb (fun c => negb (Ascii.eqb c newline)) t = true -> strip t = t -> stripped_line t).
  { intros t H1 H2. split; [|exact H2]. apply Forall_forall. intros c I E. rewrite forallb_forall in H1. specialize (H1 c I). subst c. discriminate. }
  split; [constructor|split].
  - intros k v H E. key; vm_compute in E; try discriminate. injection E as <-. eexists. reflexivity.
  - intros k v H E. key; vm_compute in E; try discriminate. injection E as <-. eexists. reflexivity.
  - intros k v H E. key; vm_compute in E; try discriminate. injection E as <-. eexists. reflexivity.
  - exists [(§"B", §"pz"); (§"N", §"s; p")]. split; [vm_compute; reflexivity|]. split; [discriminate|]. split.
    + cbn [map fst]. constructor; [intros [F|[]]; discriminate|]. constructor; [intros []|constructor].
    + intros a b [F|[F|[]]]; injection F as <- <-; (split; [apply S; vm_compute; reflexivity|]); (split; [apply S; vm_compute; reflexivity|]);
      (split; [repeat (constructor; [discriminate|]); constructor|]); rewrite <- contains_iff; vm_compute; discriminate.
  - exists [§"G 0 0 0 M 1/2 0 0"]. split; [vm_compute; reflexivity|]. split; [discriminate|]. intros t [<-|[]]. split; [apply S; vm_compute; reflexivity|].
    intros (u & F). discriminate.
  - eexists _, _, _. vm_compute. reflexivity.
  - exists §"frac". split; [vm_compute; reflexivity|]. split; [repeat constructor|repeat (constructor; [discriminate|]); constructor].
  - exists [§"B"; §"N"], [(2 # 3, 1 # 3, 0); (1 # 3, 2 # 3, 0)]%Q. split; [vm_compute; reflexivity|]. split; [vm_compute; reflexivity|]. split; [reflexivity|].
    intros X [<-|[<-|[]]]; (split; [split; [discriminate|repeat constructor]|discriminate]).
  - intros v E. vm_compute in E. injection E as <-. eexists _, _, _. reflexivity.
  - eexists. vm_compute. reflexivity.
  - intros k x H E. key; vm_compute in E; try discriminate. injection E as <-. split; [apply word_fmt_f|]. split; [vm_compute; repeat (constructor; [discriminate|]); constructor|].
    eexists. split; [apply to_float_fmt; lia|]. vm_compute. reflexivity.
  - exists 2%Z, 1%Z, 1%Z, [((0, 0, 0), 1 # 2); ((1 # 2, 0, 0), 1 # 2)]%Q. split; [vm_compute; reflexivity|]. split; [vm_compute; reflexivity|]. split; [discriminate|reflexivity].
Qed.

Example C117_example :
  match write_win_with (fmt_f 3) §"=" boron_nitride with
  | Ok file => firstn 9 (lines file) = map (fun s => nl (str s)) ["num_wann = 2"; ""; "dis_win_max = 1.500"; ""; "begin projections"; "B: pz"; "N: s; p"; "end projections"; ""]%string /\
    match read_win file with Ok s => dget s §"proj" = dget boron_nitride §"proj" /\ dget s §"wannier_plot" = None | Raise _ => False end
  | Raise _ => False
  end /\ match write_win (fmt_f 3) boron_nitride with Ok file => read_win file = Raise UnboundLocalError | Raise _ => False end.
Proof. vm_compute. auto. Qed.
