(** Theorems about interpolation from meshes of wave vectors (C40, C81). *)
From Coq Require Import Reals Lra.
From Verif Require Import Common CommonProofs LatModel VorModel Num NumProofs NumC ElModel ElSpec WSModel WSSpec WSProofs2 KrModel KrProofs.
Local Open Scope nat_scope.

(** C40. The model returned by k2r reproduces the given Hamiltonian at all points
    of the mesh, in the units of the model. *)
Theorem C40_reproduces m shape nk norb H len rydberg_in nproc :
  pad_mesh shape = Ok nk -> (0 < vx nk /\ 0 < vy nk /\ 0 < vz nk)%Z -> 0 < norb -> 0 < nproc -> divide_ndegen m = true ->
  exists m', k2r m shape norb H len true rydberg_in nproc = Ok m' /\ size m' = norb /\ rydberg m' = rydberg m /\
  forall n a b, on_mesh nk n -> a < norb -> b < norb ->
    ElModel.H (phase (mesh_point nk n)) m' a b =
    nmul (RtoC (if Bool.eqb rydberg_in (rydberg m) then 1 else if rydberg_in then Ry else / Ry)) (H n a b).
Proof. exact (k2r_reproduces m shape nk norb H len rydberg_in nproc). Qed.
Print Assumptions C40_reproduces.

(** Meshes of up to three dimensions are accepted; missing dimensions have one point. *)
Theorem C40_dimensions m shape norb H len fft rydberg_in nproc :
  (length shape <= 3 -> pad_mesh shape = Ok (V3 (nth 0 shape 1%Z) (nth 1 shape 1%Z) (nth 2 shape 1%Z))) /\
  (3 < length shape -> k2r m shape norb H len fft rydberg_in nproc = Raise ValueError /\ forall W, elel_q2r shape norb W len fft nproc = Raise ValueError).
Proof.
  unfold k2r, elel_q2r. destruct shape as [|n1 [|n2 [|n3 [|]]]]; cbn [length nth pad_mesh bind]; (split; [intros L; try reflexivity; lia|intros L; try lia]). split; reflexivity.
Qed.
Print Assumptions C40_dimensions.

(** A mesh of dimension two; wrong dimensions are rejected. *)
Example C40_example :
  let m : @el C := {| size := 1; hop := []; flatR := true; cells := [vzero]; Nsc := None; divide_ndegen := true; rydberg := false |} in
  pad_mesh [2; 3]%Z = Ok (V3 2 3 1) /\ pad_mesh [2; 2; 2; 2]%Z = Raise ValueError /\
  on_mesh (V3 2 3 1) (V3 1 2 0) /\
  exists m', k2r m [2; 3]%Z 2 (fun n a b => RtoC (IZR (vx n + 10 * vy n) + INR (a + b))) (fun _ _ _ => 1%Q) true true 4 = Ok m' /\
    ElModel.H (phase (mesh_point (V3 2 3 1) (V3 1 2 0))) m' 0 1 = RtoC (Ry * 22).
Proof.
  intros m. split; [reflexivity|]. split; [reflexivity|]. assert (Hn : on_mesh (V3 2 3 1) (V3 1 2 0)) by (unfold on_mesh; cbn; lia). split; [exact Hn|].
  destruct (C40_reproduces m [2; 3]%Z (V3 2 3 1) 2 (fun n a b => RtoC (IZR (vx n + 10 * vy n) + INR (a + b))) (fun _ _ _ => 1%Q) true 4) as (m' & E & _ & _ & G);
    [reflexivity|cbn; lia|lia|lia|reflexivity|].
  exists m'. split; [exact E|]. rewrite (G (V3 1 2 0) 0 1) by (try exact Hn; lia). cbn -[Ry]. change (1 + 10 * 2)%Z with 21%Z. apply f_equal2; lra.
Qed.

(** C81. The same for the Coulomb interaction. *)
Theorem C81_reproduces shape nq norb W len nproc :
  pad_mesh shape = Ok nq -> (0 < vx nq /\ 0 < vy nq /\ 0 < vz nq)%Z -> 0 < norb -> 0 < nproc ->
  exists data, elel_q2r shape norb W len true nproc = Ok data /\
  forall n a b, on_mesh nq n -> a < norb -> b < norb -> W_sum (phase (mesh_point nq n)) data a b = W n a b.
Proof. exact (elel_q2r_reproduces shape nq norb W len nproc). Qed.
Print Assumptions C81_reproduces.

Example C81_example : exists data, elel_q2r [2]%Z 1 (fun n _ _ => RtoC (IZR (1 + vx n))) (fun _ _ _ => 0%Q) true 1 = Ok data /\
  W_sum (phase (mesh_point (V3 2 1 1) (V3 1 0 0))) data 0 0 = RtoC 2.
Proof.
  destruct (C81_reproduces [2]%Z (V3 2 1 1) 1 (fun n _ _ => RtoC (IZR (1 + vx n))) (fun _ _ _ => 0%Q) 1) as (d & E & G);
    [reflexivity|cbn; lia|lia|lia|].
  exists d. split; [exact E|]. rewrite G by (unfold on_mesh; cbn; lia). reflexivity.
Qed.
