(** C107: tight-binding and mass-spring models of distorted structures. *)
From Coq Require Import Reals Lra Lia QArith.
From Verif Require Import CxProofs HermSpec HermProofs MdModel MdSpec MdProofs MdProps DrvSpec.
From Verif Require WSProofs.
From Verif Require Import Common CommonProofs LatModel LatProofs VorModel Num NumProofs NumC ElModel ElSpec ElProofs WSModel WSSpec WSProofs2 KrModel KrProofs
  PhModel PhProofs PhProofs2 PhLRModel PhUpdModel PhUpdProps DrvModel DrvProofs.
Local Open Scope nat_scope.

Lemma state_matrix eigh fermi dr u0 mu0 k a b : physical dr -> eigh_contract (norb dr) eigh -> k < MdModel.nk dr -> a < norb dr -> b < norb dr ->
  exists w, mu (solve eigh fermi dr u0 mu0) = Some w /\ backtransformed dr (solve eigh fermi dr u0 mu0) k a b = distorted dr u0 w k a b.
Proof.
  intros HP HE Hk Ha Hb. unfold solve. cbn [mu]. eexists. split; [reflexivity|]. unfold backtransformed. cbn [e U].
  set (w := fermi _ _ _ _ _ _). clearbody w.
  assert (HH : HermSpec.hermitian (norb dr) (hamiltonian dr u0 k)).
  { intros i j Hi Hj. unfold hamiltonian. rewrite (ph_H0 dr HP k Hk i j Hi Hj). 
    assert (A : forall x y : Complex.C, Cx.conj (Complex.Cplus x y) = Complex.Cplus (Cx.conj x) (Cx.conj y)) by (intros; unfold Cx.conj, Complex.Cplus; cbn; f_equal; ring).
    rewrite A, csum_conj. f_equal. apply csum_ext. intros x Hx. rewrite (ph_d0 dr HP x k Hx Hk i j Hi Hj). unfold Cx.conj, Complex.Cmult, Complex.RtoC. cbn. f_equal; ring. }
  rewrite (backtransform (norb dr) (hamiltonian dr u0 k) _ _ a b w (HE _ HH) Ha Hb). unfold distorted, hamiltonian, HermSpec.delta, size. f_equal. f_equal.
  destruct (a =? b); unfold Complex.Cmult, Complex.RtoC; cbn; f_equal; ring.
Qed.

(** C107. The tight-binding model is set up for any displacements and number of
    processes, in the requested unit. At all points of the reduced k mesh it yields
    the Hamiltonian of the distorted structure relative to the chemical potential,
    up to the hoppings dropped: for each lattice vector at most 1e-10 times the
    maximum hopping. Missing: the case that the steps do not divide the mesh. *)
Theorem C107_electrons_partial : forall eigh fermi dr u0 mu0 nk sparse el_ has_cells ph_cells len dk ryd nproc,
  physical dr -> eigh_contract (norb dr) eigh -> nonempty nk -> MdModel.nk dr = Z.to_nat (vx nk * vy nk * vz nk) ->
  (sparse = true -> nk = V3 1 1 1) -> divide_ndegen el_ = true -> (has_cells = true -> cells el_ = ph_cells) -> 0 < nproc ->
  nonempty dk -> sparse = true \/ divides dk nk ->
  exists mu1 (m1 all : @el C),
    mu (solve eigh fermi dr u0 mu0) = Some mu1 /\
    electrons dr (solve eigh fermi dr u0 mu0) nk sparse el_ has_cells ph_cells len dk ryd nproc = Ok m1 /\
    ElModel.size m1 = norb dr /\ rydberg m1 = ryd /\
    forall k a b, on_mesh nk k -> divides dk k -> a < norb dr -> b < norb dr ->
      let exact := Complex.Cmult (Complex.RtoC (if ryd then 1 else Ry)) (distorted dr u0 mu1 (flat nk k) a b) in
      ElModel.H (phase (mesh_point nk k)) all a b = exact /\
      forall T, (0 <= T)%R -> (forall x i j, In x (hop all) -> i < norb dr -> j < norb dr -> (Complex.Cmod (snd x i j) <= T)%R) ->
        (Complex.Cmod (Complex.Cminus (ElModel.H (phase (mesh_point nk k)) m1 a b) exact) <= / 10000000000 * T * INR (length (hop all)))%R.
Proof.
  intros eigh fermi dr u0 mu0 nk sparse el_ has_cells ph_cells len dk ryd nproc HP HE Hnk EN Hsp Hd Hc Hp Hdk Hdiv.
  set (st := solve eigh fermi dr u0 mu0).
  assert (EM : exists w, mu st = Some w) by (eexists; reflexivity). destruct EM as (mu1 & EM).
  assert (HB : forall k a b, on_mesh nk k -> a < norb dr -> b < norb dr -> backtransformed dr st (flat nk k) a b = distorted dr u0 mu1 (flat nk k) a b).
  { intros k a b Hk Ha Hb. destruct (state_matrix eigh fermi dr u0 mu0 (flat nk k) a b HP HE) as (w & E1 & E2); [rewrite EN; apply flat_lt; exact Hk|exact Ha|exact Hb|].
    fold st in E1, E2. rewrite EM in E1. injection E1 as <-. exact E2. }
  (* The mesh that is used *)
  assert (G : exists shape nk' Hs f, (if ((1 <? vx dk) || (1 <? vy dk) || (1 <? vz dk))%Z then
      if sparse then Ok ([], fun k => backtransformed dr st (flat nk k))
      else if ((vx dk =? 0) || (vy dk =? 0) || (vz dk =? 0))%Z then Raise ValueError
      else Ok ([slice_length (vx nk) (vx dk); slice_length (vy nk) (vy dk); slice_length (vz nk) (vz dk)],
        fun j => backtransformed dr st (flat nk (V3 (slice_item (vx nk) (vx dk) (vx j)) (slice_item (vy nk) (vy dk) (vy j)) (slice_item (vz nk) (vz dk) (vz j)))))
    else Ok (if sparse then [] else [vx nk; vy nk; vz nk], fun k => backtransformed dr st (flat nk k))) = Ok (shape, Hs) /\
    pad_mesh shape = Ok nk' /\ nonempty nk' /\
    forall k, on_mesh nk k -> divides dk k -> on_mesh nk' (f k) /\ mesh_point nk' (f k) = mesh_point nk k /\ Hs (f k) = backtransformed dr st (flat nk k)).
  { destruct sparse.
    - specialize (Hsp eq_refl). subst nk. exists [], (V3 1 1 1). eexists. exists (fun k => k). split; [destruct (_ || _)%bool; reflexivity|]. split; [reflexivity|]. split; [exact Hnk|].
      intros k Hk _. auto.
    - destruct Hdiv as [?|Hdiv]; [discriminate|]. destruct ((1 <? vx dk) || (1 <? vy dk) || (1 <? vz dk))%Z eqn:E.
      + destruct Hdiv as ((n1 & D1) & (n2 & D2) & (n3 & D3)), Hdk as (P1 & P2 & P3), Hnk as (N1 & N2 & N3).
        exists [n1; n2; n3], (V3 n1 n2 n3). eexists. exists (fun k => V3 (vx k / vx dk) (vy k / vy dk) (vz k / vz dk))%Z.
        split; [|split; [reflexivity|split]].
        * destruct (Z.eqb_spec (vx dk) 0); [lia|]. destruct (Z.eqb_spec (vy dk) 0); [lia|]. destruct (Z.eqb_spec (vz dk) 0); [lia|]. cbn [orb].
          rewrite D1, D2, D3, !slice_exact by assumption. reflexivity.
        * unfold nonempty. cbn [vx vy vz]. repeat split; nia.
        * intros k (K1 & K2 & K3) ((m1 & M1) & (m2 & M2) & (m3 & M3)). 
          assert (Q1 : (vx k / vx dk = m1)%Z) by (rewrite M1; apply Z.div_mul; lia).
          assert (Q2 : (vy k / vy dk = m2)%Z) by (rewrite M2; apply Z.div_mul; lia).
          assert (Q3 : (vz k / vz dk = m3)%Z) by (rewrite M3; apply Z.div_mul; lia).
          rewrite Q1, Q2, Q3. split; [|split].
          -- unfold on_mesh. cbn [vx vy vz]. repeat split; nia.
          -- assert (F : forall m n d : Z, (0 < d)%Z -> (0 < n)%Z -> (2 * PI * IZR m / IZR n = 2 * PI * IZR (m * d) / IZR (n * d))%R).
             { intros m n d Hd' Hn'. rewrite !mult_IZR. apply IZR_lt in Hd', Hn'. field. lra. }
             unfold mesh_point. cbn [vx vy vz]. rewrite D1, D2, D3, M1, M2, M3.
             rewrite <- !F; [reflexivity|nia|nia|nia|nia|nia|nia].
          -- cbn [vx vy vz]. rewrite !slice_step by assumption. rewrite <- M1, <- M2, <- M3. destruct k. reflexivity.
      + exists [vx nk; vy nk; vz nk], nk. eexists. exists (fun k => k). split; [reflexivity|]. split; [destruct nk; reflexivity|]. split; [exact Hnk|]. auto. }
  destruct G as (shape & nk' & Hs & f & ES & EP & HN & HF).
  destruct (k2r_reproduces (set_rydberg el_ ryd) shape nk' (norb dr) Hs len true nproc EP HN (ph_norb dr HP) Hp Hd) as (m & E & Em & Er & HR).
  exists mu1. eexists. exists m. split; [exact EM|]. split; [|split; [|split]].
  - unfold electrons. cbv zeta. match goal with |- bind ?X _ = _ => assert (ES' : X = Ok (shape, Hs)) by exact ES; rewrite ES' end. cbn [bind].
    destruct (has_cells && negb (if list_eq_dec vec_eq_dec (cells el_) ph_cells then true else false)) eqn:EC.
    { apply andb_true_iff in EC. destruct EC as [EC1 EC2]. exfalso. specialize (Hc EC1). destruct (list_eq_dec _ _ _); [discriminate|contradiction]. }
    rewrite E. cbn [bind]. reflexivity.
  - exact Em.
  - exact Er.
  - intros k a b Hk Hk' Ha Hb exact. destruct (HF k Hk Hk') as (F1 & F2 & F3).
    assert (X : ElModel.H (phase (mesh_point nk k)) m a b = exact).
    { rewrite <- F2, (HR (f k) a b F1 Ha Hb), F3. unfold exact. rewrite <- HB by assumption. cbn [rydberg set_rydberg]. unfold unit_factor. destruct ryd; reflexivity. }
    split; [exact X|]. intros T HT HTT. rewrite <- X. rewrite <- Em in *. apply chop_bound; try assumption; [apply phase_unit|lra].
Qed.
Print Assumptions C107_electrons_partial.

(** Without divisibility, the data taken from the k mesh are assigned to the wrong k
    points: one orbital, three k points with energies 0, 5 and 1, every second of
    which is used. *)
Definition chain_H0 (k a b : nat) : Complex.C := Complex.RtoC (match k with 0 => 0 | 1 => 5 | _ => 1 end).
Definition chain : driver := mk_driver 1 1 3 1 (mk_smearing (fun _ => 0%R) (fun _ => 0%R) (fun _ => 0%R)) 0 chain_H0
  (fun _ _ _ _ => Complex.RtoC 0) (fun _ _ => Complex.RtoC 0) (fun _ => 0%R).
Definition chain_el : @el C := {| ElModel.size := 1; hop := []; flatR := true; cells := []; Nsc := None; divide_ndegen := true; rydberg := true |}.
Definition chain_len (v : vec) (_ _ : nat) : Q := inject_Z (Z.abs (vx v) + Z.abs (vy v) + Z.abs (vz v)).
Definition no_fermi (n : R) (s : nat * nat) (e : nat -> nat -> R) (kT : R) (f : smearing) (mu : option R) : R := 0%R.

Lemma chain_physical : physical chain.
Proof.
  constructor; try (cbn; lia); try (cbn; lra).
  - intros k _ i j _ _. unfold chain, chain_H0, Cx.conj, Complex.RtoC. cbn. f_equal. ring.
  - intros x k _ _ i j _ _. unfold chain, Cx.conj, Complex.RtoC. cbn. f_equal. ring.
  - intros x y _ _. reflexivity.
Qed.

Lemma map_three {A B} (f : A -> B) l a b c : map f l = [a; b; c] -> exists x y z, l = [x; y; z] /\ f x = a /\ f y = b /\ f z = c.
Proof. destruct l as [|x [|y [|z [|]]]]; try discriminate. intros [= <- <- <-]. eauto 10. Qed.

Lemma wigner_two : match wigner (V3 2 1 1) 1 2 1 1 chain_len (1 # 10000000) 1 with
  | Ok d => map (fun x => (fst x, fst (snd x 0%nat 0%nat))) d | Raise _ => [] end = [(V3 0 0 0, 1); (V3 (-1) 0 0, 2); (V3 1 0 0, 2)].
Proof. vm_compute. reflexivity. Qed.

Lemma chain_energy u0 mu0 k : k < 3 -> backtransformed chain (solve ex_eigh no_fermi chain u0 mu0) k 0 0 = chain_H0 k 0 0.
Proof.
  intros Hk. destruct (state_matrix ex_eigh no_fermi chain u0 mu0 k 0 0 chain_physical ex_eigh_ok Hk ltac:(cbn; lia) ltac:(cbn; lia)) as (w & E1 & ->).
  unfold solve, no_fermi in E1. cbn [mu] in E1. injection E1 as <-. unfold distorted. cbn [Nat.eqb chain H0 d0 nat_ Cx.csum Nat.mul Nat.add].
  unfold chain_H0, Complex.Cminus, Complex.Cplus, Complex.Copp, Complex.Cmult, Complex.RtoC. cbn. f_equal; ring.
Qed.

Theorem C107_electrons_refuted : exists eigh fermi dr nk el_ len dk,
  physical dr /\ eigh_contract (norb dr) eigh /\ nonempty nk /\ MdModel.nk dr = Z.to_nat (vx nk * vy nk * vz nk) /\ divide_ndegen el_ = true /\ nonempty dk /\
  forall u0 mu0, exists mu1 m1 k, mu (solve eigh fermi dr u0 mu0) = Some mu1 /\
    electrons dr (solve eigh fermi dr u0 mu0) nk false el_ false [] len dk true 1 = Ok m1 /\ on_mesh nk k /\ divides dk k /\
    (Complex.Cmod (Complex.Cminus (ElModel.H (phase (mesh_point nk k)) m1 0 0) (distorted dr u0 mu1 (flat nk k) 0 0)) > / 5)%R.
Proof.
  exists ex_eigh, no_fermi, chain, (V3 3 1 1), chain_el, chain_len, (V3 2 1 1).
  split; [exact chain_physical|]. split; [exact ex_eigh_ok|]. split; [unfold nonempty; cbn; lia|]. split; [reflexivity|]. split; [reflexivity|]. split; [unfold nonempty; cbn; lia|].
  intros u0 mu0. set (st := solve ex_eigh no_fermi chain u0 mu0). 
  set (Hs := fun j : vec => (backtransformed chain st (flat (V3 3 1 1) (V3 (vx j * 2) (vy j * 1) (vz j * 1)))) : nat -> nat -> C).
  pose proof (WSProofs.short_range_unfold (F := C) (V3 2 1 1) 1 2 1 1 chain_len (1 # 10000000) ltac:(cbn; lia) (or_introl eq_refl) ltac:(lia) Cdivn
    (fun i j R _ _ => to_lattice true (V3 2 1 1) Hs R i j) 1 ltac:(lia) true) as (d & Ed & Es).
  pose proof wigner_two as W. rewrite Ed in W.
  destruct (map_three _ _ _ _ _ W) as (x0 & x1 & x2 & -> & X0 & X1 & X2). clear W.
  apply pair_equal_spec in X0, X1, X2. destruct X0 as [F0 N0], X1 as [F1 N1], X2 as [F2 N2].
  set (m := {| ElModel.size := 1; hop := map (fun x => (fst x, short_const Cdivn true (V3 2 1 1) 1 1 (fun i j R _ _ => to_lattice true (V3 2 1 1) Hs R i j) (fst x) (fun i j => fst (snd x i j)))) [x0; x1; x2];
    flatR := false; cells := []; Nsc := None; divide_ndegen := true; rydberg := true |} : @el C).
  exists 0%R, (standardize (fun x => x) (Some (below (/ 10000000000) m)) false m), (V3 2 0 0).
  split; [reflexivity|]. split; [|split; [unfold on_mesh; cbn; lia|split; [repeat split; [exists 1%Z|exists 0%Z|exists 0%Z]; reflexivity|]]].
  - unfold electrons. cbn [vx vy vz]. change (1 <? 2)%Z with true. change (2 =? 0)%Z with false. change (1 =? 0)%Z with false. cbn [orb andb].
    cbn [bind]. change (slice_length 3 2) with 2%Z. change (slice_length 1 1) with 1%Z.
    unfold k2r. cbn [pad_mesh bind]. cbv zeta. cbn [divide_ndegen set_rydberg chain_el norb chain rydberg cells Nsc].
    change (short_range_model _ _ _ _ _ _ _ _ _ _ _) with (short_range_model Cdivn true (V3 2 1 1) 1 2 1 1 chain_len (1 # 10000000) (fun i j R _ _ => to_lattice true (V3 2 1 1) Hs R i j) 1).
    rewrite Es. cbn [bind Bool.eqb]. reflexivity.
  - assert (E0 : Hs (V3 0 0 0) 0 0 = RtoC 0) by exact (chain_energy u0 mu0 0 ltac:(lia)).
    assert (E1 : Hs (V3 1 0 0) 0 0 = RtoC 1) by exact (chain_energy u0 mu0 2 ltac:(lia)).
    assert (TL : forall z : Z, to_lattice true (V3 2 1 1) Hs (V3 z 0 0) 0 0 = nmul (RtoC (/ 2)) (phase (K3 PI 0 0) (V3 (- z) 0 0))).
    { intros z. rewrite to_lattice_phase by (cbn; lia). change (ws_mesh (V3 2 1 1)) with [V3 0 0 0; V3 1 0 0]. cbn [nsum]. rewrite E0, E1.
      replace (mesh_point (V3 2 1 1) (V3 1 0 0)) with (K3 PI 0 0) by (unfold mesh_point; cbn [vx vy vz]; f_equal; field).
      replace (vscale (-1) (V3 z 0 0)) with (V3 (- z) 0 0) by (apply vec_ext; unfold vscale; cbn [vx vy vz]; lia).
      unfold meshN. cbn [vx vy vz]. unfold phase, expi, RtoC. cbn. f_equal; field. }
    assert (T0 : to_lattice true (V3 2 1 1) Hs (V3 0 0 0) 0 0 = RtoC (/ 2)).
    { rewrite TL. unfold phase, kdot, expi, RtoC. cbn [vx vy vz kx ky kz Z.opp]. replace (0 * PI + 0 * 0 + 0 * 0)%R with 0%R by ring. rewrite cos_0, sin_0. cbn. f_equal; ring. }
    assert (T1 : to_lattice true (V3 2 1 1) Hs (V3 1 0 0) 0 0 = RtoC (- / 2)).
    { rewrite TL. unfold phase, kdot, expi, RtoC. cbn [vx vy vz kx ky kz Z.opp]. replace (-1 * PI + 0 * 0 + 0 * 0)%R with (- PI)%R by ring. rewrite cos_neg, sin_neg, cos_PI, sin_PI. cbn. f_equal; ring. }
    clear TL E0 E1 Es Ed.
    assert (S0 : forall x, fst x = V3 0 0 0 -> fst (snd x 0 0) = 1 -> short_const Cdivn true (V3 2 1 1) 1 1 (fun i j R (_ _ : nat) => to_lattice true (V3 2 1 1) Hs R i j) (fst x) (fun i j => fst (snd x i j : nat * Q)) 0 0 = RtoC (/ 2)).
    { intros x Fx Nx. unfold short_const. change (0 / 1) with 0. change (0 mod 1) with 0. rewrite Fx, Nx. change (mesh_index (V3 2 1 1) 1 (V3 0 0 0)) with (V3 0 0 0). rewrite T0.
      cbn [Nat.eqb]. unfold Cdivn, RtoC. cbn. f_equal; field. }
    assert (S1 : forall x, fst x = V3 (-1) 0 0 \/ fst x = V3 1 0 0 -> fst (snd x 0 0) = 2 -> short_const Cdivn true (V3 2 1 1) 1 1 (fun i j R (_ _ : nat) => to_lattice true (V3 2 1 1) Hs R i j) (fst x) (fun i j => fst (snd x i j : nat * Q)) 0 0 = RtoC (- / 4)).
    { intros x Fx Nx. unfold short_const. change (0 / 1) with 0. change (0 mod 1) with 0. rewrite Nx.
      replace (mesh_index (V3 2 1 1) 1 (fst x)) with (V3 1 0 0) by (destruct Fx as [-> | ->]; reflexivity). rewrite T1.
      cbn [Nat.eqb]. unfold Cdivn, RtoC. cbn. f_equal; field. }
    assert (Em : ElModel.H (phase (mesh_point (V3 3 1 1) (V3 2 0 0))) m 0 0 = RtoC (3 / 4)).
    { unfold ElModel.H, m. cbn [hop map nsum fst snd]. rewrite S0, !S1 by auto. rewrite F0, F1, F2.
      replace (mesh_point (V3 3 1 1) (V3 2 0 0)) with (K3 (PI / 3 + PI) 0 0) by (unfold mesh_point; cbn [vx vy vz]; f_equal; field).
      unfold phase, kdot. cbn [vx vy vz kx ky kz]. replace (0 * (PI / 3 + PI) + 0 * 0 + 0 * 0)%R with 0%R by ring.
      replace (-1 * (PI / 3 + PI) + 0 * 0 + 0 * 0)%R with (- (PI / 3 + PI))%R by ring. replace (1 * (PI / 3 + PI) + 0 * 0 + 0 * 0)%R with (PI / 3 + PI)%R by ring.
      unfold expi. rewrite cos_0, sin_0, cos_neg, sin_neg, neg_cos, neg_sin, cos_PI3. unfold RtoC. cbn. f_equal; field. }
    pose proof (chop_bound (phase (mesh_point (V3 3 1 1) (V3 2 0 0))) (/ 10000000000) m 1 0 0 (phase_unit _) ltac:(lra) ltac:(lra)) as B.
    specialize (B ltac:(idtac; intros x a b Hx Ha Hb; cbn [ElModel.size m] in Ha, Hb; assert (a = 0) by lia; assert (b = 0) by lia; subst a b;
      cbn [hop m map] in Hx; destruct Hx as [<-|[<-|[<-|[]]]]; cbn [snd]; [rewrite S0 by auto|rewrite S1 by auto|rewrite S1 by auto]; change RtoC with Complex.RtoC;
      rewrite Complex.Cmod_R; unfold Rabs; destruct (Rcase_abs _); lra) ltac:(cbn; lia) ltac:(cbn; lia)).
    rewrite Em in B. match type of B with (Complex.Cmod (Complex.Cminus ?y _) <= _)%R => set (z := y) in * end. cbn [hop m map length INR] in B.
    assert (X : distorted chain u0 0 (flat (V3 3 1 1) (V3 2 0 0)) 0 0 = RtoC 1).
    { unfold distorted. change (flat (V3 3 1 1) (V3 2 0 0)) with 2. cbn [Nat.eqb chain H0 d0 nat_ Cx.csum Nat.mul Nat.add].
      unfold chain_H0, Complex.Cminus, Complex.Cplus, Complex.Copp, Complex.Cmult, Complex.RtoC, RtoC. cbn. f_equal; ring. }
    rewrite X. pose proof (Complex.Cmod_triangle (Complex.Cminus z (RtoC 1)) (Complex.Cminus (RtoC (3 / 4)) z)) as Tr.
    replace (Complex.Cplus _ _) with (Complex.RtoC (- / 4)) in Tr by (destruct z; unfold Complex.Cminus, Complex.Cplus, Complex.Copp, Complex.RtoC, RtoC; cbn; f_equal; field).
    rewrite Complex.Cmod_R, Rabs_left in Tr by lra.
    replace (Complex.Cminus (RtoC (3 / 4)) z) with (Complex.Copp (Complex.Cminus z (RtoC (3 / 4)))) in Tr by (destruct z; unfold Complex.Cminus, Complex.Cplus, Complex.Copp, Complex.RtoC, RtoC; cbn; f_equal; ring).
    rewrite Complex.Cmod_opp in Tr. change (INR 3) with (1 + 1 + 1)%R in B. lra.
Qed.
Print Assumptions C107_electrons_refuted.

(** A mesh of four k points, every second of which is used. *)
Definition chain4 : driver := mk_driver 1 1 4 1 (mk_smearing (fun _ => 0%R) (fun _ => 0%R) (fun _ => 0%R)) 0 chain_H0
  (fun x _ _ _ => Complex.RtoC (INR x)) (fun _ _ => Complex.RtoC 0) (fun _ => 0%R).

Example C107_electrons_example : exists m1 (all : @el C),
  electrons chain4 (solve ex_eigh no_fermi chain4 (fun _ => / 2)%R None) (V3 4 1 1) false chain_el false [] chain_len (V3 2 1 1) false 2 = Ok m1 /\
  ElModel.H (phase (mesh_point (V3 4 1 1) (V3 2 0 0))) all 0 0 = RtoC (Ry * (5 / 2)) /\
  forall T, (0 <= T)%R -> (forall x i j, In x (hop all) -> i < 1 -> j < 1 -> (Complex.Cmod (snd x i j) <= T)%R) ->
    (Complex.Cmod (Complex.Cminus (ElModel.H (phase (mesh_point (V3 4 1 1) (V3 2 0 0))) m1 0 0) (RtoC (Ry * (5 / 2)))) <= / 10000000000 * T * INR (length (hop all)))%R.
Proof.
  assert (P : physical chain4).
  { constructor; try (cbn; lia); try (cbn; lra).
    - intros k _ i j _ _. unfold chain4, chain_H0, Cx.conj, Complex.RtoC. cbn. f_equal. ring.
    - intros x k _ _ i j _ _. unfold chain4, Cx.conj, Complex.RtoC. cbn. f_equal. ring.
    - intros x y _ _. reflexivity. }
  destruct (C107_electrons_partial ex_eigh no_fermi chain4 (fun _ => / 2)%R None (V3 4 1 1) false chain_el false [] chain_len (V3 2 1 1) false 2 P ex_eigh_ok
    ltac:(unfold nonempty; cbn; lia) eq_refl ltac:(discriminate) eq_refl ltac:(discriminate) ltac:(lia) ltac:(unfold nonempty; cbn; lia)
    ltac:(right; repeat split; [exists 2%Z|exists 1%Z|exists 1%Z]; reflexivity)) as (w & m1 & all & E1 & E2 & _ & _ & G).
  unfold solve, no_fermi in E1. cbn [mu] in E1. injection E1 as <-.
  destruct (G (V3 2 0 0) 0 0) as (G1 & G2); [unfold on_mesh; cbn; lia|repeat split; [exists 1%Z|exists 0%Z|exists 0%Z]; reflexivity|cbn; lia|cbn; lia|].
  assert (X : Complex.Cmult (Complex.RtoC Ry) (distorted chain4 (fun _ => / 2)%R 0 (flat (V3 4 1 1) (V3 2 0 0)) 0 0) = RtoC (Ry * (5 / 2))).
  { unfold distorted. change (flat (V3 4 1 1) (V3 2 0 0)) with 2. cbn [Nat.eqb chain4 H0 d0 nat_ Cx.csum Nat.mul Nat.add].
    unfold chain_H0, Complex.Cminus, Complex.Cplus, Complex.Copp, Complex.Cmult, Complex.RtoC, RtoC. cbn. f_equal; field. }
  cbn iota in G1, G2. rewrite X in G1, G2. exists m1, all. split; [exact E2|]. split; [exact G1|exact G2].
Qed.

(** The mass-spring model is set up for the displaced atoms. On the q mesh it yields
    the matrix of second derivatives, divided by masses if requested, plus the
    long-range terms of the model given to the driver, if any. For models without
    long-range terms, this is what one expects... *)
Theorem C107_phonons_partial : forall s r u nq hess dm nproc, nonempty nq -> 0 < atoms s -> 0 < nproc -> (forall na, (0 < mass s na)%R) ->
  (forall n n' a b, on_mesh nq n -> on_mesh nq n' -> same_cell nq (vopp n) n' -> a < atoms s * 3 -> b < atoms s * 3 -> hess n' a b = nconj (hess n a b)) ->
  exists s' r', phonons s r u nq hess dm false nproc = Ok (s', r') /\ divided s' = dm /\ (forall x, r' x = (r x + u x)%R) /\
  forall n a b, on_mesh nq n -> a < atoms s * 3 -> b < atoms s * 3 ->
    D s' (mesh_point nq n) a b = nadd (nmul (RtoC (if dm then / sqrt (mass s (a / 3) * mass s (b / 3)) else 1)) (hess n a b)) (long_range (polar_ s) (mesh_point nq n) a b).
Proof.
  intros s r u nq hess dm nproc Hq Ha Hp HM HT.
  destruct (ph_q2r_reproduces [vx nq; vy nq; vz nq] nq (atoms s) (mass s) hess false dm (PhUpdModel.len s) nproc) as (d & E & G);
    [destruct nq; reflexivity|exact Hq|exact Ha|exact Hp|exact HM| |].
  { intros k a b Hk Ha' Hb'. apply HT; try assumption; [apply WSProofs.mesh_index_on; exact Hq|].
    pose proof (WSProofs.mesh_index_same nq (-1) Hq k) as S1. replace (vopp k) with (vscale (-1) k) by (apply vec_ext; unfold vopp, vscale; cbn [vx vy vz]; lia). exact S1. }
  unfold phonons. rewrite E. cbn [bind]. do 2 eexists. split; [reflexivity|]. cbn [divided]. split; [reflexivity|]. split; [reflexivity|].
  intros n a b Hn Ha' Hb'. unfold D. cbn [data polar_]. rewrite G by assumption.
  replace (mass_factor dm (mass s) a b * / mass_factor false (mass s) a b)%R with (if dm then / sqrt (mass s (a / 3) * mass s (b / 3)) else 1)%R.
  - destruct (polar_ s); [reflexivity|]. cbn [long_range]. generalize (nmul (RtoC (if dm then / sqrt (mass s (a / 3) * mass s (b / 3)) else 1)) (hess n a b)). intros z. destruct z as [z1 z2]. cbn. f_equal; ring.
  - unfold mass_factor. destruct dm; [|field]. rewrite Rinv_1, Rmult_1_r. rewrite sqrt_mult by (apply Rlt_le, HM).
    pose proof (sqrt_lt_R0 _ (HM (a / 3))). pose proof (sqrt_lt_R0 _ (HM (b / 3))). field. lra.
Qed.
Print Assumptions C107_phonons_partial.

(** ... but with long-range terms they are contained in the matrix of second
    derivatives and then added again: the atom of C101 on a spring. *)
Definition polar_atom : ph := Ph 1 (fun _ => 1%R) false [3]%Z (fun _ _ _ => 1%Q) [(vzero, fun a b => if a =? b then n1 else n0)] (Some cubic) None.
Definition spring : matrices := fun _ a b => if a =? b then n1 else n0.

Theorem C107_phonons_refuted : exists s nq hess, nonempty nq /\ 0 < atoms s /\ (forall na, (0 < mass s na)%R) /\
  (forall n n' a b, on_mesh nq n -> on_mesh nq n' -> same_cell nq (vopp n) n' -> a < atoms s * 3 -> b < atoms s * 3 -> hess n' a b = nconj (hess n a b)) /\
  forall r u nproc, 0 < nproc -> exists s' r' n a b, phonons s r u nq hess false false nproc = Ok (s', r') /\
    on_mesh nq n /\ a < atoms s * 3 /\ b < atoms s * 3 /\ D s' (mesh_point nq n) a b <> hess n a b.
Proof.
  exists polar_atom, (V3 3 1 1), spring. split; [unfold nonempty; cbn; lia|]. split; [cbn; lia|]. split; [intros; cbn; lra|].
  assert (HT : forall n n' a b, on_mesh (V3 3 1 1) n -> on_mesh (V3 3 1 1) n' -> same_cell (V3 3 1 1) (vopp n) n' -> a < atoms polar_atom * 3 -> b < atoms polar_atom * 3 -> spring n' a b = nconj (spring n a b)).
  { intros n n' a b _ _ _ _ _. unfold spring. destruct (a =? b); cbn; f_equal; ring. }
  split; [exact HT|]. intros r u nproc Hp.
  destruct (C107_phonons_partial polar_atom r u (V3 3 1 1) spring false nproc ltac:(unfold nonempty; cbn; lia) ltac:(cbn; lia) Hp ltac:(intros; cbn; lra) HT) as (s' & r' & E & _ & _ & G).
  exists s', r', (V3 1 0 0), 0, 0. split; [exact E|]. assert (Hn : on_mesh (V3 3 1 1) (V3 1 0 0)) by (unfold on_mesh; cbn; lia). split; [exact Hn|]. split; [cbn; lia|]. split; [cbn; lia|].
  rewrite (G _ 0 0 Hn ltac:(cbn; lia) ltac:(cbn; lia)). cbn [polar_ polar_atom].
  replace (mesh_point (V3 3 1 1) (V3 1 0 0)) with (K3 (2 * PI / 3) 0 0) by (unfold mesh_point; cbn [vx vy vz]; f_equal; field).
  pose proof PI_RGT_0 as HPI. assert (P2 : (1 <= PI ^ 2)%R) by (pose proof PI2_1 as P; unfold PI2 in P; nra).
  rewrite cubic_xx by nra. intros X. apply (f_equal fst) in X. unfold spring in X. cbn in X.
  match type of X with context [exp ?z] => pose proof (exp_pos z) as HE; set (w := exp z) in * end. nra.
Qed.
Print Assumptions C107_phonons_refuted.

(** Two q points, different masses *)
Definition molecule : matrices := fun n a b => if a =? b then RtoC (2 + IZR (vx n)) else if (a + b =? 3) then RtoC (-1) else n0.

Example C107_phonons_example : exists s' r',
  phonons (Ph 2 (fun na => INR (1 + na)) false [1]%Z (fun v i j => inject_Z (Z.abs (vx v))) [] None None) (fun x => INR x) (fun _ => / 2)%R (V3 2 1 1)
    molecule true false 3 = Ok (s', r') /\
  r' 1 = (3 / 2)%R /\ D s' (K3 PI 0 0) 3 3 = RtoC (3 / 2).
Proof.
  set (s := Ph _ _ _ _ _ _ _ _).
  destruct (C107_phonons_partial s (fun x => INR x) (fun _ => / 2)%R (V3 2 1 1) molecule true 3 ltac:(unfold nonempty; cbn; lia) ltac:(cbn; lia) ltac:(lia)) as (s' & r' & E & _ & Er & G).
  - intros na. cbn [mass s]. apply lt_0_INR. lia.
  - intros n n' a b N1 N2 E _ _. assert (vx n = vx n') as Ex.
    { destruct N1 as (A1 & _), N2 as (A2 & _), E as (E & _). cbn [vx vopp] in *. destruct E as (z & E). lia. }
    unfold molecule. rewrite Ex. destruct (a =? b); [|destruct (a + b =? 3)]; unfold RtoC; cbn; apply f_equal2; ring.
  - exists s', r'. split; [exact E|]. split; [rewrite Er; cbn; lra|].
    specialize (G (V3 1 0 0) 3 3 ltac:(unfold on_mesh; cbn; lia) ltac:(cbn; lia) ltac:(cbn; lia)).
    replace (mesh_point (V3 2 1 1) (V3 1 0 0)) with (K3 PI 0 0) in G by (unfold mesh_point; cbn [vx vy vz]; f_equal; field). rewrite G.
    unfold molecule. cbn [Nat.eqb vx polar_ s long_range mass]. change (3 / 3) with 1. replace (INR (1 + 1) * INR (1 + 1))%R with (Rsqr 2) by (cbn; unfold Rsqr; ring).
    rewrite sqrt_Rsqr by lra. unfold RtoC. cbn. f_equal; field.
Qed.
