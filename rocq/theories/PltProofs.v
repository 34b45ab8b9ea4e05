From Coq Require Import QArith Lqa.
From Verif Require Import Common MPIModel MPIProofs StackModel StackSpec LinModel LinSpec LinProofs PltModel PltSpec.
From Verif Require Text TextProofs.
Local Open Scope Q_scope.

(** ** Loops over processes *)
Lemma parts_cons {B} (f : nat -> B) lo hi r : parts f (lo :: hi :: r) = map f (seq (Z.to_nat lo) (Z.to_nat (hi - lo))) :: parts f (hi :: r).
Proof. reflexivity. Qed.
Lemma parts_gather {B} (f : nat -> B) : forall sizes c, (0 <= c)%Z -> Forall (fun s => (0 <= s)%Z) sizes ->
  Gatherv (map Z.to_nat sizes) (parts f (cumsum_from c sizes)) = Ok (map f (seq (Z.to_nat c) (Z.to_nat (sumZ sizes)))).
Proof.
  induction sizes as [|s sizes IH]; intros c Hc H.
  - reflexivity.
  - apply Forall_cons_iff in H as [Hs H].
    assert (E : exists r, cumsum_from (c + s) sizes = (c + s)%Z :: r) by (destruct sizes; eexists; reflexivity).
    destruct E as [r E]. cbn [cumsum_from map]. rewrite E, parts_cons. rewrite <- E.
    cbn [Gatherv]. rewrite map_length, seq_length. replace (c + s - c)%Z with s by lia. rewrite Nat.eqb_refl.
    rewrite IH by (lia || assumption). cbn [bind]. f_equal.
    assert (0 <= sumZ sizes)%Z. { clear -H. induction H; cbn; lia. }
    change (sumZ (s :: sizes)) with (s + sumZ sizes)%Z. rewrite (Z2Nat.inj_add s) by lia. rewrite seq_app, map_app.
    rewrite (Z2Nat.inj_add c) by lia. reflexivity.
Qed.
Lemma parallel_ok {B} (f : nat -> B) nproc n : (0 < nproc)%Z -> parallel f nproc n = Ok (map f (seq 0 n)).
Proof.
  intros H. unfold parallel.
  destruct (distribute_spec (Z.of_nat n) nproc) as (sizes & bounds & E & _ & S & G & _); [lia|exact H|].
  rewrite E. cbn [bind]. unfold distribute in E. destruct (distribute_sizes (Z.of_nat n) nproc) as [s|]; [|discriminate].
  cbn [bind] in E. injection E as -> <-. rewrite parts_gather; [rewrite S, Nat2Z.id; reflexivity|lia|].
  apply Forall_forall. intros x Hx. destruct (In_nth_error _ _ Hx) as [i Hi]. destruct (G i i x x Hi Hi (le_n _)). lia.
Qed.

(** ** Rounding *)
Lemma round_q_nearest x n : nearest x n -> round_q x = n.
Proof.
  unfold nearest, round_q. destruct x as [p q]. cbn [Qnum Qden]. intros [H1 H2].
  assert (A1 : ((2 * n - 1) * Zpos q < 2 * p)%Z) by (unfold Qlt, Qminus, Qplus, Qopp in H1; cbn in H1; lia).
  assert (A2 : (2 * p < (2 * n + 1) * Zpos q)%Z) by (unfold Qlt, Qplus in H2; cbn in H2; lia).
  pose proof (TextProofs.round_div_near p (Zpos q) ltac:(lia)) as R. set (k := Text.round_div p (Z.pos q)) in *.
  assert (2 * k * Z.pos q <= 2 * p + Z.pos q)%Z by lia. assert (2 * p - Z.pos q <= 2 * k * Z.pos q)%Z by lia.
  assert (k < n + 1)%Z by nia. assert (n - 1 < k)%Z by nia. lia.
Qed.
Lemma nearest_int x n : x == inject_Z n -> nearest x n.
Proof. intros E. unfold nearest. rewrite E. split; lra. Qed.
Lemma size_of_nat n : size_of (Z.of_nat n) = Ok n.
Proof. unfold size_of. destruct (Z.ltb_spec (Z.of_nat n) 0); [lia|]. rewrite Nat2Z.id. reflexivity. Qed.

Lemma inj_0 n : (0 < n)%nat -> ~ inj n == 0.
Proof. intros H E. unfold inj, Qeq in E. cbn in E. lia. Qed.
Lemma inj_add n m : inj (n + m) == inj n + inj m.
Proof. unfold inj. rewrite Nat2Z.inj_add, inject_Z_plus. reflexivity. Qed.

(** ** plot *)
Lemma centre_up a b n j : (0 < n)%nat -> a + inj j * ((b - a) / inj n) + (b - a) / inj n / 2 == centre a b n j.
Proof.
  intros H. unfold centre. rewrite inject_Z_plus, !inject_Z_mult. fold (inj j) (inj n). pose proof (inj_0 n H).
  change (inject_Z 2) with 2. change (inject_Z 1) with 1. field. assumption.
Qed.
Lemma centre_down a b n i : (i < n)%nat -> a + inj (n - 1 - i) * ((b - a) / inj n) + (b - a) / inj n / 2 == centre b a n i.
Proof.
  intros H. rewrite centre_up by lia. unfold centre. replace (2 * Z.of_nat (n - 1 - i) + 1)%Z with (2 * Z.of_nat n - (2 * Z.of_nat i + 1))%Z by lia.
  unfold Z.sub. rewrite inject_Z_plus, inject_Z_opp, !inject_Z_mult. fold (inj n). pose proof (inj_0 n ltac:(lia)). field. assumption.
Qed.

Lemma collect_map {A B} (g : A -> B) (f : A -> res B) l : (forall x, In x l -> f x = Ok (g x)) ->
  collect (fun x => x) (map f l) = Ok (map g l).
Proof.
  induction l as [|x l IH]; intros H; cbn [map collect]; [reflexivity|].
  rewrite (H x (or_introl eq_refl)). cbn [bind]. rewrite IH by (intros; apply H; right; assumption). reflexivity.
Qed.

Lemma plot_ok argsort nproc mesh kxmin kxmax kymin kymax resolution angle a1 a2 nkx nky :
  (0 < nproc)%Z -> lattice_angle angle -> rectangular mesh ->
  nearest (resolution * (kxmax - kxmin)) (Z.of_nat nkx) -> nearest (resolution * (kymax - kymin)) (Z.of_nat nky) ->
  exists image, plot argsort nproc mesh kxmin kxmax kymin kymax resolution angle a1 a2 = Ok (nky, nkx, image) /\
    length image = (nky * nkx)%nat /\
    forall i j, (i < nky)%nat -> (j < nkx)%nat ->
      let k := (centre kxmin kxmax nkx j, centre kymax kymin nky i) in
      nth (i * nkx + j) image 0 == cell angle (value2 mesh) (dot k a1 * inject_Z (shape1 mesh)) (dot k a2 * inject_Z (shape1 mesh)).
Proof.
  intros Hp Ha Hm Hx Hy. unfold plot. rewrite (round_q_nearest _ _ Hx), (round_q_nearest _ _ Hy), !size_of_nat. cbn [bind].
  rewrite parallel_ok by exact Hp. cbn [bind].
  match goal with |- context [map ?f _] => set (F := f) end.
  assert (EF : forall m, F m = Ok (match F m with Ok y => y | _ => 0 end)) by (intros m; unfold F; rewrite interpolant2_ok by (exact I || assumption); reflexivity).
  rewrite (collect_map (fun m => match F m with Ok y => y | _ => 0 end) F) by (intros m _; apply EF). cbn [bind].
  eexists. split; [reflexivity|]. rewrite map_length, seq_length. split; [reflexivity|]. intros i j Hi Hj. cbv zeta.
  assert (Hn : (i * nkx + j < nky * nkx)%nat) by nia.
  erewrite (nth_indep _ 0), map_nth; [|rewrite map_length, seq_length; exact Hn]. rewrite seq_nth by exact Hn. cbn [Nat.add].
  unfold F. rewrite interpolant2_ok by (exact I || assumption).
  replace ((i * nkx + j) / nkx)%nat with i by (rewrite Nat.div_add_l, Nat.div_small by lia; lia).
  replace ((i * nkx + j) mod nkx)%nat with j by (rewrite Nat.add_comm, Nat.mod_add, Nat.mod_small by lia; reflexivity).
  apply cell_comp; unfold dot; cbn [fst snd]; rewrite (centre_up kxmin kxmax nkx j), (centre_down kymin kymax nky i) by lia; ring.
  Unshelve. exact 0%nat.
Qed.

Lemma cell_int angle data i j : lattice_angle angle -> rectangular data -> cell angle (value2 data) (inject_Z i) (inject_Z j) == value2 data i j.
Proof.
  intros Ha H. destruct (interpolant2_int (fun _ => []) angle None data i j Ha H I) as (y & E & Ey).
  rewrite interpolant2_ok in E by (exact I || assumption). injection E as ->. exact Ey.
Qed.
Lemma cell_periodic angle data n m z w : lattice_angle angle -> rectangular data ->
  cell angle (value2 data) (n + inject_Z (z * shape0 data)) (m + inject_Z (w * shape1 data)) == cell angle (value2 data) n m.
Proof.
  intros Ha H. destruct (interpolant2_periodic (fun _ => []) angle None data n m z w Ha H I) as (y & y' & E & E' & Ey).
  rewrite interpolant2_ok in E, E' by (exact I || assumption). injection E as <-. injection E' as <-. symmetry. exact Ey.
Qed.

(** ** rectify *)
Lemma rectify_ok argsort image width height lt rt lb rb angle period nx ny : lattice_angle angle -> rectangular image -> no_period period ->
  nearest (inject_Z (shape1 image) * width) (Z.of_nat nx) -> nearest (inject_Z (shape0 image) * height) (Z.of_nat ny) ->
  exists view, rectify argsort image width height lt rt lb rb angle period = Ok view /\ length view = ny /\
    Forall (fun row => length row = nx) view /\
    forall iy ix, (iy < ny)%nat -> (ix < nx)%nat ->
      let v := inject_Z (Z.of_nat iy) / inject_Z (Z.of_nat ny) in
      let u := inject_Z (Z.of_nat ix) / inject_Z (Z.of_nat nx) in
      nth ix (nth iy view []) 0 == cell angle (value2 image)
        (inject_Z (shape0 image) * (1 - inside_quadrangle (snd lt) (snd rt) (snd lb) (snd rb) u v))
        (inject_Z (shape1 image) * inside_quadrangle (fst lt) (fst rt) (fst lb) (fst rb) u v).
Proof.
  intros Ha Hi Hp Hx Hy. unfold rectify. rewrite (round_q_nearest _ _ Hx), (round_q_nearest _ _ Hy), !size_of_nat. cbn [bind].
  match goal with |- context [collect ?f (seq 0 ny)] => destruct (collect_ok f (fun iy row => length row = nx /\ forall ix, (ix < nx)%nat ->
      let v := inj iy / inj ny in let u := inj ix / inj nx in
      nth ix row 0 == cell angle (value2 image)
        (inject_Z (shape0 image) * (1 - inside_quadrangle (snd lt) (snd rt) (snd lb) (snd rb) u v))
        (inject_Z (shape1 image) * inside_quadrangle (fst lt) (fst rt) (fst lb) (fst rb) u v)) (seq 0 ny)) as (view & E & G) end.
  { intros iy Hiy. apply in_seq in Hiy. cbv zeta.
    match goal with |- context [collect ?f (seq 0 nx)] => destruct (collect_ok f (fun ix y => 
      let v := inj iy / inj ny in let u := inj ix / inj nx in
      y == cell angle (value2 image)
        (inject_Z (shape0 image) * (1 - inside_quadrangle (snd lt) (snd rt) (snd lb) (snd rb) u v))
        (inject_Z (shape1 image) * inside_quadrangle (fst lt) (fst rt) (fst lb) (fst rb) u v)) (seq 0 nx)) as (row & E & G) end.
    { intros ix Hix. apply in_seq in Hix. eexists. split; [apply interpolant2_ok; assumption|].
      cbn [fst snd]. pose proof (inj_0 nx ltac:(lia)). pose proof (inj_0 ny ltac:(lia)).
      apply cell_comp; unfold inside_quadrangle; field; split; assumption. }
    rewrite E. exists row. split; [reflexivity|]. destruct (Forall2_seq_nth _ 0 _ _ _ G) as [L N]. split; [exact L|exact N]. }
  rewrite E. exists view. split; [reflexivity|]. destruct (Forall2_seq_nth _ [] _ _ _ G) as [L N]. split; [exact L|]. split.
  - apply Forall_forall. intros row Hr. destruct (In_nth _ _ [] Hr) as (i & Hi' & <-). rewrite L in Hi'. exact (proj1 (N i Hi')).
  - intros iy ix Hiy Hix. exact (proj2 (N iy Hiy) ix Hix).
Qed.
