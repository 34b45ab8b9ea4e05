(** Proofs about tiling and resampling of images. *)
From Coq Require Import Qabs Lia Lqa.
From Verif Require Import Common CommonProofs Text TextProofs StackModel StackSpec StackProofs LinModel LinSpec LinProofs PixModel PixSpec.
From Coq Require Import QArith Qround.
Local Open Scope Q_scope.

(** ** Interpolation *)
Lemma on_line_comp f t t' v v' : t == t' -> v == v' -> on_line f t v -> on_line f t' v'.
Proof. intros Et Ev (c & r & H & E & V). exists c, r. split; [exact H|]. rewrite <- Et, <- Ev. auto. Qed.
Lemma on_grid_comp f s t t' v : t == t' -> on_grid f s t v -> on_grid f s t' v.
Proof.
  intros Et (c & r & v0 & v1 & H & E & V0 & V1 & V). exists c, r, v0, v1. split; [exact H|]. split; [exact E|]. split; [apply (on_line_comp _ t _ v0); [exact Et|reflexivity|exact V0]|]. split; [apply (on_line_comp _ t _ v1); [exact Et|reflexivity|exact V1]|exact V].
Qed.
Lemma on_line_shift f p t v : on_line (fun c => f (p + c)%nat) t v -> on_line f (inject_Z (Z.of_nat p) + t) v.
Proof.
  intros (c & r & H & E & V). exists (p + c)%nat, r. split; [exact H|]. split; [rewrite E, Nat2Z.inj_add, inject_Z_plus; ring|]. rewrite <- Nat.add_assoc. exact V.
Qed.
Lemma on_grid_shift f p s t v : on_grid (fun r c => f r (p + c)%nat) s t v -> on_grid f s (inject_Z (Z.of_nat p) + t) v.
Proof.
  intros (c & r & v0 & v1 & H & E & V0 & V1 & V). exists c, r, v0, v1. split; [exact H|]. split; [exact E|]. split; [apply on_line_shift, V0|]. split; [apply on_line_shift, V1|exact V].
Qed.

Lemma floor_split s N : 0 <= s <= inject_Z (Z.of_nat N) -> exists c : nat, Qfloor s = Z.of_nat c /\ 0 <= s - inject_Z (Z.of_nat c) < 1 /\ (c <= N)%nat /\ (c = N -> s - inject_Z (Z.of_nat c) == 0).
Proof.
  intros [L U]. pose proof (frac_bound s) as F. assert (0 <= Qfloor s)%Z by (change 0%Z with (Qfloor 0); apply Qfloor_resp_le, L).
  assert (Qfloor s <= Z.of_nat N)%Z by (rewrite <- (floor_int (Z.of_nat N)); apply Qfloor_resp_le, U).
  exists (Z.to_nat (Qfloor s)). rewrite Z2Nat.id by assumption. split; [reflexivity|]. split; [exact F|]. split; [lia|]. intros E. assert (E' : Qfloor s = Z.of_nat N) by lia. rewrite E' in *. lra.
Qed.

Lemma cell_grid (P : Z -> Z -> Q) (g : nat -> nat -> Q) N W s t : (forall r c, (r <= N)%nat -> (c <= W)%nat -> P (Z.of_nat r) (Z.of_nat c) == g r c) ->
  0 <= s <= inject_Z (Z.of_nat N) -> 0 <= t <= inject_Z (Z.of_nat W) -> on_grid g s t (cell 90 P s t).
Proof.
  intros H Hs Ht. destruct (floor_split s N Hs) as (r & Er & Br & Lr & Zr). destruct (floor_split t W Ht) as (c & Ec & Bc & Lc & Zc).
  unfold cell, tri. cbn [Z.eqb Pos.eqb]. change (90 =? 60)%Z with false. change (90 =? 90)%Z with true. rewrite Er, Ec.
  set (a := s - inject_Z (Z.of_nat r)) in *. set (b := t - inject_Z (Z.of_nat c)) in *.
  exists r, a, ((1 - b) * g r c + b * g r (c + 1)%nat), ((1 - b) * g (r + 1)%nat c + b * g (r + 1)%nat (c + 1)%nat). split; [exact Br|]. split; [unfold a; ring|].
  split; [exists c, b; split; [exact Bc|]; split; [unfold b; ring|reflexivity]|]. split; [exists c, b; split; [exact Bc|]; split; [unfold b; ring|reflexivity]|].
  rewrite (H r c) by assumption. replace (Z.of_nat r + 1)%Z with (Z.of_nat (r + 1)) by lia. replace (Z.of_nat c + 1)%Z with (Z.of_nat (c + 1)) by lia.
  destruct (Nat.eq_dec r N) as [Hr|Hr]; destruct (Nat.eq_dec c W) as [Hc|Hc].
  - rewrite (Zr Hr), (Zc Hc). ring.
  - rewrite (Zr Hr), (H r (c + 1)%nat) by lia. ring.
  - rewrite (Zc Hc), (H (r + 1)%nat c) by lia. ring.
  - rewrite (H r (c + 1)%nat), (H (r + 1)%nat c), (H (r + 1)%nat (c + 1)%nat) by lia. ring.
Qed.

Lemma value2_in data r c : rectangular data -> (r < length data)%nat -> (c < length (hd [] data))%nat -> value2 data (Z.of_nat r) (Z.of_nat c) = at_ data r c.
Proof.
  intros H Hr Hc. unfold value2, value1, at_. pose proof (row_length data (Z.of_nat r) H) as E. unfold shape0 in E. rewrite (Z.mod_small (Z.of_nat r)) in * by lia. rewrite Nat2Z.id in *. rewrite E, Z.mod_small, Nat2Z.id by lia. reflexivity.
Qed.

(** ** Blocks of columns *)
Lemma nth_firstn_lt {A} (d : A) : forall k l x, (x < k)%nat -> nth x (firstn k l) d = nth x l d.
Proof. induction k as [|k IH]; intros l x H; [lia|]. destruct l as [|y l]; [reflexivity|]. destruct x; [reflexivity|]. cbn. apply IH. lia. Qed.
Lemma nth_skipn_add {A} (d : A) : forall p l x, nth x (skipn p l) d = nth (p + x) l d.
Proof. induction p as [|p IH]; intros l x; [reflexivity|]. destruct l as [|y l]; [destruct x; reflexivity|]. cbn. apply IH. Qed.
Lemma nth_part (p p' x : nat) (row : list Q) : (p <= p')%nat -> (x < p' + 1 - p)%nat -> nth x (firstn (p' + 1 - p) (skipn p row)) 0 = nth (p + x) row 0.
Proof. intros _ Hx. rewrite nth_firstn_lt by exact Hx. apply nth_skipn_add. Qed.

Lemma part_rectangular (image : list (list Q)) p p' : rectangular image -> (p < p')%nat -> (p' < length (hd [] image))%nat ->
  let part := map (fun row => firstn (p' + 1 - p) (skipn p row)) image in rectangular part /\ length part = length image /\ length (hd [] part) = (p' + 1 - p)%nat.
Proof.
  intros (N & N' & F) Hp Hp' part. destruct image as [|row image]; [contradiction|]. cbn [hd] in *.
  assert (L : forall r, In r (row :: image) -> length (firstn (p' + 1 - p) (skipn p r)) = (p' + 1 - p)%nat).
  { intros r I. rewrite Forall_forall in F. rewrite firstn_length, skipn_length, (F r I). lia. }
  unfold part. cbn [map hd]. split; [|split; [cbn [length]; rewrite map_length; reflexivity|apply L; left; reflexivity]].
  split; [discriminate|]. cbn [hd]. split; [intros E; pose proof (L row (or_introl eq_refl)) as E'; rewrite E in E'; cbn in E'; lia|].
  apply Forall_forall. intros r I. rewrite (L row (or_introl eq_refl)). change (In r (map (fun row => firstn (p' + 1 - p) (skipn p row)) (row :: image))) in I. apply in_map_iff in I as (r' & <- & I). apply L, I.
Qed.

Definition segment_ok (image : list (list Q)) (h : nat) (new : nat -> nat -> option Q) (p p' : nat) (q q' : Z) : Prop :=
  forall y x, (y < h)%nat -> (q <= Z.of_nat x <= q')%Z -> exists v, new y x = Some v /\
    on_grid (at_ image) (inject_Z (Z.of_nat y * (Z.of_nat (length image) - 1)) / inject_Z (Z.of_nat h - 1)) (along (Z.of_nat p) (Z.of_nat p') q q' (Z.of_nat x)) v.

Lemma on_grid_ext f g s t v : (forall r c, f r c == g r c) -> on_grid f s t v -> on_grid g s t v.
Proof.
  intros H (c & r & v0 & v1 & Hr & E & (c0 & r0 & H0 & E0 & V0) & (c1 & r1 & H1 & E1 & V1) & V). exists c, r, v0, v1. split; [exact Hr|]. split; [exact E|].
  split; [exists c0, r0; split; [exact H0|]; split; [exact E0|]; rewrite V0, !H; reflexivity|]. split; [exists c1, r1; split; [exact H1|]; split; [exact E1|]; rewrite V1, !H; reflexivity|exact V].
Qed.

Lemma resize_part argsort image h p p' w : rectangular image -> (1 < h)%nat -> (p < p')%nat -> (p' < length (hd [] image))%nat -> (1 < w)%nat ->
  exists block, resize2 argsort 90 None false (map (fun row => firstn (p' + 1 - p) (skipn p row)) image) h w = Ok block /\
    forall y x, (y < h)%nat -> (x < w)%nat -> on_grid (at_ image) (inject_Z (Z.of_nat y * (Z.of_nat (length image) - 1)) / inject_Z (Z.of_nat h - 1))
      (inject_Z (Z.of_nat p) + inject_Z (Z.of_nat x * Z.of_nat (p' - p)) / inject_Z (Z.of_nat w - 1)) (nth (y * w + x) block 0).
Proof.
  intros H Hh Hp Hp' Hw. destruct (part_rectangular image p p' H Hp Hp') as (HR & HL & HW). cbn zeta in *. set (part := map _ image) in *.
  assert (N : (0 < length image)%nat) by (destruct H as [H _]; destruct image; [contradiction|cbn; lia]).
  unfold resize2, resize_scale, shape0, shape1. rewrite HL, HW.
  destruct (Z.eqb_spec (Z.of_nat h) 1); [lia|]. destruct (Z.eqb_spec (Z.of_nat w) 1); [lia|]. cbn [bind].
  set (f := fun i : nat => interpolant2 _ _ _ _ _ _).
  destruct (collect_ok f (fun i y => f i = Ok y) (seq 0 (h * w))) as (ys & E & F).
  { intros i _. eexists. unfold f. rewrite interpolant2_ok by (try assumption; try (right; left; reflexivity); exact I). split; reflexivity. }
  exists ys. split; [exact E|]. destruct (Forall2_seq_nth _ 0 _ _ _ F) as [El F'].
  intros y x Hy Hx. assert (Hyx : (y * w + x < h * w)%nat) by nia. specialize (F' _ Hyx). cbn [Nat.add] in F'. unfold f in F'.
  rewrite Nat.div_add_l, (Nat.div_small x), Nat.add_0_r in F' by lia. rewrite (Nat.add_comm (y * w)), Nat.mod_add, Nat.mod_small in F' by lia. rewrite (Nat.add_comm x) in F'.
  rewrite interpolant2_ok in F' by (try assumption; try (right; left; reflexivity); exact I). apply (f_equal (get_ok 0)) in F'. cbn [get_ok] in F'. rewrite <- F'. clear F'.
  set (s := inject_Z (Z.of_nat y) * _). set (t := inject_Z (Z.of_nat x) * _).
  assert (Es : s == inject_Z (Z.of_nat y * (Z.of_nat (length image) - 1)) / inject_Z (Z.of_nat h - 1)) by (unfold s; rewrite inject_Z_mult; field; apply inj_nz; lia).
  assert (Et : t == inject_Z (Z.of_nat x * Z.of_nat (p' - p)) / inject_Z (Z.of_nat w - 1)).
  { unfold t. replace (Z.of_nat (p' + 1 - p) - 1)%Z with (Z.of_nat (p' - p)) by lia. rewrite inject_Z_mult. field. apply inj_nz. lia. }
  assert (Q : forall a b c : Z, (0 <= a <= b)%Z -> (0 <= c)%Z -> (0 < b)%Z -> 0 <= inject_Z (a * c) / inject_Z b <= inject_Z c).
  { intros a b c Hab Hc Hb. assert (Pb : 0 < inject_Z b) by (change 0 with (inject_Z 0); rewrite <- Zlt_Qlt; exact Hb). split.
    - apply Qle_shift_div_l; [exact Pb|]. rewrite Qmult_0_l. change 0 with (inject_Z 0). rewrite <- Zle_Qle. nia.
    - apply Qle_shift_div_r; [exact Pb|]. rewrite <- inject_Z_mult, <- Zle_Qle. nia. }
  apply (on_grid_comp _ _ (inject_Z (Z.of_nat p) + t)); [rewrite Et; reflexivity|]. apply on_grid_shift.
  destruct (cell_grid (value2 part) (fun r c => at_ image r (p + c)) (length image - 1) (p' - p) s t) as (c & r & v0 & v1 & Hr & Hs & V0 & V1 & V).
  - intros r c Hr Hc. rewrite value2_in by (try exact HR; lia). unfold at_, part.
    assert (EN : nth r (map (fun row => firstn (p' + 1 - p) (skipn p row)) image) [] = firstn (p' + 1 - p) (skipn p (nth r image []))).
    { rewrite (nth_indep _ [] (firstn (p' + 1 - p) (skipn p []))) by (rewrite map_length; lia). apply (map_nth (fun row => firstn (p' + 1 - p) (skipn p row))). }
    rewrite EN. rewrite nth_part by lia. reflexivity.
  - rewrite Es. replace (Z.of_nat (length image - 1)) with (Z.of_nat (length image) - 1)%Z by lia. apply Q; lia.
  - rewrite Et. apply Q; lia.
  - exists c, r, v0, v1. split; [exact Hr|]. split; [rewrite <- Es; exact Hs|]. split; [exact V0|]. split; [exact V1|exact V].
Qed.

Lemma increasing_le : forall l x y, increasing (x :: l) -> In y l -> (x < y)%Z.
Proof. induction l as [|z l IH]; intros x y H I; [destruct I|]. destruct H as [H H']. destruct I as [<-|I]; [exact H|]. pose proof (IH z y H' I). lia. Qed.

Lemma blocks_ok argsort image h width : rectangular image -> (1 < h)%nat -> forall points news new, length news = length points ->
  increasing (map Z.of_nat points) -> (forall p, In p points -> (p < length (hd [] image))%nat) -> increasing news -> (forall q, In q news -> (0 <= q < Z.of_nat width)%Z) ->
  exists new', blocks argsort image h width points news new = Ok new' /\
    (forall i p p' q q', nth_error points i = Some p -> nth_error points (S i) = Some p' -> nth_error news i = Some q -> nth_error news (S i) = Some q' -> segment_ok image h new' p p' q q') /\
    (forall y x, (Z.of_nat x < hd 0%Z news)%Z -> new' y x = new y x).
Proof.
  intros HI Hh. induction points as [|p [|p' points] IH]; intros news new L IP BP IN BN.
  - exists new. split; [reflexivity|]. split; [intros [|i] ? ? ? ? E; discriminate|reflexivity].
  - exists new. destruct news as [|q [|? ?]]; try discriminate. split; [reflexivity|]. split; [intros [|i] ? ? ? ? _ E; [discriminate E|destruct i; discriminate E]|reflexivity].
  - destruct news as [|q [|q' news]]; try discriminate. cbn [map] in IP. destruct IP as [P1 P2]. destruct IN as [N1 N2].
    assert (Bq : (0 <= q < Z.of_nat width)%Z) by (apply BN; left; reflexivity). assert (Bq' : (0 <= q' < Z.of_nat width)%Z) by (apply BN; right; left; reflexivity).
    assert (Bp' : (p' < length (hd [] image))%nat) by (apply BP; right; left; reflexivity).
    set (w := Z.to_nat (q' - q + 1)). destruct (resize_part argsort image h p p' w HI Hh ltac:(lia) Bp' ltac:(unfold w; lia)) as (block & EB & VB).
    set (new1 := fun y x => if ((y <? h)%nat && (Z.to_nat q <=? x)%nat && (x <? Z.to_nat q + w)%nat)%bool then Some (nth (y * w + (x - Z.to_nat q)) block 0) else new y x).
    destruct (IH (q' :: news) new1 ltac:(injection L as L; cbn [length]; lia) P2 (fun r Hr => BP r (or_intror Hr)) N2 (fun r Hr => BN r (or_intror Hr))) as (new' & E & S & O).
    exists new'. split; [|split].
    + cbn [blocks]. destruct (Z.ltb_spec (q' - q + 1) 0); [lia|]. destruct (Z.ltb_spec q 0); [lia|]. cbn [orb]. fold w. unfold w in EB at 1. fold w in EB. rewrite EB. cbn [bind]. unfold assign_block.
      destruct (Z.eqb_spec (Z.min (q' + 1) (Z.of_nat width) - q) (Z.of_nat w)); [|unfold w in *; lia]. cbn [bind]. exact E.
    + assert (First : segment_ok image h new1 p p' q q').
      { intros y x Hy Hx. exists (nth (y * w + (x - Z.to_nat q)) block 0). split.
        - unfold new1. destruct (Nat.ltb_spec y h); [|lia]. destruct (Nat.leb_spec (Z.to_nat q) x); [|lia]. destruct (Nat.ltb_spec x (Z.to_nat q + w)); [reflexivity|unfold w in *; lia].
        - apply (on_grid_comp _ _ _ _ _) with (2 := VB y (x - Z.to_nat q)%nat Hy ltac:(unfold w; lia)). unfold along.
          replace (Z.of_nat (x - Z.to_nat q)) with (Z.of_nat x - q)%Z by lia. replace (Z.of_nat (p' - p)) with (Z.of_nat p' - Z.of_nat p)%Z by lia. replace (Z.of_nat w - 1)%Z with (q' - q)%Z by (unfold w; lia).
          rewrite inject_Z_mult. reflexivity. }
      intros [|i] a a' b b' Ea Ea' Eb Eb'.
      * cbn [nth_error] in *. injection Ea as <-. injection Ea' as <-. injection Eb as <-. injection Eb' as <-. intros y x Hy Hx.
        destruct (Z.eq_dec (Z.of_nat x) q') as [Hq|Hq].
        -- destruct points as [|p2 points].
           ++ destruct news as [|? ?]; [|discriminate]. cbn [blocks] in E. injection E as <-. apply First; assumption.
           ++ destruct news as [|q2 news]; [discriminate|]. destruct (S 0%nat p' p2 q' q2 eq_refl eq_refl eq_refl eq_refl y x Hy) as (v & Ev & G); [destruct N2 as [N2 _]; lia|].
              exists v. split; [exact Ev|]. revert G. apply on_grid_comp. unfold along. rewrite Hq. rewrite Z.sub_diag. destruct N2 as [N2 _]. change (inject_Z 0) with 0.
              assert (D1 : ~ inject_Z (q2 - q') == 0) by (apply inj_nz; lia). assert (D2 : ~ inject_Z (q' - q) == 0) by (apply inj_nz; lia).
              assert (EP : inject_Z (Z.of_nat p' - Z.of_nat p) == inject_Z (Z.of_nat p') - inject_Z (Z.of_nat p)) by (unfold Z.sub; rewrite inject_Z_plus, inject_Z_opp; reflexivity). rewrite EP. field. split; assumption.
        -- destruct (First y x Hy Hx) as (v & Ev & G). exists v. split; [rewrite O; [exact Ev|cbn [hd]; lia]|exact G].
      * cbn [nth_error] in Ea, Eb. apply (S i a a' b b' Ea Ea' Eb Eb').
    + intros y x Hx. cbn [hd] in Hx. rewrite O by (cbn [hd]; lia). unfold new1. destruct (Nat.leb_spec (Z.to_nat q) x); [lia|]. rewrite andb_false_r. reflexivity.
Qed.

(** ** New points *)
Definition rnd (r : Q) : Z := round_div (Qnum r) (Zpos (Qden r)).
Lemma rnd_near r : nearest r (rnd r).
Proof.
  unfold nearest, rnd. pose proof (round_div_near (Qnum r) (Zpos (Qden r)) ltac:(lia)) as H. destruct r as [a b]. cbn [Qnum Qden] in *. set (k := round_div a (Z.pos b)) in *.
  apply Qabs_Qle_condition. unfold Qle, Qminus, Qplus, Qopp, inject_Z. cbn [Qnum Qden]. rewrite !Pos2Z.inj_mul. lia.
Qed.
Lemma nearest_exact r z k : r == inject_Z z -> nearest r k -> k = z.
Proof.
  unfold nearest. intros E H. rewrite E in H. apply Qabs_Qle_condition in H as [H1 H2]. unfold Qle, Qminus, Qplus, Qopp, inject_Z in H1, H2. cbn [Qnum Qden] in *. lia.
Qed.
Lemma nearest_lt r r' k k' : nearest r k -> nearest r' k' -> r + 1 < r' -> (k < k')%Z.
Proof.
  unfold nearest. intros H H' L. apply Qabs_Qle_condition in H, H'. assert (inject_Z k < inject_Z k') by lra. rewrite <- Zlt_Qlt in H0. exact H0.
Qed.
Lemma nearest_le r k w : nearest r k -> r <= inject_Z w -> (k <= w)%Z.
Proof.
  unfold nearest. intros H L. apply Qabs_Qle_condition in H. assert (G : inject_Z k < inject_Z (w + 1)) by (rewrite inject_Z_plus; change (inject_Z 1) with 1; lra). rewrite <- Zlt_Qlt in G. lia.
Qed.

Lemma increasing_map (f : Q -> Z) (R : Q -> Q -> Prop) : (forall x y, R x y -> (f x < f y)%Z) -> forall l, (forall i x y, nth_error l i = Some x -> nth_error l (S i) = Some y -> R x y) -> increasing (map f l).
Proof.
  intros H. induction l as [|x [|y l] IH]; intros G; [exact I|exact I|]. cbn [map]. split; [apply H, (G 0%nat x y); reflexivity|]. apply IH. intros i a b Ea Eb. apply (G (S i) a b Ea Eb).
Qed.

Lemma increasing_last : forall l x, In x l -> increasing l -> (x <= last l 0)%Z.
Proof.
  induction l as [|y [|z l] IH]; intros x I H; [destruct I|destruct I as [<-|[]]; cbn; lia|]. destruct H as [H1 H2]. change (last (y :: z :: l) 0%Z) with (last (z :: l) 0%Z).
  destruct I as [<-|I]; [pose proof (IH z (or_introl eq_refl) H2); lia|apply (IH x I H2)].
Qed.

Lemma last_map {A B} (f : A -> B) (d : A) (e : B) : forall l, l <> [] -> last (map f l) e = f (last l d).
Proof. induction l as [|x [|y l] IH]; intros H; [contradiction|reflexivity|]. cbn [map]. change (last (f y :: map f l) e = f (last (y :: l) d)). apply IH. discriminate. Qed.

(** ** Tiles *)
Section Tiles.
  Context {A : Type} (h w : nat).
  Definition tile (a : image A) : Prop := height a = h /\ width a = w.

  Lemma next_divisor_ok n : forall fuel c, (0 < c)%Z -> n = (c + Z.of_nat fuel)%Z -> exists c', next_divisor fuel n c = Ok c' /\ least_divisor n c c' /\ (c' <= n)%Z.
  Proof.
    induction fuel as [|fuel IH]; intros c Hc Hn; cbn [next_divisor].
    - exists c. split; [reflexivity|]. assert (n = c) as -> by lia. split; [|lia]. split; [lia|]. split; [apply Z.divide_refl|]. intros c' H _ _. exact H.
    - destruct (Z.eqb_spec c 0); [lia|]. destruct (Z.eqb_spec (n mod c) 0) as [E|E].
      + exists c. split; [reflexivity|]. split; [|lia]. split; [lia|]. split; [apply Z.mod_divide; assumption|]. intros c' H _ _. exact H.
      + destruct (IH (c + 1)%Z ltac:(lia) ltac:(lia)) as (c' & E' & (L & D & M) & B). exists c'. split; [exact E'|]. split; [|exact B]. split; [lia|]. split; [exact D|].
        intros c2 H2 D2 P2. destruct (Z.eq_dec c2 c) as [->|]; [destruct (E (proj2 (Z.mod_divide n c ltac:(lia)) D2))|apply M; [lia|exact D2|exact P2]].
  Qed.
  Lemma next_divisor_negative n : forall fuel c, (c < 0)%Z -> (- c <= Z.of_nat fuel)%Z -> exists c', next_divisor fuel n c = Ok c' /\ (c' < 0)%Z.
  Proof.
    induction fuel as [|fuel IH]; intros c Hc Hf; [lia|]. cbn [next_divisor]. destruct (Z.eqb_spec c 0); [lia|]. destruct (Z.eqb_spec (n mod c) 0) as [E|E]; [exists c; auto|].
    destruct (Z.eq_dec c (-1)) as [->|]; [|apply IH; lia]. exfalso. apply E. apply Z.mod_divide; [lia|]. exists (- n)%Z. lia.
  Qed.

  Lemma beside_ok : forall l acc done, height acc = h -> width acc = (length done * w)%nat -> Forall tile l -> (forall c y x, (c < length done)%nat -> (x < w)%nat -> exists a, nth_error done c = Some a /\ pixel acc y (c * w + x) = pixel a y x) ->
    exists r, join beside acc l = Ok r /\ height r = h /\ width r = (length (done ++ l) * w)%nat /\
      forall c y x, (c < length (done ++ l))%nat -> (x < w)%nat -> exists a, nth_error (done ++ l) c = Some a /\ pixel r y (c * w + x) = pixel a y x.
  Proof.
    induction l as [|b l IH]; intros acc done Hh Hw F P.
    - exists acc. rewrite app_nil_r. auto.
    - destruct (Forall_inv F) as [Bh Bw]. pose proof (Forall_inv_tail F) as F'. cbn [join]. unfold beside at 1. rewrite Hh, Bh, Nat.eqb_refl. cbn [bind]. rewrite Bw, Hw.
      replace (done ++ b :: l) with ((done ++ [b]) ++ l) by (rewrite <- app_assoc; reflexivity). apply IH; [reflexivity|cbn [width]; rewrite app_length; cbn [length]; lia|exact F'|].
      intros c y x Hc Hx. cbn [pixel]. rewrite app_length in Hc. cbn [length] in Hc. destruct (Nat.eq_dec c (length done)) as [->|N].
      + exists b. split; [rewrite nth_error_app2, Nat.sub_diag by lia; reflexivity|]. destruct (Nat.ltb_spec (length done * w + x) (length done * w)); [lia|]. f_equal. lia.
      + destruct (P c y x ltac:(lia) Hx) as (a & E & V). exists a. split; [rewrite nth_error_app1 by lia; exact E|]. destruct (Nat.ltb_spec (c * w + x) (length done * w)); [exact V|]. assert ((c + 1) * w <= length done * w)%nat by (apply Nat.mul_le_mono_r; lia). lia.
  Qed.
  Lemma concatenate_beside l : l <> [] -> Forall tile l -> exists r, concatenate beside l = Ok r /\ height r = h /\ width r = (length l * w)%nat /\
    forall c y x, (c < length l)%nat -> (x < w)%nat -> exists a, nth_error l c = Some a /\ pixel r y (c * w + x) = pixel a y x.
  Proof.
    intros N F. destruct l as [|a l]; [contradiction|]. destruct (Forall_inv F) as [Ah Aw]. pose proof (Forall_inv_tail F) as F'. cbn [concatenate].
    apply (beside_ok l a [a]); [exact Ah|cbn [length]; lia|exact F'|]. intros c y x Hc Hx. cbn [length] in Hc. assert (c = 0)%nat as -> by lia. exists a. split; reflexivity.
  Qed.
End Tiles.

Lemma below_ok {A} (h w : nat) : forall (l : list (image A)) acc done, width acc = w -> height acc = (length done * h)%nat -> Forall (tile h w) l -> (forall c y x, (c < length done)%nat -> (y < h)%nat -> exists a, nth_error done c = Some a /\ pixel acc (c * h + y) x = pixel a y x) ->
  exists r, join below acc l = Ok r /\ width r = w /\ height r = (length (done ++ l) * h)%nat /\
    forall c y x, (c < length (done ++ l))%nat -> (y < h)%nat -> exists a, nth_error (done ++ l) c = Some a /\ pixel r (c * h + y) x = pixel a y x.
Proof.
  induction l as [|b l IH]; intros acc done Hw Hh F P.
  - exists acc. rewrite app_nil_r. auto.
  - inversion F as [|? ? [Bh Bw] F']; subst. cbn [join]. unfold below at 1. rewrite Bw, Nat.eqb_refl. cbn [bind]. rewrite Hh.
    replace (done ++ b :: l) with ((done ++ [b]) ++ l) by (rewrite <- app_assoc; reflexivity). apply IH; [reflexivity|cbn [height]; rewrite app_length; cbn [length]; lia|exact F'|].
    intros c y x Hc Hy. cbn [pixel]. rewrite app_length in Hc. cbn [length] in Hc. destruct (Nat.eq_dec c (length done)) as [->|N].
    + exists b. split; [rewrite nth_error_app2, Nat.sub_diag by lia; reflexivity|]. destruct (Nat.ltb_spec (length done * height b + y) (length done * height b)); [lia|]. f_equal. lia.
    + destruct (P c y x ltac:(lia) Hy) as (a & E & V). exists a. split; [rewrite nth_error_app1 by lia; exact E|]. destruct (Nat.ltb_spec (c * height b + y) (length done * height b)); [exact V|]. assert ((c + 1) * height b <= length done * height b)%nat by (apply Nat.mul_le_mono_r; lia). lia.
Qed.
Lemma concatenate_below {A} (h w : nat) (l : list (image A)) : l <> [] -> Forall (tile h w) l -> exists r, concatenate below l = Ok r /\ width r = w /\ height r = (length l * h)%nat /\
  forall c y x, (c < length l)%nat -> (y < h)%nat -> exists a, nth_error l c = Some a /\ pixel r (c * h + y) x = pixel a y x.
Proof.
  intros N F. destruct l as [|a l]; [contradiction|]. inversion F as [|? ? [Ah Aw] F']; subst. cbn [concatenate].
  apply (below_ok (height a) (width a) l a [a]); [reflexivity|cbn [length]; lia|exact F'|]. intros c y x Hc Hx. cbn [length] in Hc. assert (c = 0)%nat as -> by lia. exists a. split; reflexivity.
Qed.
