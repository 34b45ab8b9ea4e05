(** Lemmas for IsoProps.v: sets of segments and contours. *)
From Coq Require Import QArith Qround Lia Lqa Permutation.
From Verif Require Import Common CommonProofs IsoModel IsoSpec IsoProofs.
Local Open Scope Q_scope.

(** ** Distribution over processes *)
Lemma in_strided {A} (x : A) size l : (0 < size)%nat -> (In x l <-> exists r, (r < size)%nat /\ In x (strided r size l)).
Proof.
  intros Hs. assert (G : forall r, In x (strided r size l) <-> exists k, nth_error l k = Some x /\ (k mod size = r)%nat).
  { intros r. unfold strided. rewrite in_map_iff. split.
    - intros ([k y] & <- & I). apply filter_In in I as [I E]. cbn [fst snd] in *. apply Nat.eqb_eq in E. exists k. split; [|exact E].
      assert (H : forall l0 s, In (k, y) (combine (seq s (length l0)) l0) -> (s <= k)%nat /\ nth_error l0 (k - s) = Some y).
      { clear. induction l0 as [|z l0 IH]; intros s I; [destruct I|]. cbn [length seq combine] in I. destruct I as [I|I]; [injection I as -> ->; rewrite Nat.sub_diag; split; [lia|reflexivity]|].
        apply IH in I as [I1 I2]. split; [lia|]. replace (k - s)%nat with (S (k - S s)) by lia. exact I2. }
      apply H in I as [_ I]. rewrite Nat.sub_0_r in I. exact I.
    - intros (k & E & M). exists (k, x). split; [reflexivity|]. apply filter_In. split; [|apply Nat.eqb_eq; exact M].
      assert (H : forall l0 s k, nth_error l0 k = Some x -> In ((s + k)%nat, x) (combine (seq s (length l0)) l0)).
      { clear. induction l0 as [|z l0 IH]; intros s [|k] E; try discriminate; cbn [length seq combine]; [injection E as ->; left; f_equal; lia|]. right. replace (s + S k)%nat with (S s + k)%nat by lia. apply IH. exact E. }
      apply (H l 0%nat k E). }
  split.
  - intros I. apply In_nth_error in I as (k & E). exists (k mod size)%nat. split; [apply Nat.mod_upper_bound; lia|]. apply G. exists k. auto.
  - intros (r & _ & I). apply G in I as (k & E & _). exact (nth_error_In _ _ E).
Qed.

(** ** Sets of segments *)
Definition seq_ (s t : segment) : Prop := veq (fst s) (fst t) /\ veq (snd s) (snd t).
Lemma seqb_iff s t : seqb s t = true <-> seq_ s t.
Proof. unfold seqb, seq_. rewrite andb_true_iff, !veqb_iff. reflexivity. Qed.
Lemma seq_refl s : seq_ s s. Proof. split; apply veq_refl. Qed.

Definition arrays (group : list entry) : Prop := exists p, In (Array p) group.

Lemma update_error : forall group points, arrays group -> update points group = Raise TypeError.
Proof.
  induction group as [|e group IH]; intros points [p I]; [destruct I|]. destruct I as [->|I]; [reflexivity|]. destruct e; cbn [update]; try reflexivity; apply IH; exists p; exact I.
Qed.

Lemma update_ok : forall group points, ~ arrays group -> exists points', update points group = Ok points' /\
  (forall s, In s points' -> In s points \/ In (Pair (fst s) (snd s)) group) /\ incl points points' /\
  (forall p q, In (Pair p q) group -> exists s, In s points' /\ seq_ (p, q) s).
Proof.
  induction group as [|e group IH]; intros points NA.
  - exists points. split; [reflexivity|]. split; [intros s I; left; exact I|]. split; [apply incl_refl|intros p q []].
  - assert (NA' : ~ arrays group) by (intros [p I]; apply NA; exists p; right; exact I). destruct e as [p q|p|p]; cbn [update].
    + destruct (IH (add seqb points (p, q)) NA') as (pts & E & H1 & H2 & H3). exists pts. split; [exact E|]. split; [|split].
      * intros s I. apply H1 in I as [I|I]; [|right; right; exact I]. unfold add in I. destruct (existsb _ _); [left; exact I|]. apply in_app_or in I as [I|[<-|[]]]; [left; exact I|right; left; reflexivity].
      * exact (incl_tran (add_incl seqb points (p, q)) H2).
      * intros p' q' [I|I]; [|apply H3, I]. injection I as <- <-. unfold add in H2. destruct (existsb (seqb (p, q)) points) eqn:X.
        -- apply existsb_exists in X as (s & Is & Es). exists s. split; [apply H2, Is|apply seqb_iff, Es].
        -- exists (p, q). split; [apply H2, in_or_app; right; left; reflexivity|apply seq_refl].
    + destruct (IH points NA') as (pts & E & H1 & H2 & H3). exists pts. split; [exact E|]. split; [intros s I; apply H1 in I as [I|I]; [left; exact I|right; right; exact I]|]. split; [exact H2|]. intros p' q' [I|I]; [discriminate|apply H3, I].
    + exfalso. apply NA. exists p. left. reflexivity.
Qed.

Section Gather.
  Variables (triangles : list triangle) (size : nat) (E : Q).
  Hypothesis Hsize : (0 < size)%nat.
  Let my_points rank := flat_map (cut E) (strided rank size triangles).
  Let gathered ranks points := fold_left (fun points rank => do points <- points ;; update points (my_points rank)) ranks points.

  Lemma gather_raise : forall ranks e, gathered ranks (Raise e) = Raise e.
  Proof. induction ranks as [|r ranks IH]; intros e; [reflexivity|]. apply IH. Qed.

  Lemma gather_error ranks points : (exists r, In r ranks /\ arrays (my_points r)) -> gathered ranks (Ok points) = Raise TypeError.
  Proof.
    revert points. induction ranks as [|r ranks IH]; intros points (r' & I & A); [destruct I|]. unfold gathered. cbn [fold_left bind]. fold (gathered ranks (update points (my_points r))). destruct I as [->|I]; [rewrite update_error by exact A; apply gather_raise|].
    assert (D : arrays (my_points r) \/ ~ arrays (my_points r)).
    { clear. generalize (my_points r) as l. induction l as [|e l IH]; [right; intros [p []]|]. destruct IH as [[p I]|N]; [left; exists p; right; exact I|]. destruct e as [p q|p|p]; [right; intros [p' [X|X]]; [discriminate|apply N; exists p'; exact X]..|left; exists p; left; reflexivity]. }
    destruct D as [D|D]; [rewrite update_error by exact D; apply gather_raise|]. destruct (update_ok _ points D) as (pts & Eu & _). rewrite Eu. apply IH. exists r'. auto.
  Qed.

  Lemma gather_ok ranks : (forall r, In r ranks -> ~ arrays (my_points r)) -> forall points, exists pts, gathered ranks (Ok points) = Ok pts /\
    (forall s, In s pts -> In s points \/ exists r, In r ranks /\ In (Pair (fst s) (snd s)) (my_points r)) /\ incl points pts /\
    (forall r p q, In r ranks -> In (Pair p q) (my_points r) -> exists s, In s pts /\ seq_ (p, q) s).
  Proof.
    induction ranks as [|r ranks IH]; intros NA points.
    - exists points. split; [reflexivity|]. split; [auto|]. split; [apply incl_refl|intros r p q []].
    - unfold gathered. cbn [fold_left bind]. fold (gathered ranks (update points (my_points r))). destruct (update_ok (my_points r) points (NA r (or_introl eq_refl))) as (p1 & E1 & A1 & B1 & C1). rewrite E1.
      destruct (IH (fun r' I => NA r' (or_intror I)) p1) as (pts & E2 & A2 & B2 & C2). exists pts. split; [exact E2|]. split; [|split].
      + intros s I. apply A2 in I as [I|(r' & I & P)]; [|right; exists r'; split; [right; exact I|exact P]]. apply A1 in I as [I|I]; [left; exact I|right; exists r; split; [left; reflexivity|exact I]].
      + exact (incl_tran B1 B2).
      + intros r' p q [<-|I] P; [|exact (C2 r' p q I P)]. destruct (C1 p q P) as (s & Is & Es). exists s. split; [apply B2, Is|exact Es].
  Qed.

  Lemma gathered_ok : (forall t p, In t triangles -> ~ In (Array p) (cut E t)) -> exists pts, gathered (seq 0 size) (Ok []) = Ok pts /\
    (forall s, In s pts -> exists t, In t triangles /\ In (Pair (fst s) (snd s)) (cut E t)) /\
    (forall t p q, In t triangles -> In (Pair p q) (cut E t) -> exists s, In s pts /\ seq_ (p, q) s).
  Proof.
    intros NA. destruct (gather_ok (seq 0 size)) with (points := @nil segment) as (pts & E1 & A & _ & C).
    - intros r Ir [p I]. unfold my_points in I. apply in_flat_map in I as (t & It & I). apply (NA t p); [|exact I]. apply (in_strided t size triangles Hsize). exists r. apply in_seq in Ir. split; [lia|exact It].
    - exists pts. split; [exact E1|]. split.
      + intros s I. apply A in I as [[]|(r & Ir & I)]. unfold my_points in I. apply in_flat_map in I as (t & It & I). exists t. split; [|exact I]. apply (in_strided t size triangles Hsize). exists r. apply in_seq in Ir. split; [lia|exact It].
      + intros t p q It I. apply (in_strided t size triangles Hsize) in It as (r & Hr & It). apply (C r p q); [apply in_seq; lia|]. apply in_flat_map. exists t. auto.
  Qed.
  Lemma gathered_error : (exists t p, In t triangles /\ In (Array p) (cut E t)) -> gathered (seq 0 size) (Ok []) = Raise TypeError.
  Proof.
    intros (t & p & It & I). apply gather_error. apply (in_strided t size triangles Hsize) in It as (r & Hr & It). exists r. split; [apply in_seq; lia|]. exists p. apply in_flat_map. exists t. auto.
  Qed.
End Gather.

(** ** Contours *)
Definition same (s : segment) (l : vertex * vertex) : Prop :=
  veq (fst s) (fst l) /\ veq (snd s) (snd l) \/ veq (fst s) (snd l) /\ veq (snd s) (fst l).

Lemma same_seq s t l : seq_ s t -> same s l -> same t l.
Proof.
  intros [A B] [[C D]|[C D]]; [left|right]; (split; [exact (veq_trans _ _ _ (veq_sym _ _ A) C)|exact (veq_trans _ _ _ (veq_sym _ _ B) D)]).
Qed.

Lemma remove_length x : forall l, In x l -> length l = S (length (remove x l)).
Proof.
  induction l as [|y l IH]; intros I; [destruct I|]. cbn [remove]. destruct (seqb x y) eqn:E; [reflexivity|]. destruct I as [->|I]; [rewrite (proj2 (seqb_iff x x) (seq_refl x)) in E; discriminate|]. cbn [length]. rewrite IH at 1 by exact I. reflexivity.
Qed.
Lemma remove_incl x l : incl (remove x l) l.
Proof. induction l as [|y l IH]; cbn [remove]; [apply incl_refl|]. destruct (seqb x y); [apply incl_tl, incl_refl|]. intros z [->|I]; [left; reflexivity|right; apply IH, I]. Qed.
Lemma remove_or x s : forall l, In s l -> In s (remove x l) \/ seq_ x s.
Proof.
  induction l as [|y l IH]; intros I; [destruct I|]. cbn [remove]. destruct (seqb x y) eqn:E.
  - destruct I as [->|I]; [right; apply seqb_iff, E|left; exact I].
  - destruct I as [->|I]; [left; left; reflexivity|]. destruct (IH I) as [H|H]; [left; right; exact H|right; exact H].
Qed.

Lemma links_snoc {A} (d : A) v : forall c, c <> [] -> links (c ++ [v]) = links c ++ [(last c d, v)].
Proof.
  induction c as [|a [|b c] IH]; intros H; [contradiction|reflexivity|]. change (links ((a :: b :: c) ++ [v])) with ((a, b) :: links ((b :: c) ++ [v])). rewrite IH by discriminate. reflexivity.
Qed.
Lemma links_cons {A} (d : A) v c : c <> [] -> links (v :: c) = (v, hd d c) :: links c.
Proof. destruct c; [contradiction|reflexivity]. Qed.

Lemma on_other v s : on v s = true -> same s (v, other v s).
Proof.
  unfold on, other. destruct (veqb (fst s) v) eqn:E; [intros _; left; cbn [fst snd]; split; [apply veqb_iff, E|apply veq_refl]|]. cbn [orb]. intros H. right. cbn [fst snd]. split; [apply veq_refl|apply veqb_iff, H].
Qed.
Lemma same_swap s a b : same s (a, b) -> same s (b, a).
Proof. intros [H|H]; [right|left]; exact H. Qed.

(** The end of a contour that is not touched by a segment *)
Definition free (c : list vertex) (s : segment) : Prop := touches c s = false.

Lemma free_ends c s v : free c s -> (veq v (fst s) \/ veq v (snd s)) -> ~ veq v (hd (0, 0) c) /\ ~ veq v (last c (0, 0)).
Proof.
  unfold free, touches, on. intros H V. rewrite !orb_false_iff in H. destruct H as [[H1 H2] [H3 H4]].
  assert (G : forall a b, veqb a b = false -> ~ veq a b) by (intros a b Hb C; apply veqb_iff in C; congruence).
  apply G in H1, H2, H3, H4. split; intros C.
  - destruct V as [V|V]; [apply H3|apply H4]; exact (veq_trans _ _ _ (veq_sym _ _ V) C).
  - destruct V as [V|V]; [apply H1|apply H2]; exact (veq_trans _ _ _ (veq_sym _ _ V) C).
Qed.

Section Join.
  Variable order : list vertex -> list segment -> list segment.
  Hypothesis Horder : forall c l, Permutation (order c l) l.

  Lemma join_app : forall fuel points contours contour, join order fuel points contours contour = contours ++ join order fuel points [] contour.
  Proof.
    induction fuel as [|fuel IH]; intros points contours contour; [reflexivity|]. cbn [join]. destruct (order contour points) as [|popped l]; [reflexivity|].
    destruct (find _ _); [apply IH|]. rewrite IH, (IH _ ([] ++ [contour])). cbn [app]. rewrite <- app_assoc. reflexivity.
  Qed.

  (** No vertex of a later contour is one of the ends of an earlier one. *)
  Definition maximal (cs : list (list vertex)) : Prop := forall l1 c l2, cs = l1 ++ c :: l2 -> forall c' v, In c' l2 -> In v c' -> ~ veq v (hd (0, 0) c) /\ ~ veq v (last c (0, 0)).

  Lemma in_links_vertex (c : list vertex) v : (2 <= length c)%nat -> In v c -> exists l, In l (links c) /\ (v = fst l \/ v = snd l).
  Proof.
    induction c as [|a [|b c] IH]; intros L I; [destruct I|cbn in L; lia|]. destruct I as [->|I]; [exists (v, b); split; [left; reflexivity|auto]|].
    destruct c as [|d c]; [destruct I as [->|[]]; exists (a, v); split; [left; reflexivity|auto]|]. destruct (IH ltac:(cbn; lia) I) as (l & Il & Hl). exists l. split; [right; exact Il|exact Hl].
  Qed.

  Lemma join_ok : forall fuel points contour, fuel = length points -> (2 <= length contour)%nat ->
    let J := join order fuel points [] contour in
    Forall (fun c => (2 <= length c)%nat) J /\
    (forall l, In l (flat_map links J) -> In l (links contour) \/ exists s, In s points /\ same s l) /\
    incl (links contour) (flat_map links J) /\
    (forall s, In s points -> exists l, In l (flat_map links J) /\ same s l) /\ maximal J.
  Proof.
    induction fuel as [|fuel IH]; intros points contour HF HL; cbn zeta.
    - destruct points; [|discriminate]. cbn [join app flat_map]. rewrite app_nil_r. split; [repeat constructor; exact HL|]. split; [auto|]. split; [apply incl_refl|]. split; [intros s []|].
      intros l1 c l2 E c' v I. destruct l1 as [|a [|b l1]]; [injection E as <- <-; destruct I|discriminate|discriminate].
    - pose proof (Horder contour points) as PM. cbn [join]. destruct (order contour points) as [|popped rest] eqn:EO; [apply Permutation_length in PM; cbn in PM; lia|].
      destruct (find (touches contour) (popped :: rest)) as [point|] eqn:FD.
      + apply find_some in FD as [IP TP]. assert (IP' : In point points) by (apply (Permutation_in _ PM), IP). pose proof (remove_length point points IP') as RL.
        set (contour' := if on (last contour (0, 0)) point then contour ++ [other (last contour (0, 0)) point] else other (hd (0, 0) contour) point :: contour).
        assert (NE : contour <> []) by (intros ->; cbn in HL; lia).
        assert (L' : exists l, same point l /\ (forall l', In l' (links contour') <-> In l' (links contour) \/ l' = l) /\ (2 <= length contour')%nat).
        { unfold contour'. destruct (on (last contour (0, 0)) point) eqn:ON.
          - exists (last contour (0, 0), other (last contour (0, 0)) point). split; [apply on_other, ON|]. split; [|rewrite app_length; lia]. intros l'. rewrite (links_snoc (0, 0)) by exact NE. rewrite in_app_iff. cbn [In]. intuition.
          - exists (other (hd (0, 0) contour) point, hd (0, 0) contour). unfold touches in TP. rewrite ON in TP. cbn [orb] in TP. split; [apply same_swap, on_other, TP|]. split; [|cbn; lia]. intros l'. rewrite (links_cons (0, 0)) by exact NE. cbn [In]. intuition. }
        destruct L' as (l0 & S0 & LK & LL). destruct (IH (remove point points) contour' ltac:(lia) LL) as (A & B & C & D & M). split; [exact A|]. split; [|split; [|split; [|exact M]]].
        * intros l I. apply B in I as [I|(s & Is & Ss)]; [|right; exists s; split; [apply (remove_incl _ _ _ Is)|exact Ss]]. apply LK in I as [I| ->]; [left; exact I|right; exists point; auto].
        * intros l I. apply C, LK. left. exact I.
        * intros s Is. destruct (remove_or point s points Is) as [R|R]; [apply D, R|]. exists l0. split; [apply C, LK; right; reflexivity|]. exact (same_seq _ _ _ R S0).
      + assert (IP' : In popped points) by (apply (Permutation_in _ PM); left; reflexivity). pose proof (remove_length popped points IP') as RL.
        rewrite join_app. cbn [app flat_map]. set (J' := join order fuel (remove popped points) [] [fst popped; snd popped]).
        destruct (IH (remove popped points) [fst popped; snd popped] ltac:(lia) ltac:(cbn; lia)) as (A & B & C & D & M). fold J' in A, B, C, D, M.
        assert (FR : forall s, In s points -> free contour s) by (intros s Is; unfold free; apply (find_none _ _ FD); apply (Permutation_in _ (Permutation_sym PM)), Is).
        assert (LP : forall l, In l (flat_map links J') -> exists s, In s points /\ same s l).
        { intros l I. apply B in I as [I|(s & Is & Ss)]; [|exists s; split; [apply (remove_incl _ _ _ Is)|exact Ss]]. destruct I as [<-|[]]. exists popped. split; [exact IP'|]. left. cbn [fst snd]. split; apply veq_refl. }
        split; [constructor; assumption|]. split; [|split; [|split]].
        * intros l I. apply in_app_or in I as [I|I]; [left; exact I|right; apply LP, I].
        * apply incl_appl, incl_refl.
        * intros s Is. destruct (remove_or popped s points Is) as [R|R].
          -- destruct (D s R) as (l & Il & Sl). exists l. split; [apply in_or_app; right; exact Il|exact Sl].
          -- exists (fst popped, snd popped). split; [apply in_or_app; right; apply C; left; reflexivity|]. left. cbn [fst snd]. destruct R as [R1 R2]. split; apply veq_sym; assumption.
        * intros l1 c l2 E c' v Ic Iv. destruct l1 as [|a l1].
          -- injection E as <- <-. assert (Lc : (2 <= length c')%nat) by (rewrite Forall_forall in A; apply A, Ic). destruct (in_links_vertex c' v Lc Iv) as (l & Il & Hl).
             destruct (LP l) as (s & Is & Ss); [apply in_flat_map; exists c'; auto|]. apply (free_ends contour s v (FR s Is)). destruct Ss as [[S1 S2]|[S1 S2]], Hl as [->| ->]; auto using veq_sym.
          -- injection E as <- E. exact (M l1 c l2 E c' v Ic Iv).
  Qed.
End Join.

(** ** The function of the energy *)
Definition scale (N : Z) (v : vertex) : vertex := (fst v / inject_Z N, snd v / inject_Z N).

Lemma links_map {A B} (g : A -> B) : forall c, links (map g c) = map (fun l => (g (fst l), g (snd l))) (links c).
Proof. induction c as [|a [|b c] IH]; [reflexivity|reflexivity|]. change (links (map g (a :: b :: c))) with ((g a, g b) :: links (map g (b :: c))). rewrite IH. reflexivity. Qed.

Lemma FS_ok N triangles order size E : (0 < size)%nat -> (forall c l, Permutation (order c l) l) -> (forall t p, In t triangles -> ~ In (Array p) (cut E t)) ->
  exists J, FS N triangles order size E = Ok (map (map (scale N)) J) /\ Forall (fun c => (2 <= length c)%nat) J /\ maximal J /\
    (forall l, In l (flat_map links J) -> exists t p q, In t triangles /\ In (Pair p q) (cut E t) /\ same (p, q) l) /\
    (forall t p q, In t triangles -> In (Pair p q) (cut E t) -> exists l, In l (flat_map links J) /\ same (p, q) l).
Proof.
  intros Hs HO NA. destruct (gathered_ok triangles size E Hs NA) as (pts & EP & A & B). unfold FS. rewrite EP. cbn [bind]. pose proof (HO [] pts) as PM. destruct (order [] pts) as [|popped rest].
  - apply Permutation_nil in PM. subst pts. exists []. split; [reflexivity|]. split; [constructor|]. split; [intros l1 c l2 X; destruct l1; discriminate|]. split; [intros l []|]. intros t p q It I. destruct (B t p q It I) as (s & [] & _).
  - assert (IP : In popped pts) by (apply (Permutation_in _ PM); left; reflexivity). pose proof (remove_length popped pts IP) as RL.
    destruct (join_ok order HO (length pts - 1) (remove popped pts) [fst popped; snd popped] ltac:(lia) ltac:(cbn; lia)) as (L & C & D & G & M).
    eexists. split; [reflexivity|]. split; [exact L|]. split; [exact M|]. split.
    + intros l I. apply C in I as [I|(s & Is & Ss)].
      * destruct I as [<-|[]]. destruct (A popped IP) as (t & It & I). exists t, (fst popped), (snd popped). split; [exact It|]. split; [exact I|]. left. cbn [fst snd]. split; apply veq_refl.
      * destruct (A s (remove_incl _ _ _ Is)) as (t & It & I). exists t, (fst s), (snd s). split; [exact It|]. split; [exact I|]. destruct s. exact Ss.
    + intros t p q It I. destruct (B t p q It I) as (s & Is & Es). assert (W : exists l, In l (flat_map links (join order (length pts - 1) (remove popped pts) [] [fst popped; snd popped])) /\ same s l).
      { destruct (remove_or popped s pts Is) as [R|R]; [apply G, R|]. exists (fst popped, snd popped). split; [apply D; left; reflexivity|]. destruct R as [R1 R2]. left. cbn [fst snd]. split; apply veq_sym; assumption. }
      destruct W as (l & Il & Sl). exists l. split; [exact Il|]. apply (same_seq s); [|exact Sl]. destruct Es as [E1 E2]. split; apply veq_sym; assumption.
Qed.

Lemma FS_error N triangles order size E : (0 < size)%nat -> (exists t p, In t triangles /\ In (Array p) (cut E t)) -> FS N triangles order size E = Raise TypeError.
Proof. intros Hs A. unfold FS. rewrite (gathered_error triangles size E Hs A). reflexivity. Qed.

Lemma between_same p q l x : same (p, q) l -> (between (fst l) (snd l) x <-> between p q x).
Proof.
  intros S1. unfold between. destruct l as [a b]. cbn [fst snd]. destruct S1 as [[[A1 A2] [B1 B2]]|[[A1 A2] [B1 B2]]]; cbn [fst snd] in *.
  - split; intros (u & Hu & X & Y); exists u; (split; [exact Hu|]); [rewrite A1, A2, B1, B2|rewrite <- A1, <- A2, <- B1, <- B2]; split; assumption.
  - split; intros (u & Hu & X & Y); exists (1 - u); (split; [lra|]); [rewrite A1, A2, B1, B2|rewrite <- A1, <- A2, <- B1, <- B2]; rewrite X, Y; split; ring.
Qed.

Lemma between_scale N p q x : (0 < N)%Z -> (between (scale N p) (scale N q) x <-> between p q (inject_Z N * fst x, inject_Z N * snd x)).
Proof.
  intros HN. assert (NZ : ~ inject_Z N == 0) by (apply LinProofs.inj_nz; lia). unfold between, scale. cbn [fst snd]. split; intros (u & Hu & X & Y); exists u; (split; [exact Hu|]).
  - split; [rewrite X|rewrite Y]; field; exact NZ.
  - assert (D : forall a, a == inject_Z N * a / inject_Z N) by (intros; field; exact NZ). split; [rewrite (D (fst x)), X|rewrite (D (snd x)), Y]; field; exact NZ.
Qed.

(** The points drawn are those of the segments of the triangles. *)
Lemma FS_drawn N triangles E J : (0 < N)%Z ->
  (forall l, In l (flat_map links J) -> exists t p q, In t triangles /\ In (Pair p q) (cut E t) /\ same (p, q) l) ->
  (forall t p q, In t triangles -> In (Pair p q) (cut E t) -> exists l, In l (flat_map links J) /\ same (p, q) l) ->
  forall x, drawn (map (map (scale N)) J) x <-> exists t p q, In t triangles /\ In (Pair p q) (cut E t) /\ between p q (inject_Z N * fst x, inject_Z N * snd x).
Proof.
  intros HN A B x. unfold drawn. split.
  - intros (c & p & q & Ic & Il & X). apply in_map_iff in Ic as (c0 & <- & Ic). rewrite links_map in Il. apply in_map_iff in Il as (l & El & Il). injection El as <- <-.
    destruct (A l) as (t & p' & q' & It & I & Ss); [apply in_flat_map; exists c0; auto|]. exists t, p', q'. split; [exact It|]. split; [exact I|]. apply (between_same _ _ _ _ Ss), (between_scale N), X. exact HN.
  - intros (t & p & q & It & I & X). destruct (B t p q It I) as (l & Il & Ss). apply in_flat_map in Il as (c & Ic & Il). exists (map (scale N) c), (scale N (fst l)), (scale N (snd l)). split; [apply in_map, Ic|]. split; [rewrite links_map; apply in_map_iff; exists l; auto|].
    apply between_scale; [exact HN|]. apply (between_same _ _ _ _ Ss). exact X.
Qed.
