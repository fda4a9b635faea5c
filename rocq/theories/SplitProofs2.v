(** Proofs about SplitModel: the main loop. *)
From Coq Require Import QArith ZArith Bool List Arith Lia.
From Verif Require Import BoundsModel ConstraintModel GuardSpec ZoneModel AutomatonModel AutomatonSpec RegionalModel HypothesisModel NeighborModel ImpreciseModel MergeModel MergeProofs SplitModel SplitProofs.
Import ListNotations.
Open Scope nat_scope.

Lemma retarget_other s i j l i' j' : (i', j') <> (i, j) -> transAt (retarget s i j l) i' j' = transAt s i' j'.
Proof.
  intro N. unfold retarget, transAt. destruct (nth_error (snext s) i) as [p|] eqn:Hp; [|reflexivity]. destruct (nth_error (snd p) j) as [t|] eqn:Ht; [|reflexivity]. cbn [snext].
  destruct (Nat.eq_dec i i') as [<-|Ni].
  - rewrite setNth_at by (apply nth_error_Some; intro Z; rewrite Z in Hp; discriminate). rewrite Hp. cbn [snd]. apply setNth_other. congruence.
  - rewrite setNth_other by exact Ni. reflexivity.
Qed.
Lemma retarget_at s i j l t : transAt s i j = Some t -> transAt (retarget s i j l) i j = Some (mkT l (trst t) (tgrd t)).
Proof.
  unfold retarget, transAt. destruct (nth_error (snext s) i) as [p|] eqn:Hp; [|discriminate]. intro Ht. rewrite Ht. cbn [snext].
  rewrite setNth_at by (apply nth_error_Some; intro Z; rewrite Z in Hp; discriminate). cbn [snd]. apply setNth_at. apply nth_error_Some. congruence.
Qed.
Lemma positions_all s i j t : transAt s i j = Some t -> In (i, j) (positions s).
Proof.
  unfold transAt, positions. destruct (nth_error (snext s) i) as [p|] eqn:Hp; [|discriminate]. intro Ht. apply in_flat_map. exists i. split.
  - apply in_seq. split; [lia|]. cbn. apply nth_error_Some. intro Z. rewrite Z in Hp. discriminate.
  - apply in_map_iff. exists j. split; [reflexivity|]. rewrite Hp. apply in_seq. split; [lia|]. cbn. apply nth_error_Some. congruence.
Qed.
Lemma entry_at s a ts t : In (a, ts) (snext s) -> In t ts -> exists i j, transAt s i j = Some t.
Proof.
  intros H K. apply In_nth_error in H. destruct H as [i H]. apply In_nth_error in K. destruct K as [j K]. exists i, j. unfold transAt. change (nth_error (snext s) i = Some (a, ts)) in H. rewrite H. exact K.
Qed.

Section Loop.
Context (ordC : list nat -> list nat) (prefer : smap -> enh -> trans -> trans -> bool) (sts : states).
Context (G : list trans -> list trans -> Prop).
Context (Grefl : forall o s0 a ts, In (o, s0) sts -> In (a, ts) (snext s0) -> G ts ts).
Context (Gmerge : forall K ts0 pr P ts, G ts0 (map (proj K) ts) -> G ts0 (map (proj K) (mergeNDP pr P ts))).
Context (ND : NoDup (map fst sts)).
Notation Inv := (Inv sts G). Notation okState := (okState G).

(** the pair a transition leads to, from a state with precise clocks [P] *)
Definition afterPair (k : nat) (o : loc) (P : list nat) (t : trans) : enh := (o, filter (isPrecise (preciseAfterReset P k (trst t))) (seq 0 k)).
Definition goodT (m : smap) (vis q : list enh) (P : list nat) (t : trans) : Prop :=
  exists o s0 K s', In (o, s0) sts /\ okState K s0 s' /\
    let e2 := afterPair (computeClockSize s') o P t in nth_error (smKey m) (ttgt t) = Some e2 /\ (In e2 vis \/ In e2 q).
Lemma goodT_mono m m' vis vis' q q' P t : extends m m' -> (forall e, In e vis \/ In e q -> In e vis' \/ In e q') -> goodT m vis q P t -> goodT m' vis' q' P t.
Proof using. intros X V (o & s0 & K & s' & A & B & C & D). exists o, s0, K, s'. split; [exact A|]. split; [exact B|]. split; [eapply extends_nth; eauto|apply V; exact D]. Qed.

Lemma stepPos_ok vis l e m q i j m' q' :
  Inv m -> nth_error (smKey m) l = Some e -> In e vis -> stepPos ordC prefer sts vis l (snd e) (m, q) (i, j) = Some (m', q') ->
  Inv m' /\ extends m m' /\ (exists q2, q' = q ++ q2) /\
  (forall e' l', In e' vis -> nth_error (smKey m) l' = Some e' -> l' <> l -> nth_error (smSt m') l' = nth_error (smSt m) l') /\
  (forall s, nth_error (smSt m) l = Some s -> exists s', nth_error (smSt m') l = Some s' /\
     (forall i' j', (i', j') <> (i, j) -> transAt s' i' j' = transAt s i' j') /\
     match transAt s i j with Some t => exists t', transAt s' i j = Some t' /\ goodT m' vis q' (snd e) t' | None => transAt s' i j = None end).
Proof using Gmerge ND.
  intros I HK Hv H. unfold stepPos in H. destruct (nth_error (smSt m) l) as [s|] eqn:Hs; [|discriminate]. destruct (transAt s i j) as [t|] eqn:Ht.
  2: { injection H as <- <-. split; [exact I|]. split; [apply extends_refl|]. split; [exists []; rewrite app_nil_r; reflexivity|]. split; [auto|]. intros s0 E. injection E as <-. exists s. split; [exact Hs|]. split; [auto|]. rewrite Ht. reflexivity. }
  destruct (nth_error (smKey m) (ttgt t)) as [[o P0]|] eqn:Hk; [|discriminate]. destruct (nth_error (smSt m) (ttgt t)) as [s'|] eqn:Hs'; [|discriminate].
  assert (I' := I). destruct I' as (IA & IB & IC). destruct (IC _ _ _ Hk Hs') as (s0 & J1 & J2). cbn [fst] in J1.
  set (e2 := afterPair (computeClockSize s') o (snd e) t). change (o, filter (isPrecise (preciseAfterReset (snd e) (computeClockSize s') (trst t))) (seq 0 (computeClockSize s'))) with e2 in H.
  match type of H with match ?X with _ => _ end = _ => set (Y := X) in H end.
  assert (M : exists m1 l1 q1, Y = Some (m1, l1, q1) /\
     Inv m1 /\ extends m m1 /\ (exists q2, q1 = q ++ q2) /\ nth_error (smKey m1) l1 = Some e2 /\ (In e2 vis \/ In e2 q1) /\
     (forall e' l', In e' vis -> nth_error (smKey m) l' = Some e' -> nth_error (smSt m1) l' = nth_error (smSt m) l')).
  { unfold Y in *. clear Y. destruct (visitedE vis e2) eqn:Ev.
    - destruct (mapE m e2) as [l1|] eqn:E1; [|discriminate]. exists m, l1, q. split; [reflexivity|]. split; [exact I|]. split; [apply extends_refl|]. split; [exists []; rewrite app_nil_r; reflexivity|]. split; [apply mapE_some; exact E1|]. split; [left; apply visited_ok; exact Ev|auto].
    - destruct (makeState ordC prefer sts m e2 s') as [[m1 l1]|] eqn:E1; [|discriminate]. exists m1, l1, (q ++ [e2]). split; [reflexivity|].
      destruct (makeState_ok ordC prefer sts G Gmerge ND m e2 s' o s0 m1 l1 E1 I eq_refl J1 J2) as (X1 & X2 & X3 & X4). split; [exact X1|]. split; [exact X2|]. split; [exists [e2]; reflexivity|]. split; [exact X3|]. split; [right; apply in_or_app; right; left; reflexivity|].
      intros e' l' V1 V2. apply X4; [|apply nth_error_Some; congruence]. intros ->. assert (V3 := extends_nth _ _ _ _ X2 V2). assert (e' = e2) by congruence. subst e'. apply visited_ok in V1. congruence. }
  destruct M as (m1 & l1 & q1 & ME & X1 & X2 & (q2 & X3) & X4 & X5 & X6). rewrite ME in H. clear ME. destruct (nth_error (smSt m1) l) as [s1|] eqn:Hs1; [|discriminate]. injection H as <- <-.
  assert (S1 : s1 = s) by (rewrite (X6 e l Hv HK), Hs in Hs1; congruence). subst s1. assert (L1 : l < length (smSt m1)) by (apply nth_error_Some; congruence).
  assert (RX : extends m (mkSM (smKey m1) (setNth (smSt m1) l (retarget s i j l1)))) by (destruct X2 as [K2 X2]; exists K2; exact X2).
  split; [|split; [exact RX|split; [exists q2; exact X3|split]]].
  - apply Inv_set; [exact X1|]. intros e' s2 HK' HS'. destruct X1 as (_ & _ & X1). destruct (X1 l e' s2 HK' HS') as (s3 & Z1 & Z2). assert (s2 = s) by congruence. subst s2. exists s3. split; [exact Z1|]. apply (retarget_ok G _ _ _ _ _ _ t Z2 Ht); [apply nth_error_Some; congruence|].
    rewrite (nth_error_nth (smKey m1) l1 (0, []) X4). assert (Hk1 := extends_nth _ _ _ _ X2 Hk). rewrite (nth_error_nth (smKey m1) _ (0, []) Hk1). reflexivity.
  - intros e' l' V1 V2 N. cbn [smSt]. rewrite setNth_other by auto. apply (X6 e' l' V1 V2).
  - intros s2 E. assert (s2 = s) by congruence. subst s2. cbn [smSt]. exists (retarget s i j l1). split; [apply setNth_at; exact L1|]. split; [intros i' j' N; apply retarget_other; exact N|]. rewrite Ht. exists (mkT l1 (trst t) (tgrd t)). split; [apply retarget_at; exact Ht|].
    exists o, s0, (smKey m), s'. split; [exact J1|]. split; [exact J2|]. cbn zeta. cbn [ttgt]. change (afterPair (computeClockSize s') o (snd e) (mkT l1 (trst t) (tgrd t))) with e2. split; [exact X4|exact X5].
Qed.

Lemma stepAll_ok vis l e : forall ps m q m' q',
  Inv m -> nth_error (smKey m) l = Some e -> In e vis -> stepAll ordC prefer sts vis l (snd e) (m, q) ps = Some (m', q') ->
  Inv m' /\ extends m m' /\ (exists q2, q' = q ++ q2) /\
  (forall e' l', In e' vis -> nth_error (smKey m) l' = Some e' -> l' <> l -> nth_error (smSt m') l' = nth_error (smSt m) l') /\
  (forall s, nth_error (smSt m) l = Some s -> exists s', nth_error (smSt m') l = Some s' /\
     (forall i j t', transAt s' i j = Some t' -> exists t, transAt s i j = Some t) /\
     (forall i j t', transAt s' i j = Some t' -> goodT m' vis q' (snd e) t' \/ (~ In (i, j) ps /\ transAt s i j = Some t'))).
Proof using Gmerge ND.
  induction ps as [|[i j] ps IH]; intros m q m' q' I HK Hv H; cbn [stepAll] in H.
  - injection H as <- <-. split; [exact I|]. split; [apply extends_refl|]. split; [exists []; rewrite app_nil_r; reflexivity|]. split; [auto|]. intros s Hs. exists s. split; [exact Hs|]. split; [eauto|]. intros i j t' Ht. right. split; [intros []|exact Ht].
  - destruct (stepPos ordC prefer sts vis l (snd e) (m, q) (i, j)) as [[m1 q1]|] eqn:E1; [|discriminate].
    destruct (stepPos_ok vis l e m q i j m1 q1 I HK Hv E1) as (A1 & A2 & (qa & A3) & A4 & A5). assert (HK1 := extends_nth _ _ _ _ A2 HK).
    destruct (IH m1 q1 m' q' A1 HK1 Hv H) as (B1 & B2 & (qb & B3) & B4 & B5).
    split; [exact B1|]. split; [eapply extends_trans; eauto|]. split; [exists (qa ++ qb); rewrite B3, A3, app_assoc; reflexivity|]. split.
    + intros e' l' V1 V2 N. rewrite (B4 e' l' V1 (extends_nth _ _ _ _ A2 V2) N). apply (A4 e' l' V1 V2 N).
    + intros s Hs. destruct (A5 s Hs) as (s1 & C1 & C2 & C3). destruct (B5 s1 C1) as (s' & D1 & D2 & D3). exists s'. split; [exact D1|]. split.
      * intros i' j' t' Ht'. destruct (D2 i' j' t' Ht') as (t1 & Ht1). destruct (Nat.eq_dec i' i) as [->|Ni]; [destruct (Nat.eq_dec j' j) as [->|Nj]|]; [|rewrite C2 in Ht1 by congruence; eauto..].
        destruct (transAt s i j) as [t|] eqn:Ht; [eauto|]. congruence.
      * intros i' j' t' Ht'. destruct (D3 i' j' t' Ht') as [D|[D E]]; [left; exact D|].
        assert (CASE : (i', j') = (i, j) \/ (i', j') <> (i, j)) by (destruct (Nat.eq_dec i' i); destruct (Nat.eq_dec j' j); [left; congruence|right; congruence..]).
        destruct CASE as [CE|CE].
        -- injection CE as -> ->. destruct (transAt s i j) as [t|] eqn:Ht; [|congruence]. destruct C3 as (t2 & C3 & C4). assert (t2 = t') by congruence. subst t2. left. revert C4. apply goodT_mono; [exact B2|]. intros e0 [V|V]; [auto|]. right. rewrite B3. apply in_or_app. auto.
        -- right. split; [intros [Z|Z]; congruence|]. rewrite <- E. symmetry. apply C2. exact CE.
Qed.

(** what holds of the map, the visited pairs and the queue between two rounds *)
Definition LInv (m : smap) (vis q : list enh) : Prop :=
  Inv m /\ (forall e, In e vis -> In e (smKey m)) /\
  (forall e l s i j t, In e vis -> nth_error (smKey m) l = Some e -> nth_error (smSt m) l = Some s -> transAt s i j = Some t -> goodT m vis q (snd e) t).
Lemma splitLoop_ok : forall n vis m q m', splitLoop ordC prefer sts n vis (m, q) = Some m' -> LInv m vis q ->
  exists vis', LInv m' vis' [] /\ extends m m' /\ (forall e, In e vis \/ In e q -> In e vis').
Proof using Gmerge ND.
  induction n as [|n IH]; intros vis m q m' H LI; cbn [splitLoop fst snd] in H; destruct q as [|e q]; try discriminate.
  1,2: injection H as <-; exists vis; split; [exact LI|]; split; [apply extends_refl|]; intros e [V|[]]; exact V.
  destruct (mapE m e) as [l|] eqn:El; [|discriminate]. assert (HK := mapE_some _ _ _ El). destruct LI as (LA & LB & LC). destruct (visitedE vis e) eqn:Ev.
  - apply visited_ok in Ev. destruct (IH vis m q m' H) as (vis' & X1 & X2 & X3).
    + split; [exact LA|]. split; [exact LB|]. intros e' l' s i j t V1 V2 V3 V4. generalize (LC e' l' s i j t V1 V2 V3 V4). apply goodT_mono; [apply extends_refl|]. intros f [V|[<-|V]]; auto.
    + exists vis'. split; [exact X1|]. split; [exact X2|]. intros f [V|[<-|V]]; auto.
  - destruct (nth_error (smSt m) l) as [s|] eqn:Hs; [|discriminate]. destruct (stepAll ordC prefer sts (e :: vis) l (snd e) (m, q) (positions s)) as [[m1 q1]|] eqn:E1; [|discriminate].
    destruct (stepAll_ok (e :: vis) l e (positions s) m q m1 q1 LA HK (or_introl eq_refl) E1) as (A1 & A2 & (q2 & A3) & A4 & A5).
    assert (W : forall f, In f vis \/ In f (e :: q) -> In f (e :: vis) \/ In f q1).
    { intros f [V|[<-|V]]; [left; right; exact V|left; left; reflexivity|right; rewrite A3; apply in_or_app; auto]. }
    destruct (IH (e :: vis) m1 q1 m' H) as (vis' & X1 & X2 & X3).
    + split; [exact A1|]. split.
      * intros f [<-|V]; [eapply nth_error_In; eapply extends_nth; eauto|]. apply LB in V. destruct A2 as [K ->]. apply in_or_app. auto.
      * intros f l' s' i j t V1 V2 V3 V4. destruct (Nat.eq_dec l' l) as [->|N].
        -- assert (f = e) by (assert (HK1 := extends_nth _ _ _ _ A2 HK); congruence). subst f. destruct (A5 s Hs) as (s2 & C1 & C2 & C3). assert (s2 = s') by congruence. subst s2. destruct (C3 i j t V4) as [D|[D E]]; [exact D|]. exfalso. apply D. eapply positions_all; eauto.
        -- assert (L : nth_error (smKey m) l' = Some f).
           { assert (In f (smKey m)) as F by (destruct V1 as [<-|V1]; [eapply nth_error_In; exact HK|auto]). apply In_nth_error in F. destruct F as [l2 F]. assert (F2 := extends_nth _ _ _ _ A2 F). destruct A1 as (_ & NDK & _). assert (l2 = l'); [|congruence]. apply (proj1 (NoDup_nth_error (smKey m1)) NDK); [apply nth_error_Some; congruence|congruence]. }
           rewrite (A4 f l' V1 L N) in V3. destruct V1 as [<-|V1]; [exfalso; apply N; destruct LA as (_ & NDK & _); apply (proj1 (NoDup_nth_error (smKey m)) NDK); [apply nth_error_Some; congruence|congruence]|].
           generalize (LC f l' s' i j t V1 L V3 V4). apply goodT_mono; [exact A2|exact W].
    + exists vis'. split; [exact X1|]. split; [eapply extends_trans; eauto|]. intros f V. apply X3. apply W. exact V.
Qed.

(** the result: keys for the states *)
Lemma splitStates_ok n init A : splitStates ordC prefer sts n init = Some A -> exists m vis l0,
  tstates A = combine (seq 0 (length (smSt m))) (smSt m) /\ tinit A = [l0] /\ nth_error (smKey m) l0 = Some (init, [0]) /\ LInv m vis [] /\ In (init, [0]) vis.
Proof using Grefl Gmerge ND.
  unfold splitStates. destruct (newMap sts) as [m0|] eqn:E0; [|discriminate]. match goal with |- context [posOf ?f sts] => destruct (posOf f sts) as [l0|] eqn:EP end; [|discriminate]. destruct (splitLoop ordC prefer sts n [] (m0, [(init, [0])])) as [m|] eqn:EL; [|discriminate]. intro H. injection H as <-. cbn [tstates tinit].
  destruct (newMap_inv sts G Grefl ND m0 E0) as [I0 K0]. destruct (splitLoop_ok n [] m0 _ m EL) as (vis & X1 & X2 & X3).
  - split; [exact I0|]. split; [intros e []|intros e l s i j t []].
  - exists m, vis, l0. split; [reflexivity|]. split; [reflexivity|]. split; [|split; [exact X1|apply X3; right; left; reflexivity]]. apply (extends_nth _ _ _ _ X2).
    assert (KI : In (init, [0]) (smKey m0)).
    { destruct n; cbn [splitLoop snd fst] in EL; [discriminate|]. destruct (mapE m0 (init, [0])) as [l|] eqn:El; [|discriminate]. eapply nth_error_In. apply mapE_some. exact El. }
    apply posOf_some in EP. destruct EP as ([o s0] & P1 & P2). cbn [fst] in P2. apply Nat.eqb_eq in P2. subst o. change (nth_error sts l0 = Some (init, s0)) in P1.
    rewrite K0 in KI |- *. apply in_map_iff in KI. destruct KI as ([o s1] & Q1 & Q2). cbn [fst snd] in Q1. injection Q1 as -> Q1. assert (s1 = s0) by (eapply in_unique; [exact ND|exact Q2|eapply nth_error_In; exact P1]). subst s1.
    rewrite nth_error_map, P1. cbn [option_map fst snd]. rewrite Q1. reflexivity.
Qed.
End Loop.
