(** What the passes of the equivalence oracle keep: the clocks stay within the
    table of maximum constants, resets stay nonnegative and read no assigned
    clock. *)
From Coq Require Import QArith ZArith Bool List Arith Lqa Lia FinFun.
From Verif Require Import BoundsModel ConstraintModel GuardSpec ZoneModel AutomatonModel AutomatonSpec TimedWordModel TimedWordSpec ZoneGraphModel ZoneGraphSpec EquivModel.
From Verif Require Import BoundsProofs ConstraintProofs ConstraintProofs3 AutomatonProofs AutomatonProofs2 AutomatonProofs4 AutomatonProofs5 AutomatonProofs6 AutomatonProofs7 PropertiesProduct PropertiesSampling.
Import ListNotations.
Open Scope Q_scope.

(** what sampling needs of an automaton *)
Definition fitTA (A : ta) : Prop :=
  wfTA A /\ clocksBelow (length (tmax A)) A /\ nonnegResets A /\ readsKeptTA A.
(** fewer edges and a table that is not shorter *)
Definition subTA (B A : ta) : Prop := forall l a t, edge B l a t -> edge A l a t.
Lemma subTA_trans A B C : subTA C B -> subTA B A -> subTA C A.
Proof. intros H1 H2 l a t H. auto. Qed.
Lemma subTA_fit B A : subTA B A -> wfTA B -> (length (tmax A) <= length (tmax B))%nat -> fitTA A -> fitTA B.
Proof.
  intros S W L (_ & C & N & R). split; [auto|]. split; [|split].
  - intros l a t H. destruct (C l a t (S _ _ _ H)) as [C1 C2]. split; [intros k K; specialize (C1 k K); lia|].
    intros x r K. destruct (C2 x r K) as [C3 C4]. split; [lia|]. intros y Y. specialize (C4 y Y). lia.
  - intros l a t x q H. eapply N; eauto.
  - intros l a t H. eapply R; eauto.
Qed.

(** *** makeMaxConstants covers every clock *)
Lemma updNth_length {X} (f : X -> X) : forall n l, length (updNth n f l) = length l.
Proof. induction n; intros [|x l]; cbn; auto. Qed.
Lemma growMax_length m x : length (growMax m x) = Nat.max (length m) (S x).
Proof. unfold growMax. rewrite app_length, repeat_length. lia. Qed.
Lemma maxT_guard g : forall m, (length m <= length (fold_left (fun m k => updNth (cx k) (fun z => Z.max z (cc k)) (growMax m (cx k))) g m))%nat /\
  forall k, In k g -> (cx k < length (fold_left (fun m k => updNth (cx k) (fun z => Z.max z (cc k)) (growMax m (cx k))) g m))%nat.
Proof.
  induction g as [|k g IH]; intro m; cbn [fold_left]; [split; [auto|intros k []]|].
  destruct (IH (updNth (cx k) (fun z => Z.max z (cc k)) (growMax m (cx k)))) as [H1 H2]. rewrite updNth_length, growMax_length in H1.
  split; [lia|]. intros k' [<-|K]; [lia|auto].
Qed.
Definition rstGrow (m : list Z) (p : clock * rhs) : list Z :=
  let m' := growMax m (fst p) in match snd p with RVar y => growMax m' y | RConst _ => m' end.
Lemma maxT_rst rs : forall m, (length m <= length (fold_left rstGrow rs m))%nat /\
  forall x r, In (x, r) rs -> (x < length (fold_left rstGrow rs m))%nat /\ forall y, r = RVar y -> (y < length (fold_left rstGrow rs m))%nat.
Proof.
  induction rs as [|[x r] rs IH]; intro m; cbn [fold_left]; [split; [auto|intros ? ? []]|].
  destruct (IH (rstGrow m (x, r))) as [H1 H2]. assert (L : (length m <= length (rstGrow m (x, r)))%nat /\ (x < length (rstGrow m (x, r)))%nat /\ forall y, r = RVar y -> (y < length (rstGrow m (x, r)))%nat).
  { unfold rstGrow. cbn [fst snd]. cbv zeta. destruct r as [q|y]; rewrite ?growMax_length; (split; [lia|split; [lia|]]); intros z E; [discriminate|injection E as <-]; lia. }
  destruct L as (L1 & L2 & L3). split; [lia|]. intros x' r' [E|I]; [injection E as <- <-|apply H2; auto].
  split; [lia|]. intros y Y. specialize (L3 y Y). lia.
Qed.
Lemma maxConstT_spec m t : (length m <= length (maxConstT m t))%nat /\
  (forall k, In k (tgrd t) -> (cx k < length (maxConstT m t))%nat) /\
  (forall x r, In (x, r) (trst t) -> (x < length (maxConstT m t))%nat /\ forall y, r = RVar y -> (y < length (maxConstT m t))%nat).
Proof.
  unfold maxConstT. set (m1 := fold_left (fun m k => updNth (cx k) (fun z => Z.max z (cc k)) (growMax m (cx k))) (tgrd t) m). cbv zeta.
  destruct (maxT_guard (tgrd t) m) as [G1 G2]. fold m1 in G1, G2. change (fun (m : list Z) (p : clock * rhs) => match snd p with RConst _ => growMax m (fst p) | RVar y => growMax (growMax m (fst p)) y end) with rstGrow.
  destruct (maxT_rst (trst t) m1) as [R1 R2].
  split; [lia|]. split; [|exact R2]. intros k K. specialize (G2 k K). lia.
Qed.
Definition coversT (n : nat) (t : trans) : Prop :=
  (forall k, In k (tgrd t) -> (cx k < n)%nat) /\ (forall x r, In (x, r) (trst t) -> (x < n)%nat /\ forall y, r = RVar y -> (y < n)%nat).
Lemma coversT_le n m t : (n <= m)%nat -> coversT n t -> coversT m t.
Proof.
  intros L [H1 H2]. split; [intros k K; specialize (H1 k K); lia|]. intros x r K. destruct (H2 x r K) as [H3 H4]. split; [lia|].
  intros y Y. specialize (H4 y Y). lia.
Qed.
Lemma fold_covers {X} (f : list Z -> X -> list Z) (P : X -> trans -> Prop) :
  (forall m x, (length m <= length (f m x))%nat) -> (forall m x t, P x t -> coversT (length (f m x)) t) ->
  forall l m, (length m <= length (fold_left f l m))%nat /\ forall x t, In x l -> P x t -> coversT (length (fold_left f l m)) t.
Proof.
  intros H1 H2. induction l as [|x l IH]; intro m; cbn [fold_left]; [split; [auto|intros ? ? []]|].
  destruct (IH (f m x)) as [K1 K2]. specialize (H1 m x). split; [lia|]. intros y t [<-|I] Py; [|eauto]. eapply coversT_le; [exact K1|apply H2; auto].
Qed.
Lemma makeMax_covers sts l s a ts t : In (l, s) sts -> In (a, ts) (snext s) -> In t ts -> coversT (length (makeMaxConstants sts)) t.
Proof.
  intros I1 I2 I3. unfold makeMaxConstants.
  assert (F1 : forall ts m, (length m <= length (fold_left maxConstT ts m))%nat /\ forall x t, In x ts -> x = t -> coversT (length (fold_left maxConstT ts m)) t).
  { apply (fold_covers maxConstT (fun x t => x = t)); [intros; apply maxConstT_spec|]. intros m x t0 <-. split; apply maxConstT_spec. }
  assert (F2 : forall nx m, (length m <= length (fold_left (fun m e => fold_left maxConstT (snd e) m) nx m))%nat /\
    forall e t, In e nx -> In t (snd e) -> coversT (length (fold_left (fun m (e : letter * list trans) => fold_left maxConstT (snd e) m) nx m)) t).
  { apply (fold_covers (fun m (e : letter * list trans) => fold_left maxConstT (snd e) m) (fun e t => In t (snd e))); [intros; apply F1|].
    intros m x t0 H. eapply (proj2 (F1 _ _)); eauto. }
  refine (proj2 (fold_covers (fun m (p : loc * tastate) => fold_left (fun m e => fold_left maxConstT (snd e) m) (snext (snd p)) m)
    (fun p t => exists e, In e (snext (snd p)) /\ In t (snd e)) _ _ sts []) (l, s) t I1 _).
  - intros; apply F2.
  - intros m x t0 (e & H1 & H2). eapply (proj2 (F2 _ _)); eauto.
  - exists (a, ts). auto.
Qed.

(** *** the simplifications *)
Lemma simplifyTransitions_sub A : subTA (simplifyTransitions A) A.
Proof.
  intros l a t H. apply (proj1 (mapTs_edge simplifyTs A l a t)) in H. destruct H as (s & ts & H1 & H2 & H3). apply simplifyTs_sub in H3. exists s, ts. auto.
Qed.
Lemma fit_simplifyTransitions A : fitTA A -> fitTA (simplifyTransitions A).
Proof. intro F. eapply subTA_fit; [apply simplifyTransitions_sub|apply simplifyTransitions_wf, F|apply le_n|exact F]. Qed.
Lemma unreach_sub A : subTA (removeTriviallyUnreachableStates A) A.
Proof.
  intros l a t H. destruct (unreach_cases A) as [[E _]|[_ E]]; [rewrite E in H; exact H|].
  apply (filter_states_edge _ _ _ _ _ _ E) in H. destruct H as (s & ts & H1 & _ & H2 & H3). exists s, ts. auto.
Qed.
Lemma fit_unreach A : fitTA A -> fitTA (removeTriviallyUnreachableStates A).
Proof.
  intros F. assert (W : wfTA (removeTriviallyUnreachableStates A)) by (apply unreach_wf, F).
  destruct F as (W0 & C & N & R). split; [exact W|]. split; [|split].
  - intros l a t H. assert (H0 := unreach_sub A l a t H). unfold removeTriviallyUnreachableStates in *. destruct (_ =? _)%nat; [apply (C l a t H0)|].
    cbn [tmax tstates] in *. destruct H as (s & ts & H1 & H2 & H3). apply (makeMax_covers _ l s a ts t H1 H2 H3).
  - intros l a t x q H. eapply N. apply unreach_sub; eauto.
  - intros l a t H. eapply R. apply unreach_sub; eauto.
Qed.
Lemma deadStates_sub A : wfTA A -> subTA (removeTriviallyDeadStates A) A.
Proof.
  intros W l a t H. unfold removeTriviallyDeadStates in H. destruct (_ =? _)%nat; [exact H|].
  destruct H as (s & ts & H1 & H2 & H3). cbn [tstates] in H1. apply in_map_iff in H1. destruct H1 as ([l0 s0] & E & H1). cbn [fst snd] in E. injection E as <- <-.
  apply filter_In in H1. destruct H1 as [H1 _]. cbn [snext] in H2. unfold eraseTo in H2. apply filter_In in H2. destruct H2 as [H2 _].
  unfold mapNext in H2. apply in_map_iff in H2. destruct H2 as ([a0 ts0] & E & H2). cbn [fst snd] in E. injection E as <- <-. apply filter_In in H3. destruct H3 as [H3 _].
  exists s0, ts0. auto.
Qed.
Lemma fit_deadStates A : fitTA A -> fitTA (removeTriviallyDeadStates A).
Proof.
  intro F. eapply subTA_fit; [apply deadStates_sub, F|apply deadStates_ok, F| |exact F]. unfold removeTriviallyDeadStates. destruct (_ =? _)%nat; reflexivity.
Qed.
Lemma fit_deadLoop A : fitTA A -> fitTA (removeDeadLoop A).
Proof.
  intro F. eapply subTA_fit; [|apply deadLoop_wf, F| |exact F]; [|reflexivity].
  intros l a t H. apply deadLoop_edge in H; [tauto|apply F].
Qed.
Lemma useless1_sub A l0 : subTA (removeUseless1 A l0) A.
Proof.
  intros l a t H. unfold removeUseless1 in H. destruct (memb l0 (tinit A)); [exact H|]. destruct (lookup A l0); [|exact H]. destruct (onlySelf _ _); [|exact H].
  destruct H as (s & ts & H1 & H2 & H3). cbn [tstates] in H1. apply in_map_iff in H1. destruct H1 as ([l1 s0] & E & H1). cbn [fst snd] in E. injection E as <- <-.
  apply filter_In in H1. destruct H1 as [H1 _]. cbn [snext] in H2. unfold eraseTo in H2. apply filter_In in H2. destruct H2 as [H2 _].
  unfold mapNext in H2. apply in_map_iff in H2. destruct H2 as ([a0 ts0] & E & H2). cbn [fst snd] in E. injection E as <- <-. apply filter_In in H3. destruct H3 as [H3 _].
  exists s0, ts0. auto.
Qed.
Lemma useless_sub ls : forall A, subTA (fold_left removeUseless1 ls A) A /\ tmax (fold_left removeUseless1 ls A) = tmax A.
Proof.
  induction ls as [|l ls IH]; intro A; cbn [fold_left]; [split; [intros ? ? ? H; exact H|reflexivity]|]. destruct (IH (removeUseless1 A l)) as [H1 H2]. split.
  - eapply subTA_trans; [exact H1|apply useless1_sub].
  - rewrite H2. unfold removeUseless1. destruct (memb _ _); [reflexivity|]. destruct (lookup _ _); [|reflexivity]. destruct (onlySelf _ _); reflexivity.
Qed.
Lemma fit_useless A : fitTA A -> fitTA (removeUselessTransitions A).
Proof.
  intro F. eapply subTA_fit; [apply useless_sub|apply useless_ok, F| |exact F]. unfold removeUselessTransitions. rewrite (proj2 (useless_sub _ A)). apply le_n.
Qed.
Lemma compactMax_length A : clocksBelow (length (tmax A)) A -> length (compactMax (usedClocks A) (tmax A)) = length (usedClocks A).
Proof.
  intro C. assert (U : forall x, In x (usedClocks A) -> (x < length (tmax A))%nat).
  { intros x I. apply usedClocks_in in I. destruct I as (t & I1 & I2). apply allTrans_iff in I1. destruct I1 as (l & a & He). destruct (C l a t He) as [C1 C2].
    unfold usedInT in I2. apply in_app_or in I2. destruct I2 as [I2|I2].
    - apply in_map_iff in I2. destruct I2 as (k & <- & K). auto.
    - apply in_flat_map in I2. destruct I2 as ([y [q|z]] & I3 & I4); [destruct I4|]. destruct I4 as [<-|[]]. apply (C2 y (RVar z) I3). reflexivity. }
  unfold compactMax. rewrite firstn_length.
  assert (L : forall is m, length (fold_left (fun m i => updNth i (fun _ => nth (nth i (usedClocks A) 0%nat) m 0%Z) m) is m) = length m).
  { induction is as [|i is IH]; intro m; cbn [fold_left]; [reflexivity|]. rewrite IH. apply updNth_length. }
  rewrite L. apply Nat.min_l. apply sorted_len; [apply usedClocks_sorted|exact U].
Qed.
Lemma renResets_keys u rs : NoDup (map fst rs) ->
  NoDup (map fst (map (fun p : clock * rhs => (renClock u (fst p), match snd p with RConst q => RConst q | RVar y => RVar (renClock u y) end)) (filter (fun p => memb (fst p) u) rs))).
Proof.
  intro ND. rewrite map_map. cbn [fst]. induction rs as [|[x r] rs IH]; cbn [filter map]; [constructor|].
  cbn [map fst] in ND. inversion ND as [|? ? N1 N2]; subst. cbn [fst]. destruct (memb x u) eqn:E; [|auto]. cbn [map fst]. constructor; [|auto].
  intro K. apply in_map_iff in K. destruct K as ([y r'] & E1 & K). cbn [fst] in E1. apply filter_In in K. destruct K as [K1 K2]. cbn [fst] in K2.
  apply memb_in in E, K2. apply renClock_inj in E1; auto. subst y. apply N1. apply in_map_iff. exists (x, r'). auto.
Qed.
Lemma fit_unused A : fitTA A -> fitTA (removeUnusedClockVariables A).
Proof.
  intros (W & C & N & R). split; [apply unused_wf, W|]. split; [|split].
  - intros l a t H. unfold removeUnusedClockVariables at 1 2 3. cbn [tmax]. rewrite (compactMax_length A C).
    assert (K := fun x => unused_clocks A l a t x H). split; [intros k I; apply K; left; apply in_map; auto|].
    intros x r I. split; [apply K; right; left; apply in_map_iff; exists (x, r); auto|]. intros y ->. apply K. right; right. exists x. auto.
  - intros l a t x q H I. apply unused_edge in H. destruct H as (t0 & H & ->). cbn [renTrans trst] in I. apply in_map_iff in I.
    destruct I as ([y [q'|z]] & E & I); cbn [fst snd] in E; [|discriminate]. injection E as _ <-. apply filter_In in I. eapply N; [exact H|apply I].
  - intros l a t H. apply unused_edge in H. destruct H as (t0 & H & ->). assert (Hu := unused_used A l a t0 H). destruct (R l a t0 H) as [R1 R2].
    cbn [renTrans trst]. split; [apply renResets_keys; auto|].
    intros x y I J. apply in_map_iff in I. destruct I as ([x0 [q|y0]] & E & I); cbn [fst snd] in E; [discriminate|]. injection E as <- <-. apply filter_In in I. destruct I as [I I2]. cbn [fst] in I2.
    rewrite map_map in J. cbn [fst] in J. apply in_map_iff in J. destruct J as ([z r] & E & J). cbn [fst] in E. apply filter_In in J. destruct J as [J J2]. cbn [fst] in J2. apply memb_in in J2.
    assert (Y : In y0 (usedClocks A)). { apply Hu. unfold usedInT. apply in_or_app. right. apply in_flat_map. exists (x0, RVar y0). split; [auto|left; reflexivity]. }
    apply renClock_inj in E; auto. subst z. apply (R2 x0 y0 I). apply in_map_iff. exists (y0, r). auto.
Qed.
Lemma fit_simplify A : fitTA A -> fitTA (taSimplify A).
Proof. intro F. apply fit_unused, fit_unreach, fit_simplifyTransitions, F. Qed.
Lemma fit_simplifyStrong A : fitTA A -> fitTA (taSimplifyStrong A).
Proof. intro F. apply fit_unused, fit_useless, fit_deadLoop, fit_deadStates, fit_unreach, fit_simplifyTransitions, F. Qed.

(** *** the upper bounds of unobservable transitions *)
Lemma addUB_clocks g k : In k (addUpperBound g) -> exists k', In k' g /\ cx k' = cx k.
Proof.
  unfold addUpperBound. intro H. apply in_app_or in H. destruct H as [H|H]; [eauto|]. apply in_flat_map in H. destruct H as (x & I & H).
  unfold clocksOf in I. apply nodup_In, in_map_iff in I. destruct I as (k' & E & I). exists k'. split; [auto|]. subst x.
  destruct (onClock g (cx k')) as [|k1 [|? ?]]; [destruct H| |destruct H]. destruct (isUpper k1); [destruct H|]. destruct (codr k1); destruct H as [<-|[]]; reflexivity.
Qed.
Lemma ub_edge A l a t : edge (addUpperBoundUnobs A) l a t ->
  exists t0, edge A l a t0 /\ ttgt t = ttgt t0 /\ trst t = trst t0 /\ (tgrd t = tgrd t0 \/ tgrd t = addUpperBound (tgrd t0)).
Proof.
  intros (s & ts & H1 & H2 & H3). unfold addUpperBoundUnobs, mapStates in H1. cbn [tstates] in H1. apply in_map_iff in H1. destruct H1 as ([l0 s0] & E & H1). cbn [fst snd] in E. injection E as <- <-.
  cbn [snext] in H2. apply in_map_iff in H2. destruct H2 as ([a0 ts0] & E & H2). unfold boundSilent in E. cbn [fst snd] in E. destruct (a0 =? UNOBSERVABLE)%nat.
  - injection E as <- <-. apply in_map_iff in H3. destruct H3 as (t0 & <- & H3). exists t0. split; [exists s0, ts0; auto|]. cbn. auto.
  - injection E as <- <-. exists t. split; [exists s0, ts0; auto|]. auto.
Qed.
Lemma ub_acc A l : accepting (addUpperBoundUnobs A) l <-> accepting A l.
Proof.
  unfold accepting, addUpperBoundUnobs, mapStates. cbn [tstates]. split.
  - intros (s & H & M). apply in_map_iff in H. destruct H as ([l0 s0] & E & H). cbn [fst snd] in E. injection E as <- <-. exists s0. auto.
  - intros (s & H & M). exists (mkS (isMatch s) (map boundSilent (snext s))). split; [|exact M]. apply in_map_iff. exists (l, s). auto.
Qed.
Lemma ub_lang A d0 w : accepts (addUpperBoundUnobs A) d0 w -> accepts A d0 w.
Proof.
  assert (F : forall a c c', fire (addUpperBoundUnobs A) a c c' -> fire A a c c').
  { intros a c c' (t & H & G & E & R). apply ub_edge in H. destruct H as (t0 & H & E1 & E2 & E3). exists t0. split; [auto|]. split; [|split; [congruence|rewrite <- E2; auto]].
    destruct E3 as [E3|E3]; rewrite E3 in G; [exact G|]. apply addUpperBound_stronger; auto. }
  assert (FL : forall c d c', flow (addUpperBoundUnobs A) c d c' -> flow A c d c').
  { induction 1; [constructor; auto|]. eapply flow_silent; eauto. }
  assert (R : forall c u c', run (addUpperBoundUnobs A) c u c' -> run A c u c').
  { induction 1; [constructor|]. econstructor; eauto. }
  intros (l0 & c0 & c & I & H1 & H2 & H3). exists l0, c0, c. split; [exact I|]. split; [auto|]. split; [auto|]. apply ub_acc, H3.
Qed.
Lemma ub_fst A : map fst (tstates (addUpperBoundUnobs A)) = map fst (tstates A).
Proof. unfold addUpperBoundUnobs, mapStates. cbn [tstates]. rewrite map_map. reflexivity. Qed.
Lemma ub_wf A : wfTA A -> wfTA (addUpperBoundUnobs A).
Proof.
  intros (W1 & W2 & W3 & W4). split; [rewrite ub_fst; auto|]. split; [|split].
  - intros l s H. unfold addUpperBoundUnobs, mapStates in H. cbn [tstates] in H. apply in_map_iff in H. destruct H as ([l0 s0] & E & H). cbn [fst snd] in E. injection E as <- <-.
    cbn [snext]. rewrite map_map. erewrite map_ext; [apply (W2 l0 s0 H)|]. intros [a ts]. unfold boundSilent. cbn [fst snd]. destruct (a =? UNOBSERVABLE)%nat; reflexivity.
  - intros l a t H. apply ub_edge in H. destruct H as (t0 & H & -> & _). rewrite ub_fst. eauto.
  - intros l H. rewrite ub_fst. apply W4. exact H.
Qed.
Lemma fit_ub A : fitTA A -> fitTA (addUpperBoundUnobs A).
Proof.
  intros (W & C & N & R). split; [apply ub_wf, W|]. split; [|split].
  - intros l a t H. apply ub_edge in H. destruct H as (t0 & H & _ & E2 & E3). destruct (C l a t0 H) as [C1 C2]. rewrite E2. split; [|exact C2].
    intros k K. destruct E3 as [E3|E3]; rewrite E3 in K; [apply C1; auto|]. apply addUB_clocks in K. destruct K as (k' & K & <-). apply C1; auto.
  - intros l a t x q H. apply ub_edge in H. destruct H as (t0 & H & _ & E2 & _). rewrite E2. eauto.
  - intros l a t H. apply ub_edge in H. destruct H as (t0 & H & _ & E2 & _). rewrite E2. eauto.
Qed.

(** *** the product *)
Lemma fit_product A B : fitTA A -> fitTA B -> fitTA (intersectionTA A B).
Proof.
  intros (WA & CA & NA & RA) (WB & CB & NB & RB). split; [apply prod_wf; auto|]. split; [apply C25_product_clocks; auto|].
  assert (SH : forall rs x r, In (x, r) (map (shiftReset (length (tmax A))) rs) -> exists x0 r0, In (x0, r0) rs /\ x = (x0 + length (tmax A))%nat /\ r = shiftRhs (length (tmax A)) r0).
  { intros rs x r I. apply in_map_iff in I. destruct I as ([x0 r0] & E & I). unfold shiftReset in E. cbn [fst snd] in E. injection E as <- <-. eauto. }
  split.
  - intros L a t x q H. apply prod_edge in H; auto. destruct H as (l1 & l2 & -> & H).
    assert (K : forall r1 r2 g1 g2 tg, (forall x q, In (x, RConst q) r1 -> 0 <= q) -> (forall x q, In (x, RConst q) r2 -> 0 <= q) ->
      In (x, RConst q) (trst (prodTrans (length (tmax A)) tg r1 r2 g1 g2)) -> 0 <= q).
    { intros r1 r2 g1 g2 tg H1 H2 I. cbn [prodTrans trst] in I. apply in_app_or in I. destruct I as [I|I]; [eauto|]. apply SH in I. destruct I as (x0 & [q0|y0] & I & _ & E); [|discriminate].
      injection E as <-. eauto. }
    destruct H as [e1 -> He I ->|e2 -> He I ->|e1 e2 He1 He2 ->]; apply K; eauto; intros ? ? [].
  - intros L a t H. apply prod_edge in H; auto. destruct H as (l1 & l2 & -> & H).
    assert (K : forall (r1 r2 : resets) g1 g2 tg,
      (forall x r, In (x, r) r1 -> (x < length (tmax A))%nat /\ forall y, r = RVar y -> (y < length (tmax A))%nat) ->
      (NoDup (map fst r1) /\ forall x y, In (x, RVar y) r1 -> ~ In y (map fst r1)) -> (NoDup (map fst r2) /\ forall x y, In (x, RVar y) r2 -> ~ In y (map fst r2)) ->
      NoDup (map fst (trst (prodTrans (length (tmax A)) tg r1 r2 g1 g2))) /\
      forall x y, In (x, RVar y) (trst (prodTrans (length (tmax A)) tg r1 r2 g1 g2)) -> ~ In y (map fst (trst (prodTrans (length (tmax A)) tg r1 r2 g1 g2)))).
    { intros r1 r2 g1 g2 tg B1 [D1 K1] [D2 K2]. cbn [prodTrans trst]. rewrite map_app, map_map.
      assert (F2 : forall x, In x (map (fun p => fst (shiftReset (length (tmax A)) p)) r2) -> exists x0, In x0 (map fst r2) /\ x = (x0 + length (tmax A))%nat).
      { intros x I. apply in_map_iff in I. destruct I as ([x0 r0] & <- & I). exists x0. split; [apply in_map_iff; exists (x0, r0); auto|reflexivity]. }
      assert (F1 : forall x, In x (map fst r1) -> (x < length (tmax A))%nat).
      { intros x I. apply in_map_iff in I. destruct I as ([x0 r0] & <- & I). exact (proj1 (B1 x0 r0 I)). }
      split.
      - assert (D3 : NoDup (map (fun p => fst (shiftReset (length (tmax A)) p)) r2)).
        { replace (map (fun p => fst (shiftReset (length (tmax A)) p)) r2) with (map (fun x => (x + length (tmax A))%nat) (map fst r2)) by (rewrite map_map; reflexivity).
          apply FinFun.Injective_map_NoDup; [|auto]. intros x y E. lia. }
        clear -D1 D3 F1 F2. set (k1 := map fst r1) in *. induction k1 as [|x l IH]; cbn [app]; [exact D3|]. inversion D1; subst. constructor.
        + intro I. apply in_app_or in I. destruct I as [I|I]; [auto|]. apply F2 in I. destruct I as (x0 & _ & E). specialize (F1 x (or_introl eq_refl)). lia.
        + apply IH; [auto|intros; apply F1; right; auto].
      - intros x y I J. apply in_app_or in I. apply in_app_or in J. destruct I as [I|I].
        + destruct (B1 _ _ I) as [_ B2]. specialize (B2 y eq_refl). destruct J as [J|J]; [apply (K1 x y I J)|]. apply F2 in J. destruct J as (x0 & _ & E). lia.
        + apply SH in I. destruct I as (x0 & [q0|y0] & I & _ & E); [discriminate|]. injection E as ->. destruct J as [J|J]; [apply F1 in J; lia|].
          apply F2 in J. destruct J as (z & J & E). assert (z = y0) by lia. subst z. apply (K2 x0 y0 I J). }
    assert (NIL : NoDup (map fst (@nil (clock * rhs))) /\ forall x y, In (x, RVar y) (@nil (clock * rhs)) -> ~ In y (map fst (@nil (clock * rhs)))) by (split; [constructor|intros ? ? []]).
    destruct H as [e1 -> He I ->|e2 -> He I ->|e1 e2 He1 He2 ->]; apply K; eauto; try (apply (proj2 (CA _ _ _ He))); try (apply (proj2 (CA _ _ _ He1))).
    intros ? ? [].
Qed.

(** *** the complement *)
Definition below (n : nat) (g : guard) : Prop := forall k, In k g -> (cx k < n)%nat.
Lemma toBounds_length g : forall t n, (length t <= n)%nat -> below n g -> (length (fold_left toBoundsStep g t) <= n)%nat.
Proof.
  induction g as [|k g IH]; intros t n H B; cbn [fold_left]; [auto|]. apply IH; [|intros k' I; apply B; right; auto].
  unfold toBoundsStep. rewrite updNth_length. unfold resizeBounds. rewrite app_length, repeat_length. specialize (B k (or_introl eq_refl)). lia.
Qed.
Lemma simplify_below n g : below n g -> below n (simplify g).
Proof.
  intros B k I. assert (L := toBounds_length g [] n (Nat.le_0_l n) B). fold (toBounds g) in L. unfold simplify in I. apply in_app_or in I.
  destruct I as [I|I]; apply in_flat_map in I; destruct I as (i & S & I); apply in_seq in S.
  - unfold rowLower in I. destruct (ib_eqb _ _); [destruct I|]. destruct (snd _); destruct I as [<-|[]]; cbn [cx]; lia.
  - unfold rowUpper in I. destruct (ib_eqb _ _); [destruct I|]. destruct (snd _); destruct I as [<-|[]]; cbn [cx]; lia.
Qed.
Lemma eraseStronger_sub rest : forall kept g, In g (eraseStronger kept rest) -> In g kept \/ In g rest.
Proof.
  induction rest as [|h r IH]; intros kept g H; cbn [eraseStronger] in H; [auto|]. destruct (_ || _)%bool.
  - apply IH in H. destruct H; [auto|right; right; auto].
  - apply IH in H. destruct H as [H|H]; [|right; right; auto]. apply in_app_or in H. destruct H as [H|[<-|[]]]; [auto|right; left; auto].
Qed.
Lemma cnfToDnf_below n : forall cnf b dnf, (forall g, In g cnf -> below n g) -> (forall g, In g dnf -> below n g) -> forall g, In g (cnfToDnf b dnf cnf) -> below n g.
Proof.
  induction cnf as [|d cnf IH]; intros b dnf H1 H2 g I; cbn [cnfToDnf] in I; [auto|]. assert (H1' : forall g, In g cnf -> below n g) by (intros; apply H1; right; auto).
  assert (Hd := H1 d (or_introl eq_refl)). destruct d as [|k d]; [exact (IH _ _ H1' H2 g I)|]. destruct b.
  - refine (IH _ _ H1' _ g I). intros g' K. apply in_map_iff in K. destruct K as (k' & <- & K). intros k2 [<-|[]]. apply Hd; auto.
  - refine (IH _ _ H1' _ g I). intros g' K. apply eraseStronger_sub in K. destruct K as [[]|K].
    unfold dnfProduct in K. apply in_flat_map in K. destruct K as (k' & K1 & K). apply in_flat_map in K. destruct K as (c & K2 & K). cbv zeta in K.
    destruct (satisfiable _); [|destruct K]. destruct K as [<-|[]]. apply simplify_below. intros k2 K3. apply in_app_or in K3. destruct K3 as [K3|[<-|[]]]; [apply (H2 c K2); auto|apply Hd; auto].
Qed.
Lemma negateDNF_below n gs : (forall g, In g gs -> below n g) -> forall g, In g (negateDNF gs) -> below n g.
Proof.
  intros H. apply cnfToDnf_below; [|intros ? []]. intros g I. apply in_map_iff in I. destruct I as (g0 & <- & I). intros k K. unfold negateAll in K. apply in_map_iff in K. destruct K as (k0 & <- & K).
  rewrite cnegate_clock. apply (H g0 I); auto.
Qed.
Lemma collectGuards_sub ts : forall acc g, In g (collectGuards acc ts) -> In g acc \/ exists t, In t ts /\ g = tgrd t.
Proof.
  induction ts as [|t ts IH]; intros acc g H; cbn [collectGuards] in H; [auto|]. destruct (tgrd t) as [|k r] eqn:E; [destruct H|]. apply IH in H.
  destruct H as [H|(t' & I & ->)]; [|right; exists t'; split; [right; auto|auto]]. apply in_app_or in H. destruct H as [H|[<-|[]]]; [auto|]. right. exists t. split; [left; auto|auto].
Qed.
Lemma mcFold_below n sink unobs : forall al nx, (forall g, In g unobs -> below n g) -> (forall b u, nedge nx b u -> below n (tgrd u)) -> NoDup (map fst nx) ->
  forall b u, nedge (fold_left (mcAction sink unobs) al nx) b u -> below n (tgrd u).
Proof.
  induction al as [|a al IH]; intros nx H1 H2 ND b u H; cbn [fold_left] in H; [eauto|]. refine (IH _ H1 _ _ b u H); [|apply mcAction_nodup; auto]. clear b u H.
  intros b u H. apply mcAction_edges in H. destruct H as [H|[-> [(_ & _ & ->)|(_ & _ & g & I & ->)]]]; [eauto|intros ? []|].
  cbn [tgrd]. revert g I. apply negateDNF_below. intros g I. apply collectGuards_sub in I. destruct I as [I|(t & I & ->)]; [auto|].
  apply (H2 a). apply nfind_iff; auto.
Qed.
Lemma fit_complement A al : fitTA A -> fitTA (complement A al).
Proof.
  intros (W & C & N & R). assert (WM : wfTA (makeComplete A al)) by (apply mc_wf; auto).
  assert (GB : forall l a t, edge (complement A al) l a t -> below (length (tmax A)) (tgrd t)).
  { intros l a t H. apply compl_edge in H. apply edge_nedge in H. destruct H as (s & H & K). apply mc_in in H.
    assert (BS : forall l s, In (l, s) (tstates A) -> forall b u, nedge (snext s) b u -> below (length (tmax A)) (tgrd u)).
    { intros l' s' I b u E. refine (proj1 (C l' b u _)). apply edge_nedge. eauto. }
    assert (M : forall s0, NoDup (map fst (snext s0)) -> (forall b u, nedge (snext s0) b u -> below (length (tmax A)) (tgrd u)) -> nedge (snext (mcState (freshLoc A) al s0)) a t -> below (length (tmax A)) (tgrd t)).
    { intros s0 ND B0 E. unfold mcState in E. cbn [snext] in E. revert E. apply mcFold_below; auto. intros g I.
      apply collectGuards_sub in I. destruct I as [[]|(t' & I & ->)].
      apply (B0 UNOBSERVABLE). apply nfind_iff; auto. }
    destruct H as [(s0 & H & ->)|[-> ->]]; (apply (M _) in K; [exact K| |]).
    - apply (proj1 (proj2 W) l s0 H).
    - apply (BS l s0 H).
    - constructor.
    - intros b u (ts & [] & _). }
  assert (RS : forall l a t, edge (complement A al) l a t -> trst t = [] \/ exists t0, edge A l a t0 /\ trst t = trst t0).
  { intros l a t H. apply compl_edge in H. apply mc_edge_inv in H; auto. destruct H as [H|(_ & _ & H)]; eauto. }
  split.
  { destruct WM as (W1 & W2 & W3 & W4).
    assert (EF : map fst (tstates (complement A al)) = map fst (tstates (makeComplete A al))) by (unfold complement, mapStates; cbn [tstates]; rewrite map_map; reflexivity).
    split; [rewrite EF; auto|]. split; [|split].
    - intros l s H. unfold complement, mapStates in H. cbn [tstates] in H. apply in_map_iff in H. destruct H as ([l0 s0] & E & H). cbn [fst snd] in E. injection E as <- <-. cbn [snext]. eauto.
    - intros l a t H. rewrite EF. apply compl_edge in H. eauto.
    - intros l H. rewrite EF. apply W4. exact H. }
  split; [|split].
  - intros l a t H. split; [exact (GB l a t H)|]. intros x r I. destruct (RS l a t H) as [E|(t0 & H0 & E)]; rewrite E in I; [destruct I|]. apply (proj2 (C l a t0 H0) x r I).
  - intros l a t x q H I. destruct (RS l a t H) as [E|(t0 & H0 & E)]; rewrite E in I; [destruct I|]. eauto.
  - intros l a t H. destruct (RS l a t H) as [E|(t0 & H0 & E)]; rewrite E; [split; [constructor|intros ? ? []]|]. apply (R l a t0 H0).
Qed.

(** *** one direction *)
Lemma sampleOf_sound fuel pick A w : picks pick -> fitTA A -> sampleOf fuel pick A = Some (Some w) -> accepts A (firstDur w) (events w) /\ observable (events w).
Proof.
  intros PK (W & C & N & R) H. unfold sampleOf in H. destruct (ta2za fuel true pick A) as [s|] eqn:E; [|discriminate]. injection H as H.
  eapply C48_sampled_words_are_accepted; eauto.
Qed.
Lemma subset_sound fuel pick A B w : picks pick -> fitTA A -> fitTA B -> eqSubset fuel pick A B = Some (Some w) ->
  accepts A (firstDur w) (events w) /\ accepts B (firstDur w) (events w) /\ observable (events w).
Proof.
  intros PK FA FB H. assert (FP := fit_product A B FA FB). apply sampleOf_sound in H; [|auto|apply fit_ub, fit_simplifyStrong, FP]. destruct H as [H O].
  apply ub_lang in H. apply (proj1 (taSimplifyStrong_ok _ (proj1 FP))) in H. apply prod_exact in H; [tauto|apply FA|apply FB|apply FA|exact O].
Qed.
Lemma superset_sound fuel pick A B al w : picks pick -> fitTA A -> fitTA B -> eqSuperset fuel pick A B al = Some (Some w) ->
  accepts A (firstDur w) (events w) /\ accepts (complement B al) (firstDur w) (events w) /\ observable (events w).
Proof.
  intros PK FA FB H. assert (FC := fit_complement B al FB). assert (FP := fit_product A (complement B al) FA FC).
  assert (F2 := fit_ub _ (fit_simplifyStrong _ FP)). apply sampleOf_sound in H; [|auto|apply fit_simplify, F2]. destruct H as [H O].
  apply (proj1 (taSimplify_ok _ (proj1 F2))) in H. apply ub_lang in H. apply (proj1 (taSimplifyStrong_ok _ (proj1 FP))) in H. apply prod_exact in H; [tauto|apply FA|apply FC|apply FA|exact O].
Qed.
(** durations of accepted words are nonnegative, letters are those of the automaton *)
Lemma flow_nonneg A c d c' : flow A c d c' -> 0 <= d.
Proof. induction 1; [auto|lra]. Qed.
Lemma run_word A c w c' : run A c w c' -> forall a d, In (a, d) w -> 0 <= d /\ exists l t, edge A l a t.
Proof.
  induction 1 as [|c a d c1 c2 w c' F FL R IH]; intros b e I; [destruct I|]. destruct I as [E|I]; [injection E as <- <-|auto]. split; [eapply flow_nonneg; eauto|].
  destruct F as (t & He & _). eauto.
Qed.
Lemma accepts_over A al d0 w : accepts A d0 w -> observable w -> (forall l a t, edge A l a t -> a = UNOBSERVABLE \/ In a al) -> wordOver al d0 w.
Proof.
  intros (l0 & c0 & c & _ & FL & R & _) O H. split; [eapply flow_nonneg; eauto|]. intros a d I. destruct (run_word A _ _ _ R a d I) as [N (l & t & E)]. split; [|exact N].
  destruct (H l a t E) as [->|K]; [|exact K]. exfalso. apply (O _ _ I). reflexivity.
Qed.
