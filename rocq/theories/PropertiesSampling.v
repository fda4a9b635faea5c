(** C48, C49: the timed words sampled from zone automata (counterexamples of the
    equivalence oracle) are accepted by the automaton. *)
From Coq Require Import QArith ZArith Bool List Lqa Lia.
From Verif Require Import BoundsModel ConstraintModel GuardSpec BoundsProofs ConstraintProofs ZoneModel ZoneSpec ZoneProofs ZoneProofs2 ZoneProofs3 ZoneProofs4 ZoneProofs5 SampleProofs AutomatonModel AutomatonSpec AutomatonProofs AutomatonProofs7 TimedWordModel TimedWordSpec TimedWordProofs ZoneGraphModel ZoneGraphSpec ZoneGraphProofs ReconstructProofs ReconstructProofs2 PropertiesAutomata PropertiesZoneGraph.
Import ListNotations.
Open Scope Q_scope.

Lemma absorb_observable u : forall q es a, In a (tw (absorb [] [q] u es)) -> a <> UNOBSERVABLE.
Proof.
  induction u as [|b u IH]; intros q es a H; [destruct H|]. destruct es as [|e es]; [destruct H|]. rewrite absorb_cons in H.
  destruct (Nat.eqb b UNOBSERVABLE) eqn:E; [eauto|]. cbn [tw] in H. destruct H as [<-|H]; [apply Nat.eqb_neq; auto|eauto].
Qed.
Lemma mkTimedWord_observable u ds : observable (events (mkTimedWord u ds)).
Proof.
  intros a d H. unfold events in H. apply in_combine_l in H. destruct ds as [|q ds]; [destruct H|]. eapply absorb_observable; exact H.
Qed.
Lemma reconstruct_observable r w : reconstructWord r = Some w -> observable (events w).
Proof.
  unfold reconstructWord. destruct (negb _); [discriminate|]. destruct (reconLoop _ _ _); [|discriminate]. intros [= <-]. apply mkTimedWord_observable.
Qed.

Section Sampling.
  Variables (quick : bool) (A : ta) (Z : zauto).
  Hypothesis CB : clocksBelow (length (tmax A)) A.
  Hypothesis NR : nonnegResets A.
  Hypothesis RK : readsKeptTA A.
  Hypothesis IV : zinv quick A Z.
  Definition okRun (r : srun) : Prop := exists nd, nodeAt Z (srNode r) nd /\ rch A (znLoc nd) (srZone r) (srSteps r).
  Definition okWord (w : tword) : Prop := accepts A (firstDur w) (events w) /\ observable (events w).
  Lemma outEdges_in k e : In e (outEdges (zaEdges Z) k) -> In e (zaEdges Z) /\ zeSrc e = k.
  Proof.
    unfold outEdges. intro H. apply in_flat_map in H. destruct H as [a [_ H]]. apply filter_In in H. destruct H as [H1 H2]. apply andb_true_iff in H2. destruct H2 as [H2 _]. apply Nat.eqb_eq in H2. auto.
  Qed.
  Lemma push_ok r e : okRun r -> In e (zaEdges Z) -> zeSrc e = srNode r -> okRun (srPush r (zeAct e) (zeTr e) (zeTgt e)).
  Proof using IV.
    intros (nd & N & R) I S. destruct IV as (_ & V2 & _). destruct (V2 e I) as (ns & nt & N1 & N2 & E & L & _). exists nt. unfold srPush. cbn [srNode srZone srSteps].
    split; [auto|]. rewrite L. rewrite S in N1. unfold nodeAt in *. assert (ns = nd) by congruence. subst ns. eapply rch_step; eauto.
  Qed.
  Lemma edges_ok r : okRun r -> forall es s, (forall e, In e es -> In e (zaEdges Z) /\ zeSrc e = srNode r) -> (forall r', In r' (fst s) -> okRun r') ->
    forall r', In r' (fst (fold_left (sampleEdge r) es s)) -> okRun r'.
  Proof using IV.
    intros R. induction es as [|e es IH]; intros s HE HS r' H; cbn [fold_left] in H; [auto|]. apply (IH (sampleEdge r s e)) in H; auto; [intros; apply HE; right; auto|].
    intros r2 H2. unfold sampleEdge in H2. destruct (existsb _ (snd s)); [auto|]. cbn [fst] in H2. apply in_app_or in H2. destruct H2 as [H2|[<-|[]]]; [auto|].
    destruct (HE e (or_introl eq_refl)). apply push_ok; auto.
  Qed.
  Lemma round_ok : forall runs s, (forall r, In r runs -> okRun r) -> (forall r, In r (fst s) -> okRun r) ->
    match sampleRound Z runs s with inl w => okWord w | inr s' => forall r, In r (fst s') -> okRun r end.
  Proof using CB NR RK IV.
    induction runs as [|r runs IH]; intros s HR HS; cbn [sampleRound]; [auto|]. cbv zeta.
    assert (R := HR r (or_introl eq_refl)). assert (NEXT : match sampleRound Z runs (fold_left (sampleEdge r) (outEdges (zaEdges Z) (srNode r)) s) with inl w => okWord w | inr s' => forall r, In r (fst s') -> okRun r end).
    { apply IH; [intros; apply HR; right; auto|]. intros r' H'. eapply edges_ok; eauto. apply outEdges_in. }
    destruct (nth_error (zaNodes Z) (srNode r)) as [nd|] eqn:N; [|exact NEXT]. destruct (znMatch nd) eqn:M; [|exact NEXT].
    destruct (reconstructWord r) as [w|] eqn:EW; [|exact NEXT].
    destruct R as (nd' & N' & R). unfold nodeAt in N'. assert (nd' = nd) by congruence. subst nd'.
    split; [|eapply reconstruct_observable; eauto].
    destruct r as [k z steps]. cbn [srNode srZone srSteps] in *. eapply recon_accepts; eauto.
    destruct IV as (V1 & _). destruct (V1 k nd N) as (_ & _ & q & Lq & Mq). exists q. split; [apply lookup_some; auto|congruence].
  Qed.
  Lemma loop_ok : forall fuel runs vis w, (forall r, In r runs -> okRun r) -> sampleLoop fuel Z runs vis = Some w -> okWord w.
  Proof using CB NR RK IV.
    induction fuel as [|fuel IH]; intros runs vis w HR H; cbn [sampleLoop] in H; [discriminate|]. destruct runs as [|r runs]; [discriminate|].
    assert (K := round_ok (r :: runs) ([], vis) HR (fun r' (F : In r' []) => match F with end)). destruct (sampleRound Z (r :: runs) ([], vis)) as [w'|[next vis']].
    - injection H as <-. exact K.
    - eapply IH; [|exact H]. exact K.
  Qed.
  Lemma zaSample_ok w : zaSample Z = Some w -> okWord w.
  Proof using CB NR RK IV.
    unfold zaSample. apply loop_ok. intros r H. apply in_map_iff in H. destruct H as [k [<- H]].
    destruct IV as (V1 & V2 & V3 & V4 & V5). rewrite V3 in H. apply in_seq in H.
    destruct (nth_error (zaNodes Z) k) as [nd|] eqn:N; [|apply nth_error_None in N; lia].
    exists nd. cbn [srNode srZone srSteps]. split; [exact N|]. specialize (V5 k nd N).
    replace (k <? length (tinit A))%nat with true in V5 by (symmetry; apply Nat.ltb_lt; lia). destruct V5 as [V5 V6]. rewrite V6. constructor. eapply nth_error_In; eauto.
  Qed.
End Sampling.

(** the word found during the construction is the one sampled from what was constructed *)
Lemma zgEdge_found quick pick A src now s ct : (forall w, zgFound s = Some w -> zaSample (zgA s) = Some w) ->
  forall w, zgFound (zgEdge quick pick A src now s ct) = Some w -> zaSample (zgA (zgEdge quick pick A src now s ct)) = Some w.
Proof.
  intros IH w. destruct ct as [c t]. unfold zgEdge. destruct (zgFound s) as [w0|] eqn:F; [rewrite F; intros [= <-]; auto|].
  destruct (lookup A (ttgt t)) as [q|]; [|rewrite F; discriminate]. destruct (zgPost now t) as [z0|]; [|rewrite F; discriminate]. cbv zeta.
  destruct (isMatch q && quick)%bool; [cbn [zgFound zgA]; auto|]. destruct (pick _ _); cbn [zgFound]; discriminate.
Qed.
Lemma zgLoop_found quick pick A : forall fuel s s', (forall w, zgFound s = Some w -> zaSample (zgA s) = Some w) -> zgLoop fuel quick pick A s = Some s' ->
  forall w, zgFound s' = Some w -> zaSample (zgA s') = Some w.
Proof.
  induction fuel as [|fuel IH]; intros s s' HS H; cbn [zgLoop] in H.
  - destruct (zgFound s) eqn:F; [injection H as <-; rewrite <- F in HS; exact HS|]. destruct (zgQ s); [|discriminate]. injection H as <-. intros w; rewrite F; discriminate.
  - destruct (zgFound s) eqn:F; [injection H as <-; rewrite <- F in HS; exact HS|]. destruct (zgQ s) as [|k q]; [injection H as <-; intros w; rewrite F; discriminate|].
    destruct (nth_error (zaNodes (zgA s)) k) as [nd|]; [|discriminate]. refine (IH _ s' _ H).
    assert (G : forall l s0, (forall w, zgFound s0 = Some w -> zaSample (zgA s0) = Some w) ->
      forall w, zgFound (fold_left (zgEdge quick pick A k (elapse (znZone nd))) l s0) = Some w -> zaSample (zgA (fold_left (zgEdge quick pick A k (elapse (znZone nd))) l s0)) = Some w).
    { induction l as [|ct l IHl]; intros s0 H0; cbn [fold_left]; [auto|]. apply IHl. apply zgEdge_found. auto. }
    apply G. cbn [zgFound]. discriminate.
Qed.
Lemma readsKept_race A : readsKeptTA A -> raceFreeTA A.
Proof.
  intros RK l a t E. assert (X := readsKept_raceFree (trst t) (RK l a t E)). exact X.
Qed.

(** C48: whatever word the sampling returns, in the middle of the construction
    or after it, is an observable timed word accepted by the automaton -
    although sampling a zone can give a point outside of it *)
Theorem C48_sampled_words_are_accepted :
  forall (fuel : nat) (quick : bool) (pick : picker) (A : ta) (s : zgst) (w : tword),
    picks pick -> wfTA A -> clocksBelow (length (tmax A)) A -> nonnegResets A -> readsKeptTA A ->
    ta2za fuel quick pick A = Some s -> zgSample s = Some w ->
    accepts A (firstDur w) (events w) /\ observable (events w).
Proof.
  intros fuel quick pick A s w PK WF CB NR RK H HS.
  destruct (ta2za_ok quick pick A PK WF CB (readsKept_race A RK) fuel s H) as (IV & _).
  apply (zaSample_ok quick A (zgA s) CB NR RK IV). unfold zgSample in HS. destruct (zgFound s) as [w0|] eqn:F; [|auto]. injection HS as ->.
  eapply zgLoop_found; [|exact H|exact F]. cbn [zgInit zgFound]. discriminate.
Qed.
Print Assumptions C48_sampled_words_are_accepted.
(** so nothing is sampled from an automaton with no accepted word *)
Theorem C48_empty_language_yields_no_word :
  forall (fuel : nat) (quick : bool) (pick : picker) (A : ta) (s : zgst),
    picks pick -> wfTA A -> clocksBelow (length (tmax A)) A -> nonnegResets A -> readsKeptTA A ->
    ta2za fuel quick pick A = Some s -> (forall d0 w, observable w -> ~ accepts A d0 w) -> zgSample s = None.
Proof.
  intros fuel quick pick A s PK WF CB NR RK H EM. destruct (zgSample s) as [w|] eqn:E; [|reflexivity].
  destruct (C48_sampled_words_are_accepted fuel quick pick A s w PK WF CB NR RK H E) as [H1 H2]. exfalso. eapply EM; eauto.
Qed.
Print Assumptions C48_empty_language_yields_no_word.

(** the assertion of reconstructWord: a validated path to an accepting
    location is an accepted word, whatever the resets *)
Lemma validate_exec A : forall ts l v ds l', tpath A l ts l' -> (forall d, In d ds -> 0 <= d) -> validate v (map snd ts) ds = true ->
  exists v', xexec A (l, v) (firstn (length ts) ds) (map fst ts) (l', v').
Proof.
  induction ts as [|[a t] ts IH]; intros l v ds l' P NN V.
  - inversion P; subst. exists v. cbn. constructor.
  - inversion P as [|? ? ? ? ? E P']; subst. cbn [map snd validate] in V. destruct ds as [|d ds]; [discriminate|]. cbv zeta in V.
    destruct (forallb _ (tgrd t)) eqn:G; [|discriminate].
    destruct (IH (ttgt t) _ ds l' P' (fun q I => NN q (or_intror I)) V) as [v' X]. exists v'. cbn [length firstn map fst].
    eapply xe_cons; [apply NN; left; auto| |exact X]. exists t. cbn [fst snd]. split; [auto|]. split; [|split; [auto|apply applyReset_isReset]].
    rewrite forallb_forall in G. intros k Hk. apply satisfy_holds. apply (G k Hk).
Qed.
Theorem C48_validated_words_are_accepted :
  forall (A : ta) (l0 l : loc) (ts : list (letter * trans)) (ds : list Q),
    In l0 (tinit A) -> tpath A l0 ts l -> accepting A l -> length ds = length ts -> (forall d, In d ds -> 0 <= d) ->
    validate (fun _ => 0) (map snd ts) (ds ++ [0]) = true ->
    accepts A (firstDur (mkTimedWord (map fst ts) (ds ++ [0]))) (events (mkTimedWord (map fst ts) (ds ++ [0]))).
Proof.
  intros A l0 l ts ds I P AC L NN V. destruct (validate_exec A ts l0 (fun _ => 0) (ds ++ [0]) l P) as [v X]; auto.
  { intros d H. apply in_app_or in H. destruct H as [H|[<-|[]]]; [auto|lra]. }
  rewrite <- L, firstn_app, Nat.sub_diag, firstn_all in X. cbn [firstn] in X. rewrite app_nil_r in X. eapply xexec_accepts; eauto.
Qed.
Print Assumptions C48_validated_words_are_accepted.

(** a clock renamed to itself is enough to lose soundness: the clock is
    forgotten when the transition is undone *)
Definition exSelf : ta := mkTA
  [ (1%nat, mkS false [ (1%nat, [ mkT 2 [(0%nat, RVar 0%nat); (1%nat, RConst 0)] [mkC 0 Oge 1] ]) ]);
    (2%nat, mkS false [ (2%nat, [ mkT 3 [] [mkC 0 Oge 5; mkC 1 Ole 2] ]) ]); (3%nat, mkS true []) ] [1%nat] [5%Z; 2%Z].
Definition rkb (A : ta) := edgeAll (fun e => nodupb (map fst (trst (snd e))) &&
  forallb (fun p => match snd p with RVar y => negb (existsb (Nat.eqb y) (map fst (trst (snd e)))) | RConst _ => true end) (trst (snd e))) A.
Lemma rkb_ok A : rkb A = true -> readsKeptTA A.
Proof.
  intros H l a t K. apply (edgeAll_ok _ _ _ _ _ H) in K. cbn [snd] in K. apply andb_true_iff in K. destruct K as [K1 K2]. split; [apply nodupb_ok; auto|].
  intros x y I J. rewrite forallb_forall in K2. specialize (K2 _ I). cbn [snd] in K2. apply negb_true_iff in K2.
  assert (existsb (Nat.eqb y) (map fst (trst t)) = true); [|congruence]. apply existsb_exists. exists y. split; [auto|apply Nat.eqb_refl].
Qed.
Theorem C48_needs_reads_kept :
  exists (A : ta) (w : tword), wfTA A /\ clocksBelow (length (tmax A)) A /\ nonnegResets A /\ raceFreeTA A /\ noSilent A /\
    (exists s, ta2za 20 true firstPick A = Some s /\ zgSample s = Some w) /\
    (exists s, ta2za 20 false firstPick A = Some s /\ zgSample s = Some w) /\ ~ accepts A (firstDur w) (events w).
Proof.
  exists exSelf, (mkTW [1%nat; 2%nat] [1; 0; 0]). split; [apply wfb_ok; reflexivity|]. split; [apply belowb_ok; reflexivity|]. split; [apply nnResetsb_ok; reflexivity|].
  split; [apply rfTAb_ok; reflexivity|]. assert (NS : noSilent exSelf) by (apply noSilentb_ok; reflexivity). split; [exact NS|].
  split; [eexists; split; [vm_compute; reflexivity|vm_compute; reflexivity]|]. split; [eexists; split; [vm_compute; reflexivity|vm_compute; reflexivity]|].
  cbn [firstDur events td tw hd tl combine]. intros (l0 & c0 & c & I & FL & R & _). destruct I as [<-|[]].
  destruct c0 as [l v]. destruct (flow_noSilent _ _ _ _ _ NS FL) as (E1 & E2 & _). cbn [fst snd] in E1, E2. subst l.
  inversion R as [|? ? ? c1 c2 ? ? F1 FL1 R1]; subst. inversion R1 as [|? ? ? c3 c4 ? ? F2 FL2 R2]; subst.
  destruct c1 as [l1 v1]. destruct c2 as [l2 v2]. destruct (flow_noSilent _ _ _ _ _ NS FL1) as (E3 & E4 & _). cbn [fst snd] in E3, E4. subst l2.
  destruct F1 as (t1 & H1 & G1 & T1 & X1). cbn [fst snd] in *. apply edgesOf_iff in H1. cbn in H1. destruct H1 as [H1|[H1|[]]]; try discriminate. injection H1 as <-. cbn [ttgt trst] in *. subst l1.
  destruct F2 as (t2 & H2 & G2 & _). cbn [fst snd] in *. apply edgesOf_iff in H2. cbn in H2. destruct H2 as [H2|[H2|[]]]; try discriminate. injection H2 as <-. cbn [tgrd] in G2.
  assert (V := proj2 (X1 0%nat) [] (RVar 0%nat) [(1%nat, RConst 0)] eq_refl). cbn [map fst] in V. specialize (V ltac:(intros [K|[]]; discriminate)).
  specialize (G2 (mkC 0 Oge 5) (or_introl eq_refl)). unfold holds in G2. cbn [codr cc cx] in G2. specialize (E4 0%nat). specialize (E2 0%nat). unfold delay in *.
  change (inject_Z 5) with (5#1) in G2. lra.
Qed.
Print Assumptions C48_needs_reads_kept.

(** ** completeness fails *)
(** "no word" does not mean "no accepted word": the last zone of the only
    accepting path is sampled at a point of its closure from which the run cannot
    be rebuilt, and there is no second attempt.  (So an equivalence query can
    be answered "equivalent" although a counterexample exists.) *)
Definition exBad : ta := mkTA
  [ (1%nat, mkS false [ (1%nat, [ mkT 2 [(0%nat, RConst 0)] [mkC 1 Ogt 0] ]) ]);
    (2%nat, mkS false [ (1%nat, [ mkT 3 [(2%nat, RConst 0)] [mkC 0 Ogt 0; mkC 1 Olt 1] ]) ]);
    (3%nat, mkS false [ (1%nat, [ mkT 4 [] [] ]) ]);
    (4%nat, mkS true []) ] [1%nat] [1%Z; 1%Z; 0%Z].
Theorem C49_no_word_means_empty_refuted :
  exists (A : ta), wfTA A /\ clocksBelow (length (tmax A)) A /\ nonnegResets A /\ readsKeptTA A /\ noSilent A /\
    (exists s, ta2za 20 true firstPick A = Some s /\ zgQ s = [] /\ zgSample s = None) /\
    (exists s, ta2za 20 false firstPick A = Some s /\ zgQ s = [] /\ zgSample s = None) /\
    (exists d0 w, accepts A d0 w /\ observable w).
Proof.
  exists exBad. split; [apply wfb_ok; reflexivity|]. split; [apply belowb_ok; reflexivity|]. split; [apply nnResetsb_ok; reflexivity|].
  split; [apply rkb_ok; reflexivity|]. split; [apply noSilentb_ok; reflexivity|].
  split; [eexists; split; [vm_compute; reflexivity|split; [vm_compute; reflexivity|vm_compute; reflexivity]]|]. split; [eexists; split; [vm_compute; reflexivity|split; [vm_compute; reflexivity|vm_compute; reflexivity]]|].
  set (u := [(1%nat, mkT 2 [(0%nat, RConst 0)] [mkC 1 Ogt 0]); (1%nat, mkT 3 [(2%nat, RConst 0)] [mkC 0 Ogt 0; mkC 1 Olt 1]); (1%nat, mkT 4 [] [])]).
  exists (firstDur (mkTimedWord (map fst u) ([1#4; 1#4; 0] ++ [0]))), (events (mkTimedWord (map fst u) ([1#4; 1#4; 0] ++ [0]))). split; [|apply mkTimedWord_observable].
  apply (C48_validated_words_are_accepted exBad 1%nat 4%nat u).
  - left; reflexivity.
  - unfold u. repeat (eapply tp_cons; [apply edgesOf_iff; cbn; tauto|]; cbn [ttgt]). constructor.
  - exists (mkS true []). split; [right; right; right; left; reflexivity|reflexivity].
  - reflexivity.
  - intros d [<-|[<-|[<-|[]]]]; lra.
  - vm_compute. reflexivity.
Qed.
Print Assumptions C49_no_word_means_empty_refuted.

(** the theorems apply to automata with renamings and silent steps, and
    sampling does find words *)
Definition exSample : ta := mkTA
  [ (1%nat, mkS false [ (1%nat, [ mkT 2 [(1%nat, RVar 0%nat)] [mkC 0 Ogt 1] ]) ]);
    (2%nat, mkS false [ (UNOBSERVABLE, [ mkT 3 [(0%nat, RConst 0)] [mkC 1 Ogt 2] ]) ]);
    (3%nat, mkS false [ (2%nat, [ mkT 4 [(0%nat, RConst 0); (1%nat, RConst (1#2))] [mkC 0 Oge 1; mkC 1 Ole 4] ]) ]);
    (4%nat, mkS true []) ] [1%nat] [1%Z; 4%Z].
Example C48_nonvacuous :
  picks firstPick /\ wfTA exSample /\ clocksBelow (length (tmax exSample)) exSample /\ nonnegResets exSample /\ readsKeptTA exSample /\
  (exists s w, ta2za 20 true firstPick exSample = Some s /\ zgSample s = Some w /\ tw w = [1%nat; 2%nat] /\ sameTW w (mkTW [1%nat; 2%nat] [3#2; 2; 0])).
Proof.
  split; [apply firstPick_ok|]. split; [apply wfb_ok; reflexivity|]. split; [apply belowb_ok; reflexivity|]. split; [apply nnResetsb_ok; reflexivity|].
  split; [apply rkb_ok; reflexivity|]. eexists. eexists. split; [vm_compute; reflexivity|]. split; [vm_compute; reflexivity|]. split; [reflexivity|]. split; [reflexivity|]. cbn [td]. repeat constructor; vm_compute; reflexivity.
Qed.
