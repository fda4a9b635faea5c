(** C50, C51: the equivalence oracle (timed_automata_equivalence_oracle.hh). *)
From Coq Require Import QArith ZArith Bool List Lqa Lia.
From Verif Require Import BoundsModel ConstraintModel GuardSpec ZoneModel AutomatonModel AutomatonSpec TimedWordModel TimedWordSpec ZoneGraphModel ZoneGraphSpec EquivModel.
From Verif Require Import AutomatonProofs AutomatonProofs2 AutomatonProofs4 EquivProofs ZoneGraphTermination PropertiesAutomata PropertiesSimplify PropertiesProduct PropertiesZoneGraph PropertiesSampling.
Import ListNotations.
Open Scope Q_scope.
Arguments mkT _%nat_scope _ _.

(** what the oracle needs of each automaton: it is well formed, its clocks have
    entries in the table of maximum constants, no clock is made negative, no
    clock is assigned twice or read and assigned by one transition *)
Definition fit (A : ta) : Prop :=
  wfTA A /\ clocksBelow (length (tmax A)) A /\ nonnegResets A /\ readsKeptTA A.
(** the letters of its transitions *)
Definition lettersIn (al : list letter) (A : ta) : Prop := forall l a t, edge A l a t -> a = UNOBSERVABLE \/ In a al.
(** the second automaton recognises the complement of the first *)
Definition complements (al : list letter) (T C : ta) : Prop :=
  forall d0 w, wordOver al d0 w -> (accepts C d0 w <-> ~ accepts T d0 w).
(** a hypothesis the oracle can complement *)
Definition complementable (H : ta) : Prop := noSilent H /\ smallTA H /\ detTA H /\ (length (tinit H) <= 1)%nat.

(** C50: whatever counterexample the oracle returns is a word on which target
    and hypothesis differ (the confirmation in the code is only an assertion) *)
Theorem C50_counterexamples_are_genuine :
  forall (fuel : nat) (pick : picker) (o o' : eqOracle) (hyp : ta) (w : tword),
    picks pick -> fit (eqTarget o) -> fit (eqCompl o) -> fit hyp ->
    ~ In UNOBSERVABLE (eqAlphabet o) -> lettersIn (eqAlphabet o) (eqTarget o) -> lettersIn (eqAlphabet o) hyp ->
    complements (eqAlphabet o) (eqTarget o) (eqCompl o) -> complementable hyp ->
    findCounterExample fuel pick o hyp = Some (o', Some w) ->
    wordOver (eqAlphabet o) (firstDur w) (events w) /\
    ((accepts hyp (firstDur w) (events w) /\ ~ accepts (eqTarget o) (firstDur w) (events w)) \/
     (accepts (eqTarget o) (firstDur w) (events w) /\ ~ accepts hyp (firstDur w) (events w))).
Proof.
  intros fuel pick o o' hyp w PK FT FC FH NU LT LH CO (NS & SM & DT & LI) H. unfold findCounterExample in H.
  destruct (eqSubset fuel pick (eqCompl o) hyp) as [[w1|]|] eqn:E1; [| |discriminate].
  - injection H as _ ->. destruct (subset_sound _ _ _ _ _ PK FC FH E1) as (A1 & A2 & O).
    assert (W := accepts_over hyp (eqAlphabet o) _ _ A2 O LH). split; [exact W|]. left. split; [exact A2|]. apply CO; auto.
  - destruct (eqSuperset fuel pick (eqTarget o) hyp (eqAlphabet o)) as [r|] eqn:E2; [|discriminate]. injection H as _ ->.
    destruct (superset_sound _ _ _ _ _ _ PK FT FH E2) as (A1 & A2 & O).
    assert (W := accepts_over (eqTarget o) (eqAlphabet o) _ _ A1 O LT). split; [exact W|]. right. split; [exact A1|].
    apply (C24_complement_exact hyp (eqAlphabet o)); auto; apply FH.
Qed.
Print Assumptions C50_counterexamples_are_genuine.

(** so a hypothesis with the target's language is never rejected *)
Theorem C50_a_right_hypothesis_is_never_rejected :
  forall (fuel : nat) (pick : picker) (o o' : eqOracle) (hyp : ta) (r : option tword),
    picks pick -> fit (eqTarget o) -> fit (eqCompl o) -> fit hyp ->
    ~ In UNOBSERVABLE (eqAlphabet o) -> lettersIn (eqAlphabet o) (eqTarget o) -> lettersIn (eqAlphabet o) hyp ->
    complements (eqAlphabet o) (eqTarget o) (eqCompl o) -> complementable hyp ->
    (forall d0 w, wordOver (eqAlphabet o) d0 w -> (accepts hyp d0 w <-> accepts (eqTarget o) d0 w)) ->
    findCounterExample fuel pick o hyp = Some (o', r) -> r = None.
Proof.
  intros fuel pick o o' hyp r PK FT FC FH NU LT LH CO CM EQ H. destruct r as [w|]; [|reflexivity]. exfalso.
  destruct (C50_counterexamples_are_genuine fuel pick o o' hyp w PK FT FC FH NU LT LH CO CM H) as (W & [(A & B)|(A & B)]); apply B, EQ; auto.
Qed.
Print Assumptions C50_a_right_hypothesis_is_never_rejected.

(** every query gets an answer, whatever the automata's resets, and it is
    counted *)
Theorem C50_queries_terminate :
  forall (pick : picker) (o : eqOracle) (hyp : ta),
    picks pick -> fit (eqTarget o) -> fit (eqCompl o) -> fit hyp ->
    exists fuel o' r, findCounterExample fuel pick o hyp = Some (o', r) /\
      eqTarget o' = eqTarget o /\ eqCompl o' = eqCompl o /\ eqAlphabet o' = eqAlphabet o /\ eqCount o' = S (eqCount o).
Proof.
  intros pick o hyp PK FT FC FH.
  set (A1 := addUpperBoundUnobs (taSimplifyStrong (intersectionTA (eqCompl o) hyp))).
  set (A2 := taSimplify (addUpperBoundUnobs (taSimplifyStrong (intersectionTA (eqTarget o) (complement hyp (eqAlphabet o)))))).
  assert (F1 : fit A1) by (apply fit_ub, fit_simplifyStrong, fit_product; auto).
  assert (F2 : fit A2) by (apply fit_simplify, fit_ub, fit_simplifyStrong, fit_product; [auto|apply fit_complement; auto]).
  destruct (C47_construction_terminates true pick A1 PK (proj1 (proj2 F1))) as (n1 & s1 & H1).
  destruct (C47_construction_terminates true pick A2 PK (proj1 (proj2 F2))) as (n2 & s2 & H2).
  exists (n1 + n2)%nat. specialize (H1 n2). specialize (H2 n1). rewrite Nat.add_comm in H2.
  unfold findCounterExample, eqSubset, eqSuperset, sampleOf. fold A1 A2. rewrite H1, H2.
  destruct (zgSample s1) as [w|].
  - eexists. eexists. split; [reflexivity|]. cbn. auto.
  - eexists. eexists. split; [reflexivity|]. cbn. auto.
Qed.
Print Assumptions C50_queries_terminate.

(** the complement may be the one the library computes *)
Theorem C50_computed_complement :
  forall (T : ta) (al : list letter), fit T -> complementable T -> ~ In UNOBSERVABLE al -> lettersIn al T ->
    fit (complement T al) /\ complements al T (complement T al) /\ lettersIn al (complement T al).
Proof.
  intros T al FT (NS & SM & DT & LI) NU LT. split; [apply fit_complement, FT|]. split.
  - intros d0 w W. apply C24_complement_exact; auto; apply FT.
  - intros l a t H. apply compl_edge in H. apply mc_edge_inv in H. destruct H as [H|(H & _)]; eauto.
Qed.
Print Assumptions C50_computed_complement.

(** ** a case *)
Definition lettersInb al A := edgeAll (fun e => Nat.eqb (snd (fst e)) UNOBSERVABLE || existsb (Nat.eqb (snd (fst e))) al) A.
Lemma lettersInb_ok al A : lettersInb al A = true -> lettersIn al A.
Proof.
  intros H l a t K. apply (edgeAll_ok _ _ _ _ _ H) in K. cbn [fst snd] in K. apply orb_true_iff in K. destruct K as [K|K]; [left; apply Nat.eqb_eq; auto|].
  right. apply existsb_exists in K. destruct K as (b & I & E). apply Nat.eqb_eq in E. subst. auto.
Qed.
Lemma fitb_ok A : wfb A = true -> clocksBelowb (length (tmax A)) A = true -> nnResetsb A = true -> rkb A = true -> fit A.
Proof. intros H1 H2 H3 H4. split; [apply wfb_ok; auto|]. split; [apply clocksBelowb_ok; auto|]. split; [apply nnResetsb_ok; auto|apply rkb_ok; auto]. Qed.
(** target: a at 1 < x, then b within 2; hypothesis: b within 1 *)
Definition exTarget (n : Z) : ta := mkTA
  [ (1%nat, mkS false [ (1%nat, [ mkT 2 [(0%nat, RConst 0)] [mkC 0 Ogt 1] ]) ]);
    (2%nat, mkS false [ (2%nat, [ mkT 3 [] [mkC 0 Ole n] ]) ]);
    (3%nat, mkS true []) ] [1%nat] [n].
Definition exOracle : eqOracle := mkEq (exTarget 2) (complement (exTarget 2) [1%nat; 2%nat]) [1%nat; 2%nat] 0.
Example C50_nonvacuous :
  picks firstPick /\ fit (eqTarget exOracle) /\ fit (eqCompl exOracle) /\ fit (exTarget 1) /\ ~ In UNOBSERVABLE (eqAlphabet exOracle) /\
  lettersIn (eqAlphabet exOracle) (eqTarget exOracle) /\ lettersIn (eqAlphabet exOracle) (exTarget 1) /\
  complements (eqAlphabet exOracle) (eqTarget exOracle) (eqCompl exOracle) /\ complementable (exTarget 1) /\
  (exists o' w, findCounterExample 30 firstPick exOracle (exTarget 1) = Some (o', Some w) /\ tw w = [1%nat; 2%nat] /\ eqCount o' = 1%nat) /\
  (exists o', findCounterExample 30 firstPick exOracle (exTarget 2) = Some (o', None)).
Proof.
  assert (CM : forall n, n = 1%Z \/ n = 2%Z -> complementable (exTarget n)).
  { intros n E. split; [apply noSilentb_ok; destruct E; subst; reflexivity|]. assert (SM : smallTA (exTarget n)) by (apply smallb_ok; destruct E; subst; reflexivity).
    split; [exact SM|]. split; [|cbn; auto]. apply deterministic_exact; [exact SM|]. destruct E; subst; reflexivity. }
  assert (NU : ~ In UNOBSERVABLE [1%nat; 2%nat]) by (intros [H|[H|[]]]; discriminate H).
  assert (F2 : fit (exTarget 2)) by (apply fitb_ok; reflexivity).
  assert (L2 : lettersIn [1%nat; 2%nat] (exTarget 2)) by (apply lettersInb_ok; reflexivity).
  destruct (C50_computed_complement (exTarget 2) [1%nat; 2%nat] F2 (CM 2%Z (or_intror eq_refl)) NU L2) as (FC & CO & _).
  split; [apply firstPick_ok|]. split; [exact F2|]. split; [exact FC|]. split; [apply fitb_ok; reflexivity|]. split; [exact NU|].
  split; [exact L2|]. split; [apply lettersInb_ok; reflexivity|]. split; [exact CO|]. split; [apply CM; auto|]. split.
  - eexists. eexists. split; [vm_compute; reflexivity|]. split; vm_compute; reflexivity.
  - eexists. vm_compute. reflexivity.
Qed.

(** ** C51: the other direction fails *)
(** The answer "no counterexample" does not mean that the hypothesis is right:
    target [exMiss] with a nonempty language, hypothesis without transitions. *)
Definition exMiss : ta := mkTA
  [ (1%nat, mkS false [ (1%nat, [ mkT 2 [(0%nat, RConst 0)] [mkC 1 Ogt 0] ]) ]);
    (2%nat, mkS false [ (1%nat, [ mkT 3 [(2%nat, RConst 0)] [mkC 0 Ogt 0; mkC 1 Olt 1] ]) ]);
    (3%nat, mkS false [ (1%nat, [ mkT 4 [] [mkC 2 Ole 1] ]) ]);
    (4%nat, mkS true []) ] [1%nat] [1%Z; 1%Z; 1%Z].
Definition exNone : ta := mkTA [ (1%nat, mkS false []) ] [1%nat] [].
Theorem C51_no_counterexample_means_equivalent_refuted :
  exists (o : eqOracle) (hyp : ta) (d0 : Q) (w : list (letter * Q)),
    fit (eqTarget o) /\ fit (eqCompl o) /\ fit hyp /\ ~ In UNOBSERVABLE (eqAlphabet o) /\
    lettersIn (eqAlphabet o) (eqTarget o) /\ lettersIn (eqAlphabet o) hyp /\
    complements (eqAlphabet o) (eqTarget o) (eqCompl o) /\ complementable hyp /\
    (exists o', findCounterExample 30 firstPick o hyp = Some (o', None)) /\
    wordOver (eqAlphabet o) d0 w /\ accepts (eqTarget o) d0 w /\ ~ accepts hyp d0 w.
Proof.
  assert (FB : fit exMiss) by (apply fitb_ok; reflexivity).
  assert (LB : lettersIn [1%nat] exMiss) by (apply lettersInb_ok; reflexivity).
  assert (NU : ~ In UNOBSERVABLE [1%nat]) by (intros [H|[]]; discriminate H).
  assert (SB : smallTA exMiss) by (apply smallb_ok; reflexivity).
  assert (CB : complementable exMiss).
  { split; [apply noSilentb_ok; reflexivity|]. split; [exact SB|]. split; [|cbn; auto]. apply deterministic_exact; [exact SB|reflexivity]. }
  destruct (C50_computed_complement exMiss [1%nat] FB CB NU LB) as (FC & CO & _).
  set (u := [(1%nat, mkT 2 [(0%nat, RConst 0)] [mkC 1 Ogt 0]); (1%nat, mkT 3 [(2%nat, RConst 0)] [mkC 0 Ogt 0; mkC 1 Olt 1]); (1%nat, mkT 4 [] [mkC 2 Ole 1])]).
  set (x := mkTimedWord (map fst u) ([1#4; 1#4; 0] ++ [0])).
  assert (AC : accepts exMiss (firstDur x) (events x)).
  { apply (C48_validated_words_are_accepted exMiss 1%nat 4%nat u).
    - left; reflexivity.
    - unfold u. repeat (eapply tp_cons; [apply edgesOf_iff; cbn; tauto|]; cbn [ttgt]). constructor.
    - exists (mkS true []). split; [right; right; right; left; reflexivity|reflexivity].
    - reflexivity.
    - intros d [<-|[<-|[<-|[]]]]; lra.
    - vm_compute. reflexivity. }
  exists (mkEq exMiss (complement exMiss [1%nat]) [1%nat] 0), exNone, (firstDur x), (events x). cbn [eqTarget eqCompl eqAlphabet].
  split; [exact FB|]. split; [exact FC|]. split; [apply fitb_ok; reflexivity|]. split; [exact NU|]. split; [exact LB|]. split; [apply lettersInb_ok; reflexivity|].
  split; [exact CO|]. split.
  { split; [apply noSilentb_ok; reflexivity|]. assert (SM : smallTA exNone) by (apply smallb_ok; reflexivity). split; [exact SM|]. split; [|cbn; auto]. apply deterministic_exact; [exact SM|reflexivity]. }
  split; [eexists; vm_compute; reflexivity|]. split; [apply (accepts_over exMiss); [exact AC|apply mkTimedWord_observable|exact LB]|]. split; [exact AC|].
  intros (l0 & c0 & c & _ & _ & _ & s & I & M). destruct I as [I|[]]. injection I as _ <-. discriminate M.
Qed.
Print Assumptions C51_no_counterexample_means_equivalent_refuted.
