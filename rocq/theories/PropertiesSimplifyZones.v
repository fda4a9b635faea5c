(** C68, C69: the simplification with zones. *)
From Coq Require Import QArith ZArith Bool List Arith Lia Lqa Permutation.
From Verif Require Import BoundsModel BoundsProofs ConstraintModel GuardSpec ZoneModel ZoneSpec ZoneProofs AutomatonModel AutomatonSpec AutomatonProofs AutomatonProofs5 TimedWordModel TimedWordSpec
  TimedConditionModel TimedConditionSpec ElementaryModel ElementarySpec ZoneGraphModel ZoneGraphSpec ZoneGraphProofs PropertiesAutomata PropertiesSimplify PropertiesZoneGraph AutomatonProofs2 EquivProofs PropertiesEquivalence
  RegionalModel RegionalSpec OracleModel OracleSpec SymbolicModel SymbolicSpec CexModel CexSpec RenamingModel RenamingSpec OracleInstance PropertiesRenaming TableModel TableSpec
  TableProofs ShapeProofs ShapeProofs2 TableProofs2 TableProofs3 TableProofs4 TableProofs5 TableProofs6 TableProofs7 TableProofs8 TableProofs9 TableProofs10 TableProofs11 TableProofs12 PropertiesTable
  HypothesisModel HypothesisSpec HypothesisMain HypothesisMain2 HypothesisMain3 PropertiesHypothesis SimplifyZonesModel SimplifyZonesProofs FinalHypothesisModel FinalHypothesisProofs.
Import ListNotations.
Open Scope Q_scope.

(** the letters can index the array of successors (zone_automaton_state.hh:26) *)
Definition charLetters (A : ta) : Prop := forall l a t, edge A l a t -> (a < 127)%nat.

Lemma simplified fuel pick A B : simplifyWithZones fuel pick A = Some B ->
  exists s, ta2za fuel false pick A = Some s /\
    B = keepLive (zgA s) (snd (fst (removeDead (zgA s)))) (liveLocs (zgA s) (fst (fst (removeDead (zgA s))))) (dropDead A (liveLocs (zgA s) (fst (fst (removeDead (zgA s)))))).
Proof.
  unfold simplifyWithZones. destruct (ta2za fuel false pick A) as [s|]; [|discriminate]. intro H. exists s. split; [reflexivity|]. destruct (removeDead (zgA s)) as [[ks es] i]. cbn [fst snd]. injection H as <-. reflexivity.
Qed.
Lemma zoned fuel pick A s : picks pick -> wfTA A -> clocksBelow (length (tmax A)) A -> raceFreeTA A -> ta2za fuel false pick A = Some s ->
  zinv false A (zgA s) /\ forall k nd c t, nodeAt (zgA s) k nd -> edge A (znLoc nd) c t -> zdone (zgA s) k (c, t).
Proof. intros PK WF CB RF H. destruct (ta2za_ok false pick A PK WF CB RF fuel s H) as (IV & F & DN). split; [auto|]. apply DN. apply F. reflexivity. Qed.
Lemma prune_thin A Z es locs : thin (keepLive Z es locs (dropDead A locs)) A.
Proof.
  apply (thin_trans _ (dropDead A locs)).
  - intros l s a ts I J. unfold keepLive in I. cbn [tstates] in I. apply in_map_iff in I. destruct I as ([l0 s0] & E & I). cbn [fst snd] in E. injection E as -> <-. cbn [snext] in J. destruct (memb l locs); [|destruct J].
    apply filter_In in J. destruct J as [J _]. apply in_map_iff in J. destruct J as ([a0 us] & E & J). cbn [fst snd] in E. injection E as -> <-. exists s0, us. split; [auto|]. split; [auto|apply sub_filter].
  - unfold dropDead. destruct (_ =? _)%nat; [apply thin_refl|]. intros l s a ts I J. cbn [tstates] in I. apply in_map_iff in I. destruct I as ([l0 s0] & E & I). cbn [fst snd] in E. injection E as -> <-. apply filter_In in I. cbn [snext] in J.
    destruct (thin_erase _ _ _ _ J) as (us & J' & K). exists s0, us. split; [tauto|]. auto.
Qed.
Lemma prune_initLen A Z es locs : (length (tinit (keepLive Z es locs (dropDead A locs))) <= length (tinit A))%nat.
Proof.
  unfold keepLive, dropDead. cbn [tinit]. destruct (_ =? _)%nat; [lia|]. cbn [tinit]. induction (tinit A) as [|x l IH]; cbn [filter]; [lia|]. destruct (memb x locs); cbn [length]; lia.
Qed.

(** ** C68 *)
(** it always ends, and more steps change nothing *)
Theorem C68_terminates :
  forall (pick : picker) (A : ta), picks pick -> clocksBelow (length (tmax A)) A ->
    exists fuel B, forall more, simplifyWithZones (fuel + more) pick A = Some B.
Proof.
  intros pick A PK CB. destruct (C47_construction_terminates false pick A PK CB) as (fuel & s & H).
  exists fuel. unfold simplifyWithZones. destruct (removeDead (zgA s)) as [[ks es] i] eqn:E. eexists. intro more. rewrite (H more), E. reflexivity.
Qed.
Print Assumptions C68_terminates.
(** it only removes: states, initial states, transitions; so no word is added,
    and the automaton stays deterministic.  This holds for every automaton. *)
Theorem C68_only_removes :
  forall (fuel : nat) (pick : picker) (A B : ta), simplifyWithZones fuel pick A = Some B ->
    (forall l a t, edge B l a t -> edge A l a t) /\ (forall l, accepting B l -> accepting A l) /\ (forall l, In l (tinit B) -> In l (tinit A)) /\
    (forall l, In l (map fst (tstates B)) -> In l (map fst (tstates A))) /\ tmax B = tmax A /\
    (detTA A -> detTA B) /\ (forall d0 w, accepts B d0 w -> accepts A d0 w).
Proof.
  intros fuel pick A B H. apply simplified in H. destruct H as (s & _ & ->). set (Z := zgA s). set (es := snd _). set (locs := liveLocs _ _).
  assert (H1 : subTA (keepLive Z es locs (dropDead A locs)) A) by apply prune_sub.
  assert (H2 : forall l, accepting (keepLive Z es locs (dropDead A locs)) l -> accepting A l) by (intros l K; apply prune_acc in K; tauto).
  assert (H3 : forall l, In l (tinit (keepLive Z es locs (dropDead A locs))) -> In l (tinit A)) by (intros l K; apply prune_init in K; tauto).
  split; [exact H1|]. split; [exact H2|]. split; [exact H3|]. split; [intros l K; apply prune_states in K; tauto|]. split; [unfold keepLive, dropDead; destruct (_ =? _)%nat; reflexivity|]. split.
  - intro D. apply det_disj. intros l q a ts I J. destruct (prune_thin A Z es locs l q a ts I J) as (s' & ts' & I' & J' & S'). apply (sub_fop _ ts ts' S'). apply (proj1 (det_disj A) D l s' a ts' I' J').
  - assert (F : forall a c c', fire (keepLive Z es locs (dropDead A locs)) a c c' -> fire A a c c') by (intros a c c' (t & E & K); exists t; auto).
    assert (FL : forall c d c', flow (keepLive Z es locs (dropDead A locs)) c d c' -> flow A c d c') by (intros c d c' K; induction K; [constructor; auto|econstructor; eauto]).
    assert (R : forall c w c', run (keepLive Z es locs (dropDead A locs)) c w c' -> run A c w c') by (intros c w c' K; induction K; [constructor|econstructor; eauto]).
    intros d0 w (l0 & c0 & c & I & K1 & K2 & K3). exists l0, c0, c. auto.
Qed.
Print Assumptions C68_only_removes.
(** if no renaming reads a clock that an earlier renaming of the transition has
    changed, the language is kept, and of what is left every state is on a path
    from an initial to an accepting state *)
Theorem C68_same_language :
  forall (fuel : nat) (pick : picker) (A B : ta),
    picks pick -> wfTA A -> clocksBelow (length (tmax A)) A -> raceFreeTA A -> charLetters A ->
    simplifyWithZones fuel pick A = Some B -> sameLang A B.
Proof.
  intros fuel pick A B PK WF CB RF CL H d0 w. split; [|apply (C68_only_removes fuel pick A B H)]. apply simplified in H. destruct H as (s & H & ->). destruct (zoned fuel pick A s PK WF CB RF H) as [IV DN]. apply (prune_accepts A (zgA s) WF IV DN CL).
Qed.
Print Assumptions C68_same_language.
Theorem C68_nothing_useless_left :
  forall (fuel : nat) (pick : picker) (A B : ta),
    picks pick -> wfTA A -> clocksBelow (length (tmax A)) A -> raceFreeTA A -> charLetters A ->
    simplifyWithZones fuel pick A = Some B ->
    wfTA B /\ (forall l, In l (map fst (tstates B)) -> areach B l /\ alive B l).
Proof.
  intros fuel pick A B PK WF CB RF CL H. apply simplified in H. destruct H as (s & H & ->). destruct (zoned fuel pick A s PK WF CB RF H) as [IV DN]. split.
  - apply prune_wf; [auto|]. intros l a t K. apply (kept_target A (zgA s) IV l a t K).
  - apply (prune_trim A (zgA s) WF IV CL).
Qed.
Print Assumptions C68_nothing_useless_left.
Lemma guard_eqb_eq a : forall b, guard_eqb a b = true -> a = b.
Proof.
  unfold guard_eqb. induction a as [|x a IH]; intros [|y b] H; cbn in H; try discriminate; [reflexivity|]. apply andb_true_iff in H. destruct H as [H K]. rewrite (IH b K). f_equal.
  unfold constraint_eqb in H. apply andb_true_iff in H. destruct H as [H H3]. apply andb_true_iff in H. destruct H as [H1 H2]. destruct x as [cx1 o1 c1], y as [cx2 o2 c2]. cbn in *. apply Z.eqb_eq in H2. apply Nat.eqb_eq in H3. subst. destruct o1, o2; try discriminate; reflexivity.
Qed.
(** and every transition that is left has a guard that some valuation meets *)
Theorem C68_no_unsatisfiable_guard_left :
  forall (fuel : nat) (pick : picker) (A B : ta),
    picks pick -> wfTA A -> clocksBelow (length (tmax A)) A -> raceFreeTA A ->
    simplifyWithZones fuel pick A = Some B -> forall l a t, edge B l a t -> exists v, gsat (tgrd t) v.
Proof.
  intros fuel pick A B PK WF CB RF H l a t K. apply simplified in H. destruct H as (s & H & ->). destruct (zoned fuel pick A s PK WF CB RF H) as [IV DN]. apply keep_edge in K. destruct K as (_ & _ & (e & He & _ & _ & _ & E)).
  apply (es_iff A (zgA s) IV) in He. destruct He as [He _]. destruct (proj1 (proj2 IV) e He) as (ns & nt & _ & _ & _ & _ & (w & _ & G) & _). exists w.
  unfold trans_eqb in E. apply andb_true_iff in E. destruct E as [_ E]. apply guard_eqb_eq in E. rewrite E. exact G.
Qed.
Print Assumptions C68_no_unsatisfiable_guard_left.
(** without that condition on renamings the simplification can remove a word:
    the zones apply the renamings one after the other (here a swap), the
    automaton applies them at once *)
Definition exRace : ta := mkTA
  [ (1%nat, mkS false [ (1%nat, [ mkT 2 [(1%nat, RConst 0)] [mkC 0 Oge 1; mkC 0 Ole 1] ]) ]);
    (2%nat, mkS false [ (1%nat, [ mkT 3 [(0%nat, RVar 1%nat); (1%nat, RVar 0%nat)] [mkC 1 Ole 0] ]) ]);
    (3%nat, mkS false [ (1%nat, [ mkT 4 [] [mkC 1 Oge 1; mkC 0 Ole 0] ]) ]);
    (4%nat, mkS true []) ] [1%nat] [1%Z; 1%Z].
Theorem C68_race_loses_words_refuted :
  exists (A B : ta) (d0 : Q) (w : list (letter * Q)),
    wfTA A /\ clocksBelow (length (tmax A)) A /\ charLetters A /\ noSilent A /\ detTA A /\ picks firstPick /\
    simplifyWithZones 10 firstPick A = Some B /\ accepts A d0 w /\ ~ accepts B d0 w.
Proof.
  eexists exRace, _, 1, [(1%nat, 0); (1%nat, 0); (1%nat, 0)].
  split; [apply wfb_ok; reflexivity|]. split; [apply belowb_ok; reflexivity|]. split.
  { intros l a t K. assert (X := edgeAll_ok (fun e => (snd (fst e) <? 127)%nat) exRace l a t eq_refl K). apply Nat.ltb_lt. exact X. }
  split; [apply noSilentb_ok; reflexivity|]. split; [apply deterministic_exact; [apply smallb_ok; reflexivity|reflexivity]|]. split; [apply firstPick_ok|].
  split; [vm_compute; reflexivity|]. split.
  - set (v2 := (fun x => match x with O => 1 | 1%nat => 0 | _ => 1 end) : valuation). set (v3 := applyReset v2 [(0%nat, RVar 1%nat); (1%nat, RVar 0%nat)]).
    assert (Z0 : forall l v, flow exRace (l, v) 0 (l, v)) by (intros l v; constructor; [lra|intro x; unfold delay; lra]).
    exists 1%nat, (1%nat, fun _ => 1), (4%nat, v3). split; [left; reflexivity|]. split; [constructor; [lra|intro x; unfold delay; lra]|]. split; [|eexists; split; [do 3 right; left; reflexivity|reflexivity]].
    apply (run_cons exRace _ 1%nat 0 (2%nat, v2) (2%nat, v2)); [|apply Z0|].
    { eexists. split; [eexists; eexists; split; [left; reflexivity|split; [left; reflexivity|left; reflexivity]]|]. cbn [tgrd trst ttgt fst snd]. split; [|split; [reflexivity|]].
      + intros k [<-|[<-|[]]]; unfold holds; vm_compute; congruence.
      + eapply isReset_veq; [| |apply applyReset_isReset]; [intro; reflexivity|]. intro x. unfold applyReset, applyReset1, v2. cbn. destruct x as [|[|x]]; cbn; reflexivity. }
    apply (run_cons exRace _ 1%nat 0 (3%nat, v3) (3%nat, v3)); [|apply Z0|].
    { eexists. split; [eexists; eexists; split; [right; left; reflexivity|split; [left; reflexivity|left; reflexivity]]|]. cbn [tgrd trst ttgt fst snd]. split; [|split; [reflexivity|apply applyReset_isReset]].
      intros k [<-|[]]; unfold holds; vm_compute; congruence. }
    apply (run_cons exRace _ 1%nat 0 (4%nat, v3) (4%nat, v3)); [|apply Z0|constructor].
    eexists. split; [eexists; eexists; split; [right; right; left; reflexivity|split; [left; reflexivity|left; reflexivity]]|]. cbn [tgrd trst ttgt fst snd]. split; [|split; [reflexivity|]].
    + intros k [<-|[<-|[]]]; unfold holds; vm_compute; congruence.
    + eapply isReset_veq; [| |apply applyReset_isReset]; intro; reflexivity.
  - intros (l0 & c0 & c & [] & _).
Qed.
Print Assumptions C68_race_loses_words_refuted.
(** *** a case: the automaton of PropertiesZoneGraph.v with a state that the
    zones show unreachable, and one that leads nowhere *)
Definition exPrune : ta := mkTA
  [ (1%nat, mkS false [ (1%nat, [ mkT 2 [(0%nat, RConst 0)] [mkC 0 Oge 1]; mkT 3 [] [mkC 0 Olt 1] ]); (2%nat, [ mkT 4 [] [] ]) ]);
    (2%nat, mkS true [ (1%nat, [ mkT 5 [] [mkC 0 Ogt 2; mkC 1 Olt 2]; mkT 1 [(1%nat, RVar 0%nat)] [mkC 0 Ole 2] ]) ]);
    (3%nat, mkS false [ (1%nat, [ mkT 3 [] [] ]) ]);
    (4%nat, mkS false []);
    (5%nat, mkS true []) ] [1%nat] [2%Z; 2%Z].
Example C68_nonvacuous :
  picks firstPick /\ wfTA exPrune /\ clocksBelow (length (tmax exPrune)) exPrune /\ raceFreeTA exPrune /\ charLetters exPrune /\
  exists B, simplifyWithZones 30 firstPick exPrune = Some B /\ map fst (tstates B) = [1%nat; 2%nat] /\ length (allTrans B) = 2%nat.
Proof.
  split; [apply firstPick_ok|]. split; [apply wfb_ok; reflexivity|]. split; [apply belowb_ok; reflexivity|]. split; [apply rfTAb_ok; reflexivity|]. split.
  { intros l a t K. assert (X := edgeAll_ok (fun e => (snd (fst e) <? 127)%nat) exPrune l a t eq_refl K). apply Nat.ltb_lt. exact X. }
  eexists. split; [vm_compute; reflexivity|]. split; reflexivity.
Qed.

(** ** C69: the hypothesis the learner submits *)
(** In the theorems below [o], [f], [ordP], [ordR], [place], [ordI], [relax],
    [split] and [prefer] are as in PropertiesHypothesis.v, [pick] is any way to
    search the states of the zone automaton and [fz] bounds its construction. *)
Lemma final_inv {St} (ordP : ot St -> list nat) ordI relax split prefer fz pick (t : ot St) c : finalHypothesis ordP ordI relax split prefer fz pick t = Ok c ->
  exists b, learnerHypothesis ordP ordI relax split prefer t = Ok b /\ simplifyWithZones fz pick b = Some c.
Proof.
  unfold finalHypothesis. destruct (learnerHypothesis ordP ordI relax split prefer t) as [b|]; [|discriminate]. cbn [bind]. destruct (simplifyWithZones fz pick b) as [c'|] eqn:E; [|discriminate]. intro H. injection H as <-. exists b. auto.
Qed.
Lemma charIn alpha A : (forall a, In a alpha -> (a < 127)%nat) -> lettersIn alpha A -> charLetters A.
Proof. intros H L l a t E. apply H, (L l a t E). Qed.
(** from every refined table the learner gets a hypothesis to submit, and it is
    deterministic, without unobservable transitions, over the alphabet, and
    accepts no word that the hypothesis of the table rejects.  Its complement is
    exact if its transitions stay inside it, which the next theorem shows under
    a condition on the renamings *)
Theorem C69_submitted :
  forall (St : Type) (o : mOracle St) (f : tword -> bool) (Inv : St -> Prop) (ordP ordR : ot St -> list nat) (place : ot St -> nat -> nat -> nat) (ordI : list (loc * tcond) -> list (loc * tcond)),
    oracleFor o f Inv -> regionInvariant properTW f -> delayInvariant f -> (forall t, Permutation (ordP t) (otP t)) -> (forall l, Permutation (ordI l) l) ->
    forall (fuel fuel' : nat) (alpha : list letter) (s : St) (ops : list tblOp) (t t' : ot St), Inv s -> ~ In UNOBSERVABLE alpha -> NoDup alpha -> properOps ops ->
      history o ordP ordR place fuel alpha s ops t -> refine o ordP place fuel' t = Ok t' -> askedNonempty t' -> smallRows t' ->
      forall relax split prefer pick, picks pick -> exists fz h c, generateHypothesis ordP ordI relax split prefer t' = Ok h /\
        (forall more, finalHypothesis ordP ordI relax split prefer (fz + more) pick t' = Ok c) /\
        noSilent c /\ detTA c /\ smallTA c /\ nonnegResets c /\ lettersIn alpha c /\ (length (tinit c) <= 1)%nat /\
        forall d0 w, accepts c d0 w -> accepts h d0 w.
Proof.
  intros St o f Inv ordP ordR place ordI HO RI TS HP HI fuel fuel' alpha s ops t t' I NA ND P H E A SM relax split prefer pick PK.
  destruct (refined_learner o f Inv ordP ordR place ordI HO RI TS HP HI fuel fuel' alpha s ops t t' I NA ND P H E A SM prefer) as (h & b & G & L & W & TM). destruct (G relax split) as [G1 G2].
  destruct (C68_terminates pick b PK (cb_learner _ _ _ _ _ _ _ G2)) as (fz & c & F). exists fz, h, c. split; [auto|]. split; [intro more; unfold finalHypothesis; rewrite G2; cbn [bind]; rewrite (F more); reflexivity|].
  specialize (F 0%nat). assert (S0 := F). apply simplified in S0. destruct S0 as (z & _ & Ec).
  assert (TC : tame alpha c) by (rewrite Ec; apply (thin_tame alpha _ b); [apply prune_thin|apply prune_initLen|exact TM]). destruct TC as [a1 a2 a3 a4 a5 a6]. do 6 (split; [assumption|]).
  intros d0 w K. apply L. apply (C68_only_removes _ _ _ _ F). exact K.
Qed.
Print Assumptions C69_submitted.
(** if in addition no renaming of the hypothesis reads a clock that an earlier
    renaming of the same transition has changed, the submitted hypothesis has
    the language of the one built from the table; its complement is exact *)
Theorem C69_same_language :
  forall (St : Type) (o : mOracle St) (f : tword -> bool) (Inv : St -> Prop) (ordP ordR : ot St -> list nat) (place : ot St -> nat -> nat -> nat) (ordI : list (loc * tcond) -> list (loc * tcond)),
    oracleFor o f Inv -> regionInvariant properTW f -> delayInvariant f -> (forall t, Permutation (ordP t) (otP t)) -> (forall l, Permutation (ordI l) l) ->
    forall (fuel fuel' : nat) (alpha : list letter) (s : St) (ops : list tblOp) (t t' : ot St), Inv s -> ~ In UNOBSERVABLE alpha -> NoDup alpha -> (forall a, In a alpha -> (a < 127)%nat) -> properOps ops ->
      history o ordP ordR place fuel alpha s ops t -> refine o ordP place fuel' t = Ok t' -> askedNonempty t' -> smallRows t' ->
      forall relax split prefer fz pick h b c, picks pick -> generateHypothesis ordP ordI relax split prefer t' = Ok h -> learnerHypothesis ordP ordI relax split prefer t' = Ok b -> raceFreeTA b ->
        finalHypothesis ordP ordI relax split prefer fz pick t' = Ok c ->
        sameLang c h /\ rightOnRows f t' c /\ wfTA c /\ (forall l, In l (map fst (tstates c)) -> areach c l /\ alive c l) /\
        forall d0 w, wordOver alpha d0 w -> (accepts (complement c alpha) d0 w <-> ~ accepts h d0 w).
Proof.
  intros St o f Inv ordP ordR place ordI HO RI TS HP HI fuel fuel' alpha s ops t t' I NA ND CA P H E A SM relax split prefer fz pick h b c PK Eh Eb RF Ec.
  destruct (refined_learner o f Inv ordP ordR place ordI HO RI TS HP HI fuel fuel' alpha s ops t t' I NA ND P H E A SM prefer) as (h' & b' & G & L & W & TM). destruct (G relax split) as [G1 G2].
  rewrite G1 in Eh. injection Eh as ->. rewrite G2 in Eb. injection Eb as ->. destruct (final_inv _ _ _ _ _ _ _ _ _ Ec) as (b' & G3 & F). rewrite G2 in G3. injection G3 as <-.
  assert (CB := cb_learner _ _ _ _ _ _ _ G2). assert (CL := charIn alpha b CA (ta_letters _ _ TM)).
  assert (S1 := C68_same_language fz pick b c PK W CB RF CL F). destruct (C68_nothing_useless_left fz pick b c PK W CB RF CL F) as [WC TR].
  assert (SL : sameLang c h) by (intros d0 w; rewrite <- (S1 d0 w); apply L).
  destruct (C66_right_on_rows St o f Inv ordP ordR place ordI HO RI TS HP HI fuel fuel' alpha s ops t t' I NA ND P H E A SM relax split prefer h b G1 G2) as [R _].
  split; [exact SL|]. split; [intros i w Hi Iw; rewrite <- (R i w Hi Iw); apply SL|]. split; [exact WC|]. split; [exact TR|].
  intros d0 w Hw. rewrite <- (SL d0 w). assert (S0 := F). apply simplified in S0. destruct S0 as (z & _ & EQ).
  assert (TC : tame alpha c) by (rewrite EQ; apply (thin_tame alpha _ b); [apply prune_thin|apply prune_initLen|exact TM]). destruct TC as [a1 a2 a3 a4 a5 a6]. apply (C24_complement_exact c alpha); auto.
Qed.
Print Assumptions C69_same_language.
(** the target is a deterministic timed automaton reached through the runner and
    the cache: the submitted hypothesis never accepts a word of a row that the
    target rejects, and agrees with it on all words of all rows if its renamings
    do not race *)
Theorem C69_agrees_with_target_automaton :
  forall (T : ta) (n : nat), plainDTA T -> intResets T ->
  forall (ordP ordR : ot (cache runner) -> list nat) (place : ot (cache runner) -> nat -> nat -> nat) (ordI : list (loc * tcond) -> list (loc * tcond)),
    (forall t, Permutation (ordP t) (otP t)) -> (forall l, Permutation (ordI l) l) ->
    forall (fuel fuel' : nat) (alpha : list letter) (ops : list tblOp) (t t' : ot (cache runner)), ~ In UNOBSERVABLE alpha -> NoDup alpha -> (forall a, In a alpha -> (a < 127)%nat) -> properOps ops ->
      history (cacheAnswer (sulAnswer n)) ordP ordR place fuel alpha (newCache (mkRunner T)) ops t -> refine (cacheAnswer (sulAnswer n)) ordP place fuel' t = Ok t' -> askedNonempty t' -> smallRows t' ->
      forall relax split prefer fz pick c, picks pick -> finalHypothesis ordP ordI relax split prefer fz pick t' = Ok c ->
        (forall i w, row t' i -> inElem (fel (preAt t' i)) w -> acceptsTW c w -> acceptsTW T w) /\
        ((forall b, learnerHypothesis ordP ordI relax split prefer t' = Ok b -> raceFreeTA b) ->
         forall i w, row t' i -> inElem (fel (preAt t' i)) w -> (acceptsTW c w <-> acceptsTW T w)).
Proof.
  intros T n PT IR ordP ordR place ordI HP HI fuel fuel' alpha ops t t' NA ND CA P H E A SM relax split prefer fz pick c PK Ec.
  destruct (C67_agrees_with_target_automaton T n PT IR ordP ordR place ordI HP HI fuel fuel' alpha ops t t' NA ND P H E A SM relax split prefer) as (b & Eb & K & _).
  destruct (final_inv _ _ _ _ _ _ _ _ _ Ec) as (b' & Eb' & F). rewrite Eb in Eb'. injection Eb' as <-. split.
  - intros i w Hi Iw Ac. apply (K i w Hi Iw). apply (C68_only_removes _ _ _ _ F). exact Ac.
  - intros RF i w Hi Iw. rewrite <- (K i w Hi Iw). destruct (plain_table n T PT IR) as (HO & RI & TS & I & Hf).
    destruct (refined_learner _ (answerF n T) (cacheInv n T) ordP ordR place ordI HO RI TS HP HI fuel fuel' alpha _ ops t t' I NA ND P H E A SM prefer) as (h & b' & G & L & W & TM). destruct (G relax split) as [G1 G2]. rewrite Eb in G2. injection G2 as <-.
    symmetry. apply (C68_same_language fz pick b c PK W (cb_learner _ _ _ _ _ _ _ Eb) (RF b Eb) (charIn alpha b CA (ta_letters _ _ TM)) F).
Qed.
Print Assumptions C69_agrees_with_target_automaton.
(** the whole learner: if it returns, and the equivalence oracle accepts only
    automata with the language of the target (over the alphabet), the result has
    that language, is deterministic and has no unobservable transition *)
Theorem C69_learned :
  forall (T : ta) (n : nat), plainDTA T -> intResets T ->
  forall (Es : Type) (eqOracle : Es -> ta -> res (Es * option tword)) (ordP ordR : ot (cache runner) -> list nat) (place : ot (cache runner) -> nat -> nat -> nat) (ordI : list (loc * tcond) -> list (loc * tcond)) relax split prefer pick,
    (forall t, Permutation (ordP t) (otP t)) -> (forall l, Permutation (ordI l) l) -> picks pick ->
    forall (fuel fuel' fz : nat) (alpha : list letter) (t0 t : ot (cache runner)) (e e' : Es) (c : ta), ~ In UNOBSERVABLE alpha -> NoDup alpha ->
      (forall e h e' w, eqOracle e h = Ok (e', Some w) -> properTW w) ->
      (forall e h e', eqOracle e h = Ok (e', None) -> forall d0 w, wordOver alpha d0 w -> (accepts h d0 w <-> accepts T d0 w)) ->
      newTable (cacheAnswer (sulAnswer n)) place fuel alpha (newSym (newCache (mkRunner T))) = Ok t0 ->
      learn (cacheAnswer (sulAnswer n)) ordP ordR place (finalHypothesis ordP ordI relax split prefer fz pick) eqOracle fuel' t0 e = Ok (t, e', c) -> askedNonempty t -> smallRows t ->
      (forall d0 w, wordOver alpha d0 w -> (accepts c d0 w <-> accepts T d0 w)) /\ noSilent c /\ detTA c /\ smallTA c /\ lettersIn alpha c /\ (length (tinit c) <= 1)%nat.
Proof.
  intros T n PT IR Es eqOracle ordP ordR place ordI relax split prefer pick HP HI PK fuel fuel' fz alpha t0 t e e' c NA ND HE HN E0 E A SM.
  destruct (plain_table n T PT IR) as (HO & RI & TS & I & Hf).
  assert (LE := learn_le _ _ _ _ _ _ _ _ _ _ _ _ E). assert (A0 := tle_allSat _ _ LE A). assert (T0 : tinv (answerF n T) (cacheInv n T) t0) by (eapply newTable_tinv; [exact HO|exact RI|exact NA|apply newSym_mem; exact I|exact E0|exact A0]).
  destruct (learn_spec _ (answerF n T) (cacheInv n T) ordP ordR place (finalHypothesis ordP ordI relax split prefer fz pick) eqOracle HO RI HP HE fuel' t0 e t e' c T0 A E) as [T' [[C1 [C2 [C3 C4]]] [H1 [e0 H2]]]].
  split; [apply (HN e0 c e' H2)|].
  assert (EA : otAlpha t = alpha). { destruct LE as [_ [-> _]]. assert (HH : history (cacheAnswer (sulAnswer n)) ordP ordR place fuel alpha (newCache (mkRunner T)) [] t0) by (exists t0; split; [exact E0|reflexivity]). apply (history_alpha _ _ _ _ _ _ _ _ _ HH). }
  assert (NDt : NoDup (otAlpha t)) by (rewrite EA; exact ND).
  destruct (m_learner _ (answerF n T) (cacheInv n T) HO RI TS t T' A C1 C4 NDt (fun i w Hi Iw k Hk => SM i w k Hi Iw Hk) ordP ordI (fun l => Permutation_sym (HI l)) (Permutation_sym (HP t)) prefer) as (h & b & G & L & W & TM).
  destruct (final_inv _ _ _ _ _ _ _ _ _ H1) as (b' & Eb & F). rewrite (proj2 (G relax split)) in Eb. injection Eb as <-. apply simplified in F. destruct F as (z & _ & EQ).
  assert (TC : tame alpha c) by (rewrite <- EA; rewrite EQ; apply (thin_tame (otAlpha t) _ b); [apply prune_thin|apply prune_initLen|exact TM]). destruct TC as [a1 a2 a3 a4 a5 a6]. auto.
Qed.
Print Assumptions C69_learned.

(** *** Non-vacuity of C69: the target accepts the words of odd length; the
    learner is run to the end *)
Definition exOdd : ta := mkTA [ (1%nat, mkS false [ (1%nat, [ mkT 2 [] [] ]) ]); (2%nat, mkS true [ (1%nat, [ mkT 1 [] [] ]) ]) ] [1%nat] [].
Definition exOddLearned : ta := mkTA
  [ (0%nat, mkS false [ (1%nat, [ mkT 1 [(1%nat, RConst 0)] [mkC 0 Ole 0]; mkT 1 [(0%nat, RConst 0); (1%nat, RConst 0)] [mkC 0 Ogt 0] ]) ]);
    (1%nat, mkS true [ (1%nat, [ mkT 0 [(0%nat, RConst 0)] [mkC 0 Ole 0; mkC 1 Ole 0]; mkT 0 [(0%nat, RConst 0); (1%nat, RConst 0)] [mkC 0 Ogt 0; mkC 1 Ogt 0] ]) ]) ] [0%nat] [0%Z; 0%Z].
(** automata that alternate between a rejecting state [p] and an accepting state [q] *)
Section Alternate.
Variables (A : ta) (p q : loc) (inv : loc -> valuation -> Prop).
Hypothesis (NS : noSilent A) (PQ : p <> q) (IN : tinit A = [p]) (AC : forall l, (l = p \/ l = q) -> (accepting A l <-> l = q)).
Hypothesis (TO : forall l a t, edge A l a t -> (l = p /\ ttgt t = q) \/ (l = q /\ ttgt t = p)).
Hypothesis (GO : forall l v, inv l v -> exists c, fire A 1%nat (l, v) c /\ inv (fst c) (snd c)).
Hypothesis (DE : forall l v d, inv l v -> 0 <= d -> inv l (delay v d)) (I0 : inv p (fun _ => 0)) (IPQ : forall l v, inv l v -> l = p \/ l = q).
Lemma alt_run : forall w c c', run A c w c' -> (fst c = p \/ fst c = q) -> (fst c' = p \/ fst c' = q) /\ (fst c' = fst c <-> Nat.even (length w) = true).
Proof using NS PQ TO.
  intros w c c' R. induction R as [c|c a d c1 c2 w c' (t & E & _ & L & _) FL R IH]; intro H; [split; [auto|split; auto]|].
  destruct c1 as [l1 v1]. destruct (flow_plain A l1 v1 d c2 NS FL) as (_ & E2 & _). cbn [fst] in L. rewrite E2, L in IH. cbn [length]. rewrite Nat.even_succ, <- Nat.negb_even.
  destruct (TO _ _ _ E) as [[H1 H2]|[H1 H2]]; rewrite H1, H2 in *; (destruct IH as [K1 K2]; [auto|]); (split; [auto|]); destruct (Nat.even (length w)); cbn [negb]; destruct K1 as [K1|K1]; rewrite K1 in *; intuition congruence.
Qed.
Lemma alt_go : forall w, (forall a d, In (a, d) w -> In a [1%nat] /\ 0 <= d) -> forall l v, inv l v -> exists c', run A (l, v) w c' /\ (fst c' = p \/ fst c' = q).
Proof using GO DE IPQ.
  induction w as [|[a d] w IH]; intros H l v I.
  - exists (l, v). split; [constructor|apply (IPQ l v I)].
  - destruct (H a d (or_introl eq_refl)) as [[<-|[]] Hd]. destruct (GO l v I) as ([l1 v1] & F & I1). cbn [fst snd] in I1. destruct (IH (fun b e K => H b e (or_intror K)) l1 (delay v1 d) (DE l1 v1 d I1 Hd)) as (c' & R & K). exists c'. split; [|auto].
    apply (run_cons A (l, v) 1%nat d (l1, v1) (l1, delay v1 d)); [exact F|constructor; [auto|intro; reflexivity]|exact R].
Qed.
Lemma alternate d0 w : wordOver [1%nat] d0 w -> (accepts A d0 w <-> Nat.even (length w) = false).
Proof using NS PQ IN AC TO GO DE I0 IPQ.
  intros [H0 Hw]. split.
  - intros (l0 & [l1 v1] & c & I & F & R & K). rewrite IN in I. destruct I as [<-|[]]. destruct (flow_plain A p _ d0 _ NS F) as (_ & E & _). cbn [fst] in E. subst l1. destruct (alt_run w _ c R (or_introl eq_refl)) as [B1 B2]. cbn [fst] in *.
    apply (AC _ B1) in K. destruct (Nat.even (length w)); [|auto]. exfalso. apply PQ. rewrite <- K. symmetry. apply B2. reflexivity.
  - intro O. destruct (alt_go w Hw p (delay (fun _ => 0) d0) (DE p _ d0 I0 H0)) as (c & R & K). exists p, (p, delay (fun _ => 0) d0), c. split; [rewrite IN; left; reflexivity|]. split; [constructor; [auto|intro; reflexivity]|]. split; [exact R|].
    apply (AC _ K). destruct (alt_run w _ c R (or_introl eq_refl)) as [B1 B2]. cbn [fst] in *. destruct K as [K|K]; [|auto]. apply B2 in K. congruence.
Qed.
End Alternate.
Lemma exOdd_lang d0 w : wordOver [1%nat] d0 w -> (accepts exOdd d0 w <-> Nat.even (length w) = false).
Proof.
  apply (alternate exOdd 1%nat 2%nat (fun l _ => l = 1%nat \/ l = 2%nat)).
  - apply noSilentb_ok. reflexivity.
  - discriminate.
  - reflexivity.
  - intros l [-> | ->]; (split; intro K); [destruct K as (s & [X|[X|[]]] & M); [injection X as <-; discriminate M|discriminate X]|discriminate K|reflexivity|]. eexists. split; [right; left; reflexivity|reflexivity].
  - intros l a t K. assert (X := edgeAll_ok (fun e => (Nat.eqb (fst (fst e)) 1 && Nat.eqb (ttgt (snd e)) 2) || (Nat.eqb (fst (fst e)) 2 && Nat.eqb (ttgt (snd e)) 1)) exOdd l a t eq_refl K). cbn [fst snd] in X.
    apply orb_true_iff in X. destruct X as [X|X]; apply andb_true_iff in X; destruct X as [X1 X2]; apply Nat.eqb_eq in X1, X2; auto.
  - intros l v [-> | ->].
    + exists (2%nat, v). split; [|auto]. eexists. split; [eexists; eexists; split; [left; reflexivity|split; [left; reflexivity|left; reflexivity]]|]. cbn [tgrd trst ttgt fst snd]. split; [intros k []|]. split; [reflexivity|]. eapply isReset_veq; [| |apply applyReset_isReset]; intro; reflexivity.
    + exists (1%nat, v). split; [|auto]. eexists. split; [eexists; eexists; split; [right; left; reflexivity|split; [left; reflexivity|left; reflexivity]]|]. cbn [tgrd trst ttgt fst snd]. split; [intros k []|]. split; [reflexivity|]. eapply isReset_veq; [| |apply applyReset_isReset]; intro; reflexivity.
  - auto.
  - auto.
  - auto.
Qed.
Lemma exOddLearned_lang d0 w : wordOver [1%nat] d0 w -> (accepts exOddLearned d0 w <-> Nat.even (length w) = false).
Proof.
  apply (alternate exOddLearned 0%nat 1%nat (fun l v => 0 <= v 0%nat /\ (l = 0%nat \/ l = 1%nat /\ v 1%nat == v 0%nat))).
  - apply noSilentb_ok. reflexivity.
  - discriminate.
  - reflexivity.
  - intros l [-> | ->]; (split; intro K); [destruct K as (s & [X|[X|[]]] & M); [injection X as <-; discriminate M|discriminate X]|discriminate K|reflexivity|]. eexists. split; [right; left; reflexivity|reflexivity].
  - intros l a t K. assert (X := edgeAll_ok (fun e => (Nat.eqb (fst (fst e)) 0 && Nat.eqb (ttgt (snd e)) 1) || (Nat.eqb (fst (fst e)) 1 && Nat.eqb (ttgt (snd e)) 0)) exOddLearned l a t eq_refl K). cbn [fst snd] in X.
    apply orb_true_iff in X. destruct X as [X|X]; apply andb_true_iff in X; destruct X as [X1 X2]; apply Nat.eqb_eq in X1, X2; auto.
  - intros l v [P L]. destruct (Qlt_le_dec 0 (v 0%nat)) as [Z|Z]; destruct L as [-> | [-> E]].
    + exists (1%nat, applyReset v [(0%nat, RConst 0); (1%nat, RConst 0)]). split; [|cbn; split; [lra|right; split; [auto|reflexivity]]].
      eexists. split; [eexists; eexists; split; [left; reflexivity|split; [left; reflexivity|right; left; reflexivity]]|]. cbn [tgrd trst ttgt fst snd]. split; [intros k [<-|[]]; unfold holds; cbn; change (inject_Z 0) with 0; lra|]. split; [reflexivity|apply applyReset_isReset].
    + exists (0%nat, applyReset v [(0%nat, RConst 0); (1%nat, RConst 0)]). split; [|cbn; split; [lra|left; auto]].
      eexists. split; [eexists; eexists; split; [right; left; reflexivity|split; [left; reflexivity|right; left; reflexivity]]|]. cbn [tgrd trst ttgt fst snd]. split; [intros k [<-|[<-|[]]]; unfold holds; cbn; change (inject_Z 0) with 0; lra|]. split; [reflexivity|apply applyReset_isReset].
    + exists (1%nat, applyReset v [(1%nat, RConst 0)]). split; [|cbn; split; [lra|right; split; [auto|lra]]].
      eexists. split; [eexists; eexists; split; [left; reflexivity|split; [left; reflexivity|left; reflexivity]]|]. cbn [tgrd trst ttgt fst snd]. split; [intros k [<-|[]]; unfold holds; cbn; change (inject_Z 0) with 0; lra|]. split; [reflexivity|apply applyReset_isReset].
    + exists (0%nat, applyReset v [(0%nat, RConst 0)]). split; [|cbn; split; [lra|left; auto]].
      eexists. split; [eexists; eexists; split; [right; left; reflexivity|split; [left; reflexivity|left; reflexivity]]|]. cbn [tgrd trst ttgt fst snd]. split; [intros k [<-|[<-|[]]]; unfold holds; cbn; change (inject_Z 0) with 0; lra|]. split; [reflexivity|apply applyReset_isReset].
  - intros l v d [P L] D. unfold delay. split; [lra|]. destruct L as [L|[L E]]; [auto|right; split; [auto|lra]].
  - split; [lra|auto].
  - intros l v [_ [L|[L _]]]; auto.
Qed.
Definition ta_dec (a b : ta) : {a = b} + {a <> b}.
Proof. repeat decide equality. Defined.
(** an equivalence oracle that accepts one automaton, a right one *)
Definition oddOracle (e : unit) (h : ta) : res (unit * option tword) := if ta_dec h exOddLearned then Ok (e, None) else Stop SOracle.
Definition oddFinal : ot (cache runner) -> res ta := finalHypothesis tbP hypI (fun _ s => s) (fun s => s) hypPrefer 60 firstPick.
Definition oddNew : res (ot (cache runner)) := newTable (cacheAnswer (sulAnswer 0)) tbPl 40 [1%nat] (newSym (newCache (mkRunner exOdd))).
Definition oddLearn (t : ot (cache runner)) : res (ot (cache runner) * unit * ta) := learn (cacheAnswer (sulAnswer 0)) tbP tbR tbPl oddFinal oddOracle 40 t tt.
Definition oddCheck (x : ot (cache runner) * unit * ta) : bool := tbSat (fst (fst x)) && forallb smallRowb (otPre (fst (fst x))).
Definition bind2 {A B} (r : res A) (g : A -> res B) (c : B -> bool) : bool := match (do t <- r; g t) with Ok y => c y | Stop _ => false end.
Lemma bind2_ok {A B} (r : res A) (g : A -> res B) c : bind2 r g c = true -> exists t x, r = Ok t /\ g t = Ok x /\ c x = true.
Proof. unfold bind2. intro H. destruct r as [t|]; [|discriminate]. cbn [bind] in H. destruct (g t) as [x|] eqn:E; [|discriminate]. exists t, x. auto. Qed.
Lemma oddRun : bind2 oddNew oddLearn oddCheck = true.
Proof. vm_compute. reflexivity. Qed.
Example C69_satisfiable :
  plainDTA exOdd /\ intResets exOdd /\ picks firstPick /\
  (forall e h e' w, oddOracle e h = Ok (e', Some w) -> properTW w) /\
  (forall e h e', oddOracle e h = Ok (e', None) -> forall d0 w, wordOver [1%nat] d0 w -> (accepts h d0 w <-> accepts exOdd d0 w)) /\
  exists t0 t e c, oddNew = Ok t0 /\ oddLearn t0 = Ok (t, e, c) /\ askedNonempty t /\ smallRows t.
Proof.
  split. { split; [apply wfb_ok; reflexivity|]. split; [apply noSilentb_ok; reflexivity|]. split; [|split; [apply deterministic_exact; [apply smallb_ok; reflexivity|reflexivity]|exists 1%nat; reflexivity]].
    intros l a t x q K I. assert (X := edgeAll_ok (fun e => match trst (snd e) with [] => true | _ => false end) exOdd l a t eq_refl K). cbn [snd] in X. destruct (trst t); [destruct I|discriminate]. }
  split. { intros l a t x q K I. assert (X := edgeAll_ok (fun e => match trst (snd e) with [] => true | _ => false end) exOdd l a t eq_refl K). cbn [snd] in X. destruct (trst t); [destruct I|discriminate]. }
  split; [apply firstPick_ok|]. split. { intros e h e' w. unfold oddOracle. destruct (ta_dec h exOddLearned); discriminate. }
  split. { intros e h e' E d0 w W. unfold oddOracle in E. destruct (ta_dec h exOddLearned) as [-> |]; [|discriminate]. rewrite (exOddLearned_lang d0 w W), (exOdd_lang d0 w W). reflexivity. }
  destruct (bind2_ok _ _ _ oddRun) as (t0 & [[t e] c] & E0 & E1 & C). unfold oddCheck in C. cbn [fst snd] in C. apply andb_true_iff in C. destruct C as [C1 C2]. exists t0, t, e, c. split; [exact E0|]. split; [exact E1|]. split; [apply tbSat_ok; exact C1|apply smallRowb_ok; exact C2].
Qed.
