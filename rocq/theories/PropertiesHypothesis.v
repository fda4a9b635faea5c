(** C65 - C67: the hypothesis built from a refined table. *)
From Coq Require Import QArith ZArith Bool List Arith Lia Lqa Permutation.
From Verif Require Import BoundsModel BoundsProofs ConstraintModel GuardSpec ZoneModel ZoneSpec ZoneProofs AutomatonModel AutomatonSpec AutomatonProofs TimedWordModel TimedWordSpec TimedWordProofs
  TimedConditionModel TimedConditionSpec TimedConditionProofs ElementaryModel ElementarySpec ElementaryProofs
  RegionalModel RegionalSpec OracleModel OracleSpec SymbolicModel SymbolicSpec CexModel CexSpec RenamingModel RenamingSpec PropertiesAutomata PropertiesSymbolic PropertiesCex PropertiesRenaming OracleInstance TableModel TableSpec
  TableProofs ShapeProofs ShapeProofs2 TableProofs2 TableProofs3 TableProofs4 TableProofs5 TableProofs6 TableProofs7 TableProofs8 TableProofs9 TableProofs10 TableProofs11 TableProofs12 PropertiesTable
  HypothesisModel HypothesisSpec HypothesisGuard HypothesisMain HypothesisMain2 HypothesisMain3.
Import ListNotations.
Open Scope Q_scope.

(** In all theorems: [o], [f], [ordP], [ordR] and [place] are as in
    PropertiesTable.v; [ordI] is the iteration order of the map inside
    InternalTransitionMaker; [relax] (ImpreciseClockHandler::run), [split]
    (splitStates) and [prefer] (the choice between two overlapping transitions)
    are arbitrary functions. *)

(** ** the table behind a history *)
Lemma history_alpha {St} (o : mOracle St) ordP ordR place fuel alpha s ops t : history o ordP ordR place fuel alpha s ops t -> otAlpha t = alpha.
Proof.
  intros [t0 [E0 E]]. apply runOps_le in E. destruct E as [_ [-> _]]. unfold newTable in E0. bind_inv E0. apply refresh_rest in E0. destruct E0 as [-> _]. apply moveToP_le in E. destruct E as [_ [-> _]]. reflexivity.
Qed.
Section Refined.
Context {St : Type} (o : mOracle St) (f : tword -> bool) (Inv : St -> Prop) (ordP ordR : ot St -> list nat) (place : ot St -> nat -> nat -> nat) (ordI : list (loc * tcond) -> list (loc * tcond)).
Context (HO : oracleFor o f Inv) (RI : regionInvariant properTW f) (TS : delayInvariant f) (HP : forall t, Permutation (ordP t) (otP t)) (HI : forall l, Permutation (ordI l) l).
Context (fuel fuel' : nat) (alpha : list letter) (s : St) (ops : list tblOp) (t t' : ot St).
Context (I : Inv s) (NA : ~ In UNOBSERVABLE alpha) (ND : NoDup alpha) (P : properOps ops) (H : history o ordP ordR place fuel alpha s ops t).
Context (E : refine o ordP place fuel' t = Ok t') (A : askedNonempty t') (SM : smallRows t').
Context (prefer : trans -> trans -> bool).
Lemma refined_hypothesis : otAlpha t' = alpha /\ exists h, (forall relax split, generateHypothesis ordP ordI relax split prefer t' = Ok h) /\ tinit h = [0%nat] /\ wfTA h /\ tame alpha h /\ readsAll alpha h /\ rightOnRows f t' h.
Proof using HO RI TS HP HI I NA ND P H E A SM.
  assert (L := refine_le _ _ _ _ _ _ E). assert (T : tinv f Inv t) by (eapply history_tinv; eauto; eapply tle_allSat; eauto). destruct (refine_spec o f Inv ordP place HO RI HP fuel' t t' T A E) as [T' [C1 [C2 [C3 C4]]]].
  assert (EA : otAlpha t' = alpha) by (destruct L as [_ [-> _]]; eapply history_alpha; exact H). split; [exact EA|]. rewrite <- EA. rewrite <- EA in ND.
  apply (m_hypothesis o f Inv HO RI TS t' T' A C1 C4 ND (fun i w Hi Iw k Hk => SM i w k Hi Iw Hk) ordP ordI (fun l => Permutation_sym (HI l)) (Permutation_sym (HP t')) prefer).
Qed.
Lemma refined_learner : exists h b, (forall relax split, generateHypothesis ordP ordI relax split prefer t' = Ok h /\ learnerHypothesis ordP ordI relax split prefer t' = Ok b) /\ sameLang b h /\ wfTA b /\ tame alpha b.
Proof using HO RI TS HP HI I NA ND P H E A SM.
  assert (L := refine_le _ _ _ _ _ _ E). assert (T : tinv f Inv t) by (eapply history_tinv; eauto; eapply tle_allSat; eauto). destruct (refine_spec o f Inv ordP place HO RI HP fuel' t t' T A E) as [T' [C1 [C2 [C3 C4]]]].
  assert (EA : otAlpha t' = alpha) by (destruct L as [_ [-> _]]; eapply history_alpha; exact H). rewrite <- EA. rewrite <- EA in ND.
  apply (m_learner o f Inv HO RI TS t' T' A C1 C4 ND (fun i w Hi Iw k Hk => SM i w k Hi Iw Hk) ordP ordI (fun l => Permutation_sym (HI l)) (Permutation_sym (HP t')) prefer).
Qed.
End Refined.

(** C65: from every refined table a hypothesis is built - no exception, no
    abort, and neither ImpreciseClockHandler nor splitStates has any effect.  It
    is a deterministic automaton over the alphabet with one initial state and no
    unobservable transition, the kind the runner handles, and it has a run on
    every timed word over the alphabet. *)
Theorem C65_hypothesis_built :
  forall (St : Type) (o : mOracle St) (f : tword -> bool) (Inv : St -> Prop) (ordP ordR : ot St -> list nat) (place : ot St -> nat -> nat -> nat) (ordI : list (loc * tcond) -> list (loc * tcond)),
    oracleFor o f Inv -> regionInvariant properTW f -> delayInvariant f -> (forall t, Permutation (ordP t) (otP t)) -> (forall l, Permutation (ordI l) l) ->
    forall (fuel fuel' : nat) (alpha : list letter) (s : St) (ops : list tblOp) (t t' : ot St), Inv s -> ~ In UNOBSERVABLE alpha -> NoDup alpha -> properOps ops ->
      history o ordP ordR place fuel alpha s ops t -> refine o ordP place fuel' t = Ok t' -> askedNonempty t' -> smallRows t' ->
      forall prefer, exists h, (forall relax split, generateHypothesis ordP ordI relax split prefer t' = Ok h) /\ plainDTA h /\ smallTA h /\ lettersIn alpha h /\ readsAll alpha h.
Proof.
  intros St o f Inv ordP ordR place ordI HO RI TS HP HI fuel fuel' alpha s ops t t' I NA ND P H E A SM prefer.
  destruct (refined_hypothesis o f Inv ordP ordR place ordI HO RI TS HP HI fuel fuel' alpha s ops t t' I NA ND P H E A SM prefer) as (_ & h & G & Ih & W & [a1 a2 a3 a4 a5 a6] & R & _).
  exists h. split; [auto|]. split; [split; [auto|]; split; [auto|]; split; [auto|]; split; [auto|exists 0%nat; auto]|]. split; [auto|]. split; auto.
Qed.
Print Assumptions C65_hypothesis_built.
(** the hypothesis the learner gives to the equivalence oracle has the same
    language, is deterministic, and its complement is exact *)
Theorem C65_learner_hypothesis :
  forall (St : Type) (o : mOracle St) (f : tword -> bool) (Inv : St -> Prop) (ordP ordR : ot St -> list nat) (place : ot St -> nat -> nat -> nat) (ordI : list (loc * tcond) -> list (loc * tcond)),
    oracleFor o f Inv -> regionInvariant properTW f -> delayInvariant f -> (forall t, Permutation (ordP t) (otP t)) -> (forall l, Permutation (ordI l) l) ->
    forall (fuel fuel' : nat) (alpha : list letter) (s : St) (ops : list tblOp) (t t' : ot St), Inv s -> ~ In UNOBSERVABLE alpha -> NoDup alpha -> properOps ops ->
      history o ordP ordR place fuel alpha s ops t -> refine o ordP place fuel' t = Ok t' -> askedNonempty t' -> smallRows t' ->
      forall prefer, exists h b, (forall relax split, generateHypothesis ordP ordI relax split prefer t' = Ok h /\ learnerHypothesis ordP ordI relax split prefer t' = Ok b) /\
        sameLang b h /\ wfTA b /\ noSilent b /\ detTA b /\ smallTA b /\ nonnegResets b /\ lettersIn alpha b /\
        forall d0 w, wordOver alpha d0 w -> (accepts (complement b alpha) d0 w <-> ~ accepts h d0 w).
Proof.
  intros St o f Inv ordP ordR place ordI HO RI TS HP HI fuel fuel' alpha s ops t t' I NA ND P H E A SM prefer.
  destruct (refined_learner o f Inv ordP ordR place ordI HO RI TS HP HI fuel fuel' alpha s ops t t' I NA ND P H E A SM prefer) as (h & b & G & L & W & [a1 a2 a3 a4 a5 a6]).
  exists h, b. split; [auto|]. split; [auto|]. split; [auto|]. split; [auto|]. split; [auto|]. split; [auto|]. split; [auto|]. split; [auto|].
  intros d0 w Hw. rewrite <- (L d0 w). apply (C24_complement_exact b alpha); auto.
Qed.
Print Assumptions C65_learner_hypothesis.
(** C66: the hypothesis is right about every word of every row of the table *)
Theorem C66_right_on_rows :
  forall (St : Type) (o : mOracle St) (f : tword -> bool) (Inv : St -> Prop) (ordP ordR : ot St -> list nat) (place : ot St -> nat -> nat -> nat) (ordI : list (loc * tcond) -> list (loc * tcond)),
    oracleFor o f Inv -> regionInvariant properTW f -> delayInvariant f -> (forall t, Permutation (ordP t) (otP t)) -> (forall l, Permutation (ordI l) l) ->
    forall (fuel fuel' : nat) (alpha : list letter) (s : St) (ops : list tblOp) (t t' : ot St), Inv s -> ~ In UNOBSERVABLE alpha -> NoDup alpha -> properOps ops ->
      history o ordP ordR place fuel alpha s ops t -> refine o ordP place fuel' t = Ok t' -> askedNonempty t' -> smallRows t' ->
      forall relax split prefer h b, generateHypothesis ordP ordI relax split prefer t' = Ok h -> learnerHypothesis ordP ordI relax split prefer t' = Ok b ->
        rightOnRows f t' h /\ rightOnRows f t' b.
Proof.
  intros St o f Inv ordP ordR place ordI HO RI TS HP HI fuel fuel' alpha s ops t t' I NA ND P H E A SM relax split prefer h b Eh Eb.
  destruct (refined_hypothesis o f Inv ordP ordR place ordI HO RI TS HP HI fuel fuel' alpha s ops t t' I NA ND P H E A SM prefer) as (_ & h' & G & _ & _ & _ & _ & R).
  destruct (refined_learner o f Inv ordP ordR place ordI HO RI TS HP HI fuel fuel' alpha s ops t t' I NA ND P H E A SM prefer) as (h2 & b' & G2 & L & _).
  rewrite (proj1 (G2 relax split)) in Eh. rewrite (proj2 (G2 relax split)) in Eb. specialize (G relax split). rewrite (proj1 (G2 relax split)) in G. injection G as ->. injection Eh as ->. injection Eb as ->.
  split; [exact R|]. intros i w Hi Iw. rewrite <- (R i w Hi Iw). apply L.
Qed.
Print Assumptions C66_right_on_rows.

(** ** targets given by an automaton *)
Lemma flow_plain A l v d c : noSilent A -> flow A (l, v) d c -> 0 <= d /\ fst c = l /\ veq (snd c) (delay v d).
Proof. intros NS F. destruct (flow_noSilent A l v d c NS F) as (E1 & E2 & E3). auto. Qed.
Lemma run_lastDelay A w : noSilent A -> forall c a d c' d', run A c (w ++ [(a, d)]) c' -> 0 <= d' -> exists c'', run A c (w ++ [(a, d')]) c'' /\ fst c'' = fst c'.
Proof.
  intro NS. induction w as [|[b e] w IH]; intros c a d c' d' H D; cbn [app] in *.
  - inversion H as [|? ? ? [l1 v1] c2 ? ? F1 F2 F3]; subst. inversion F3; subst. destruct (flow_plain _ _ _ _ _ NS F2) as (_ & E & _). exists (l1, delay v1 d'). split; [|auto]. econstructor; [exact F1| |constructor]. constructor; [auto|apply veq_refl].
  - inversion H as [|? ? ? c1 c2 ? ? F1 F2 F3]; subst. destruct (IH _ _ _ _ d' F3 D) as (c'' & H' & E). exists c''. split; [|auto]. econstructor; eauto.
Qed.
Lemma accepts_lastDelay A w q : noSilent A -> properTW w -> 0 <= q -> (acceptsTW A (mkTW (tw w) (delayed (td w) q)) <-> acceptsTW A w).
Proof.
  intros NS [[W N] _] Q0. destruct (snoc_wf w W) as (d & x & Ed & Ld). unfold delayed. rewrite Ed, TimedWordProofs.addBack_snoc. assert (X0 : 0 <= x) by (rewrite Forall_forall in N; apply N; rewrite Ed; apply in_or_app; right; left; auto).
  assert (G : forall y z, 0 <= z -> acceptsTW A (mkTW (tw w) (d ++ [y])) -> acceptsTW A (mkTW (tw w) (d ++ [z]))).
  { intros y z Z. unfold acceptsTW, events, firstDur. cbn [tw td]. destruct d as [|d0 d]; cbn [app hd tl].
    - destruct (tw w); [|discriminate]. cbn [combine]. intros (l0 & c0 & c & I & F & R & Ac). inversion R; subst. destruct (flow_plain _ _ _ _ _ NS F) as (_ & E & _). exists l0, (l0, delay (fun _ => 0) z), (l0, delay (fun _ => 0) z).
      split; [auto|]. split; [constructor; [auto|apply veq_refl]|]. split; [constructor|]. cbn [fst]. rewrite <- E. exact Ac.
    - cbn [length] in Ld. assert (S0 : exists us b, tw w = us ++ [b] /\ length us = length d). { destruct (tw w) as [|b0 us]; [discriminate|]. destruct (exists_last (l := b0 :: us)) as (us' & b & Eb); [discriminate|]. exists us', b. split; [auto|]. rewrite Eb, app_length in Ld. cbn in Ld. lia. }
      destruct S0 as (us & b & Ew & Lu). rewrite Ew. assert (C : forall k, combine (us ++ [b]) (d ++ [k]) = combine us d ++ [(b, k)]). { intro k. clear - Lu. revert d Lu. induction us as [|u us IH]; intros [|e d] L; try discriminate; [reflexivity|]. cbn [app combine]. f_equal. apply IH. injection L as L. exact L. }
      rewrite !C. intros (l0 & c0 & c & I & F & R & Ac). destruct (run_lastDelay A _ NS _ _ _ _ z R Z) as (c' & R' & E). exists l0, c0, c'. split; [auto|]. split; [auto|]. split; [auto|]. rewrite E. exact Ac. }
  assert (Ew : w = mkTW (tw w) (d ++ [x])) by (destruct w as [w1 w2]; cbn [tw td] in *; congruence). split; intro K.
  - rewrite Ew. apply (G (x + q)); auto.
  - rewrite Ew in K. cbn [tw] in K. apply (G x); [lra|auto].
Qed.
Lemma plain_table n T : plainDTA T -> intResets T ->
  oracleFor (cacheAnswer (sulAnswer n)) (answerF n T) (cacheInv n T) /\ regionInvariant properTW (answerF n T) /\ delayInvariant (answerF n T) /\ cacheInv n T (newCache (mkRunner T)) /\
  forall w, properTW w -> (answerF n T w = true <-> acceptsTW T w).
Proof.
  intros P IR. destruct (plain_oracle n T P IR) as [Hf [Ho [RI I0]]].
  assert (G : forall w, properTW w -> OracleInstance.goodTW w) by (intros w [[H1 H2] _]; split; [auto|intros q Hq; rewrite Forall_forall in H2; auto]).
  split; [intros s x I H; apply Ho; auto|]. split; [intros w w' W W' H H' E R; apply RI; auto|]. split; [|split; [auto|intros w Pw; apply Hf; auto]].
  intros w q Pw Q0. assert (Pq : properTW (mkTW (tw w) (delayed (td w) q))).
  { destruct Pw as [[W N] V]. split; [|exact V]. split; [unfold wfTW, delayed; cbn [tw td]; rewrite addBack_len; exact W|]. cbn [td]. destruct (snoc_wf w W) as (d & x & Ed & _). unfold delayed. rewrite Ed, TimedWordProofs.addBack_snoc. rewrite Ed in N.
    apply Forall_app in N. destruct N as [N1 N2]. apply Forall_app. split; [auto|]. inversion N2; subst. constructor; [lra|constructor]. }
  assert (K := accepts_lastDelay T w q (proj1 (proj2 P)) Pw Q0). assert (A1 := Hf _ (G _ Pw)). assert (A2 := Hf _ (G _ Pq)).
  destruct (answerF n T w); [apply A2, K, A1; reflexivity|]. destruct (answerF n T (mkTW (tw w) (delayed (td w) q))); [|reflexivity]. symmetry. apply A1, K, A2. reflexivity.
Qed.
(** C67: the target is a deterministic timed automaton without unobservable
    transitions, given to the learner through the runner and the cache: every
    refined table gives a hypothesis that agrees with the target automaton on all
    words of all rows.  A word on which they differ is in no row. *)
Theorem C67_agrees_with_target_automaton :
  forall (T : ta) (n : nat), plainDTA T -> intResets T ->
  forall (ordP ordR : ot (cache runner) -> list nat) (place : ot (cache runner) -> nat -> nat -> nat) (ordI : list (loc * tcond) -> list (loc * tcond)),
    (forall t, Permutation (ordP t) (otP t)) -> (forall l, Permutation (ordI l) l) ->
    forall (fuel fuel' : nat) (alpha : list letter) (ops : list tblOp) (t t' : ot (cache runner)), ~ In UNOBSERVABLE alpha -> NoDup alpha -> properOps ops ->
      history (cacheAnswer (sulAnswer n)) ordP ordR place fuel alpha (newCache (mkRunner T)) ops t -> refine (cacheAnswer (sulAnswer n)) ordP place fuel' t = Ok t' -> askedNonempty t' -> smallRows t' ->
      forall relax split prefer, exists b, learnerHypothesis ordP ordI relax split prefer t' = Ok b /\
        (forall i w, row t' i -> inElem (fel (preAt t' i)) w -> (acceptsTW b w <-> acceptsTW T w)) /\
        (forall w, ~ (acceptsTW b w <-> acceptsTW T w) -> forall i, row t' i -> ~ inElem (fel (preAt t' i)) w).
Proof.
  intros T n PT IR ordP ordR place ordI HP HI fuel fuel' alpha ops t t' NA ND P H E A SM relax split prefer.
  destruct (plain_table n T PT IR) as (HO & RI & TS & I & Hf).
  destruct (refined_learner _ (answerF n T) (cacheInv n T) ordP ordR place ordI HO RI TS HP HI fuel fuel' alpha _ ops t t' I NA ND P H E A SM prefer) as (h & b & G & L & _).
  destruct (C66_right_on_rows _ _ (answerF n T) (cacheInv n T) ordP ordR place ordI HO RI TS HP HI fuel fuel' alpha _ ops t t' I NA ND P H E A SM relax split prefer h b (proj1 (G relax split)) (proj2 (G relax split))) as [_ R].
  assert (K : forall i w, row t' i -> inElem (fel (preAt t' i)) w -> (acceptsTW b w <-> acceptsTW T w)).
  { intros i w Hi Iw. rewrite (R i w Hi Iw). apply Hf. assert (TI : tinv (answerF n T) (cacheInv n T) t) by (eapply history_tinv; eauto; eapply tle_allSat; [eapply refine_le; exact E|exact A]).
    destruct (refine_spec _ (answerF n T) (cacheInv n T) ordP place HO RI HP fuel' t t' TI A E) as [T' _]. apply (m_proper (answerF n T) (cacheInv n T) t' T' i w Iw). }
  exists b. split; [apply G|]. split; [exact K|]. intros w D i Hi Iw. apply D. apply (K i w Hi Iw).
Qed.
Print Assumptions C67_agrees_with_target_automaton.

(** *** Non-vacuity: the tables of PropertiesTable.v; the automaton [exR] *)
Definition hypI (l : list (loc * tcond)) : list (loc * tcond) := l.
Definition smallRowb (x : frel) : bool :=
  forallb (fun i => match getUpperBound (ec (fel x)) i (tcSize (ec (fel x)) - 1) with Fin c _ => Qltb (c + 1) (inject_Z INT_MAX) | Inf => false end) (seq 0 (tcSize (ec (fel x)))).
Lemma smallRowb_ok {St} (t : ot St) : forallb smallRowb (otPre t) = true -> smallRows t.
Proof.
  intros H i w k Hi [_ [L Iw]] Hk. rewrite forallb_forall in H. assert (S0 := H (preAt t i) ltac:(unfold preAt; apply nth_In; exact Hi)). unfold smallRowb in S0. rewrite forallb_forall in S0.
  set (m := ec (fel (preAt t i))) in *. specialize (S0 k ltac:(apply in_seq; lia)). destruct (Iw k (tcSize m - 1)%nat ltac:(lia) ltac:(lia)) as [U _]. unfold since. rewrite L.
  destruct (getUpperBound m k (tcSize m - 1)) as [c [|]|]; [| |discriminate]; apply Qltb_true in S0; cbn [bsat] in U; lra.
Qed.
Definition hypPrefer (a b : trans) : bool := true.
(** both histories, without and with a counterexample, meet the hypotheses, and
    the hypothesis made of either table has two states *)
Definition hypCheck (x : ot (cache runner) * ta) : bool :=
  tbSat (fst x) && forallb smallRowb (otPre (fst x)) && (length (tstates (snd x)) =? 2)%nat.
Definition bindCheck {A B C} (r : res A) (g : A -> res B) (k : B -> res C) (c : B * C -> bool) : bool :=
  match (do t <- r; do t' <- g t; do x <- k t'; Ok (t', x)) with Ok y => c y | Stop _ => false end.
Lemma bind3 {A B C} (r : res A) (g : A -> res B) (k : B -> res C) (c : B * C -> bool) :
  bindCheck r g k c = true -> exists t t' x, r = Ok t /\ g t = Ok t' /\ k t' = Ok x /\ c (t', x) = true.
Proof. unfold bindCheck. intro H. destruct r as [t|]; [|discriminate]. cbn [bind] in H. destruct (g t) as [t'|] eqn:E1; [|discriminate]. cbn [bind] in H. destruct (k t') as [x|] eqn:E2; [|discriminate]. exists t, t', x. auto. Qed.
Lemma hypCheck_ok t h : hypCheck (t, h) = true -> askedNonempty t /\ smallRows t /\ length (tstates h) = 2%nat.
Proof. unfold hypCheck. cbn [fst snd]. intro X. apply andb_true_iff in X. destruct X as [X X3]. apply andb_true_iff in X. destruct X as [X1 X2]. split; [apply tbSat_ok; exact X1|]. split; [apply smallRowb_ok; exact X2|]. apply Nat.eqb_eq. exact X3. Qed.
Lemma hypGood_ok ops : bindCheck (tbRun ops) (refine tbO tbP tbPl 40) (learnerHypothesis tbP hypI (fun _ s => s) (fun s => s) hypPrefer) hypCheck = true -> exists t t' h, history tbO tbP tbR tbPl 40 tbA tbS ops t /\ refine tbO tbP tbPl 40 t = Ok t' /\ askedNonempty t' /\ smallRows t' /\
  learnerHypothesis tbP hypI (fun _ s => s) (fun s => s) hypPrefer t' = Ok h /\ length (tstates h) = 2%nat.
Proof.
  intro X.  apply bind3 in X. destruct X as (t & t' & h & Et & Er & Eh & C).
  apply hypCheck_ok in C. destruct C as (C1 & C2 & C3). exists t, t', h. split; [apply tbRun_ok; exact Et|]. split; [exact Er|]. split; [exact C1|]. split; [exact C2|]. split; [exact Eh|exact C3].
Qed.
Lemma hypGood1 : bindCheck (tbRun []) (refine tbO tbP tbPl 40) (learnerHypothesis tbP hypI (fun _ s => s) (fun s => s) hypPrefer) hypCheck = true.
Proof. vm_compute. reflexivity. Qed.
Lemma hypGood2 : bindCheck (tbRun (tbRound ++ [OpCex tbCex])) (refine tbO tbP tbPl 40) (learnerHypothesis tbP hypI (fun _ s => s) (fun s => s) hypPrefer) hypCheck = true.
Proof. vm_compute. reflexivity. Qed.
Example C65_C67_satisfiable :
  (plainDTA exR /\ intResets exR /\ delayInvariant tbF /\ NoDup tbA /\ forall l, Permutation (hypI l) l) /\
  forall ops, ops = [] \/ ops = tbRound ++ [OpCex tbCex] ->
    exists t t' h, history tbO tbP tbR tbPl 40 tbA tbS ops t /\ refine tbO tbP tbPl 40 t = Ok t' /\ askedNonempty t' /\ smallRows t' /\
      learnerHypothesis tbP hypI (fun _ s => s) (fun s => s) hypPrefer t' = Ok h /\ length (tstates h) = 2%nat.
Proof.
  split.
  - destruct exR_plain as [P IR]. split; [auto|]. split; [auto|]. split; [apply (plain_table 0 exR P IR)|]. split; [|intro; apply Permutation_refl].
    constructor; [intros [X|[]]; discriminate|]. constructor; [intros []|constructor].
  - intros ops [-> | ->]; apply hypGood_ok; [exact hypGood1|exact hypGood2].
Qed.
