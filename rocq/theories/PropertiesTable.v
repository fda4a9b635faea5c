(** C56 - C63: the observation table and the learning loop. *)
From Coq Require Import QArith ZArith Bool List Arith Lia Lqa Permutation.
From Verif Require Import BoundsModel ConstraintModel ZoneModel ZoneSpec ZoneProofs AutomatonModel AutomatonSpec TimedWordModel TimedWordSpec TimedWordProofs
  TimedConditionModel TimedConditionSpec ElementaryModel ElementarySpec
  RegionalModel RegionalSpec OracleModel OracleSpec SymbolicModel SymbolicSpec CexModel CexSpec RenamingModel RenamingSpec PropertiesAutomata PropertiesSymbolic PropertiesCex PropertiesRenaming OracleInstance TableModel TableSpec
  TableProofs ShapeProofs ShapeProofs2 TableProofs2 TableProofs3 TableProofs4 TableProofs5 TableProofs6 TableProofs7 TableProofs8 TableProofs9 TableProofs10 TableProofs11 TableProofs12.
Import ListNotations.
Open Scope Q_scope.

(** In all theorems: [o] is the membership oracle (a state machine), [f] the
    target it answers for, which does not distinguish words of one region;
    [ordP], [ordR] and [place] are the iteration orders of the unordered
    containers, of which only what is stated is known. *)

(** *** C56 *)
Theorem C56_cells_exact :
  forall (St : Type) (o : mOracle St) (f : tword -> bool) (Inv : St -> Prop) (ordP ordR : ot St -> list nat) (place : ot St -> nat -> nat -> nat),
    oracleFor o f Inv -> regionInvariant properTW f -> (forall t, Permutation (ordP t) (otP t)) ->
    forall (fuel : nat) (alpha : list letter) (s : St) (ops : list tblOp) (t : ot St), Inv s -> ~ In UNOBSERVABLE alpha -> properOps ops ->
      history o ordP ordR place fuel alpha s ops t -> askedNonempty t -> exactTable f t.
Proof. intros St o f Inv ordP ordR place HO RI HP fuel alpha s ops t I NA P H A. eapply view_exact; eauto. eapply history_tinv; eauto. Qed.
Print Assumptions C56_cells_exact.
(** before the first counterexample the last hypothesis always holds *)
Theorem C56_only_nonempty_languages_asked :
  forall (St : Type) (o : mOracle St) (f : tword -> bool) (Inv : St -> Prop) (ordP ordR : ot St -> list nat) (place : ot St -> nat -> nat -> nat),
    oracleFor o f Inv -> regionInvariant properTW f -> (forall t, Permutation (ordP t) (otP t)) ->
    forall (fuel : nat) (alpha : list letter) (s : St) (ops : list tblOp) (t : ot St), Inv s -> ~ In UNOBSERVABLE alpha -> noCex ops ->
      history o ordP ordR place fuel alpha s ops t -> askedNonempty t /\ exactTable f t.
Proof.
  intros St o f Inv ordP ordR place HO RI HP fuel alpha s ops t I NA N H. assert (A : askedNonempty t) by (exact (gens_sat t (history_gens o f Inv ordP ordR place fuel alpha s ops t I NA N H))).
  split; [exact A|]. eapply C56_cells_exact; eauto. intros w Hw. destruct (N w Hw).
Qed.
Print Assumptions C56_only_nonempty_languages_asked.
(** hence the first column decides the membership of the prefixes themselves *)
Theorem C56_rows_decide_membership :
  forall (St : Type) (o : mOracle St) (f : tword -> bool) (Inv : St -> Prop) (ordP ordR : ot St -> list nat) (place : ot St -> nat -> nat -> nat),
    oracleFor o f Inv -> regionInvariant properTW f -> (forall t, Permutation (ordP t) (otP t)) ->
    forall (fuel : nat) (alpha : list letter) (s : St) (ops : list tblOp) (t : ot St), Inv s -> ~ In UNOBSERVABLE alpha -> properOps ops ->
      history o ordP ordR place fuel alpha s ops t -> askedNonempty t ->
      forall i w, row t i -> inElem (fel (preAt t i)) w -> f w = isMatch t i.
Proof.
  intros St o f Inv ordP ordR place HO RI HP fuel alpha s ops t I NA P H A i w Hi Iw. eapply (match_sem o f Inv HO RI); [|exact Hi|exact Iw]. apply tinv_okT; [|exact A]. eapply history_tinv; eauto.
Qed.
Print Assumptions C56_rows_decide_membership.

(** *** C57 *)
Theorem C57_prefix_tree :
  forall (St : Type) (o : mOracle St) (f : tword -> bool) (Inv : St -> Prop) (ordP ordR : ot St -> list nat) (place : ot St -> nat -> nat -> nat),
    oracleFor o f Inv -> regionInvariant properTW f -> (forall t, Permutation (ordP t) (otP t)) ->
    forall (fuel : nat) (alpha : list letter) (s : St) (ops : list tblOp) (t : ot St), Inv s -> ~ In UNOBSERVABLE alpha -> properOps ops ->
      history o ordP ordR place fuel alpha s ops t -> askedNonempty t -> prefixTree t.
Proof. intros St o f Inv ordP ordR place HO RI HP fuel alpha s ops t I NA P H A. eapply view_tree. eapply history_tinv; eauto. Qed.
Print Assumptions C57_prefix_tree.

(** *** C58 *)
Theorem C58_closed :
  forall (St : Type) (o : mOracle St) (f : tword -> bool) (Inv : St -> Prop) (ordP ordR : ot St -> list nat) (place : ot St -> nat -> nat -> nat),
    oracleFor o f Inv -> regionInvariant properTW f -> (forall t, Permutation (ordP t) (otP t)) ->
    forall (fuel : nat) (alpha : list letter) (s : St) (ops : list tblOp) (t : ot St), Inv s -> ~ In UNOBSERVABLE alpha -> properOps ops ->
      history o ordP ordR place fuel alpha s ops t ->
      forall t', close o ordP place fuel t = Ok (t', true) -> askedNonempty t' ->
        closedTable f t' /\ otPre t' = otPre t /\ otP t' = otP t /\ otSuf t' = otSuf t.
Proof.
  intros St o f Inv ordP ordR place HO RI HP fuel alpha s ops t I NA P H t' E A. assert (L := close_le _ _ _ _ _ _ _ E). assert (T : tinv f Inv t) by (eapply history_tinv; eauto; eapply tle_allSat; eauto).
  destruct (close_tinv o f Inv ordP place HO RI HP fuel t t' true T A E) as [T' C]. split; [eapply view_closed; [apply T'|auto]|].
  destruct (close_str o f Inv ordP place HO RI fuel t t' true (ti_str _ _ _ T) (ti_fill _ _ _ T) E) as [_ [_ [_ S0]]]. destruct S0 as [_ [_ [-> [-> [_ [-> _]]]]]]. auto.
Qed.
Print Assumptions C58_closed.
Theorem C58_not_closed_makes_progress :
  forall (St : Type) (o : mOracle St) (f : tword -> bool) (Inv : St -> Prop) (ordP ordR : ot St -> list nat) (place : ot St -> nat -> nat -> nat),
    oracleFor o f Inv -> regionInvariant properTW f -> (forall t, Permutation (ordP t) (otP t)) ->
    forall (fuel : nat) (alpha : list letter) (s : St) (ops : list tblOp) (t : ot St), Inv s -> ~ In UNOBSERVABLE alpha -> properOps ops ->
      history o ordP ordR place fuel alpha s ops t ->
      forall t', close o ordP place fuel t = Ok (t', false) -> askedNonempty t' ->
        exists i, row t i /\ ~ In i (otP t) /\ In i (otP t') /\ otSuf t' = otSuf t /\ (forall p, In p (otP t) -> In p (otP t')).
Proof.
  intros St o f Inv ordP ordR place HO RI HP fuel alpha s ops t I NA P H t' E A. assert (L := close_le _ _ _ _ _ _ _ E). assert (T : tinv f Inv t) by (eapply history_tinv; eauto; eapply tle_allSat; eauto).
  destruct (close_str o f Inv ordP place HO RI fuel t t' false (ti_str _ _ _ T) (ti_fill _ _ _ T) E) as [_ [_ [Es [i [Hi [N Y]]]]]]. exists i. split; [auto|]. split; [auto|]. split; [auto|]. split; [auto|]. intros p Hp. eapply tle_P; eauto.
Qed.
Print Assumptions C58_not_closed_makes_progress.

(** *** C59 *)
Theorem C59_consistent :
  forall (St : Type) (o : mOracle St) (f : tword -> bool) (Inv : St -> Prop) (ordP ordR : ot St -> list nat) (place : ot St -> nat -> nat -> nat),
    oracleFor o f Inv -> regionInvariant properTW f -> (forall t, Permutation (ordP t) (otP t)) ->
    forall (fuel : nat) (alpha : list letter) (s : St) (ops : list tblOp) (t : ot St), Inv s -> ~ In UNOBSERVABLE alpha -> properOps ops ->
      history o ordP ordR place fuel alpha s ops t ->
      forall t', consistent o ordP place t = Ok (t', true) -> askedNonempty t' ->
        consistentTable f t' /\ otPre t' = otPre t /\ otP t' = otP t /\ otSuf t' = otSuf t.
Proof.
  intros St o f Inv ordP ordR place HO RI HP fuel alpha s ops t I NA P H t' E A. assert (L : tle t t') by (unfold consistent in E; eapply consistentLoop_le; eauto). assert (T : tinv f Inv t) by (eapply history_tinv; eauto; eapply tle_allSat; eauto).
  destruct (consistent_tinv o f Inv ordP place HO RI HP t t' true T A E) as [T' C].
  destruct (consistent_spec o f Inv ordP place HO RI HP t t' true (ti_str _ _ _ T) (ti_fill _ _ _ T) (ti_rel _ _ _ T) (ti_col _ _ _ T) A E) as [_ [_ [ML CT]]].
  split; [eapply view_consistent; [exact T'|exact CT]|]. destruct ML as [[_ [_ [-> [-> [_ [-> _]]]]]] _]. auto.
Qed.
Print Assumptions C59_consistent.
(** otherwise one suffix is added that ends the likeness of two rows of P *)
Theorem C59_inconsistency_makes_progress :
  forall (St : Type) (o : mOracle St) (f : tword -> bool) (Inv : St -> Prop) (ordP ordR : ot St -> list nat) (place : ot St -> nat -> nat -> nat),
    oracleFor o f Inv -> regionInvariant properTW f -> (forall t, Permutation (ordP t) (otP t)) ->
    forall (fuel : nat) (alpha : list letter) (s : St) (ops : list tblOp) (t : ot St), Inv s -> ~ In UNOBSERVABLE alpha -> properOps ops ->
      history o ordP ordR place fuel alpha s ops t ->
      forall t', consistent o ordP place t = Ok (t', false) -> askedNonempty t' ->
        otPre t' = otPre t /\ otP t' = otP t /\
        exists i j z, In i (otP t) /\ In j (otP t) /\ otSuf t' = otSuf t ++ [z] /\ (exists r, alike f t i j r) /\ findRows t' i j = None.
Proof.
  intros St o f Inv ordP ordR place HO RI HP fuel alpha s ops t I NA P H t' E A. assert (L : tle t t') by (unfold consistent in E; eapply consistentLoop_le; eauto). assert (T : tinv f Inv t) by (eapply history_tinv; eauto; eapply tle_allSat; eauto).
  assert (E' := E). unfold consistent in E'. destruct (consistentLoop_str o f Inv place HO RI _ _ _ _ (ti_str _ _ _ T) (ti_fill _ _ _ T) E') as [_ [_ [E1 [E2 _]]]]. split; [auto|]. split; [auto|].
  destruct (consistent_spec o f Inv ordP place HO RI HP t t' false (ti_str _ _ _ T) (ti_fill _ _ _ T) (ti_rel _ _ _ T) (ti_col _ _ _ T) A E) as [_ [_ [i [j [Hi [Hj [_ [z [Ez [R F]]]]]]]]]].
  exists i, j, z. split; [auto|]. split; [auto|]. split; [auto|]. split; [apply related_alike; auto|auto].
Qed.
Print Assumptions C59_inconsistency_makes_progress.

(** *** C60 *)
(** the inner loop of the learner ends only with all four conditions met *)
Theorem C60_refined :
  forall (St : Type) (o : mOracle St) (f : tword -> bool) (Inv : St -> Prop) (ordP ordR : ot St -> list nat) (place : ot St -> nat -> nat -> nat),
    oracleFor o f Inv -> regionInvariant properTW f -> (forall t, Permutation (ordP t) (otP t)) ->
    forall (fuel fuel' : nat) (alpha : list letter) (s : St) (ops : list tblOp) (t : ot St), Inv s -> ~ In UNOBSERVABLE alpha -> properOps ops ->
      history o ordP ordR place fuel alpha s ops t ->
      forall t', refine o ordP place fuel' t = Ok t' -> askedNonempty t' ->
        exactTable f t' /\ prefixTree t' /\ closedTable f t' /\ consistentTable f t' /\ exteriorTable t' /\ saturatedTable f t'.
Proof.
  intros St o f Inv ordP ordR place HO RI HP fuel fuel' alpha s ops t I NA P H t' E A. assert (L := refine_le _ _ _ _ _ _ E). assert (T : tinv f Inv t) by (eapply history_tinv; eauto; eapply tle_allSat; eauto).
  destruct (refine_spec o f Inv ordP place HO RI HP fuel' t t' T A E) as [T' [C1 [C2 [C3 C4]]]]. assert (S' := ti_str _ _ _ T').
  split; [eapply view_exact; eauto|]. split; [eapply view_tree; eauto|]. split; [eapply view_closed; eauto|]. split; [eapply view_consistent; eauto|]. split; [eapply view_exterior; eauto|eapply view_saturated; eauto].
Qed.
Print Assumptions C60_refined.
Theorem C60_exterior :
  forall (St : Type) (o : mOracle St) (f : tword -> bool) (Inv : St -> Prop) (ordP ordR : ot St -> list nat) (place : ot St -> nat -> nat -> nat),
    oracleFor o f Inv -> regionInvariant properTW f -> (forall t, Permutation (ordP t) (otP t)) ->
    forall (fuel : nat) (alpha : list letter) (s : St) (ops : list tblOp) (t : ot St), Inv s -> ~ In UNOBSERVABLE alpha -> properOps ops ->
      history o ordP ordR place fuel alpha s ops t ->
      forall t' b, exteriorConsistent o ordP place fuel t = Ok (t', b) -> askedNonempty t' ->
        if b then t' = t /\ exteriorTable t' else exists i, row t i /\ ~ In i (otP t) /\ In i (otP t').
Proof.
  intros St o f Inv ordP ordR place HO RI HP fuel alpha s ops t I NA P H t' b E A. assert (L := exteriorConsistent_le _ _ _ _ _ _ _ E). assert (T : tinv f Inv t) by (eapply history_tinv; eauto; eapply tle_allSat; eauto). destruct b.
  - destruct (exteriorConsistent_tinv o f Inv ordP place HO RI HP fuel t t' true T A E) as [T' C]. destruct (C eq_refl) as [C1 C2]. split; [auto|]. eapply view_exterior; [apply T'|auto].
  - destruct (exteriorConsistent_str o f Inv ordP place HO RI HP fuel t t' false (ti_str _ _ _ T) (ti_fill _ _ _ T) E) as [_ [_ [_ X]]]. exact X.
Qed.
Print Assumptions C60_exterior.
Theorem C60_saturated :
  forall (St : Type) (o : mOracle St) (f : tword -> bool) (Inv : St -> Prop) (ordP ordR : ot St -> list nat) (place : ot St -> nat -> nat -> nat),
    oracleFor o f Inv -> regionInvariant properTW f -> (forall t, Permutation (ordP t) (otP t)) ->
    forall (fuel : nat) (alpha : list letter) (s : St) (ops : list tblOp) (t : ot St), Inv s -> ~ In UNOBSERVABLE alpha -> properOps ops ->
      history o ordP ordR place fuel alpha s ops t ->
      forall t' b, timeSaturate o ordP place fuel t = Ok (t', b) -> askedNonempty t' ->
        if b then otPre t' = otPre t /\ otP t' = otP t /\ saturatedTable f t' else exists i, row t i /\ ~ In i (otP t) /\ In i (otP t').
Proof.
  intros St o f Inv ordP ordR place HO RI HP fuel alpha s ops t I NA P H t' b E A. assert (L := timeSaturate_le _ _ _ _ _ _ _ E). assert (T : tinv f Inv t) by (eapply history_tinv; eauto; eapply tle_allSat; eauto). destruct b.
  - destruct (timeSaturate_tinv o f Inv ordP place HO RI HP fuel t t' true T A E) as [T' C]. destruct (C eq_refl) as [[[_ [_ [C1 [_ [_ [C3 _]]]]]] _] C2]. split; [auto|]. split; [auto|]. eapply view_saturated; [apply T'|auto].
  - destruct (timeSaturate_str o f Inv ordP place HO RI HP fuel t t' false (ti_str _ _ _ T) (ti_fill _ _ _ T) E) as [_ [_ [_ X]]]. exact X.
Qed.
Print Assumptions C60_saturated.

(** *** C61 *)
Theorem C61_recognizable_language :
  forall (St : Type) (o : mOracle St) (f : tword -> bool) (Inv : St -> Prop) (ordP ordR : ot St -> list nat) (place : ot St -> nat -> nat -> nat),
    oracleFor o f Inv -> regionInvariant properTW f -> (forall t, Permutation (ordP t) (otP t)) ->
    forall (fuel : nat) (alpha : list letter) (s : St) (ops : list tblOp) (t : ot St), Inv s -> ~ In UNOBSERVABLE alpha -> properOps ops ->
      history o ordP ordR place fuel alpha s ops t -> askedNonempty t ->
      forall t' h, toRecognizable ordR place t = (t', h) ->
        properRL h /\
        (forall x, In x (rprefixes h) <-> exists i, row t i /\ In i (otP t) /\ x = fel (preAt t i)) /\
        (forall u, properTW u -> inPrefixes h u = true -> f u = isFinal h u) /\
        (forall m, In m (rmorphs h) -> exists i j, row t i /\ ~ In i (otP t) /\ In j (otP t) /\ mdom m = fel (preAt t i) /\ mcod m = fel (preAt t j) /\ alike f t i j (mren m)).
Proof.
  intros St o f Inv ordP ordR place HO RI HP fuel alpha s ops t I NA P H A t' h E. assert (T : tinv f Inv t) by (eapply history_tinv; eauto).
  destruct (toRecognizable_spec o f Inv ordR place HO RI t t' h (tinv_okT f Inv t T A) (ti_rel _ _ _ T) E) as [_ [_ [PR [TM [PX FI]]]]]. split; [auto|]. split; [|split; [auto|]].
  - intro x. rewrite PX. setoid_rewrite inP_iff. reflexivity.
  - intros m Hm. destruct (TM m Hm) as [i [j [r [H1 [H2 [H3 [H4 [H5 ->]]]]]]]]. exists i, j. split; [auto|]. split; [apply inP_false; auto|]. split; [apply inP_iff; auto|]. split; [reflexivity|]. split; [reflexivity|]. cbn [mren]. apply valid_alike. exact H5.
Qed.
Print Assumptions C61_recognizable_language.

(** *** C62 *)
(** a new suffix, not in the languages of the old ones, that ends the likeness
    of a row outside P and its row in P *)
Theorem C62_counterexample_makes_progress :
  forall (St : Type) (o : mOracle St) (f : tword -> bool) (Inv : St -> Prop) (ordP ordR : ot St -> list nat) (place : ot St -> nat -> nat -> nat),
    oracleFor o f Inv -> regionInvariant properTW f -> (forall t, Permutation (ordP t) (otP t)) ->
    forall (fuel : nat) (alpha : list letter) (s : St) (ops : list tblOp) (t : ot St), Inv s -> ~ In UNOBSERVABLE alpha -> properOps ops ->
      history o ordP ordR place fuel alpha s ops t ->
      forall w t', properTW w -> handleCEX o ordP ordR place fuel t w = Ok t' -> askedNonempty t' ->
        otPre t' = otPre t /\ otP t' = otP t /\
        exists z i j r, otSuf t' = otSuf t ++ [brFromTimedWord z] /\ properTW z /\ (forall y, In y (sufEL t) -> ~ inElem y z) /\
          row t i /\ ~ In i (otP t) /\ In j (otP t) /\ alike f t i j r /\ ~ alike f t' i j r.
Proof.
  intros St o f Inv ordP ordR place HO RI HP fuel alpha s ops t I NA P H w t' PW E A. assert (L := handleCEX_le _ _ _ _ _ _ _ _ E). assert (T : tinv f Inv t) by (eapply history_tinv; eauto; eapply tle_allSat; eauto).
  destruct (handleCEX_spec o f Inv ordP ordR place HO RI fuel t w t' T A PW E) as [_ [E1 [E2 [z [i [j [r [Pz [Ez [Nz [Hi [Ni [Hj [Nj [V NV]]]]]]]]]]]]]]]. split; [auto|]. split; [auto|]. exists z, i, j, r.
  split; [auto|]. split; [auto|]. split; [auto|]. split; [auto|]. split; [apply inP_false; auto|]. split; [apply inP_iff; auto|]. split; [apply valid_alike; auto|]. intros [_ K]. apply NV. unfold preAt in *. rewrite E1 in K. exact K.
Qed.
Print Assumptions C62_counterexample_makes_progress.
(** and for a word on which the described language is wrong, neither exception
    nor abort() *)
Theorem C62_genuine_counterexample_never_rejected :
  forall (St : Type) (o : mOracle St) (f : tword -> bool) (Inv : St -> Prop) (ordP ordR : ot St -> list nat) (place : ot St -> nat -> nat -> nat),
    oracleFor o f Inv -> regionInvariant properTW f -> (forall t, Permutation (ordP t) (otP t)) ->
    forall (fuel : nat) (alpha : list letter) (s : St) (ops : list tblOp) (t : ot St), Inv s -> ~ In UNOBSERVABLE alpha -> properOps ops ->
      history o ordP ordR place fuel alpha s ops t -> askedNonempty t ->
      forall w st, properTW w -> rContains fuel (snd (toRecognizable ordR place t)) w <> Some (f w) ->
        handleCEX o ordP ordR place fuel t w = Stop st -> st = SFuel \/ st = SOracle.
Proof.
  intros St o f Inv ordP ordR place HO RI HP fuel alpha s ops t I NA P H A w st PW N E. eapply (handleCEX_nostop o f Inv ordP ordR place HO RI fuel t w st); auto. eapply history_tinv; eauto.
Qed.
Print Assumptions C62_genuine_counterexample_never_rejected.

(** *** C63 *)
(** no operation leaves with an exception (a missing map entry or an index out
    of range); without counterexamples the membership oracle never fails
    either; abort() can only come from consistent() *)
Theorem C63_no_exception :
  forall (St : Type) (o : mOracle St) (f : tword -> bool) (Inv : St -> Prop) (ordP ordR : ot St -> list nat) (place : ot St -> nat -> nat -> nat),
    oracleFor o f Inv -> regionInvariant properTW f -> (forall t, Permutation (ordP t) (otP t)) ->
    forall (fuel : nat) (alpha : list letter) (s : St) (ops : list tblOp) (t : ot St), Inv s -> ~ In UNOBSERVABLE alpha -> properOps ops ->
      history o ordP ordR place fuel alpha s ops t -> askedNonempty t ->
      forall op st, (forall w, op <> OpCex w) -> runOp o ordP ordR place fuel t op = Stop st ->
        st <> SThrow /\ (st = SAbort -> op = OpConsistent) /\ (noCex ops -> st <> SOracle).
Proof.
  intros St o f Inv ordP ordR place HO RI HP fuel alpha s ops t I NA P H A op st NC E. assert (T : tinv f Inv t) by (eapply history_tinv; eauto). assert (S' := ti_str _ _ _ T). assert (F' := ti_fill _ _ _ T).
  assert (LO : lost t st -> st <> SThrow /\ (st = SAbort -> op = OpConsistent) /\ (noCex ops -> st <> SOracle)).
  { intros [->|[-> NG]]; (split; [discriminate|]); (split; [discriminate|]); [discriminate|]. intros N _. apply NG. eapply history_gens; eauto. }
  destruct op; cbn [runOp] in E; try (bind_stop E; [destruct a; discriminate|]; injection E as <-).
  - apply LO. eapply (close_stop o f Inv ordP place HO RI HP); eauto.
  - apply (consistent_stop o f Inv ordP place HO RI HP) in E0; auto. destruct E0 as [->|FA]; [split; [discriminate|]; split; [reflexivity|discriminate]|apply LO; right; exact FA].
  - apply LO. eapply (exterior_stop o f Inv ordP place HO RI HP); eauto.
  - apply LO. eapply (saturate_stop o f Inv ordP place HO RI HP); eauto.
  - discriminate.
  - destruct (NC w eq_refl).
Qed.
Print Assumptions C63_no_exception.
Theorem C63_constructor_no_exception :
  forall (St : Type) (o : mOracle St) (f : tword -> bool) (Inv : St -> Prop) (place : ot St -> nat -> nat -> nat),
    oracleFor o f Inv -> regionInvariant properTW f ->
    forall (fuel : nat) (alpha : list letter) (s : St) (st : stop), Inv s -> ~ In UNOBSERVABLE alpha ->
      newTable o place fuel alpha (newSym s) = Stop st -> st = SFuel.
Proof. intros St o f Inv place HO RI fuel alpha s st I NA E. destruct (newSym_mem f Inv s I) as [M K]. exact (newTable_stop o f Inv place HO RI fuel alpha (newSym s) st NA M K E). Qed.
Print Assumptions C63_constructor_no_exception.

(** *** C64 *)
(** the automaton returned by the learner was built from a table that meets the
    four conditions, and the equivalence oracle found no counterexample to it *)
Section Learn.
Context {St Es : Type} (o : mOracle St) (f : tword -> bool) (Inv : St -> Prop) (ordP ordR : ot St -> list nat) (place : ot St -> nat -> nat -> nat)
  (hypothesis : ot St -> res ta) (eqOracle : Es -> ta -> res (Es * option tword)).
Lemma learn_le : forall fuel t e t' e' h, learn o ordP ordR place hypothesis eqOracle fuel t e = Ok (t', e', h) -> tle t t'.
Proof.
  induction fuel as [|n IH]; intros t e t' e' h E; cbn [learn] in E; [discriminate|]. bind_inv E. bind_inv E. bind_inv E. destruct a1 as [e1 [w|]].
  - bind_inv E. eapply tle_trans; [eapply refine_le; eauto|]. eapply tle_trans; [eapply handleCEX_le; eauto|]. eapply IH; eauto.
  - injection E as <- _ _. eapply refine_le; eauto.
Qed.
Lemma learn_spec : oracleFor o f Inv -> regionInvariant properTW f -> (forall t, Permutation (ordP t) (otP t)) ->
  (forall e h e' w, eqOracle e h = Ok (e', Some w) -> properTW w) ->
  forall fuel t e t' e' h, tinv f Inv t -> allSat (otMem t') -> learn o ordP ordR place hypothesis eqOracle fuel t e = Ok (t', e', h) ->
    tinv f Inv t' /\ settled f t' /\ hypothesis t' = Ok h /\ exists e0, eqOracle e0 h = Ok (e', None).
Proof.
  intros HO RI HP HE. induction fuel as [|n IH]; intros t e t' e' h T A E; cbn [learn] in E; [discriminate|]. bind_inv E. bind_inv E. bind_inv E. destruct a1 as [e1 [w|]].
  - bind_inv E. assert (A2 := tle_allSat _ _ (learn_le _ _ _ _ _ _ E) A). assert (A1 := tle_allSat _ _ (handleCEX_le _ _ _ _ _ _ _ _ E3) A2). destruct (refine_spec o f Inv ordP place HO RI HP n t a T A1 E0) as [T1 _].
    eapply IH; [|exact A|exact E]. exact (proj1 (handleCEX_spec o f Inv ordP ordR place HO RI n a w a1 T1 A2 (HE _ _ _ _ E2) E3)).
  - injection E as <- <- <-. destruct (refine_spec o f Inv ordP place HO RI HP n t a T A E0) as [T1 S1]. split; [auto|]. split; [auto|]. split; [auto|]. eauto.
Qed.
End Learn.
Theorem C64_learned :
  forall (St Es : Type) (o : mOracle St) (f : tword -> bool) (Inv : St -> Prop) (ordP ordR : ot St -> list nat) (place : ot St -> nat -> nat -> nat)
    (hypothesis : ot St -> res ta) (eqOracle : Es -> ta -> res (Es * option tword)),
    oracleFor o f Inv -> regionInvariant properTW f -> (forall t, Permutation (ordP t) (otP t)) ->
    (forall e h e' w, eqOracle e h = Ok (e', Some w) -> properTW w) ->
    forall (fuel fuel' : nat) (alpha : list letter) (s : St) (t0 t : ot St) (e e' : Es) (h : ta), Inv s -> ~ In UNOBSERVABLE alpha ->
      newTable o place fuel alpha (newSym s) = Ok t0 -> learn o ordP ordR place hypothesis eqOracle fuel' t0 e = Ok (t, e', h) -> askedNonempty t ->
      hypothesis t = Ok h /\ (exists e0, eqOracle e0 h = Ok (e', None)) /\
      exactTable f t /\ prefixTree t /\ closedTable f t /\ consistentTable f t /\ exteriorTable t /\ saturatedTable f t.
Proof.
  intros St Es o f Inv ordP ordR place hypothesis eqOracle HO RI HP HE fuel fuel' alpha s t0 t e e' h I NA E0 E A.
  assert (A0 := tle_allSat _ _ (learn_le _ _ _ _ _ _ _ _ _ _ _ _ E) A). assert (T0 : tinv f Inv t0) by (eapply newTable_tinv; [exact HO|exact RI|exact NA|apply newSym_mem; exact I|exact E0|exact A0]).
  destruct (learn_spec o f Inv ordP ordR place hypothesis eqOracle HO RI HP HE fuel' t0 e t e' h T0 A E) as [T [[C1 [C2 [C3 C4]]] [H1 H2]]]. assert (S' := ti_str _ _ _ T). split; [auto|]. split; [auto|].
  split; [eapply view_exact; eauto|]. split; [eapply view_tree; eauto|]. split; [eapply view_closed; eauto|]. split; [eapply view_consistent; eauto|]. split; [eapply view_exterior; eauto|eapply view_saturated; eauto].
Qed.
Print Assumptions C64_learned.

(** *** Non-vacuity: the table of the automaton [exR] (see PropertiesRenaming),
    refined, corrected by a counterexample, and refined again *)
Lemma run_history {St} (o : mOracle St) ordP ordR place fuel alpha s ops t :
  (do t0 <- newTable o place fuel alpha (newSym s); runOps o ordP ordR place fuel t0 ops) = Ok t -> history o ordP ordR place fuel alpha s ops t.
Proof. intro E. bind_inv E. exists a. auto. Qed.
Definition tbO : mOracle (cache runner) := cacheAnswer (sulAnswer 0).
Definition tbF : tword -> bool := answerF 0 exR.
Definition tbS : cache runner := newCache (mkRunner exR).
Definition tbP (t : ot (cache runner)) : list nat := otP t.
Definition tbR (t : ot (cache runner)) : list nat := map fst (otRel t).
Definition tbPl (t : ot (cache runner)) (i j : nat) : nat := 0%nat.
Definition tbA : list letter := [1%nat; 2%nat].
Definition tbCex : tword := mkTW [2%nat] [3#2; 0].
Definition tbRound : list tblOp := [OpClose; OpConsistent; OpExterior; OpClose; OpConsistent; OpExterior; OpSaturate; OpClose; OpConsistent; OpExterior; OpSaturate].
Definition tbRun (ops : list tblOp) : res (ot (cache runner)) :=
  do t0 <- newTable tbO tbPl 40 tbA (newSym tbS); runOps tbO tbP tbR tbPl 40 t0 ops.
Definition tbSat (t : ot (cache runner)) : bool := forallb (fun p => isSatisfiable (ec (fst p))) (smCache (otMem t)).
Lemma tbSat_ok t : tbSat t = true -> askedNonempty t.
Proof. intros H x cs Hx. unfold tbSat in H. rewrite forallb_forall in H. apply H in Hx. apply isSatisfiable_exact in Hx. exact Hx. Qed.
Lemma tbRun_ok ops t : tbRun ops = Ok t -> history tbO tbP tbR tbPl 40 tbA tbS ops t.
Proof. exact (run_history tbO tbP tbR tbPl 40 tbA tbS ops t). Qed.

(** the hypotheses common to all theorems *)
Example C56_C64_common_hypotheses :
  oracleFor tbO tbF (cacheInv 0 exR) /\ regionInvariant properTW tbF /\ (forall t, Permutation (tbP t) (otP t)) /\
  cacheInv 0 exR tbS /\ ~ In UNOBSERVABLE tbA /\ properTW tbCex /\ properOps (tbRound ++ [OpCex tbCex] ++ tbRound) /\
  (forall w, OracleInstance.goodTW w -> (tbF w = true <-> acceptsTW exR w)).
Proof.
  destruct exR_plain as [P IR]. destruct (plain_oracle 0 exR P IR) as [Hf [Ho [RI I0]]].
  assert (G : forall w, properTW w -> OracleInstance.goodTW w) by (intros w [[H1 H2] _]; split; [auto|intros q Hq; rewrite Forall_forall in H2; auto]).
  assert (C : properTW tbCex). { split; [split; [reflexivity|]|]; [repeat (constructor; [unfold Qle; cbn; lia|]); constructor|]. cbn. intros [X|[]]. discriminate. }
  split; [|split; [|split; [|split; [|split; [|split; [|split]]]]]]; auto.
  - intros s x I H. apply Ho; auto.
  - intros w w' W W' H H' E R. apply RI; auto.
  - cbn. intros [X|[X|[]]]; discriminate.
  - intros w H. cbn in H. repeat (destruct H as [H|H]; [try discriminate; injection H as <-; exact C|]). destruct H.
Qed.
(** two histories, without and with a counterexample: the table of the first
    has seven rows, two of them in P; of the second thirteen rows, four in P,
    and two suffixes; every language asked about has a word *)
Example C56_C57_satisfiable :
  (exists t, history tbO tbP tbR tbPl 40 tbA tbS tbRound t /\ noCex tbRound /\ askedNonempty t /\ length (otPre t) = 7%nat /\ otP t = [0; 2]%nat) /\
  (exists t, history tbO tbP tbR tbPl 40 tbA tbS (tbRound ++ [OpCex tbCex] ++ tbRound) t /\ askedNonempty t /\ length (otPre t) = 13%nat /\ otP t = [0; 2; 3; 9]%nat /\ length (otSuf t) = 2%nat).
Proof.
  split.
  - assert (E : match tbRun tbRound with Ok t => (tbSat t, length (otPre t), otP t) = (true, 7%nat, [0; 2]%nat) | _ => False end) by (vm_compute; reflexivity).
    destruct (tbRun tbRound) as [t|] eqn:Et; [|destruct E]. injection E as E1 E2 E3. exists t. split; [apply tbRun_ok; auto|]. split; [|split; [apply tbSat_ok; auto|auto]].
    intros w H. cbn in H. repeat (destruct H as [H|H]; [discriminate|]). destruct H.
  - assert (E : match tbRun (tbRound ++ [OpCex tbCex] ++ tbRound) with Ok t => (tbSat t, length (otPre t), otP t, length (otSuf t)) = (true, 13%nat, [0; 2; 3; 9]%nat, 2%nat) | _ => False end) by (vm_compute; reflexivity).
    destruct (tbRun (tbRound ++ [OpCex tbCex] ++ tbRound)) as [t|] eqn:Et; [|destruct E]. injection E as E1 E2 E3 E4. exists t. split; [apply tbRun_ok; auto|]. split; [apply tbSat_ok; auto|auto].
Qed.
(** each operation gives each of its answers *)
Definition tbStep (f : ot (cache runner) -> res (ot (cache runner) * bool)) (ops : list tblOp) : option (bool * bool) :=
  match tbRun ops with Ok t => match f t with Ok (t', b) => Some (b, tbSat t') | _ => None end | _ => None end.
Lemma tbStep_ok f ops b : tbStep f ops = Some (b, true) -> exists t t', history tbO tbP tbR tbPl 40 tbA tbS ops t /\ f t = Ok (t', b) /\ askedNonempty t'.
Proof.
  unfold tbStep. destruct (tbRun ops) as [t|] eqn:E; [|discriminate]. destruct (f t) as [[t' b']|] eqn:F; [|discriminate]. intro H. injection H as -> H. exists t, t'. split; [apply tbRun_ok; auto|]. split; [auto|apply tbSat_ok; auto].
Qed.
Example C58_satisfiable : forall b, exists ops t t', history tbO tbP tbR tbPl 40 tbA tbS ops t /\ close tbO tbP tbPl 40 t = Ok (t', b) /\ askedNonempty t'.
Proof. intros [|]; [exists tbRound|exists []]; apply tbStep_ok; vm_compute; reflexivity. Qed.
Example C60_satisfiable : forall b, exists ops t t' t1 t1', history tbO tbP tbR tbPl 40 tbA tbS ops t /\ exteriorConsistent tbO tbP tbPl 40 t = Ok (t', b) /\ askedNonempty t' /\
    timeSaturate tbO tbP tbPl 40 t1 = Ok (t1', b) /\ askedNonempty t1'.
Proof.
  assert (X : forall b ops1 ops2, tbStep (exteriorConsistent tbO tbP tbPl 40) ops1 = Some (b, true) -> tbStep (timeSaturate tbO tbP tbPl 40) ops2 = Some (b, true) ->
    exists ops t t' t1 t1', history tbO tbP tbR tbPl 40 tbA tbS ops t /\ exteriorConsistent tbO tbP tbPl 40 t = Ok (t', b) /\ askedNonempty t' /\
    timeSaturate tbO tbP tbPl 40 t1 = Ok (t1', b) /\ askedNonempty t1').
  { intros b ops1 ops2 H1 H2. apply tbStep_ok in H1. apply tbStep_ok in H2. destruct H1 as [t [t' [A [B C]]]]. destruct H2 as [t1 [t1' [_ [B' C']]]]. exists ops1, t, t', t1, t1'. auto. }
  intros [|]; [apply (X true tbRound tbRound)|apply (X false (tbRound ++ [OpCex tbCex; OpClose]) (tbRound ++ [OpCex tbCex]))]; vm_compute; reflexivity.
Qed.
(** refine ends, before and after the counterexample *)
Lemma okCase {A} (r : res A) (P : A -> bool) : match r with Ok a => P a | Stop _ => false end = true -> exists a, r = Ok a /\ P a = true.
Proof. destruct r; [eauto|discriminate]. Qed.
Example C60_refined_satisfiable : forall ops, ops = [] \/ ops = tbRound ++ [OpCex tbCex] ->
  exists t t', history tbO tbP tbR tbPl 40 tbA tbS ops t /\ refine tbO tbP tbPl 40 t = Ok t' /\ askedNonempty t'.
Proof.
  intros ops H. assert (X : match tbRun ops with Ok t => match refine tbO tbP tbPl 40 t with Ok t' => tbSat t' | Stop _ => false end | Stop _ => false end = true) by (destruct H as [-> | ->]; vm_compute; reflexivity).
  destruct (okCase (tbRun ops) _ X) as [t [E X1]]. destruct (okCase (refine tbO tbP tbPl 40 t) _ X1) as [t' [F X2]]. exists t, t'. split; [apply tbRun_ok; exact E|]. split; [exact F|apply tbSat_ok; exact X2].
Qed.
(** the word of the example is a genuine counterexample to the first table *)
Example C61_C62_satisfiable :
  exists t t', history tbO tbP tbR tbPl 40 tbA tbS tbRound t /\ handleCEX tbO tbP tbR tbPl 40 t tbCex = Ok t' /\ askedNonempty t' /\
    rContains 40 (snd (toRecognizable tbR tbPl t)) tbCex <> Some (tbF tbCex).
Proof.
  assert (X : match tbRun tbRound with Ok t => match handleCEX tbO tbP tbR tbPl 40 t tbCex with Ok t' => tbSat t' && match rContains 40 (snd (toRecognizable tbR tbPl t)) tbCex with Some b => negb (Bool.eqb b (tbF tbCex)) | None => true end
     | Stop _ => false end | Stop _ => false end = true) by (vm_compute; reflexivity).
  destruct (tbRun tbRound) as [t|] eqn:E; [|discriminate]. rename X into X1. destruct (okCase (handleCEX tbO tbP tbR tbPl 40 t tbCex) _ X1) as [t' [F X2]]. apply andb_true_iff in X2. destruct X2 as [X2 X3].
  exists t, t'. split; [apply tbRun_ok; exact E|]. split; [exact F|]. split; [apply tbSat_ok; exact X2|]. intro R. rewrite R in X3. rewrite eqb_reflx in X3. discriminate.
Qed.
(** the constructor can stop for lack of steps; the histories of the first
    example meet the hypotheses of the other theorem *)
Example C63_satisfiable : newTable tbO tbPl 0 tbA (newSym tbS) = Stop SFuel.
Proof. vm_compute. reflexivity. Qed.
(** an equivalence oracle that gives one counterexample *)
Definition tbEq (e : bool) (h : ta) : res (bool * option tword) := Ok (true, if e then None else Some tbCex).
Example C64_satisfiable :
  (forall e h e' w, tbEq e h = Ok (e', Some w) -> properTW w) /\
  exists t0 t e' h, newTable tbO tbPl 40 tbA (newSym tbS) = Ok t0 /\ learn tbO tbP tbR tbPl (fun _ => Ok exR) tbEq 40 t0 false = Ok (t, e', h) /\ askedNonempty t.
Proof.
  split. { intros [|] h e' w E; [discriminate|]. unfold tbEq in E. injection E as _ <-. exact (proj1 (proj2 (proj2 (proj2 (proj2 (proj2 C56_C64_common_hypotheses)))))). }
  assert (X : match newTable tbO tbPl 40 tbA (newSym tbS) with Ok t0 => match learn tbO tbP tbR tbPl (fun _ => Ok exR) tbEq 40 t0 false with Ok x => tbSat (fst (fst x)) | Stop _ => false end | Stop _ => false end = true) by (vm_compute; reflexivity).
  destruct (newTable tbO tbPl 40 tbA (newSym tbS)) as [t0|] eqn:E; [|discriminate]. rename X into X1. destruct (okCase (learn tbO tbP tbR tbPl (fun _ => Ok exR) tbEq 40 t0 false) _ X1) as [[[t e'] h] [F X2]].
  exists t0, t, e', h. split; [reflexivity|]. split; [exact F|apply tbSat_ok; exact X2].
Qed.
(** the letter is accepted once, after a positive time of at most 1: the rows
    of the words of length in (0,1) and of length 1 become inconsistent *)
Definition exI : ta := mkTA
  [ (1%nat, mkS false [ (1%nat, [ mkT 2%nat [] [mkC 0%nat Ogt 0%Z; mkC 0%nat Ole 1%Z] ])]);
    (2%nat, mkS true []) ] [1%nat] [1%Z].
Definition tiOps : list tblOp := [OpClose; OpConsistent; OpExterior; OpSaturate; OpCex (mkTW [1%nat] [1#2; 0]); OpClose; OpClose; OpClose; OpConsistent; OpExterior; OpClose].
Definition tiRun (ops : list tblOp) : res (ot (cache runner)) :=
  do t0 <- newTable tbO tbPl 40 [1%nat] (newSym (newCache (mkRunner exI))); runOps tbO tbP tbR tbPl 40 t0 ops.
Lemma tiRun_ok ops t : tiRun ops = Ok t -> history tbO tbP tbR tbPl 40 [1%nat] (newCache (mkRunner exI)) ops t.
Proof. exact (run_history tbO tbP tbR tbPl 40 [1%nat] (newCache (mkRunner exI)) ops t). Qed.
Example C59_satisfiable :
  (oracleFor tbO (answerF 0 exI) (cacheInv 0 exI) /\ regionInvariant properTW (answerF 0 exI) /\ cacheInv 0 exI (newCache (mkRunner exI)) /\ properOps tiOps) /\
  forall b, exists ops t t', (b = false -> ops = tiOps) /\ (b = true -> ops = []) /\ history tbO tbP tbR tbPl 40 [1%nat] (newCache (mkRunner exI)) ops t /\ consistent tbO tbP tbPl t = Ok (t', b) /\ askedNonempty t'.
Proof.
  split.
  - assert (PI : plainDTA exI /\ intResets exI).
    { assert (SM : smallTA exI) by (apply smallb_ok; reflexivity). split; [|apply intResetsb_ok; reflexivity].
      split; [apply wfb_ok; reflexivity|]. split; [apply noSilentb_ok; reflexivity|]. split; [apply nnResetsb_ok; reflexivity|].
      split; [apply C08_deterministic_exact; [exact SM|reflexivity]|]. exists 1%nat. reflexivity. }
    destruct PI as [P IR]. destruct (plain_oracle 0 exI P IR) as [Hf [Ho [RI I0]]].
    assert (G : forall w, properTW w -> OracleInstance.goodTW w) by (intros w [[H1 H2] _]; split; [auto|intros q Hq; rewrite Forall_forall in H2; auto]).
    split; [|split; [|split]]; auto.
    + intros s x I H. apply Ho; auto.
    + intros w w' W W' H H' E R. apply RI; auto.
    + intros w H. cbn in H. repeat (destruct H as [H|H]; [try discriminate; injection H as <-|]); try destruct H.
      split; [split; [reflexivity|]|]; [repeat (constructor; [unfold Qle; cbn; lia|]); constructor|]. cbn. intros [X|[]]. discriminate.
  - assert (X : forall ops b, match tiRun ops with Ok t => match consistent tbO tbP tbPl t with Ok x => tbSat (fst x) && Bool.eqb b (snd x) | Stop _ => false end | Stop _ => false end = true ->
      exists t t', history tbO tbP tbR tbPl 40 [1%nat] (newCache (mkRunner exI)) ops t /\ consistent tbO tbP tbPl t = Ok (t', b) /\ askedNonempty t').
    { intros ops b H. destruct (okCase (tiRun ops) _ H) as [t [E X1]]. destruct (okCase (consistent tbO tbP tbPl t) _ X1) as [[t' b'] [F X2]]. cbn [snd fst] in X2. apply andb_true_iff in X2. destruct X2 as [H1 H2]. apply eqb_prop in H2. subst b'.
      exists t, t'. split; [apply tiRun_ok; exact E|]. split; [auto|apply tbSat_ok; auto]. }
    intros [|].
    + destruct (X [] true) as [t [t' H]]; [vm_compute; reflexivity|]. exists [], t, t'. split; [discriminate|]. split; [auto|exact H].
    + destruct (X tiOps false) as [t [t' H]]; [vm_compute; reflexivity|]. exists tiOps, t, t'. split; [auto|]. split; [discriminate|exact H].
Qed.
