(** Properties of the simplifications of timed automata
    (include/timed_automaton.hh): C26, C40. *)
From Coq Require Import QArith ZArith Bool List Arith Lqa Lia.
From Verif Require Import BoundsModel ConstraintModel GuardSpec ZoneModel AutomatonModel AutomatonSpec.
From Verif Require Import BoundsProofs ConstraintProofs ConstraintProofs2 ConstraintProofs4.
From Verif Require Import AutomatonProofs AutomatonProofs2 AutomatonProofs5 AutomatonProofs6 PropertiesAutomata.
Import ListNotations.
Open Scope Q_scope.
Arguments mkT _%nat_scope _ _.

(** *** C26 *)
Theorem C26_simplifyTransitions :
  forall A : ta, sameLang (simplifyTransitions A) A /\ (wfTA A -> wfTA (simplifyTransitions A)).
Proof. intro A. split; [apply simplifyTransitions_lang|apply simplifyTransitions_wf]. Qed.
Print Assumptions C26_simplifyTransitions.

(** the states left are exactly the reachable ones *)
Theorem C26_removeTriviallyUnreachableStates :
  forall A : ta, wfTA A ->
    sameLang (removeTriviallyUnreachableStates A) A /\ wfTA (removeTriviallyUnreachableStates A) /\
    (forall l, In l (map fst (tstates (removeTriviallyUnreachableStates A))) <-> areach A l).
Proof. intros A W. split; [apply unreach_lang, W|]. split; [apply unreach_wf, W|]. apply unreach_all, W. Qed.
Print Assumptions C26_removeTriviallyUnreachableStates.

(** the states left are exactly those that can reach an accepting one *)
Theorem C26_removeTriviallyDeadStates :
  forall A : ta, wfTA A ->
    sameLang (removeTriviallyDeadStates A) A /\ wfTA (removeTriviallyDeadStates A) /\
    (forall l, In l (map fst (tstates (removeTriviallyDeadStates A))) <-> alive A l).
Proof. exact deadStates_ok. Qed.
Print Assumptions C26_removeTriviallyDeadStates.

Theorem C26_removeDeadLoop :
  forall A : ta, wfTA A -> sameLang (removeDeadLoop A) A /\ wfTA (removeDeadLoop A).
Proof. intros A W. split; [apply deadLoop_lang, W|apply deadLoop_wf, W]. Qed.
Print Assumptions C26_removeDeadLoop.

Theorem C26_removeUselessTransitions :
  forall A : ta, wfTA A -> sameLang (removeUselessTransitions A) A /\ wfTA (removeUselessTransitions A).
Proof. exact useless_ok. Qed.
Print Assumptions C26_removeUselessTransitions.

Theorem C26_removeUnusedClockVariables :
  forall A : ta, sameLang (removeUnusedClockVariables A) A /\ (wfTA A -> wfTA (removeUnusedClockVariables A)).
Proof. intro A. split; [apply unused_lang|apply unused_wf]. Qed.
Print Assumptions C26_removeUnusedClockVariables.

(** after it, the clocks that occur are numbered below the number of clocks
    read in the original automaton *)
Theorem C26_removeUnusedClockVariables_compact :
  forall (A : ta) l a t x, edge (removeUnusedClockVariables A) l a t ->
    (In x (map cx (tgrd t)) \/ In x (map fst (trst t)) \/ (exists y, In (y, RVar x) (trst t))) ->
    forall used : list clock,
    (forall y, (exists l a t, edge A l a t /\ (In y (map cx (tgrd t)) \/ exists z, In (z, RVar y) (trst t))) -> In y used) ->
    (x < length used)%nat.
Proof.
  intros A l a t x He Hx used Hu. assert (K := unused_clocks A l a t x He Hx). refine (Nat.lt_le_trans _ _ _ K _).
  apply NoDup_incl_length; [apply sorted_nodup, usedClocks_sorted|]. intros y I. apply Hu.
  apply usedClocks_in in I. destruct I as (t0 & I1 & I2). apply allTrans_iff in I1. destruct I1 as (l0 & a0 & He0).
  exists l0, a0, t0. split; auto. unfold usedInT in I2. apply in_app_or in I2. destruct I2 as [I2|I2]; auto. right.
  apply in_flat_map in I2. destruct I2 as ([z [q|w]] & I3 & I4); [destruct I4|]. destruct I4 as [<-|[]]. exists z. exact I3.
Qed.
Print Assumptions C26_removeUnusedClockVariables_compact.

(** and each clock that is read keeps its maximum constant under its new
    number *)
Theorem C26_removeUnusedClockVariables_max :
  forall (A : ta) (x : clock),
    (forall y, In y (usedClocks A) -> (y < length (tmax A))%nat) -> In x (usedClocks A) ->
    nth (renClock (usedClocks A) x) (tmax (removeUnusedClockVariables A)) 0%Z = nth x (tmax A) 0%Z.
Proof. exact unused_max. Qed.
Print Assumptions C26_removeUnusedClockVariables_max.

Theorem C26_simplify : forall A : ta, wfTA A -> sameLang (taSimplify A) A /\ wfTA (taSimplify A).
Proof. exact taSimplify_ok. Qed.
Print Assumptions C26_simplify.
Theorem C26_simplifyStrong : forall A : ta, wfTA A -> sameLang (taSimplifyStrong A) A /\ wfTA (taSimplifyStrong A).
Proof. exact taSimplifyStrong_ok. Qed.
Print Assumptions C26_simplifyStrong.

(** an automaton with an unreachable state (4), a dead one (3), a duplicated
    transition and an unused clock (0): everything is simplified away *)
Definition exS : ta := mkTA
  [ (1%nat, mkS false [ (1%nat, [ mkT 2 [(1%nat, RConst 0)] [mkC 1 Ole 3];
                                  mkT 2 [(1%nat, RConst 0)] [mkC 1 Ole 2];
                                  mkT 3 [(0%nat, RConst 0)] [mkC 1 Ogt 3] ]) ]);
    (2%nat, mkS true  [ (2%nat, [ mkT 1 [(0%nat, RConst 0)] [mkC 1 Oge 2] ]) ]);
    (3%nat, mkS false [ (1%nat, [ mkT 3 [] [] ]) ]);
    (4%nat, mkS true [ (1%nat, [ mkT 1 [] [] ]) ]) ]
  [1%nat] [7%Z; 3%Z].
Example C26_meets : wfTA exS /\ taSimplifyStrong exS = mkTA
  [ (1%nat, mkS false [ (1%nat, [ mkT 2 [(0%nat, RConst 0)] [mkC 0 Ole 3] ]) ]);
    (2%nat, mkS true  [ (2%nat, [ mkT 1 [] [mkC 0 Oge 2] ]) ]) ]
  [1%nat] [3%Z].
Proof. split; [apply wfb_ok; reflexivity|vm_compute; reflexivity]. Qed.

(** *** C40: merging adjacent and weaker transitions *)
Theorem C40_mergeAdjacentTransitions_superset :
  forall (A : ta) d0 w, accepts A d0 w -> accepts (mergeAdjacentTransitions A) d0 w.
Proof. exact mergeAdjacent_superset. Qed.
Print Assumptions C40_mergeAdjacentTransitions_superset.

(** exact on one-clock automata whose guards are bounded above *)
Theorem C40_mergeAdjacentTransitions_exact_partial :
  forall (A : ta) (x : clock), nonnegResets A ->
    allGuards (fun g => nonRedundant g /\ smallConsts g /\ boundedOn x g) A ->
    sameLang (mergeAdjacentTransitions A) A.
Proof.
  intros A x NR H. apply (mergeAdjacent_same (fun g => nonRedundant g /\ smallConsts g /\ boundedOn x g)); auto.
  - intros l r v (L1 & L2 & L3) (R1 & R2 & R3) Ad Nn G. apply hull2_comm in G; auto.
    destruct (boundedOn_agree x l r L3 R3) as [Ag Sb]. apply (merge_exact_one_clock x) in G; auto.
  - intros l r (L1 & L2 & L3) (R1 & R2 & R3) Ad.
    split; [apply hull_nonRedundant|]. split; [apply hull2_small; auto|apply hull2_boundedOn; auto].
Qed.
Print Assumptions C40_mergeAdjacentTransitions_exact_partial.

(** runner-based decision of acceptance, for the witnesses below *)
Lemma decide A l0 d0 w : wfb A = true -> noSilentb A = true -> nnResetsb A = true -> smallb A = true -> deterministic A = true ->
  tinit A = [l0] -> Qle_bool 0 d0 = true -> forallb (fun p => Qle_bool 0 (snd p)) w = true ->
  forall b, (match answerQuery 0 (mkRunner A) d0 w with Some (_, b') => b' | None => false end) = b -> (b = true <-> accepts A d0 w).
Proof.
  intros H1 H2 H3 H4 H5 H6 H7 H8 b E. apply smallb_ok in H4.
  destruct (C27_runner_exact A 0 (wfb_ok A H1) (noSilentb_ok A H2) (nnResetsb_ok A H3) (proj1 (deterministic_exact A H4) H5) (mkRunner A) d0 w l0 eq_refl H6) as (r' & b' & Q & _ & _ & K).
  - apply Qle_bool_iff, H7.
  - intros a d I. rewrite forallb_forall in H8. apply Qle_bool_iff. exact (H8 _ I).
  - rewrite Q in E. subst b'. exact K.
Qed.

(** without an upper bound the merged automaton accepts more *)
Definition exM : ta := mkTA
  [ (0%nat, mkS false [ (1%nat, [ mkT 1 [(0%nat, RConst 0)] [] ]) ]);
    (1%nat, mkS false [ (1%nat, [ mkT 2 [] ex_l2; mkT 2 [] ex_r2 ]) ]); (2%nat, mkS true []) ] [0%nat] [2%Z; 2%Z].
Theorem C40_mergeAdjacentTransitions_exact_refuted :
  exists (A : ta) d0 w, wfTA A /\ nonnegResets A /\ allGuards nonRedundant A /\ detTA A /\
    accepts (mergeAdjacentTransitions A) d0 w /\ ~ accepts A d0 w.
Proof.
  exists exM, (3 # 2), [(1%nat, 3 # 2); (1%nat, 0)].
  split; [apply wfb_ok; reflexivity|]. split; [apply nnResetsb_ok; reflexivity|]. split.
  { intros l a t H. apply edgesOf_iff in H. cbn in H. destruct H as [H|[H|[H|[]]]]; injection H as <- <- <-; cbn [tgrd]; repeat constructor; cbn; intuition congruence. }
  split; [apply deterministic_exact; [apply smallb_ok; reflexivity|reflexivity]|]. split.
  - apply (decide (mergeAdjacentTransitions exM) 0%nat (3 # 2) [(1%nat, 3 # 2); (1%nat, 0)]) with (b := true); reflexivity.
  - intro H. apply (decide exM 0%nat (3 # 2) [(1%nat, 3 # 2); (1%nat, 0)]) with (b := false) in H; try reflexivity. discriminate H.
Qed.
Print Assumptions C40_mergeAdjacentTransitions_exact_refuted.

Definition exMok : ta := mkTA
  [ (1%nat, mkS false [ (1%nat, [ mkT 2 [] [mkC 0 Oge 1; mkC 0 Ole 3]; mkT 1 [] [mkC 0 Olt 1]; mkT 2 [] [mkC 0 Ogt 3; mkC 0 Olt 5] ]) ]);
    (2%nat, mkS true []) ] [1%nat] [5%Z].
Example C40_meets : nonnegResets exMok /\ allGuards (fun g => nonRedundant g /\ smallConsts g /\ boundedOn 0%nat g) exMok /\
  length (edgesOf (mergeAdjacentTransitions exMok)) = 2%nat.
Proof.
  split; [apply nnResetsb_ok; reflexivity|]. split; [|vm_compute; reflexivity].
  assert (SM : smallTA exMok) by (apply smallb_ok; reflexivity).
  intros l a t H. assert (K := SM l a t H). apply edgesOf_iff in H. cbn in H.
  destruct H as [H|[H|[H|[]]]]; injection H as <- <- <-; (split; [repeat constructor; cbn; intuition congruence|split; [exact K|]]);
    (split; [intros k I; cbn in I; repeat (destruct I as [<-|I]; [reflexivity|]); destruct I|]);
    [exists (mkC 0 Ole 3)|exists (mkC 0 Olt 1)|exists (mkC 0 Olt 5)]; cbn; auto.
Qed.

(** pruning transitions with weaker guards: exact when transitions to the same
    target do the same resets *)
Theorem C40_removeTransitionsWithWeakerGuards_partial :
  forall A : ta, resetsAgree A -> sameLang (mapStates (fun _ s => removeTransitionsWithWeakerGuards s) A) A.
Proof. intros A H. apply pruneWeaker_lang, H. Qed.
Print Assumptions C40_removeTransitionsWithWeakerGuards_partial.

(** it ignores the resets, so it can lose words *)
Definition exP : ta := mkTA
  [ (1%nat, mkS false [ (1%nat, [ mkT 2 [(0%nat, RConst 0)] [mkC 0 Ole 3]; mkT 2 [] [mkC 0 Ole 5] ]) ]);
    (2%nat, mkS false [ (1%nat, [ mkT 3 [] [mkC 0 Ole 1] ]) ]); (3%nat, mkS true []) ] [1%nat] [5%Z].
Theorem C40_removeTransitionsWithWeakerGuards_refuted :
  exists (A : ta) d0 w, wfTA A /\ nonnegResets A /\ accepts A d0 w /\
    ~ accepts (mapStates (fun _ s => removeTransitionsWithWeakerGuards s) A) d0 w.
Proof.
  exists exP, 2, [(1%nat, 0); (1%nat, 0)]. split; [apply wfb_ok; reflexivity|]. split; [apply nnResetsb_ok; reflexivity|]. split.
  - set (v0 := delay (fun _ => 0) 2). set (v1 := applyReset v0 [(0%nat, RConst 0)]).
    exists 1%nat, (1%nat, v0), (3%nat, delay (delay v1 0) 0). split; [left; reflexivity|].
    split; [constructor; [discriminate|intro; reflexivity]|]. split; [|exists (mkS true []); split; [right; right; left; reflexivity|reflexivity]].
    apply (run_cons exP _ _ _ (2%nat, v1) (2%nat, delay v1 0)).
    + exists (mkT 2 [(0%nat, RConst 0)] [mkC 0 Ole 3]). split; [apply edgesOf_iff; left; reflexivity|].
      split; [intros k [<-|[]]; vm_compute; discriminate|]. split; [reflexivity|apply applyReset_isReset].
    + constructor; [discriminate|intro; reflexivity].
    + apply (run_cons exP _ _ _ (3%nat, delay v1 0) (3%nat, delay (delay v1 0) 0)); [|constructor; [discriminate|intro; reflexivity]|constructor].
      exists (mkT 3 [] [mkC 0 Ole 1]). split; [apply edgesOf_iff; right; right; left; reflexivity|].
      split; [intros k [<-|[]]; vm_compute; discriminate|]. split; [reflexivity|apply (applyReset_isReset [])].
  - intro H. apply (decide (mapStates (fun _ s => removeTransitionsWithWeakerGuards s) exP) 1%nat 2 [(1%nat, 0); (1%nat, 0)]) with (b := false) in H; try reflexivity.
    discriminate H.
Qed.
Print Assumptions C40_removeTransitionsWithWeakerGuards_refuted.
