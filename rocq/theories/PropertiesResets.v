(** C42 continued: assignments to the clocks of a timed condition and removal
    of inclusive upper bounds (include/timed_condition.hh applyResets,
    removeEqualityUpperBoundAssign). *)
From Coq Require Import QArith ZArith Bool List Arith Lia Lqa Qround.
From Verif Require Import BoundsModel ConstraintModel GuardSpec ZoneModel ZoneSpec TimedConditionModel TimedConditionSpec TimedConditionProofs
  TimedWordModel RegionalModel RegionalSpec ResetSpec ConditionResets TimedConditionProofs5 PropertiesConditions.
Import ListNotations.
Open Scope Q_scope.

(** Assigning constants: clock k is the time since the k-th event.  The result
    holds the durations that differ from durations of the condition only in the
    assigned clocks, which have any value with the integral part (and
    integrality) of the last constant assigned to them. *)
Theorem C42_applyResets :
  forall (m : tcond) (rs : resets), okCond m -> constResets (tcSize m) rs ->
    okCond (tcApplyResets m rs) /\ tcSize (tcApplyResets m rs) = tcSize m /\
    forall d, inCond (tcApplyResets m rs) d <->
      length d = tcSize m /\ exists d', inCond m d' /\ forall k, (k < tcSize m)%nat ->
        match assigned rs k with Some (RConst q) => sameUnit q (since d k) | _ => since d k == since d' k end.
Proof.
  intros m rs O C. destruct (tcApplyResets_exact m O rs C) as [A [B _]]. split; [exact A|]. split; [exact B|]. exact (tcApplyResets_durations m rs O C).
Qed.
Print Assumptions C42_applyResets.

Theorem C42_removeEqualityUpperBound :
  forall (m : tcond) (d : list Q), okCond m ->
    (inCond (removeEqualityUpperBound m) d <->
     length d = tcSize m /\ forall i j, (i <= j)%nat -> (j < tcSize m)%nat ->
       bsat (getLowerBound m i j) (- T d i j) /\
       ((j = (tcSize m - 1)%nat /\ bSnd (getUpperBound m i j) = true) \/ bsat (getUpperBound m i j) (T d i j))).
Proof. exact removeEqualityUpperBound_exact. Qed.
Print Assumptions C42_removeEqualityUpperBound.

(** exCond : T_{0,1} = 2, T_{1,1} in (0,2).  Clock 1 := 5/2 gives T_{1,1} in (2,3). *)
Example C42_resets_nonvacuous :
  okCond exCond /\ constResets (tcSize exCond) [(0%nat, RConst 3); (1%nat, RConst (1#2)); (0%nat, RConst 1)] /\
  inCondb (tcApplyResets exCond [(0%nat, RConst 3); (1%nat, RConst (1#2)); (0%nat, RConst 1)]) [(3#4); (1#4)] = true /\
  inCondb (tcApplyResets exCond [(0%nat, RConst 3); (1%nat, RConst (1#2)); (0%nat, RConst 1)]) [(11#4); (1#4)] = false /\
  inCondb exCond [(7#4); (1#2)] = false /\ inCondb (removeEqualityUpperBound exCond) [(7#4); (1#2)] = true.
Proof.
  split; [exact (proj1 exCond_ok)|]. split.
  - intros x v H. assert (E : tcSize exCond = 2%nat) by (vm_compute; reflexivity). rewrite E.
    destruct H as [H|[H|[H|[]]]]; injection H as <- <-; (split; [lia|eexists; reflexivity]).
  - repeat split; vm_compute; reflexivity.
Qed.
