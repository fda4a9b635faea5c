(** Model of the functions that make a state deterministic by merging
    (src/timed_automaton.cc:19-50, 171-199, 258-331, include/timed_automaton.hh:121-165).
    mergeNondeterministicBranching() is HypothesisModel.mergeND.
    Simplifications.  The clock size of a target (neighbor_conditions.hh:463-466)
    is read from the automaton before the state is changed.  An unordered_set of
    clocks is a list in the order of iteration, and the order in which an
    unordered_map is copied to a vector is a function [ord].  Asserts and logging
    are dropped. *)
From Coq Require Import QArith ZArith Bool List Arith.
From Verif Require Import BoundsModel ConstraintModel ZoneModel AutomatonModel TimedWordModel TimedConditionModel HypothesisModel NeighborModel ImpreciseModel.
Import ListNotations.

(** src/timed_automaton.cc:19-33 impreciseClocksAfterTransition *)
Definition impreciseAfter (sts : states) (t : trans) : list nat :=
  let n := clockSizeAt sts (ttgt t) in
  filter (fun i => negb (isPrecise (preciseAfterReset (simpleVariables (tgrd t)) n (trst t)) i)) (seq 0 n).
(** operator<= of two vectors *)
Fixpoint lexLe (l r : list nat) : bool :=
  match l, r with
  | [], _ => true
  | _ :: _, [] => false
  | a :: l', b :: r' => (a <? b)%nat || ((a =? b)%nat && lexLe l' r')
  end.
(** src/timed_automaton.cc:43-49 mergeTransitions: the condition *)
Definition preferLeft (sts : states) (l r : trans) : bool := lexLe (impreciseAfter sts l) (impreciseAfter sts r).

(** the double loop (lines 173-174, 217-218, 260-261) with the condition [cond]
    and what [*it2] becomes [m] *)
Fixpoint absorbW (cond : trans -> trans -> bool) (m : trans -> trans -> trans) (it : trans) (rest : list trans) : trans * list trans :=
  match rest with
  | [] => (it, [])
  | t :: r => if cond it t then absorbW cond m (m it t) r
              else let '(it', r') := absorbW cond m it r in (it', t :: r')
  end.
Fixpoint mergeW (cond : trans -> trans -> bool) (m : trans -> trans -> trans) (fuel : nat) (ts : list trans) : list trans :=
  match fuel, ts with
  | S n, t :: r => let '(t', r') := absorbW cond m t r in t' :: mergeW cond m n r'
  | _, _ => ts
  end.
Definition overlap (t u : trans) : bool := satisfiable (conjunction (tgrd t) (tgrd u)).

(** src/timed_automaton.cc:263-325 mergeNondeterministicBranching(preciseClocks):
    what [*it2] becomes *)
Definition mergeP (prefer : trans -> trans -> bool) (P : list nat) (it t : trans) : trans :=
  let p2 := simpleVariables (tgrd it) in
  let p3 := simpleVariables (tgrd t) in
  let a2 := forallb (isPrecise p2) P in
  let a3 := forallb (isPrecise p3) P in
  if a2 && negb a3 then it
  else if negb a2 && a3 then t
  else if a2 && a3 then mergeTransitions prefer it t
  else match find (fun c => xorb (isPrecise p2 c) (isPrecise p3 c)) P with
       | None => if isWeaker (tgrd t) (tgrd it) then t
                 else if isWeaker (tgrd it) (tgrd t) then it else mergeTransitions prefer it t
       | Some c => if isWeaker (tgrd t) (tgrd it) then t
                   else if isWeaker (tgrd it) (tgrd t) then it
                   else if isPrecise p3 c then mkT (ttgt t) (trst t) (unionHull2 (tgrd it) (tgrd t))
                   else mkT (ttgt it) (trst it) (unionHull2 (tgrd it) (tgrd t))
       end.
Definition mergeNDP (prefer : trans -> trans -> bool) (P : list nat) (ts : list trans) : list trans := mergeW overlap (mergeP prefer P) (length ts) ts.

(** include/timed_automaton.hh:166-175 impreciseConstantAssignSize *)
Definition isIntegral (r : rhs) : bool := match r with RConst q => Qeq_bool q (qfloor q) | RVar _ => false end.
Definition impreciseConsts (rs : resets) : nat :=
  length (filter (fun p => match snd p with RConst q => negb (Qeq_bool q (qfloor q)) | RVar _ => false end) rs).
(** include/timed_automaton.hh:121-140 addPreciseConstantAssignments; the map is
    made from a range, which keeps the first entry of a clock *)
Definition resetAt (rs : resets) (x : clock) : option rhs :=
  match find (fun p => (fst p =? x)%nat) rs with Some p => Some (snd p) | None => None end.
Fixpoint setReset (rs : resets) (x : clock) (r : rhs) : resets :=
  match rs with [] => [(x, r)] | p :: q => if (fst p =? x)%nat then (x, r) :: q else p :: setReset q x r end.
Fixpoint asMap (rs : resets) : resets :=
  match rs with [] => [] | p :: q => p :: filter (fun p' => negb (fst p' =? fst p)%nat) (asMap q) end.
Definition addOne (m : resets) (p : clock * rhs) : resets :=
  if match resetAt m (fst p) with Some r => isIntegral r | None => false end then m
  else if isIntegral (snd p) then setReset m (fst p) (snd p) else m.
Definition addPreciseConsts (ord : resets -> resets) (rs other : resets) : resets := ord (fold_left addOne other (asMap rs)).
(** src/timed_automaton.cc:171-199 mergeNondeterministicBranchingWithSameTarget
    (no caller) *)
Definition sameTarget (t u : trans) : bool := (ttgt t =? ttgt u)%nat && overlap t u.
Definition mergeSame (ord : resets -> resets) (it t : trans) : trans :=
  let rs := if (impreciseConsts (trst it) <? impreciseConsts (trst t))%nat then addPreciseConsts ord (trst t) (trst it)
            else addPreciseConsts ord (trst it) (trst t) in
  mkT (ttgt it) rs (unionHull2 (tgrd it) (tgrd t)).
Definition mergeSameTarget (ord : resets -> resets) (ts : list trans) : list trans := mergeW sameTarget (mergeSame ord) (length ts) ts.
