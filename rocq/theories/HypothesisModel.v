(** The construction of the hypothesis automaton from the observation table
    (observation_table.hh:792-1221), with internal_transition_maker.hh,
    external_transition_maker.hh and the part of timed_automaton.hh/.cc it
    uses.

    Simplifications.  A state is known by its position in the vector of states
    (its address).  Iteration orders of unordered containers are parameters:
    [ordP] for pIndices and [ordI] for the map inside InternalTransitionMaker;
    the map inside ExternalTransitionMaker never has more than one entry.
    Dereferencing end() after a failed std::find_if (guarded only by assert) is
    modelled as leaving with an exception.  ImpreciseClockHandler::run is the
    parameter [relax], applied only when something was pushed, and splitStates
    is the parameter [split], applied only when a state needs splitting; it is
    proved that neither happens on the tables the learner produces. *)
From Coq Require Import QArith ZArith Bool List Arith.
From Verif Require Import BoundsModel ConstraintModel ZoneModel AutomatonModel TimedWordModel TimedConditionModel
  ElementaryModel RegionalModel OracleModel SymbolicModel CexModel RenamingModel TableModel.
Import ListNotations.

Definition states := list (loc * tastate).
(** what is pushed to ImpreciseClockHandler (imprecise_clock_handler.hh:72-81) *)
Definition neighbours := list (loc * renaming * frel).
(** the states, indexToState and stateToIndices (observation_table.hh:792-796, 834-835) *)
Record hyp := mkH { hSt : states; hMap : list (nat * loc); hIdx : list (loc * nat) }.
Definition hEmpty : hyp := mkH [] [] [].
(** observation_table.hh:797-799, 810-813 *)
Definition toState (h : hyp) (i : nat) : option loc := mapAt (hMap h) i.
(** observation_table.hh:801-803 *)
Definition toIndices (h : hyp) (l : loc) : list nat := map snd (filter (fun p => (fst p =? l)%nat) (hIdx h)).
(** observation_table.hh:815-823 *)
Definition hAdd (h : hyp) (l : loc) (i : nat) : hyp := mkH (hSt h) (mapPut (hMap h) i l) (hIdx h ++ [(l, i)]).
(** state->next[a].emplace_back(tr) *)
Definition pushTo (sts : states) (l : loc) (a : letter) (tr : trans) : states :=
  map (fun p => if (fst p =? l)%nat then (fst p, mkS (AutomatonModel.isMatch (snd p)) (pushNext (snext (snd p)) a tr)) else p) sts.
Definition hPush (h : hyp) (l : loc) (a : letter) (tr : trans) : hyp := mkH (pushTo (hSt h) l a tr) (hMap h) (hIdx h).
Definition nextAt (h : hyp) (l : loc) (a : letter) : list trans :=
  match find (fun p => (fst p =? l)%nat) (hSt h) with Some p => nfind (snext (snd p)) a | None => [] end.

(** internal_transition_maker.hh:69-77 *)
Definition internalT (c : tcond) (st : loc) : trans := mkT st [(tcSize c, RConst 0%Q)] (toGuard c).
(** external_transition_maker.hh:94-114: the renaming closed under what it
    implies, unique on the right *)
Definition externalT (src tgt : tcond) (r : renaming) (st : loc) : trans :=
  let jz := addRenaming (tcSize src) (jux src tgt) r in
  let ren := uniqR None (sortR (makeRenaming (tcSize src) (tcSize tgt) jz)) in
  mkT st (clean (toReset ren tgt)) (toGuard src).
(** observation_table.hh:1045-1049 *)
Definition constResets (vs : list Q) : resets := combine (seq 0 (length vs)) (map RConst vs).
(** observation_table.hh:1072-1078 *)
Definition renamingOf (rs : resets) : renaming :=
  flat_map (fun p => match snd p with RVar y => [(y, fst p)] | RConst _ => [] end) rs.
(** imprecise_clock_handler.hh:72-81 *)
Definition pushN (ns : neighbours) (st : loc) (r : renaming) (x : frel) : neighbours :=
  if hasImpreciseClocks r (ec (fel x)) then ns ++ [(st, r, x)] else ns.
(** std::sort and std::unique of pairs (observation_table.hh:965-967) *)
Definition bdLt (a b : nat * letter) : bool := ((fst a <? fst b) || ((fst a =? fst b) && (snd a <? snd b)))%nat.
Fixpoint insertBd (x : nat * letter) (l : list (nat * letter)) : list (nat * letter) :=
  match l with [] => [x] | y :: r => if bdLt x y then x :: l else if pairEqb x y then l else y :: insertBd x r end.
Definition sortBd (l : list (nat * letter)) : list (nat * letter) := fold_right insertBd [] l.

(** *** post-processing of one vector of transitions *)
(** observation_table.hh:1147-1152: std::sort by the variable *)
Fixpoint insertReset (p : clock * rhs) (l : resets) : resets :=
  match l with [] => [p] | q :: r => if (fst q <? fst p)%nat then q :: insertReset p r else p :: l end.
Definition sortResets (rs : resets) : resets := fold_right insertReset [] rs.
Definition sortT (t : trans) : trans := mkT (ttgt t) (sortResets (trst t)) (tgrd t).
(** neighbor_conditions.hh computeTargetClockSize and preciseClocksAfterReset
    are only used to choose between two overlapping transitions
    (src/timed_automaton.cc:43-49); the choice is the parameter [prefer] *)
Definition mergeTransitions (prefer : trans -> trans -> bool) (l r : trans) : trans :=
  if prefer l r then mkT (ttgt l) (trst l) (unionHull2 (tgrd l) (tgrd r)) else mkT (ttgt r) (trst r) (unionHull2 (tgrd l) (tgrd r)).
(** src/timed_automaton.cc:216-257 *)
Fixpoint absorbND (prefer : trans -> trans -> bool) (it : trans) (rest : list trans) : trans * list trans :=
  match rest with
  | [] => (it, [])
  | t :: r => if satisfiable (conjunction (tgrd it) (tgrd t)) then absorbND prefer (mergeTransitions prefer it t) r
              else let '(it', r') := absorbND prefer it r in (it', t :: r')
  end.
Fixpoint mergeND (prefer : trans -> trans -> bool) (fuel : nat) (ts : list trans) : list trans :=
  match fuel, ts with
  | S n, t :: r => let '(t', r') := absorbND prefer t r in t' :: mergeND prefer n r'
  | _, _ => ts
  end.
(** src/timed_automaton.cc:201-214 *)
Fixpoint needSplitTs (ts : list trans) : bool :=
  match ts with
  | [] => false
  | t :: r => existsb (fun u => negb (ttgt t =? ttgt u)%nat && satisfiable (conjunction (tgrd t) (tgrd u))
                                && negb (eqNats (simpleVariables (tgrd t)) (simpleVariables (tgrd u)))) r || needSplitTs r
  end.
Definition needSplitting (s : tastate) : bool := existsb (fun p => needSplitTs (snd p)) (snext s).
(** observation_table.hh:1145-1188 *)
Definition tidyTs (prefer : trans -> trans -> bool) (ts : list trans) : list trans :=
  let ts1 := map sortT ts in
  let ts2 := mergeAdj (length ts1) ts1 in
  let ts3 := removeWeaker [] ts2 in
  mergeND prefer (length ts3) ts3.
Definition tidy (prefer : trans -> trans -> bool) (sts : states) : states :=
  map (fun p => (fst p, mkS (AutomatonModel.isMatch (snd p)) (mapNext (tidyTs prefer) (snext (snd p))))) sts.

Section Gen.
Context {St : Type}.
Notation tbl := (ot St).
Context (ordP : tbl -> list nat) (ordI : list (loc * tcond) -> list (loc * tcond))
        (relax : neighbours -> states -> states) (split : states -> states) (prefer : trans -> trans -> bool).

Definition condAt (t : tbl) (i : nat) : tcond := ec (fel (preAt t i)).
(** observation_table.hh:843-850 addState *)
Definition addState (t : tbl) (h : hyp) (i : nat) : hyp * loc :=
  let l := length (hSt h) in
  (hAdd (mkH (hSt h ++ [(l, mkS (isMatch t i) [])]) (hMap h) (hIdx h)) l i, l).
(** observation_table.hh:858-884 mergeContinuousSuccessors; the two tests of the
    code (inside and after the loop) are the same *)
Fixpoint mergeCont (fuel : nat) (t : tbl) (h : hyp) (st : loc) (src : nat) : res hyp :=
  match fuel with
  | O => Stop SFuel
  | S n =>
      match contAt t src with
      | None => Stop SThrow
      | Some nxt =>
          if Bool.eqb (isMatch t src) (isMatch t nxt)
          then let h' := hAdd h st nxt in if inP t nxt then mergeCont n t h' st nxt else Ok h'
          else Stop SAbort
      end
  end.
(** observation_table.hh:890, 893-894: the boundaries and the queue *)
Record bfs := mkB { bH : hyp; bQ : list loc; bBd : list (nat * letter) }.
(** observation_table.hh:902-952, one index of the state *)
Definition exploreIdx (t : tbl) (a : letter) (b : bfs) (src : list (loc * tcond)) (i : nat) : res (bfs * list (loc * tcond)) :=
  match discAt t i a with
  | None => Ok (b, src)
  | Some d =>
      if inP t d
      then
        let '(b1, src1, st) :=
          match toState (bH b) d with
          | Some st => (b, src, st)
          | None => let (h1, st) := addState t (bH b) d in (mkB h1 (bQ b ++ [st]) (bBd b), src ++ [(st, condAt t i)], st)
          end in
        match contAt t d with
        | None => Ok (b1, src1)
        | Some _ => do h2 <- mergeCont (length (otPre t)) t (bH b1) st d; Ok (mkB h2 (bQ b1) (bBd b1), src1)
        end
      else Ok (mkB (bH b) (bQ b) (bBd b ++ [(i, a)]), src)
  end.
Fixpoint exploreIdxs (t : tbl) (a : letter) (b : bfs) (src : list (loc * tcond)) (is : list nat) : res (bfs * list (loc * tcond)) :=
  match is with
  | [] => Ok (b, src)
  | i :: r => do (b1, src1) <- exploreIdx t a b src i; exploreIdxs t a b1 src1 r
  end.
(** observation_table.hh:899-960, the actions of one state [l] with indices
    [is]; the transitions of InternalTransitionMaker are moved to the state *)
Fixpoint exploreActs (t : tbl) (l : loc) (is : list nat) (b : bfs) (acts : list letter) : res bfs :=
  match acts with
  | [] => Ok b
  | a :: r =>
      do (b1, src) <- exploreIdxs t a b [] is;
      let h := fold_left (fun h e => hPush h l a (internalT (snd e) (fst e))) (ordI src) (bH b1) in
      exploreActs t l is (mkB h (bQ b1) (bBd b1)) r
  end.
(** observation_table.hh:895-961 *)
Fixpoint explore (fuel : nat) (t : tbl) (b : bfs) : res bfs :=
  match bQ b with
  | [] => Ok b
  | l :: q =>
      match fuel with
      | O => Stop SFuel
      | S n => do b1 <- exploreActs t l (toIndices (bH b) l) (mkB (bH b) q (bBd b)) (otAlpha t); explore n t b1
      end
  end.
(** the entry of closedRelation the construction uses (observation_table.hh:996-999, 1033-1036) *)
Definition chosen (t : tbl) (i : nat) : option (nat * renaming) := find (fun e => inP t (fst e)) (relAt t i).
(** observation_table.hh:968-1023, one boundary *)
Definition boundary (t : tbl) (hn : hyp * neighbours) (e : nat * letter) : res (hyp * neighbours) :=
  let '(h, ns) := hn in
  let '(src, a) := e in
  match discAt t src a with
  | None => Stop SThrow
  | Some tgt =>
      match toState h tgt with
      | Some _ => Ok (h, ns)
      | None =>
          match chosen t tgt with
          | None => Stop SThrow
          | Some (j, r) =>
              let r' := eraseLeft r (tcSize (condAt t src)) in
              match toState h j, toState h src with
              | Some st, Some l => Ok (hPush (hAdd h st tgt) l a (externalT (condAt t src) (condAt t j) r' st), pushN ns st r' (preAt t j))
              | _, _ => Stop SThrow
              end
          end
      end
  end.
Fixpoint boundaries (t : tbl) (hn : hyp * neighbours) (es : list (nat * letter)) : res (hyp * neighbours) :=
  match es with [] => Ok hn | e :: r => do hn1 <- boundary t hn e; boundaries t hn1 r end.
(** observation_table.hh:1052-1096, one action of a continuous exterior [c] that
    is mapped to [j] in the same state [st] *)
Definition selfLoop (t : tbl) (c j : nat) (st : loc) (hn : hyp * neighbours) (a : letter) : res (hyp * neighbours) :=
  let '(h, ns) := hn in
  match find (fun tr => isWeaker (tgrd tr) (toGuard (condAt t j))) (nextAt h st a) with
  | None => Stop SThrow
  | Some tr =>
      let rs := composition (trst tr) (constResets (toValuation (condAt t j))) in
      let r := renamingOf rs in
      match discAt t j a with
      | None => Stop SThrow
      | Some d =>
          let ns' := if inP t d then pushN ns (ttgt tr) r (preAt t d)
                     else match chosen t d with Some (m, _) => pushN ns (ttgt tr) r (preAt t m) | None => ns end in
          Ok (hPush h st a (mkT (ttgt tr) rs (toGuard (removeUpperBound (condAt t c)))), ns')
      end
  end.
Fixpoint selfLoops (t : tbl) (c j : nat) (st : loc) (hn : hyp * neighbours) (acts : list letter) : res (hyp * neighbours) :=
  match acts with [] => Ok hn | a :: r => do hn1 <- selfLoop t c j st hn a; selfLoops t c j st hn1 r end.
(** observation_table.hh:1026-1106, one row of P *)
Definition exterior (t : tbl) (hn : hyp * neighbours) (p : nat) : res (hyp * neighbours) :=
  let '(h, ns) := hn in
  match contAt t p with
  | None => Stop SThrow
  | Some c =>
      if inP t c then Ok hn
      else
        match toState h c, chosen t c with
        | Some st, Some (j, r) =>
            match toState h j with
            | None => Stop SThrow
            | Some st' =>
                let ns1 := pushN ns st' r (preAt t j) in
                if (st =? st')%nat then selfLoops t c j st (h, ns1) (otAlpha t)
                else Ok (hPush h st UNOBSERVABLE (externalT (removeUpperBound (condAt t c)) (condAt t j) r st'), ns1)
            end
        | _, _ => Stop SThrow
        end
  end.
Fixpoint exteriors (t : tbl) (hn : hyp * neighbours) (ps : list nat) : res (hyp * neighbours) :=
  match ps with [] => Ok hn | p :: r => do hn1 <- exterior t hn p; exteriors t hn1 r end.
(** observation_table.hh:886-1106: the states before the clean-up *)
Definition rawHypothesis (t : tbl) : res (hyp * neighbours) :=
  let (h0, st0) := addState t hEmpty 0 in
  do h1 <- mergeCont (length (otPre t)) t h0 st0 0;
  do b <- explore (S (length (otPre t))) t (mkB h1 [st0] []);
  do hn <- boundaries t (bH b, []) (sortBd (bBd b));
  exteriors t hn (ordP t).
(** observation_table.hh:832-1221 *)
Definition generateHypothesis (t : tbl) : res ta :=
  do (h, ns) <- rawHypothesis t;
  let sts := match ns with [] => hSt h | _ => relax ns (hSt h) end in
  let sts := if existsb (fun p => needSplitting (snd p)) sts then split sts else sts in
  let sts := tidy prefer sts in
  if forallb (fun i => match toState h i with Some _ => true | None => false end) (seq 0 (length (otPre t)))
  then Ok (taSimplify (mkTA sts [0%nat] (makeMaxConstants sts)))
  else Stop SAbort.
(** learner.hh:38-40, without simplifyWithZones *)
Definition learnerHypothesis (t : tbl) : res ta := do A <- generateHypothesis t; Ok (taSimplifyStrong A).
End Gen.
