(** Model of include/timed_automaton.hh, src/timed_automaton.cc,
    include/timed_automaton_runner.hh and src/intersection.cc.

    Simplifications: a state pointer is a [nat] (its address); a state object
    is found in the automaton's list of states; letters (char) are [nat] with
    UNOBSERVABLE = 0 (common_types.hh:13); the unordered map [next] is an
    association list; clock valuations are total functions (the [.at] accesses
    never throw); doubles are rationals. *)
From Coq Require Import QArith ZArith Bool List Arith Cantor.
From Verif Require Import BoundsModel ConstraintModel ZoneModel.
Import ListNotations.
Open Scope Q_scope.

Definition loc := nat.
Definition letter := nat.
(** common_types.hh:13 *)
Definition UNOBSERVABLE : letter := 0%nat.

(** timed_automaton.hh:80-95 *)
Record trans := mkT { ttgt : loc; trst : resets; tgrd : guard }.
Definition nextmap := list (letter * list trans).
(** timed_automaton.hh:26-40 *)
Record tastate := mkS { isMatch : bool; snext : nextmap }.
(** timed_automaton.hh:214-216 and common_types.hh:19-29 *)
Record ta := mkTA { tstates : list (loc * tastate); tinit : list loc; tmax : list Z }.

(** dereferencing a state pointer *)
Definition lookup (A : ta) (l : loc) : option tastate :=
  match find (fun p => Nat.eqb (fst p) l) (tstates A) with Some p => Some (snd p) | None => None end.
(** [next.find(a)] / [next.at(a)]; no entry and an empty entry behave alike in
    the functions modelled here *)
Definition nfind (nx : nextmap) (a : letter) : list trans :=
  match find (fun p => Nat.eqb (fst p) a) nx with Some p => snd p | None => [] end.
(** [next[a].push_back(t)] *)
Fixpoint pushNext (nx : nextmap) (a : letter) (t : trans) : nextmap :=
  match nx with
  | [] => [(a, [t])]
  | (b, ts) :: r => if Nat.eqb b a then (b, ts ++ [t]) :: r else (b, ts) :: pushNext r a t
  end.
(** apply a function to every state object *)
Definition mapStates (f : loc -> tastate -> tastate) (A : ta) : ta :=
  mkTA (map (fun p => (fst p, f (fst p) (snd p))) (tstates A)) (tinit A) (tmax A).

(** *** determinism *)
(** src/timed_automaton.cc:135-141: each transition against the earlier ones *)
Fixpoint detTs (prev rest : list trans) : bool :=
  match rest with
  | [] => true
  | t :: r => if existsb (fun p => satisfiable (conjunction (tgrd p) (tgrd t))) prev then false
              else detTs (prev ++ [t]) r
  end.
(** src/timed_automaton.cc:132-145 *)
Definition stDeterministic (s : tastate) : bool := forallb (fun p => detTs [] (snd p)) (snext s).
(** timed_automaton.hh:660-662 *)
Definition deterministic (A : ta) : bool := forallb (fun p => stDeterministic (snd p)) (tstates A).

(** *** resets *)
(** timed_automaton.hh:748-757 asMap: a later entry overwrites an earlier one *)
Definition rmap := list (clock * rhs).
Fixpoint rset (m : rmap) (x : clock) (r : rhs) : rmap :=
  match m with
  | [] => [(x, r)]
  | (y, q) :: m' => if Nat.eqb y x then (y, r) :: m' else (y, q) :: rset m' x r
  end.
Definition rfind (m : rmap) (x : clock) : option rhs :=
  match find (fun p => Nat.eqb (fst p) x) m with Some p => Some (snd p) | None => None end.
Definition asMap (rs : resets) : rmap := fold_left (fun m p => rset m (fst p) (snd p)) rs [].
(** timed_automaton.hh:763-788 composition(left, right) *)
Definition composition (left right : resets) : resets :=
  let lm := asMap left in
  let rm := asMap right in
  map (fun p => match snd p with
                | RConst q => (fst p, RConst q)
                | RVar mid => match rfind rm mid with None => (fst p, RVar mid) | Some r => (fst p, r) end
                end) lm
  ++ filter (fun p => match rfind lm (fst p) with None => true | Some _ => false end) rm.
(** timed_automaton.hh:790-804 addDefault *)
Definition addDefault (orig dflt : resets) : resets :=
  orig ++ filter (fun p => match rfind (asMap orig) (fst p) with None => true | Some _ => false end) dflt.
(** timed_automaton.hh:806-812 clean *)
Definition clean (rs : resets) : resets :=
  filter (fun p => negb (match snd p with RVar y => Nat.eqb (fst p) y | RConst _ => false end)) rs.

(** *** completion and complement *)
(** a fresh pointer (std::make_shared) *)
Definition freshLoc (A : ta) : loc := S (list_max (map fst (tstates A))).
(** timed_automaton.hh:288-294 and 303-310: collect guards; an empty guard
    empties the list and stops *)
Fixpoint collectGuards (acc : list guard) (ts : list trans) : list guard :=
  match ts with
  | [] => acc
  | t :: r => match tgrd t with [] => [] | _ => collectGuards (acc ++ [tgrd t]) r end
  end.
(** timed_automaton.hh:295-320 one action of one state *)
Definition mcAction (sink : loc) (unobs : list guard) (nx : nextmap) (a : letter) : nextmap :=
  let acts := nfind nx a in
  match unobs, acts with
  | [], [] => pushNext nx a (mkT sink [] [])
  | _, [] => nx
  | _, _ :: _ =>
      match collectGuards unobs acts with
      | [] => nx
      | dg => fold_left (fun n g => pushNext n a (mkT sink [] g)) (negateDNF dg) nx
      end
  end.
(** timed_automaton.hh:284-322 one state *)
Definition mcState (sink : loc) (alphabet : list letter) (s : tastate) : tastate :=
  let unobs := collectGuards [] (nfind (snext s) UNOBSERVABLE) in
  mkS (isMatch s) (fold_left (mcAction sink unobs) alphabet (snext s)).
(** timed_automaton.hh:277-324 *)
Definition makeComplete (A : ta) (alphabet : list letter) : ta :=
  let sink := freshLoc A in
  let states := tstates A ++ [(sink, mkS false [])] in
  mkTA (map (fun p => (fst p, mcState sink alphabet (snd p))) states)
       (match tinit A with [] => [sink] | i => i end)
       (tmax A).
(** timed_automaton.hh:261-272; the deep copy (lines 224-249) keeps the
    addresses (simplification: it renames them one-to-one) *)
Definition complement (A : ta) (alphabet : list letter) : ta :=
  mapStates (fun _ s => mkS (negb (isMatch s)) (snext s)) (makeComplete A alphabet).

(** *** simplifications *)
Definition rhs_eqb (a b : rhs) : bool :=
  match a, b with RConst p, RConst q => Qeq_bool p q | RVar x, RVar y => Nat.eqb x y | _, _ => false end.
Fixpoint list_eqb {A} (e : A -> A -> bool) (a b : list A) : bool :=
  match a, b with [], [] => true | x :: a', y :: b' => e x y && list_eqb e a' b' | _, _ => false end.
(** std::vector operator== on resets *)
Definition resets_eqb (a b : resets) : bool :=
  list_eqb (fun p q => Nat.eqb (fst p) (fst q) && rhs_eqb (snd p) (snd q)) a b.
Definition guard_eqb (a b : guard) : bool := list_eqb constraint_eqb a b.
(** timed_automaton.hh:103-107 *)
Definition trans_eqb (a b : trans) : bool :=
  Nat.eqb (ttgt a) (ttgt b) && resets_eqb (trst a) (trst b) && guard_eqb (tgrd a) (tgrd b).

(** timed_automaton.hh:351-361 *)
Definition simplifyTs (ts : list trans) : list trans :=
  fold_left (fun red t =>
    if existsb (fun an => Nat.eqb (ttgt t) (ttgt an) && resets_eqb (trst t) (trst an)
                          && isWeaker (tgrd an) (tgrd t)) red
    then red else red ++ [t]) ts [].
Definition mapNext (f : list trans -> list trans) (nx : nextmap) : nextmap :=
  map (fun p => (fst p, f (snd p))) nx.
(** timed_automaton.hh:347-366 *)
Definition simplifyTransitions (A : ta) : ta :=
  mapStates (fun _ s => mkS (isMatch s) (mapNext simplifyTs (snext s))) A.

(** src/timed_automaton.cc:156-169, the in-place erase loop on one vector *)
Fixpoint removeWeaker (kept rest : list trans) : list trans :=
  match rest with
  | [] => kept
  | t :: r =>
      if existsb (fun u => negb (trans_eqb t u) && isWeaker (tgrd u) (tgrd t) && Nat.eqb (ttgt u) (ttgt t))
                 (kept ++ t :: r)
      then removeWeaker kept r else removeWeaker (kept ++ [t]) r
  end.
Definition removeTransitionsWithWeakerGuards (s : tastate) : tastate :=
  mkS (isMatch s) (mapNext (removeWeaker []) (snext s)).

(** timed_automaton.hh:188-201 mergeable / merge *)
Definition mergeable (this t : trans) : bool :=
  Nat.eqb (ttgt this) (ttgt t) && adjacent (tgrd this) (tgrd t) && resets_eqb (trst this) (trst t).
Definition mergeT (this t : trans) : trans := mkT (ttgt t) (trst t) (unionHull2 (tgrd t) (tgrd this)).
(** timed_automaton.hh:331-340: the inner loop absorbs into [it], the outer
    loop advances *)
Fixpoint absorb (it : trans) (rest : list trans) : trans * list trans :=
  match rest with
  | [] => (it, [])
  | t :: r => if mergeable it t then absorb (mergeT it t) r
              else let '(it', r') := absorb it r in (it', t :: r')
  end.
Fixpoint mergeAdj (fuel : nat) (ts : list trans) : list trans :=
  match fuel, ts with
  | S n, t :: r => let '(t', r') := absorb t r in t' :: mergeAdj n r'
  | _, _ => ts
  end.
(** timed_automaton.hh:327-344 *)
Definition mergeAdjacentTransitions (A : ta) : ta :=
  mapStates (fun _ s => mkS (isMatch s) (mapNext (fun ts => mergeAdj (length ts) ts) (snext s))) A.

(** edges leaving a state, as target addresses *)
Definition succs (s : tastate) : list loc := flat_map (fun p => map ttgt (snd p)) (snext s).
Definition memb (l : loc) (ls : list loc) : bool := existsb (Nat.eqb l) ls.
(** work-list search: insert the unseen successors (timed_automaton.hh:378-389,
    455-466); the fuel is proved sufficient *)
Definition insertNew (acc : list loc * list loc) (l : loc) : list loc * list loc :=
  let '(seen, queue) := acc in
  if memb l seen then acc else (seen ++ [l], queue ++ [l]).
Fixpoint search (fuel : nat) (next : loc -> list loc) (seen queue : list loc) : list loc :=
  match fuel, queue with
  | S n, l :: q => let '(seen', q') := fold_left insertNew (next l) (seen, q) in search n next seen' q'
  | _, _ => seen
  end.
Definition succsOf (A : ta) (l : loc) : list loc :=
  match lookup A l with Some s => succs s | None => [] end.
(** timed_automaton.hh:633-657 makeMaxConstants *)
Definition growMax (m : list Z) (x : clock) : list Z := m ++ repeat 0%Z (S x - length m).
Definition maxConstT (m : list Z) (t : trans) : list Z :=
  let m1 := fold_left (fun m k => updNth (cx k) (fun z => Z.max z (cc k)) (growMax m (cx k))) (tgrd t) m in
  fold_left (fun m p => let m' := growMax m (fst p) in
                        match snd p with RVar y => growMax m' y | RConst _ => m' end) (trst t) m1.
Definition makeMaxConstants (sts : list (loc * tastate)) : list Z :=
  fold_left (fun m p => fold_left (fun m e => fold_left maxConstT (snd e) m) (snext (snd p)) m) sts [].
(** timed_automaton.hh:369-403 *)
Definition searchFuel (A : ta) : nat :=
  (length (tinit A) + length (tstates A) + length (flat_map (fun p => succs (snd p)) (tstates A)) + 1)%nat.
Definition reachableStates (A : ta) : list loc :=
  let init := fst (fold_left insertNew (tinit A) ([], [])) in
  search (searchFuel A) (succsOf A) init (tinit A).
Definition removeTriviallyUnreachableStates (A : ta) : ta :=
  let r := reachableStates A in
  if Nat.eqb (length r) (length (tstates A)) then A
  else let sts := filter (fun p => memb (fst p) r) (tstates A) in
       mkTA sts (tinit A) (makeMaxConstants sts).

(** timed_automaton.hh:406-429 *)
Definition onlySelf (l : loc) (s : tastate) : bool := forallb (Nat.eqb l) (succs s).
Definition removeDeadLoop (A : ta) : ta :=
  mapStates (fun l s => if negb (isMatch s) && negb (memb l (tinit A)) && onlySelf l s
                        then mkS (isMatch s) [] else s) A.

(** transitions to removed states are erased, then entries left empty
    (timed_automaton.hh:478-490 and 517-531) *)
Definition eraseTo (keep : loc -> bool) (nx : nextmap) : nextmap :=
  filter (fun p => match snd p with [] => false | _ => true end)
    (mapNext (filter (fun t => keep (ttgt t))) nx).
(** timed_automaton.hh:434-466 backward edges and live states *)
Definition predsOf (A : ta) (l : loc) : list loc :=
  map fst (filter (fun p => memb l (succs (snd p))) (tstates A)).
Definition liveStates (A : ta) : list loc :=
  let acc := map fst (filter (fun p => isMatch (snd p)) (tstates A)) in
  search (length (tstates A) + length acc + 1) (predsOf A) acc acc.
(** timed_automaton.hh:434-496 *)
Definition removeTriviallyDeadStates (A : ta) : ta :=
  let live := liveStates A in
  if Nat.eqb (length live) (length (tstates A)) then A
  else mkTA (map (fun p => (fst p, mkS (isMatch (snd p)) (eraseTo (fun t => memb t live) (snext (snd p)))))
                 (filter (fun p => memb (fst p) live) (tstates A)))
            (filter (fun l => memb l live) (tinit A)) (tmax A).

(** timed_automaton.hh:506-533 one state of the queue *)
Definition removeUseless1 (A : ta) (l : loc) : ta :=
  if memb l (tinit A) then A
  else match lookup A l with
       | None => A
       | Some s =>
           if onlySelf l s
           then mkTA (map (fun p => (fst p, mkS (isMatch (snd p)) (eraseTo (fun t => negb (Nat.eqb t l)) (snext (snd p)))))
                          (filter (fun p => negb (Nat.eqb (fst p) l)) (tstates A)))
                     (tinit A) (tmax A)
           else A
       end.
(** timed_automaton.hh:499-537 *)
Definition removeUselessTransitions (A : ta) : ta :=
  fold_left removeUseless1 (map fst (filter (fun p => negb (isMatch (snd p))) (tstates A))) A.

(** timed_automaton.hh:543-558 used clocks *)
Definition usedInT (t : trans) : list clock :=
  map cx (tgrd t) ++ flat_map (fun p => match snd p with RVar y => [y] | RConst _ => [] end) (trst t).
Definition allTrans (A : ta) : list trans :=
  flat_map (fun p => flat_map snd (snext (snd p))) (tstates A).
(** lines 560-562: sorted vector of the used clocks *)
Fixpoint insertSorted (x : nat) (l : list nat) : list nat :=
  match l with
  | [] => [x]
  | y :: r => if Nat.ltb x y then x :: l else if Nat.eqb x y then l else y :: insertSorted x r
  end.
Definition usedClocks (A : ta) : list clock := fold_right insertSorted [] (flat_map usedInT (allTrans A)).
(** lines 564-567 the position in the sorted vector; [None] if absent *)
Fixpoint indexOf (x : nat) (l : list nat) : option nat :=
  match l with
  | [] => None
  | y :: r => if Nat.eqb x y then Some O else option_map S (indexOf x r)
  end.
Definition renClock (u : list clock) (x : clock) : clock :=
  match indexOf x u with Some i => i | None => x end.
(** lines 569-588 *)
Definition renTrans (u : list clock) (t : trans) : trans :=
  mkT (ttgt t)
      (map (fun p => (renClock u (fst p), match snd p with RConst q => RConst q | RVar y => RVar (renClock u y) end))
           (filter (fun p => memb (fst p) u) (trst t)))
      (map (fun k => mkC (renClock u (cx k)) (codr k) (cc k)) (tgrd t)).
(** lines 590-595: in-place compaction of maxConstraints *)
Definition compactMax (u : list clock) (m : list Z) : list Z :=
  firstn (length u)
    (fold_left (fun m i => updNth i (fun _ => nth (nth i u O) m 0%Z) m) (seq 0 (length u)) m).
(** timed_automaton.hh:542-597 *)
Definition removeUnusedClockVariables (A : ta) : ta :=
  let u := usedClocks A in
  mkTA (map (fun p => (fst p, mkS (isMatch (snd p)) (mapNext (map (renTrans u)) (snext (snd p))))) (tstates A))
       (tinit A) (compactMax u (tmax A)).

(** timed_automaton.hh:600-606 *)
Definition taSimplify (A : ta) : ta :=
  removeUnusedClockVariables (removeTriviallyUnreachableStates (simplifyTransitions A)).
(** timed_automaton.hh:613-622 *)
Definition taSimplifyStrong (A : ta) : ta :=
  removeUnusedClockVariables (removeUselessTransitions (removeDeadLoop
    (removeTriviallyDeadStates (removeTriviallyUnreachableStates (simplifyTransitions A))))).

(** *** product (src/intersection.cc:11-128) *)
(** the address of the product state (toIState) *)
Definition pairLoc (l1 l2 : loc) : loc := Cantor.to_nat (l1, l2).
(** lines 58-64 and 73-75 *)
Definition shiftRhs (n : nat) (r : rhs) : rhs := match r with RConst q => RConst q | RVar y => RVar (y + n)%nat end.
Definition shiftReset (n : nat) (p : clock * rhs) : clock * rhs := ((fst p + n)%nat, shiftRhs n (snd p)).
Definition shiftC (n : nat) (k : constraint) : constraint := mkC (cx k + n)%nat (codr k) (cc k).
(** lines 46-78 addProductTransition *)
Definition prodTrans (n : nat) (tgt : loc) (r1 r2 : resets) (g1 g2 : guard) : trans :=
  mkT tgt (r1 ++ map (shiftReset n) r2) (g1 ++ map (shiftC n) g2).
(** lines 84-124 the edges of one product state, in insertion order; the loop
    over "observable" transitions also visits the label UNOBSERVABLE *)
Definition prodEdges (n : nat) (l1 : loc) (s1 : tastate) (l2 : loc) (s2 : tastate) : list (letter * trans) :=
  map (fun e1 => (UNOBSERVABLE, prodTrans n (pairLoc (ttgt e1) l2) (trst e1) [] (tgrd e1) [])) (nfind (snext s1) UNOBSERVABLE)
  ++ map (fun e2 => (UNOBSERVABLE, prodTrans n (pairLoc l1 (ttgt e2)) [] (trst e2) [] (tgrd e2))) (nfind (snext s2) UNOBSERVABLE)
  ++ flat_map (fun p => flat_map (fun e1 =>
        map (fun e2 => (fst p, prodTrans n (pairLoc (ttgt e1) (ttgt e2)) (trst e1) (trst e2) (tgrd e1) (tgrd e2)))
            (nfind (snext s2) (fst p))) (snd p)) (snext s1).
Definition pushAll (nx : nextmap) (es : list (letter * trans)) : nextmap :=
  fold_left (fun n e => pushNext n (fst e) (snd e)) es nx.
Definition intersectionTA (A B : ta) : ta :=
  let n := length (tmax A) in
  mkTA (flat_map (fun p1 => map (fun p2 =>
          (pairLoc (fst p1) (fst p2),
           mkS (isMatch (snd p1) && isMatch (snd p2)) (pushAll [] (prodEdges n (fst p1) (snd p1) (fst p2) (snd p2)))))
          (tstates B)) (tstates A))
       (flat_map (fun i1 => map (fun i2 => pairLoc i1 i2) (tinit B)) (tinit A))
       (tmax A ++ tmax B).

(** *** the runner (timed_automaton_runner.hh) *)
(** lines 22-27; [rstate = None] is nullptr *)
Record runner := mkR { rta : ta; rstate : option loc; rval : valuation; rnum : nat }.
Definition isEmptyR (r : runner) : bool := match tstates (rta r) with [] => true | _ => false end.
(** lines 41-49 *)
Definition rpre (r : runner) : runner :=
  if isEmptyR r then mkR (rta r) (rstate r) (rval r) (S (rnum r))
  else mkR (rta r) (hd_error (tinit (rta r))) (fun _ => 0) (S (rnum r)).
Definition locMatch (A : ta) (l : loc) : bool :=
  match lookup A l with Some s => isMatch s | None => false end.
Definition nextOf (A : ta) (l : loc) : nextmap :=
  match lookup A l with Some s => snext s | None => [] end.
(** lines 78-103 *)
Definition stepChar (r : runner) (a : letter) : runner * bool :=
  if isEmptyR r then (r, false)
  else match rstate r with
       | None => (r, false)
       | Some l =>
           match find (fun t => gsatb (tgrd t) (rval r)) (nfind (nextOf (rta r) l) a) with
           | Some t => (mkR (rta r) (Some (ttgt t)) (applyReset (rval r) (trst t)) (rnum r),
                        locMatch (rta r) (ttgt t))
           | None => (mkR (rta r) None (rval r) (rnum r), false)
           end
       end.
(** order of Bounds, [None] = {-infinity,false} *)
Definition dur_ltb (a b : option (Q * bool)) : bool :=
  match a, b with
  | None, None => false
  | None, Some _ => true
  | Some _, None => false
  | Some p, Some q => qb_ltb p q
  end.
(** lines 128-135 std::min_element over the unobservable transitions (also
    right for a single one, lines 125-127).  [None] = the undefined behaviour
    of lowerBoundDurationToSatisfy on an empty guard. *)
Fixpoint minTrans (v : valuation) (best : trans) (bd : option (Q * bool)) (ts : list trans)
  : option (trans * option (Q * bool)) :=
  match ts with
  | [] => Some (best, bd)
  | t :: r => match lowerDur (tgrd t) v with
              | None => None
              | Some d => if dur_ltb d bd then minTrans v t d r else minTrans v best bd r
              end
  end.
Definition elapseV (v : valuation) (d : Q) : valuation := fun x => v x + d.
(** lines 105-156; [None] = out of fuel (a loop of unobservable transitions)
    or undefined behaviour *)
Fixpoint stepDur (fuel : nat) (r : runner) (d : Q) : option (runner * bool) :=
  if isEmptyR r then Some (r, false)
  else match rstate r with
  | None => Some (r, false)
  | Some l =>
      if Qeq_bool d 0 then Some (r, locMatch (rta r) l)
      else
        let plain := Some (mkR (rta r) (Some l) (elapseV (rval r) d) (rnum r), locMatch (rta r) l) in
        match nfind (nextOf (rta r) l) UNOBSERVABLE with
        | [] => plain
        | t :: ts =>
            match lowerDur (tgrd t) (rval r) with
            | None => None
            | Some bd0 =>
                match minTrans (rval r) t bd0 ts with
                | None => None
                | Some (t', Some (q, s)) =>
                    if Qle_bool q 0 && (Qltb (- d) q || (Qeq_bool (- d) q && s))
                    then match fuel with
                         | O => None
                         | S n =>
                             stepDur n
                               (mkR (rta r) (Some (ttgt t')) (applyReset (elapseV (rval r) (- q)) (trst t')) (rnum r))
                               (d - (if Qeq_bool q 0 && negb s then 1 # 10000000000 else - q))
                         end
                    else plain
                | Some (_, None) => plain
                end
            end
        end
  end.

(** membership_oracle.hh:39-51 answerQuery; a timed word is d0 (a1,d1) ... (an,dn) *)
Fixpoint feed (fuel : nat) (r : runner) (w : list (letter * Q)) (res : bool) : option (runner * bool) :=
  match w with
  | [] => Some (r, res)
  | (a, d) :: w' => match stepDur fuel (fst (stepChar r a)) d with
                    | Some (r', b) => feed fuel r' w' b
                    | None => None
                    end
  end.
Definition answerQuery (fuel : nat) (r : runner) (d0 : Q) (w : list (letter * Q)) : option (runner * bool) :=
  match stepDur fuel (rpre r) d0 with
  | Some (r', b) => feed fuel r' w b
  | None => None
  end.
(** timed_automaton_runner.hh:30-38 *)
Definition mkRunner (A : ta) : runner := mkR A (hd_error (tinit A)) (fun _ => 0) 0.
