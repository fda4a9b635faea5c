(** Model of ObservationTable::splitStates (src/observation_table.cc:114-269).
    Simplifications.  A state made here is known by its position in
    StateMap::states, an original one by its address.  The iteration order of
    state->next is that of the list.  The order of an unordered_set of clocks is
    a function [ordC] of its sorted vector.  The preference between two
    transitions (src/timed_automaton.cc:43-49) is a function [prefer] of the states
    there are and of the pair being made.  A state of the automaton
    that find() does not find (guarded only by assert) ends with [None].
    mergeNondeterministicBranching of the original state (line 241) is left out:
    the transitions of original states are not read after the constructor of
    StateMap, which copies them.  Asserts and logging are dropped. *)
From Coq Require Import QArith ZArith Bool List Arith.
From Verif Require Import BoundsModel ConstraintModel ZoneModel AutomatonModel TimedWordModel TimedConditionModel RegionalModel HypothesisModel NeighborModel ImpreciseModel MergeModel.
Import ListNotations.
Open Scope nat_scope.

(** lines 114-118 PreciseClocks, EnhancedState *)
Definition enh := (loc * list nat)%type.
Definition enhEqb (e f : enh) : bool := (fst e =? fst f) && eqNats (snd e) (snd f).
(** lines 126-130 StateMap: the i-th state and what reverseMap has for it *)
Record smap := mkSM { smKey : list enh; smSt : list tastate }.
Fixpoint posOf {T : Type} (f : T -> bool) (l : list T) : option nat :=
  match l with [] => None | x :: r => if f x then Some 0 else option_map S (posOf f r) end.
(** lines 156-161 map *)
Definition mapE (m : smap) (e : enh) : option loc := posOf (enhEqb e) (smKey m).

(** lines 132-152 the constructor; [None]: a target is not a state *)
Fixpoint allSome {T : Type} (l : list (option T)) : option (list T) :=
  match l with
  | [] => Some []
  | Some x :: r => match allSome r with Some q => Some (x :: q) | None => None end
  | None :: _ => None
  end.
Definition copyTrans (sts : states) (t : trans) : option trans :=
  match posOf (fun p => fst p =? ttgt t) sts with Some l => Some (mkT l (trst t) (tgrd t)) | None => None end.
Definition copyEntry (sts : states) (p : letter * list trans) : option (letter * list trans) :=
  match allSome (map (copyTrans sts) (snd p)) with Some ts => Some (fst p, ts) | None => None end.
Definition copyState (sts : states) (s : tastate) : option tastate :=
  match allSome (map (copyEntry sts) (snext s)) with Some nx => Some (mkS (AutomatonModel.isMatch s) nx) | None => None end.
Definition newMap (sts : states) : option smap :=
  match allSome (map (fun p => copyState sts (snd p)) sts) with
  | Some ss => Some (mkSM (map (fun p => (fst p, seq 0 (computeClockSize (snd p)))) sts) ss)
  | None => None
  end.

(** ** the main loop *)
Fixpoint setNth {T : Type} (l : list T) (i : nat) (x : T) : list T :=
  match l, i with [], _ => [] | _ :: r, 0 => x :: r | y :: r, S j => y :: setNth r j x end.
(** the [j]-th transition of the [i]-th entry of [next] *)
Definition transAt (s : tastate) (i j : nat) : option trans :=
  match nth_error (snext s) i with Some p => nth_error (snd p) j | None => None end.
(** line 259: the target of that transition becomes [l] *)
Definition retarget (s : tastate) (i j : nat) (l : loc) : tastate :=
  match nth_error (snext s) i with
  | Some p => match nth_error (snd p) j with
              | Some t => mkS (AutomatonModel.isMatch s) (setNth (snext s) i (fst p, setNth (snd p) j (mkT l (trst t) (tgrd t))))
              | None => s
              end
  | None => s
  end.
(** the positions the two loops of lines 242-243 go through *)
Definition positions (s : tastate) : list (nat * nat) :=
  flat_map (fun i => map (fun j => (i, j)) (seq 0 (match nth_error (snext s) i with Some p => length (snd p) | None => 0 end))) (seq 0 (length (snext s))).

Section Split.
Context (ordC : list nat -> list nat) (prefer : smap -> enh -> trans -> trans -> bool) (sts : states).

(** src/observation_table.cc:185-203 make and lines 254-255: the states
    afterwards; [from] is transition.target *)
Definition makeState (m : smap) (e : enh) (from : tastate) : option (smap * loc) :=
  let nx := mapNext (mergeNDP (prefer m e) (ordC (snd e))) (snext from) in
  match mapE m e with
  | Some l => match nth_error (smSt m) l with
              | Some s => Some (mkSM (smKey m) (setNth (smSt m) l (mkS (AutomatonModel.isMatch s) nx)), l)
              | None => None
              end
  | None => match find (fun p => fst p =? fst e) sts with
            | Some p => Some (mkSM (smKey m ++ [e]) (smSt m ++ [mkS (AutomatonModel.isMatch (snd p)) nx]), length (smKey m))
            | None => None
            end
  end.
Definition visitedE (vis : list enh) (e : enh) : bool := existsb (enhEqb e) vis.
(** the map and the queue *)
Definition loopSt := (smap * list enh)%type.
(** lines 244-259, one transition of the state [l] whose precise clocks are [P] *)
Definition stepPos (vis : list enh) (l : loc) (P : list nat) (x : loopSt) (ij : nat * nat) : option loopSt :=
  let '(m, q) := x in
  let '(i, j) := ij in
  match nth_error (smSt m) l with
  | None => None
  | Some s =>
      match transAt s i j with
      | None => Some x
      | Some t =>
          match nth_error (smKey m) (ttgt t), nth_error (smSt m) (ttgt t) with
          | Some (o, _), Some s' =>
              let k := computeClockSize s' in
              let P' := preciseAfterReset P k (trst t) in
              let e := (o, filter (isPrecise P') (seq 0 k)) in
              match (if visitedE vis e then match mapE m e with Some l' => Some (m, l', q) | None => None end
                     else match makeState m e s' with Some (m', l') => Some (m', l', q ++ [e]) | None => None end) with
              | None => None
              | Some (m', l', q') =>
                  match nth_error (smSt m') l with
                  | Some s1 => Some (mkSM (smKey m') (setNth (smSt m') l (retarget s1 i j l')), q')
                  | None => None
                  end
              end
          | _, _ => None
          end
      end
  end.
Fixpoint stepAll (vis : list enh) (l : loc) (P : list nat) (x : loopSt) (ps : list (nat * nat)) : option loopSt :=
  match ps with [] => Some x | p :: r => match stepPos vis l P x p with Some y => stepAll vis l P y r | None => None end end.
(** lines 229-262 *)
Fixpoint splitLoop (n : nat) (vis : list enh) (x : loopSt) : option smap :=
  match snd x with
  | [] => Some (fst x)
  | e :: q =>
      match n with
      | O => None
      | S n' =>
          match mapE (fst x) e with
          | None => None
          | Some l =>
              if visitedE vis e then splitLoop n' vis (fst x, q)
              else match nth_error (smSt (fst x)) l with
                   | None => None
                   | Some s => match stepAll (e :: vis) l (snd e) (fst x, q) (positions s) with
                               | Some y => splitLoop n' (e :: vis) y
                               | None => None
                               end
                   end
          end
      end
  end.
(** lines 207-265, for a non-empty needSplit: the states and the initial state *)
Definition splitStates (n : nat) (init : loc) : option ta :=
  match newMap sts, posOf (fun p => fst p =? init) sts with
  | Some m, Some l0 =>
      match splitLoop n [] (m, [(init, [0])]) with
      | Some m' => Some (mkTA (combine (seq 0 (length (smSt m'))) (smSt m')) [l0] [])
      | None => None
      end
  | _, _ => None
  end.
End Split.
