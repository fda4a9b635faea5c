(** Model of ImpreciseClockHandler::push and run
    (include/imprecise_clock_handler.hh:17-132).
    Simplifications.  A state is known by its address, as in HypothesisModel.
    The set impreciseNeighbors is a list from which [pick] chooses the element
    begin() refers to; an element inserted twice is taken out twice, and skipped
    the second time because its hash has been visited.  [hsh] is the hash, any
    function; [keys] is the iteration order of state->next, any function of its
    letters.  neighborSuccessor (line 109) is not used by the code.  Loops have
    fuel.  Asserts and logging are dropped. *)
From Coq Require Import QArith ZArith Bool List Arith Qround.
From Verif Require Import BoundsModel ConstraintModel ZoneModel AutomatonModel TimedWordModel TimedConditionModel ElementaryModel RegionalModel RenamingModel TableModel HypothesisModel NeighborModel TargetResetModel.
Import ListNotations.

(** what a loop ends with: it has returned; the fuel of the do-while loop is
    used up; something called inside has not returned; the fuel of the loop over
    the work list is used up *)
Inductive outcome := Done (sts : states) (ws : list (loc * nbr)) | Going | Inside | Waiting.

(** state->next of the state at [l] *)
Definition nextOf (sts : states) (l : loc) : nextmap :=
  match find (fun p => (fst p =? l)%nat) sts with Some p => snext (snd p) | None => [] end.
(** neighbor_conditions.hh:463-466 computeTargetClockSize *)
Definition clockSizeAt (sts : states) (l : loc) : nat := computeClockSize (mkS false (nextOf sts l)).

(** imprecise_clock_handler.hh:25-68 handleOne: the transition added and what
    is returned.  Whether relaxOne (lines 29-47) adds something does not depend
    on its second and third argument.  [None]: makeAfterTransition does not
    return *)
Definition handleOne (ord : list frel -> list frel) (k : nat) (sts : states) (c : nbr) (a : letter) (t : trans) : option (option trans * option (loc * nbr)) :=
  match relaxOne c 0 [] t with
  | None => Some (None, None)
  | Some _ =>
      let n := clockSizeAt sts (ttgt t) in
      match makeAfter ord k c a t n with
      | None => None
      | Some c' =>
          Some (relaxOne c n (toValuation (ec (fel (nOrig c')))) t,
                match preciseAfterReset (nPrec c) n (trst t) with
                | [] => None
                | _ => if nbPrecise c' then None else Some (ttgt t, c')
                end)
      end
  end.
Definition opt2list {A : Type} (o : option A) : list A := match o with Some x => [x] | None => [] end.
(** lines 110-117: newTransitions and what is inserted in impreciseNeighbors *)
Fixpoint handleAll (ord : list frel -> list frel) (k : nat) (sts : states) (c : nbr) (a : letter) (ts : list trans) : option (list trans * list (loc * nbr)) :=
  match ts with
  | [] => Some ([], [])
  | t :: r =>
      match handleOne ord k sts c a t, handleAll ord k sts c a r with
      | Some (o, w), Some (os, ws) => Some (opt2list o ++ os, opt2list w ++ ws)
      | _, _ => None
      end
  end.
(** noMatch = false and matchBounded = true are assigned for these transitions
    (lines 29-36) *)
Definition matches (c : nbr) (ts : list trans) : bool := existsb (fun t => nbMatch c (tgrd t)) ts.
Definition boundedMatches (c : nbr) (ts : list trans) : bool :=
  existsb (fun t => nbMatch c (tgrd t) && existsb isUpper (tgrd t)) ts.
(** lines 108-127, the body of the loop over state->next; the flags are
    "matchBounded" and "something has matched" *)
Record rst := mkR { rSts : states; rWs : list (loc * nbr); rBounded : bool; rMatched : bool }.
Definition handleAction (ord : list frel -> list frel) (k : nat) (q : loc) (c : nbr) (s : rst) (a : letter) : option rst :=
  let ts := nfind (nextOf (rSts s) q) a in
  match handleAll ord k (rSts s) c a ts with
  | None => None
  | Some (new, ws) =>
      Some (mkR (fold_left (fun sts t => pushTo sts q a t) new (rSts s)) (rWs s ++ ws)
                (rBounded s || boundedMatches c ts) (rMatched s || matches c ts))
  end.
Fixpoint handleActions (ord : list frel -> list frel) (k : nat) (q : loc) (c : nbr) (s : rst) (acts : list letter) : option rst :=
  match acts with
  | [] => Some s
  | a :: r => match handleAction ord k q c s a with Some s' => handleActions ord k q c s' r | None => None end
  end.
(** lines 102-129 the do-while loop; [some]: not noMatch *)
Fixpoint rounds (f : nat) (ord : list frel -> list frel) (k : nat) (keys : list letter -> list letter) (q : loc) (sts : states) (c : nbr) (ws : list (loc * nbr)) (some : bool) : outcome :=
  match f with
  | O => Going
  | S f =>
      match handleActions ord k q c (mkR sts ws false some) (keys (map fst (nextOf sts q))) with
      | None => Inside
      | Some s =>
          match nbSucc ord k c with
          | None => Inside
          | Some c' => if rBounded s || negb (rMatched s) then rounds f ord k keys q (rSts s) c' (rWs s) (rMatched s)
                       else Done (rSts s) (rWs s)
          end
      end
  end.
Definition dropAt {A : Type} (n : nat) (l : list A) : list A := firstn n l ++ skipn (S n) l.
(** lines 87-132 run; [f] bounds the number of elements taken out and of the
    rounds for each of them *)
Fixpoint runLoop (f : nat) (ord : list frel -> list frel) (k : nat) (keys : list letter -> list letter) (pick : list (loc * nbr) -> nat) (hsh : loc * nbr -> nat) (sts : states) (ws : list (loc * nbr)) (visited : list nat) : outcome :=
  match ws with
  | [] => Done sts []
  | d :: _ =>
      match f with
      | O => Waiting
      | S f =>
          let i := Nat.min (pick ws) (length ws - 1) in
          let x := nth i ws d in
          let rest := dropAt i ws in
          if existsb (Nat.eqb (hsh x)) visited then runLoop f ord k keys pick hsh sts rest visited
          else match rounds k ord k keys (fst x) sts (snd x) rest false with
               | Done sts' ws' => runLoop f ord k keys pick hsh sts' ws' (hsh x :: visited)
               | o => o
               end
      end
  end.
(** lines 74-82: NeighborConditions made by push, from what HypothesisModel.pushN
    lets through *)
Fixpoint pushed (ord : list frel -> list frel) (k : nat) (ns : neighbours) : option (list (loc * nbr)) :=
  match ns with
  | [] => Some []
  | (st, r, x) :: ns' => match newNbr ord k x (rightVariables r), pushed ord k ns' with Some c, Some l => Some ((st, c) :: l) | _, _ => None end
  end.
Definition runImprecise (f : nat) (ord : list frel -> list frel) (k : nat) (keys : list letter -> list letter) (pick : list (loc * nbr) -> nat) (hsh : loc * nbr -> nat) (ns : neighbours) (sts : states) : outcome :=
  match pushed ord k ns with Some ws => runLoop f ord k keys pick hsh sts ws [] | None => Inside end.
