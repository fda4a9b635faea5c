(** Model of include/neighbor_conditions.hh and of the pure parts of
    include/imprecise_clock_handler.hh.
    Simplifications: std::unordered_set<ClockVariables> is a list of clocks (only
    membership is used); std::sort by hash value is an arbitrary permutation
    [ord]; the while loop of updateNeighborsWithContinuousSuccessors has fuel.
    Asserts and logging are dropped.  makeAfterTransition and
    constructOriginalAfterTransition are in TargetResetModel. *)
From Coq Require Import QArith ZArith Bool List Arith Qround.
From Verif Require Import BoundsModel ConstraintModel ZoneModel AutomatonModel TimedWordModel TimedConditionModel ElementaryModel RegionalModel TableModel.
Import ListNotations.
Open Scope Q_scope.

(** neighbor_conditions.hh:31-38 *)
Record nbr := mkNb { nOrig : frel; nPrec : list nat; nNbrs : list frel; nSize : nat }.
(** preciseClocks.find(k) != preciseClocks.end() *)
Definition isPrecise (P : list nat) (k : nat) : bool := existsb (Nat.eqb k) P.
(** the bounds of clock k: getUpperBound(k, size() - 1), getLowerBound(k, size() - 1) *)
Definition upAt (x : frel) (k : nat) : bound := getUpperBound (ec (fel x)) k (tcSize (ec (fel x)) - 1).
Definition loAt (x : frel) (k : nat) : bound := getLowerBound (ec (fel x)) k (tcSize (ec (fel x)) - 1).

(** ** neighbor_conditions.hh:201-232 makeNeighbors *)
(** lines 209-213 and 216-219: one pair of restrictions by the bounds of [m0] *)
Definition copyBounds (m0 m : tcond) (i j : nat) : tcond :=
  restrictUpperBound (restrictLowerBound m i j (getLowerBound m0 i j) false) i j (getUpperBound m0 i j) false.
(** lines 207-221: the body of the loop over i *)
Definition relaxRow (m0 : tcond) (P : list nat) (m : tcond) (i : nat) : tcond :=
  fold_left (fun m j => if Bool.eqb (isPrecise P i) (isPrecise P j) then copyBounds m0 m i (j - 1) else m)
    (seq (i + 1) (tcSize m0 - (i + 1))) (copyBounds m0 m i (tcSize m0 - 1)).
Definition relaxedCond (m0 : tcond) (P : list nat) : tcond :=
  fold_left (relaxRow m0 P) (seq 0 (tcSize m0)) (ztop (tcSize m0 + 1)).
Definition makeNeighbors (x : frel) (P : list nat) : list frel :=
  map (fun c => frFromTimedWord (elSample (mkEL (ew (fel x)) c))) (enumerate (relaxedCond (ec (fel x)) P)).

(** ** neighbor_conditions.hh:112-143 updateNeighborsWithContinuousSuccessors *)
(** lines 118-122: the condition of the while loop *)
Definition notPassed (P : list nat) (x n : frel) : bool := forallb (fun k => ble (upAt n k) (upAt x k)) P.
(** lines 123-131 *)
Definition sameBounds (P : list nat) (x n : frel) : bool :=
  forallb (fun k => beqb (loAt n k) (loAt x k) && beqb (upAt n k) (upAt x k)) P.
(** lines 118-135; [None]: the loop has not ended *)
Fixpoint advance (fuel : nat) (P : list nat) (x n : frel) : option (list frel) :=
  match fuel with
  | O => None
  | S f => if notPassed P x n
           then match advance f P x (frSucc n) with
                | Some l => Some (if sameBounds P x n then n :: l else l)
                | None => None
                end
           else Some []
  end.
(** std::unique *)
Fixpoint uniq (l : list frel) : list frel :=
  match l with
  | [] => []
  | x :: r => match uniq r with
              | [] => [x]
              | y :: r' => if frEqb x y then x :: r' else x :: y :: r'
              end
  end.
Fixpoint advanceAll (fuel : nat) (P : list nat) (x : frel) (ns : list frel) : option (list frel) :=
  match ns with
  | [] => Some []
  | n :: r => match advance fuel P x n, advanceAll fuel P x r with Some a, Some b => Some (a ++ b) | _, _ => None end
  end.
Definition updateNeighbors (ord : list frel -> list frel) (fuel : nat) (P : list nat) (x : frel) (ns : list frel) : option (list frel) :=
  match advanceAll fuel P x ns with Some l => Some (uniq (ord l)) | None => None end.

(** ** neighbor_conditions.hh:84-110 addImplicitPreciseClocks *)
Definition addImplicit (x : frel) (P : list nat) : list nat :=
  P ++ filter (fun i => negb (isPrecise P i) && isPoint (upAt x i) (loAt x i)) (seq 0 (tcSize (ec (fel x)))).
(** ** neighbor_conditions.hh:238-266 the constructors *)
Definition newNbr (ord : list frel -> list frel) (fuel : nat) (x : frel) (P0 : list nat) : option nbr :=
  let ns := makeNeighbors x P0 in
  let P := addImplicit x P0 in
  let size := tcSize (ec (fel x)) in
  match P with
  | [] => Some (mkNb x P ns size)
  | _ => match updateNeighbors ord fuel P x ns with Some ns' => Some (mkNb x P ns' size) | None => None end
  end.
(** ** neighbor_conditions.hh:188-198 reconstruct *)
Definition reconstruct (ord : list frel -> list frel) (fuel : nat) (c : nbr) (P : list nat) : option nbr :=
  newNbr ord fuel (nOrig c) (filter (fun k => (k <=? length (ew (fel (nOrig c))))%nat) P).
(** ** neighbor_conditions.hh:333-344 successor with an action *)
Definition nbSuccAct (c : nbr) (a : letter) : nbr :=
  mkNb (frSuccAct (nOrig c) a) (nPrec c ++ [nSize c]) (map (fun n => frSuccAct n a) (nNbrs c)) (nSize c + 1).
(** ** neighbor_conditions.hh:346-356 the continuous successor, successorAssign *)
Definition nbSucc (ord : list frel -> list frel) (fuel : nat) (c : nbr) : option nbr :=
  match updateNeighbors ord fuel (nPrec c) (frSucc (nOrig c)) (nNbrs c) with
  | Some ns => Some (mkNb (frSucc (nOrig c)) (nPrec c) ns (nSize c))
  | None => None
  end.
(** ** neighbor_conditions.hh:282-331 *)
Definition toOriginalGuard (c : nbr) : guard := toGuard (ec (fel (nOrig c))).
Definition nbMatch (c : nbr) (g : guard) : bool := isWeaker g (toOriginalGuard c).
Definition nbPrecise (c : nbr) : bool := (length (nNbrs c) =? 1)%nat.
Definition toRelaxedGuard (c : nbr) : guard := unionHull (map (fun n => toGuard (ec (fel n))) (nNbrs c)).
(** ** neighbor_conditions.hh:363-373 impreciseClocks *)
Definition impreciseClocks (c : nbr) : list nat := filter (fun k => negb (isPrecise (nPrec c) k)) (seq 0 (nSize c)).

(** ** neighbor_conditions.hh:449-462 computeClockSize: of a state *)
Definition computeClockSize (s : tastate) : nat :=
  fold_left (fun n p => fold_left (fun n t => fold_left (fun n c => Nat.max n (cx c + 1)) (tgrd t) n) (snd p) n) (snext s) 0%nat.
(** ** neighbor_conditions.hh:149-181 preciseClocksAfterReset; [n] is the clock
    size of the target of the transition *)
Definition preciseAssigned (P : list nat) (n : nat) (p : clock * rhs) : bool :=
  (fst p <? n)%nat && match snd p with RVar y => isPrecise P y | RConst q => Qeq_bool q (qfloor q) end.
Definition preciseAfterReset (P : list nat) (n : nat) (rs : resets) : list nat :=
  let new := map fst (filter (preciseAssigned P n) rs) in
  new ++ filter (fun k => (k <? n)%nat && negb (isPrecise new k) && negb (existsb (fun p => fst p =? k)%nat rs)) P.

(** ** imprecise_clock_handler.hh:135-148 embedIfImprecise *)
Definition embedIfImprecise (rs : resets) (P : list nat) (v : list Q) : resets :=
  filter (fun p => isPrecise P (fst p)) rs ++
  map (fun k => (k, RConst (nth k v 0))) (filter (fun k => negb (isPrecise P k)) (seq 0 (length v))).
(** ** imprecise_clock_handler.hh:25-66 handleOne: the transition it adds;
    [v] is the valuation of the original condition after the transition *)
Definition relaxOne (c : nbr) (n : nat) (v : list Q) (t : trans) : option trans :=
  if nbMatch c (tgrd t)
  then let upper := existsb (fun k => match codr k with Olt | Ole => true | _ => false end) (tgrd t) in
       let g := if upper then toRelaxedGuard c
                else filter (fun k => match codr k with Olt | Ole => false | _ => true end) (toRelaxedGuard c) in
       if isWeaker g (tgrd t) && negb (isWeaker (tgrd t) g)
       then Some (mkT (ttgt t) (embedIfImprecise (trst t) (preciseAfterReset (nPrec c) n (trst t)) v) g)
       else None
  else None.
