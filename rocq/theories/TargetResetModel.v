(** Model of the assignments of a transition to another state applied to a
    timed condition and to a regional language, and of the part of
    include/neighbor_conditions.hh that uses it.
    Simplifications: a double is a rational, so the differences of lines
    737-738 are exact; asserts and logging are dropped. *)
From Coq Require Import QArith ZArith Bool List Arith Qround.
From Verif Require Import BoundsModel ConstraintModel ZoneModel AutomatonModel TimedWordModel TimedConditionModel ElementaryModel RegionalModel TableModel NeighborModel.
Import ListNotations.
Open Scope Q_scope.

(** timed_condition.hh:724-733 and 739-748: T_{i,j} is put in the unit of q, by
    a lower and an upper bound, in this order, both forced *)
Definition forceUnit (m : tcond) (i j : nat) (q : Q) : tcond :=
  if Qeq_bool q (qfloor q)
  then restrictUpperBound (restrictLowerBound m i j (Fin (- q) true) true) i j (Fin q true) true
  else restrictUpperBound (restrictLowerBound m i j (Fin (- qfloor q) false) true) i j (Fin (inject_Z (Qceiling q)) false) true.
(** timed_condition.hh:735-750: the inner loop, for the assignment x := q *)
Definition forceDiff (x : clock) (q : Q) (m : tcond) (r : clock * rhs) : tcond :=
  match r with
  | (y, RConst p) => if (y <? x)%nat then forceUnit m y (x - 1) (p - q) else m
  | (_, RVar _) => m
  end.
(** timed_condition.hh:717-751: the body of the outer loop, constants *)
Definition forceReset (rs : resets) (N : nat) (m : tcond) (r : clock * rhs) : tcond :=
  match r with
  | (x, RConst q) => if (x <? N)%nat then fold_left (forceDiff x q) rs (forceUnit m x (tcSize m - 1) q) else m
  | (_, RVar _) => m
  end.
Definition resetConds (rs : resets) (N : nat) : tcond := fold_left (forceReset rs N) rs (ztop (N + 1)).
(** timed_condition.hh:751-765: the renaming *)
Definition resetRenaming (rs : resets) (N : nat) : list (nat * nat) :=
  flat_map (fun r => match r with (x, RVar y) => if (x <? N)%nat then [(y, x)] else [] | _ => [] end) rs ++
  map (fun k => (k, k)) (filter (fun k => negb (existsb (fun r => fst r =? k)%nat rs)) (seq 0 N)).
(** timed_condition.hh:713-770 applyResets(resets, targetClockSize) *)
Definition tcApplyResetsTo (m : tcond) (rs : resets) (N : nat) : tcond :=
  getRight (tcSize m) N (addRenaming (tcSize m) (jux m (resetConds rs N)) (resetRenaming rs N)).

(** forward_regional_elementary_language.hh:193-199 *)
Definition frApplyResetsTo (x : frel) (word : list letter) (rs : resets) (N : nat) : frel :=
  frFromTimedWord (elSample (mkEL word (tcApplyResetsTo (ec (fel x)) rs N))).

(** ** neighbor_conditions.hh *)
(** neighbor_conditions.hh:417-422 isInternal *)
Definition nbInternal (c : nbr) (t : trans) : bool :=
  match trst t with
  | [(x, RConst q)] => (x =? nSize c)%nat && Qeq_bool q 0
  | _ => false
  end.
(** std::string::resize(n, ch) *)
Definition resizeTo (n : nat) (a : letter) (l : list letter) : list letter := firstn n l ++ repeat a (n - length l).
(** neighbor_conditions.hh:424-445 constructOriginalAfterTransition; [N] is the
    clock size of the target (lines 449-466).  [None]: the code calls back() on
    the empty word, or makes a word of length SIZE_MAX (when N = 0). *)
Definition originalAfter (c : nbr) (a : letter) (t : trans) (N : nat) : option frel :=
  if nbInternal c t then Some (frSuccAct (nOrig c) a)
  else match N, rev (ew (fel (nOrig c))) with
       | S n, b :: _ => Some (frApplyResetsTo (nOrig c) (resizeTo n b (ew (fel (nOrig c)))) (trst t) N)
       | _, _ => None
       end.
(** neighbor_conditions.hh:276-279 makeAfterTransition *)
Definition makeAfter (ord : list frel -> list frel) (fuel : nat) (c : nbr) (a : letter) (t : trans) (N : nat) : option nbr :=
  match originalAfter c a t N with
  | Some x => newNbr ord fuel x (preciseAfterReset (nPrec c) N (trst t))
  | None => None
  end.
