(** Model of include/elementary_language.hh: a word of actions together with
    a timed condition on the durations around them.  Doubles are rationals;
    the assertion [word.size() + 1 == timedCondition.size()] is the hypothesis
    [wfElem] of ElementarySpec. *)
From Coq Require Import QArith ZArith Bool List Arith.
From Verif Require Import BoundsModel ConstraintModel ZoneModel AutomatonModel TimedWordModel TimedConditionModel.
Import ListNotations.
Open Scope Q_scope.

(** elementary_language.hh:25-26 *)
Record elem := mkEL { ew : list letter; ec : tcond }.

(** elementary_language.hh:38-42 empty *)
Definition elEmpty : elem := mkEL [] tcEmpty.

(** elementary_language.hh:49-60 convexHull (the loop also visits the first
    element, as here) *)
Definition elHull (l : list elem) : elem :=
  match l with
  | [] => elEmpty
  | x :: _ => fold_left (fun r y => mkEL (ew r) (tcHull (ec r) (ec y))) l x
  end.

(** elementary_language.hh:66-68 isSimple *)
Definition elIsSimple (x : elem) : bool := isSimple (ec x).

(** elementary_language.hh:80-82 operator+ *)
Definition elConcat (x y : elem) : elem := mkEL (ew x ++ ew y) (tcConcat (ec x) (ec y)).

(** elementary_language.hh:87-109 enumerate *)
Definition elEnumerate (x : elem) : list elem :=
  if elIsSimple x then [x] else map (fun c => mkEL (ew x) c) (enumerate (ec x)).

(** elementary_language.hh:114-143 sample.  [acc] holds durations[0..i-1]; the
    inner loop goes over j = i-1 .. 0.  [bval] is the [first] of a bound
    (DBL_MAX of an infinite bound is outside the model: 0). *)
Definition bval (b : bound) : Q := match b with Fin c _ => c | Inf => 0 end.
Fixpoint sampleRange (m : tcond) (acc : list Q) (i j : nat) (lower upper sum : Q) : Q * Q :=
  match j with
  | O => (lower, upper)
  | S k => (* the loop index is k *)
      let sum' := sum + nth k acc 0 in
      let lo := - bval (getLowerBound m k i) - sum' in
      let up := bval (getUpperBound m k i) - sum' in
      sampleRange m acc i k (if Qltb lower lo then lo else lower) (if Qltb up upper then up else upper) sum'
  end.
Definition sampleAt (m : tcond) (acc : list Q) (i : nat) : Q :=
  let l := getLowerBound m i i in
  let u := getUpperBound m i i in
  if isPoint u l then bval u
  else
    let '(lo, up) := sampleRange m acc i i (- bval l) (bval u) 0 in
    (lo + up) * (1 # 2).
Definition sampleDurs (m : tcond) (n : nat) : list Q :=
  fold_left (fun acc i => acc ++ [sampleAt m acc i]) (seq 0 n) [].
(** the constructor of TimedWord is applied to the word and the durations *)
Definition elSample (x : elem) : tword := mkTimedWord (ew x) (sampleDurs (ec x) (length (ew x) + 1)).

(** elementary_language.hh:185-196 contains *)
Definition restrictEq (m : tcond) (i : nat) (q : Q) : tcond :=
  restrictLowerBound (restrictUpperBound m i i (Fin q true) false) i i (Fin (- q) true) false.
Definition elContains (x : elem) (w : tword) : bool :=
  if eqLetters (tw w) (ew x)
  then isSatisfiable (fold_left (fun m i => restrictEq m i (nth i (td w) 0)) (seq 0 (tcSize (ec x))) (ec x))
  else false.

(** elementary_language.hh:167-180 constrain: all but the last duration of the
    given prefix are fixed *)
Definition restrictEq' (m : tcond) (i : nat) (q : Q) : tcond :=
  restrictUpperBound (restrictLowerBound m i i (Fin (- q) true) false) i i (Fin q true) false.
Definition elConstrain (x : elem) (p : tword) : elem :=
  mkEL (ew x) (fold_left (fun m i => restrictEq' m i (nth i (td p) 0)) (seq 0 (wordSize p)) (ec x)).

(** elementary_language.hh:208-210 operator== *)
Definition elEqb (x y : elem) : bool := eqLetters (ew x) (ew y) && tcEqb (ec x) (ec y).

(** elementary_language.hh:145-160 *)
Definition elRemoveEqualityUpperBound (x : elem) : elem := mkEL (ew x) (removeEqualityUpperBound (ec x)).
Definition elRemoveUpperBound (x : elem) : elem := mkEL (ew x) (removeUpperBound (ec x)).
