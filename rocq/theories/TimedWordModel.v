(** Model of timed words (include/timed_word.hh).  double durations become
    exact rationals; characters are naturals ([UNOBSERVABLE] is 0). *)
From Coq Require Import QArith Bool List Arith.
From Verif Require Import BoundsModel ConstraintModel ZoneModel AutomatonModel.
Import ListNotations.
Open Scope Q_scope.

(** timed_word.hh:26-27: the word and the durations between the events *)
Record tword := mkTW { tw : list letter; td : list Q }.

(** timed_word.hh:29 *)
Definition emptyTW : tword := mkTW [] [0].
(** [durations.back() += q] *)
Fixpoint addBack (l : list Q) (q : Q) : list Q :=
  match l with [] => [] | [x] => [x + q] | x :: r => x :: addBack r q end.
(** timed_word.hh:36-52, the loop over the word; [w], [d] are the members
    built so far *)
Fixpoint absorb (w : list letter) (d : list Q) (word : list letter) (durs : list Q) : tword :=
  match word, durs with
  | a :: word', q :: durs' =>
      if Nat.eqb a UNOBSERVABLE then absorb w (addBack d q) word' durs'
      else absorb (w ++ [a]) (d ++ [q]) word' durs'
  | _, _ => mkTW w d
  end.
Definition mkTimedWord (word : list letter) (durs : list Q) : tword :=
  match durs with [] => mkTW [] [] | q :: r => absorb [] [q] word r end.
(** timed_word.hh:59-70 operator+ with a timed word *)
Definition concatTW (x y : tword) : tword :=
  mkTW (tw x ++ tw y) (addBack (td x) (hd 0 (td y)) ++ tl (td y)).
(** timed_word.hh:77-83 operator+ with an action *)
Definition concatChar (x : tword) (a : letter) : tword := mkTW (tw x ++ [a]) (td x ++ [0]).
(** timed_word.hh:90-95 operator+ with a duration *)
Definition concatDur (x : tword) (q : Q) : tword := mkTW (tw x) (addBack (td x) q).
(** timed_word.hh:151-153 *)
Definition wordSize (x : tword) : nat := length (tw x).
(** timed_word.hh:123-132: element i is the sum of the durations from i on;
    the loop from the back is a right fold *)
Fixpoint accum (l : list Q) : list Q :=
  match l with
  | [] => []
  | [x] => [x]
  | x :: r => match accum r with [] => [x] | y :: s => (y + x) :: y :: s end
  end.
Definition getAccumulatedDurations (x : tword) : list Q := accum (td x).
(** timed_word.hh:139-145 *)
Definition getSuffix (x prefix : tword) : tword :=
  let d := skipn (wordSize prefix) (td x) in
  mkTimedWord (skipn (wordSize prefix) (tw x))
    (match d with [] => [] | q :: r => (q - last (td prefix) 0) :: r end).
(** timed_word.hh:155-157 operator== ; on doubles, [==] is numeric equality *)
Fixpoint eqQs (a b : list Q) : bool :=
  match a, b with
  | [], [] => true
  | x :: r, y :: s => Qeq_bool x y && eqQs r s
  | _, _ => false
  end.
Fixpoint eqLetters (a b : list letter) : bool :=
  match a, b with
  | [], [] => true
  | x :: r, y :: s => Nat.eqb x y && eqLetters r s
  | _, _ => false
  end.
Definition eqTW (x y : tword) : bool := eqLetters (tw x) (tw y) && eqQs (td x) (td y).

(** the pairs fed to a system: first duration, then (event, duration) *)
Definition firstDur (x : tword) : Q := hd 0 (td x).
Definition events (x : tword) : list (letter * Q) := combine (tw x) (tl (td x)).
