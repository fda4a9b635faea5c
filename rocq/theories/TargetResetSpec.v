(** Vocabulary for the assignments of a transition applied to a condition. *)
From Coq Require Import QArith List Arith.
From Verif Require Import ConstraintModel ZoneModel TimedConditionModel TimedConditionSpec AutomatonSpec RegionalSpec.
Import ListNotations.
Open Scope Q_scope.

(** clock k gets a constant *)
Definition constAt (rs : resets) (k : nat) : Prop := exists q, In (k, RConst q) rs.
(** [z] are the values after the assignments, [w] is like [z] up to the units of
    the constants and of their differences, for the first N clocks *)
Definition likeReset (rs : resets) (N : nat) (z w : nat -> Q) : Prop :=
  (forall k, (k < N)%nat -> ~ constAt rs k -> w k == z k) /\
  (forall k, (k < N)%nat -> constAt rs k -> sameUnit (z k) (w k)) /\
  (forall j k, (j < k)%nat -> (k < N)%nat -> constAt rs j -> constAt rs k -> sameUnit (z j - z k) (w j - w k)).
(** every clock is assigned at most once; the first N clocks get a constant or
    the value of one of the n clocks of the source *)
Definition resetsInto (n : nat) (rs : resets) (N : nat) : Prop :=
  NoDup (map fst rs) /\
  (forall x y, In (x, RVar y) rs -> (x < N)%nat -> (y < n)%nat) /\
  (forall k, (k < N)%nat -> ~ In k (map fst rs) -> (k < n)%nat).
