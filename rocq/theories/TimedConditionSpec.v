(** Specification of timed conditions: which sequences of durations they
    contain.  The only model functions used are [tcSize] and the two accessors
    of the bounds of T_{i,j}. *)
From Coq Require Import QArith ZArith List Qround.
From Verif Require Import BoundsModel ConstraintModel ZoneModel ZoneSpec TimedConditionModel.
Import ListNotations.
Open Scope Q_scope.

(** tau_i + ... + tau_j *)
Fixpoint sumQ (l : list Q) : Q := match l with [] => 0 | x :: r => x + sumQ r end.
Definition T (d : list Q) (i j : nat) : Q := sumQ (firstn (S j - i) (skipn i d)).

(** the durations d satisfy the condition *)
Definition inCond (m : tcond) (d : list Q) : Prop :=
  length d = tcSize m /\
  forall i j, (i <= j)%nat -> (j < tcSize m)%nat ->
    bsat (getUpperBound m i j) (T d i j) /\ bsat (getLowerBound m i j) (- T d i j).

(** a usable condition: at least one duration, satisfiable, canonical *)
Definition okCond (m : tcond) : Prop := (2 <= dim m)%nat /\ closed m /\ nonemptyZ m.

(** all bounds are integers or infinite *)
Definition intB (b : bound) : Prop := match b with Fin c _ => exists z, c == inject_Z z | Inf => True end.
Definition intCond (m : tcond) : Prop :=
  forall i j, (i < dim m)%nat -> (j < dim m)%nat -> intB (get m i j).

(** every T_{i,j} has finite bounds *)
Definition boundedCond (m : tcond) : Prop :=
  forall i j, (i <= j)%nat -> (j < tcSize m)%nat ->
    getUpperBound m i j <> Inf /\ getLowerBound m i j <> Inf.

(** two numbers lie in the same point or open unit interval of the integer grid *)
Definition sameUnit (p q : Q) : Prop :=
  Qfloor p = Qfloor q /\ (p == inject_Z (Qfloor p) <-> q == inject_Z (Qfloor q)).

(** region equivalence of duration sequences: all T_{i,j} lie in the same units *)
Definition sameRegion (d d' : list Q) : Prop :=
  length d = length d' /\
  forall i j, (i <= j)%nat -> (j < length d)%nat -> sameUnit (T d i j) (T d' i j).

Definition sameDurs (d d' : list Q) : Prop := Forall2 Qeq d d'.

(** a condition that fixes the unit of every T_{i,j} *)
Definition simpleCond (m : tcond) : Prop :=
  forall i j, (i <= j)%nat -> (j < tcSize m)%nat ->
    exists z, (forall q, bsat (getUpperBound m i j) q /\ bsat (getLowerBound m i j) (- q) <-> q == inject_Z z)
           \/ (forall q, bsat (getUpperBound m i j) q /\ bsat (getLowerBound m i j) (- q) <-> inject_Z z < q /\ q < inject_Z z + 1).

(** joining two sequences: the last duration of the first and the first of
    the second are spent in the same place *)
Definition joined (d1 d2 d : list Q) : Prop :=
  exists p a b s, d1 = p ++ [a] /\ d2 = b :: s /\ sameDurs d (p ++ (a + b) :: s).
