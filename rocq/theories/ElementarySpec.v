(** Specification of elementary languages: the timed words they contain. *)
From Coq Require Import QArith ZArith List.
From Verif Require Import BoundsModel ConstraintModel ZoneModel ZoneSpec AutomatonModel TimedWordModel TimedWordSpec
  TimedConditionModel TimedConditionSpec ElementaryModel.
Import ListNotations.
Open Scope Q_scope.

(** { tau_0 a_1 tau_1 ... a_n tau_n | a_1 ... a_n is the word, the durations
    satisfy the timed condition } *)
Definition inElem (x : elem) (w : tword) : Prop := tw w = ew x /\ inCond (ec x) (td w).

(** the class invariant, with a satisfiable canonical condition *)
Definition wfElem (x : elem) : Prop := okCond (ec x) /\ tcSize (ec x) = S (length (ew x)).

(** every action can be seen (the constructor of TimedWord drops the others) *)
Definition visible (x : elem) : Prop := Forall (fun a => a <> UNOBSERVABLE) (ew x).
