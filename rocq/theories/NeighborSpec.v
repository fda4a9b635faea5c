(** Specification for the neighbours of a regional language: which clocks are
    known precisely. *)
From Coq Require Import QArith ZArith List.
From Verif Require Import BoundsModel TimedWordModel TimedWordSpec TimedConditionModel TimedConditionSpec ElementaryModel ElementarySpec RegionalModel RegionalSpec.
Import ListNotations.
Open Scope Q_scope.

(** [u] and [w] have the same letters, clock by clock values in the same unit,
    and differences in the same unit for each two clocks that are both precise
    or both imprecise.  (The value of clock i is the time since event i.) *)
Definition relaxedLike (P : list nat) (w u : tword) : Prop :=
  tw u = tw w /\ wfTW u /\
  (forall i, (i < length (td w))%nat -> sameUnit (since (td w) i) (since (td u) i)) /\
  (forall i j, (i < j)%nat -> (j < length (td w))%nat -> (In i P <-> In j P) -> sameUnit (since (td w) i - since (td w) j) (since (td u) i - since (td u) j)).
(** the precise clocks have values in the same unit *)
Definition agreeOn (P : list nat) (w u : tword) : Prop := forall k, In k P -> sameUnit (since (td w) k) (since (td u) k).
(** a set of regions *)
Definition regions (ns : list frel) : Prop := forall n, In n ns -> exists u, regionalF n u.
Definition covers (ns : list frel) (u : tword) : Prop := exists n, In n ns /\ inElem (fel n) u.
(** letting time pass *)
Definition wait (u : tword) (q : Q) : tword := mkTW (tw u) (delayed (td u) q).
(** [c] describes the situation after [w]: its original is the region of [w],
    its neighbours are regions of words with the same letters, one of them is
    the region of [w], and in every word of them the precise clocks have
    values in the same unit as in [w]. *)
Definition describes (x : frel) (P : list nat) (ns : list frel) (w : tword) : Prop :=
  regionalF x w /\ regions ns /\ covers ns w /\
  (forall u, covers ns u -> tw u = tw w /\ agreeOn P w u) /\
  (forall k, In k P -> (k < length (td w))%nat).
(** the same region *)
Definition sameClass (u u' : tword) : Prop := tw u' = tw u /\ sameRegion (td u) (td u').
(** the valuation of the clocks: the time since each event *)
Definition clocksOf (u : tword) : nat -> Q := fun k => since (td u) k.
