(** Specification of the construction of the hypothesis. *)
From Coq Require Import QArith List Arith.
From Verif Require Import ConstraintModel GuardSpec ZoneModel AutomatonModel AutomatonSpec TimedWordModel TimedWordSpec TimedConditionModel TimedConditionSpec
  ElementaryModel ElementarySpec RegionalModel RegionalSpec OracleModel OracleSpec SymbolicModel SymbolicSpec CexModel CexSpec RenamingModel RenamingSpec TableModel TableSpec.
Import ListNotations.
Open Scope Q_scope.

(** letting time pass at the end of a word does not change whether it is in the
    target *)
Definition delayInvariant (f : tword -> bool) : Prop :=
  forall w q, properTW w -> 0 <= q -> f (mkTW (tw w) (delayed (td w) q)) = f w.
(** the times in the rows of the table fit the integers of the guards *)
Definition smallRows {St} (t : ot St) : Prop :=
  forall i w k, row t i -> inElem (fel (preAt t i)) w -> (k < length (td w))%nat -> since (td w) k + 1 < inject_Z INT_MAX.
(** the automaton has a run on every timed word over the letters *)
Definition readsAll (al : list letter) (A : ta) : Prop :=
  forall d0 w, wordOver al d0 w -> exists l0 c0 c, In l0 (tinit A) /\ flow A (l0, fun _ => 0) d0 c0 /\ run A c0 w c.
Definition lettersIn (al : list letter) (A : ta) : Prop := forall l a tr, edge A l a tr -> In a al.
(** the automaton accepts the words of the rows that are in the target, and no
    other words of the rows *)
Definition rightOnRows {St} (f : tword -> bool) (t : ot St) (A : ta) : Prop :=
  forall i w, row t i -> inElem (fel (preAt t i)) w -> (acceptsTW A w <-> f w = true).
(** every morphism of the recognizable language goes from a row outside P to the
    row of P, with the renaming, that the hypothesis uses for that row *)
Definition usesTargets {St} (t : ot St) (h : rlang) : Prop :=
  forall m, In m (rmorphs h) -> exists i j r, row t i /\ ~ In i (otP t) /\ hypTarget t i = Some (j, r) /\ m = mkMorph (fel (preAt t i)) (fel (preAt t j)) r.
(** for no row outside P has the comparison with its target been recorded as
    failed, in either direction, and the recorded renaming still passes the test *)
Definition settledTargets {St} (t : ot St) : Prop :=
  forall i j r, row t i -> ~ In i (otP t) -> hypTarget t i = Some (j, r) -> ~ In (i, j) (otDist t) /\ ~ In (j, i) (otDist t) /\ equivRows t i j r = true.
