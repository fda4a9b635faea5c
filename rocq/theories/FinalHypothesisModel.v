(** Model of learner.hh:38-43: the hypothesis that goes to the equivalence
    oracle, after simplifyStrong and simplifyWithZones. *)
From Coq Require Import QArith List.
From Verif Require Import AutomatonModel ZoneGraphModel TimedConditionModel TableModel HypothesisModel SimplifyZonesModel.
(** [fuel] bounds the construction of the zone automaton *)
Definition finalHypothesis {St} (ordP : ot St -> list nat) (ordI : list (loc * tcond) -> list (loc * tcond))
    relax split prefer (fuel : nat) (pick : picker) (t : ot St) : res ta :=
  do b <- learnerHypothesis ordP ordI relax split prefer t;
  match simplifyWithZones fuel pick b with Some c => Ok c | None => Stop SFuel end.
