(** Model of include/timed_automata_equivalence_oracle.hh.
    Simplifications: logging and the confirming runs (their result is only used
    in an assertion, compiled out) are dropped; the fuel bounds the
    construction of the zone automaton ([None] = out of fuel); automata are
    values, so the operands are copied. *)
From Coq Require Import QArith ZArith Bool List.
From Verif Require Import ConstraintModel ZoneModel AutomatonModel TimedWordModel ZoneGraphModel.
Import ListNotations.

(** src/timed_automaton.cc:147-154 (only the entry of UNOBSERVABLE) *)
Definition boundSilent (p : letter * list trans) : letter * list trans :=
  if Nat.eqb (fst p) UNOBSERVABLE
  then (fst p, map (fun t => mkT (ttgt t) (trst t) (addUpperBound (tgrd t))) (snd p)) else p.
(** timed_automaton.hh:664-667 *)
Definition addUpperBoundUnobs (A : ta) : ta :=
  mapStates (fun _ s => mkS (isMatch s) (map boundSilent (snext s))) A.

(** the answer of one direction: [None] = out of fuel *)
Definition sampleOf (fuel : nat) (pick : picker) (A : ta) : option (option tword) :=
  match ta2za fuel true pick A with Some s => Some (zgSample s) | None => None end.
(** timed_automata_equivalence_oracle.hh:30-48 *)
Definition eqSubset (fuel : nat) (pick : picker) (compl hyp : ta) : option (option tword) :=
  sampleOf fuel pick (addUpperBoundUnobs (taSimplifyStrong (intersectionTA compl hyp))).
(** timed_automata_equivalence_oracle.hh:53-71 *)
Definition eqSuperset (fuel : nat) (pick : picker) (target hyp : ta) (alphabet : list letter) : option (option tword) :=
  sampleOf fuel pick (taSimplify (addUpperBoundUnobs (taSimplifyStrong (intersectionTA target (complement hyp alphabet))))).
(** timed_automata_equivalence_oracle.hh:85-126; the last component is
    eqQueryCount *)
Record eqOracle := mkEq { eqTarget : ta; eqCompl : ta; eqAlphabet : list letter; eqCount : nat }.
Definition findCounterExample (fuel : nat) (pick : picker) (o : eqOracle) (hyp : ta) : option (eqOracle * option tword) :=
  let o' := mkEq (eqTarget o) (eqCompl o) (eqAlphabet o) (S (eqCount o)) in
  match eqSubset fuel pick (eqCompl o) hyp with
  | None => None
  | Some (Some w) => Some (o', Some w)
  | Some None =>
      match eqSuperset fuel pick (eqTarget o) hyp (eqAlphabet o) with
      | None => None
      | Some r => Some (o', r)
      end
  end.
