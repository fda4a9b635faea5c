(** Model of TimedAutomaton::simplifyWithZones (src/timed_automaton.cc:51-127),
    called by the learner on every hypothesis (learner.hh:43).
    Simplifications: as in ZoneGraphModel.v; hash sets are lists. *)
From Coq Require Import QArith Bool List Arith.
From Verif Require Import BoundsModel ConstraintModel ZoneModel AutomatonModel ZoneGraphModel.
Import ListNotations.

(** the location of the k-th state of the zone automaton *)
Definition locAt (Z : zauto) (k : nat) : loc := match nth_error (zaNodes Z) k with Some nd => znLoc nd | None => 0%nat end.
(** src/timed_automaton.cc:57-70, liveStates *)
Definition liveLocs (Z : zauto) (ks : list nat) : list loc := nodup Nat.eq_dec (map (locAt Z) ks).
(** src/timed_automaton.cc:57-70, liveTransitions[l] restricted to [a]; the
    actions are those below CHAR_MAX *)
Definition liveTrans (Z : zauto) (es : list zedge) (l : loc) (a : letter) : list trans :=
  map zeTr (filter (fun e => (a <? CHAR_MAX)%nat && (zeAct e =? a)%nat && (locAt Z (zeSrc e) =? l)%nat) es).
(** src/timed_automaton.cc:72-95 *)
Definition dropDead (A : ta) (locs : list loc) : ta :=
  if (length locs =? length (tstates A))%nat then A
  else mkTA (map (fun p => (fst p, mkS (isMatch (snd p)) (eraseTo (fun l => memb l locs) (snext (snd p)))))
                 (filter (fun p => memb (fst p) locs) (tstates A)))
            (filter (fun l => memb l locs) (tinit A)) (tmax A).
(** src/timed_automaton.cc:97-124 *)
Definition keepLive (Z : zauto) (es : list zedge) (locs : list loc) (A : ta) : ta :=
  mkTA (map (fun p => (fst p, mkS (isMatch (snd p))
              (if memb (fst p) locs
               then filter (fun q => match snd q with [] => false | _ => true end)
                      (map (fun q => (fst q, filter (fun t => existsb (trans_eqb t) (liveTrans Z es (fst p) (fst q))) (snd q))) (snext (snd p)))
               else [])))
            (tstates A)) (tinit A) (tmax A).
(** src/timed_automaton.cc:51-127; [None]: the fuel of the zone construction
    did not suffice *)
Definition simplifyWithZones (fuel : nat) (pick : picker) (A : ta) : option ta :=
  match ta2za fuel false pick A with
  | None => None
  | Some s =>
      let Z := zgA s in
      let '(ks, es, _) := removeDead Z in
      let locs := liveLocs Z ks in
      Some (keepLive Z es locs (dropDead A locs))
  end.
