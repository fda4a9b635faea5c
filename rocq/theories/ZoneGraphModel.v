(** Model of src/ta2za.cc, include/zone_automaton.hh,
    include/zone_automaton_state.hh and include/symbolic_run.hh.
    Simplifications: a state of the zone automaton (a shared pointer) is its
    position in the vector of states; the transitions of all the states are
    kept in one list, in insertion order; log output and assertions (compiled
    out) are dropped; loops that are not obviously bounded take fuel. *)
From Coq Require Import QArith ZArith Bool List Arith.
From Verif Require Import BoundsModel ConstraintModel ZoneModel AutomatonModel TimedWordModel.
Import ListNotations.
Open Scope Q_scope.

(** zone_automaton_state.hh:18-38 (isMatch is that of the state of the timed automaton) *)
Record zn := mkZN { znLoc : loc; znMatch : bool; znZone : matrix }.
(** an element of next, zone_automaton_state.hh:26 *)
Record zedge := mkZE { zeSrc : nat; zeAct : letter; zeTr : trans; zeTgt : nat }.
Record zauto := mkZA { zaNodes : list zn; zaEdges : list zedge; zaInit : list nat }.

(** *** symbolic_run.hh *)
(** symbolic_run.hh:58-63: the next zone without abstraction *)
Definition tightNext (z : matrix) (t : trans) : matrix :=
  canonize (zapplyResets (tightenG (elapse z) (tgrd t)) (trst t)).
(** symbolic_run.hh:41-46; [srSteps] has the last step first: the action, the
    transition and the tight zone before it; [srZone] is the last tight zone *)
Record srun := mkSR { srNode : nat; srZone : matrix; srSteps : list (letter * trans * matrix) }.
(** symbolic_run.hh:52-64 push_back *)
Definition srPush (r : srun) (a : letter) (t : trans) (k : nat) : srun :=
  mkSR k (tightNext (srZone r) t) ((a, t, srZone r) :: srSteps r).
(** symbolic_run.hh:121-128 *)
Fixpoint guardBack (z : matrix) (g : guard) : option matrix :=
  match g with
  | [] => Some z
  | k :: r => let z' := tightenC z k in if isSatNoCanon z' then guardBack z' r else None
  end.
(** a vector of values as a valuation *)
Definition vOf (l : list Q) : valuation := fun x => nth x l 0.
(** symbolic_run.hh:103-162: the loop from the last step back *)
Fixpoint reconLoop (steps : list (letter * trans * matrix)) (post durs : list Q) : option (list Q) :=
  match steps with
  | [] => Some durs
  | (_, t, pre0) :: rest =>
      let pre := canonize pre0 in
      let n := length post in
      let z0 := zpoint n (vOf post) in
      if negb (isSatNoCanon z0) then None
      else match guardBack (zrevertResets z0 (trst t)) (tgrd t) with
           | None => None
           | Some z2 =>
               let tmp := zand (reverseElapse z2) pre in
               if negb (isSatisfiable tmp) then None
               else
                 let z3 := zand z2 (elapse (canonize tmp)) in
                 let before := zsample z3 in
                 let preV := zsample (zand pre (reverseElapse (zpoint (length before) (vOf before)))) in
                 let d := match preV with [] => 0 | p :: _ => nth 0 before 0 - p end in
                 reconLoop rest preV (d :: durs)
           end
  end.
(** symbolic_run.hh:89-174 reconstructWord *)
Definition reconstructWord (r : srun) : option tword :=
  if negb (isSatisfiable (srZone r)) then None
  else match reconLoop (srSteps r) (zsample (canonize (srZone r))) [] with
       | None => None
       | Some ds => Some (mkTimedWord (rev (map (fun s => fst (fst s)) (srSteps r))) (ds ++ [0]))
       end.
(** symbolic_run.hh:179-206 validate; [ts] in order *)
Fixpoint validate (v : valuation) (ts : list trans) (ds : list Q) : bool :=
  match ts with
  | [] => true
  | t :: ts' =>
      match ds with
      | [] => false
      | d :: ds' =>
          let v' := fun x => v x + d in
          if forallb (fun k => satisfy k (v' (cx k))) (tgrd t) then validate (applyReset v' (trst t)) ts' ds' else false
      end
  end.

(** *** zone_automaton.hh *)
(** zone_automaton.hh:44-45: for (action = 0; action < CHAR_MAX) the edges of
    the state labelled with it *)
Definition CHAR_MAX : nat := 127.
Definition outEdges (zedges : list zedge) (k : nat) : list zedge :=
  flat_map (fun a => filter (fun e => (zeSrc e =? k)%nat && (zeAct e =? a)%nat) zedges) (seq 0 CHAR_MAX).
(** zone_automaton.hh:46-57 one edge of one run *)
Definition sampleEdge (r : srun) (s : list srun * list nat) (e : zedge) : list srun * list nat :=
  if existsb (Nat.eqb (zeTgt e)) (snd s) then s
  else (fst s ++ [srPush r (zeAct e) (zeTr e) (zeTgt e)], zeTgt e :: snd s).
(** zone_automaton.hh:36-59 one round: the current runs in order *)
Fixpoint sampleRound (Z : zauto) (runs : list srun) (s : list srun * list nat) : tword + (list srun * list nat) :=
  match runs with
  | [] => inr s
  | r :: rest =>
      let cand := match nth_error (zaNodes Z) (srNode r) with
                  | Some n => if znMatch n then reconstructWord r else None
                  | None => None
                  end in
      match cand with
      | Some w => inl w
      | None => sampleRound Z rest (fold_left (sampleEdge r) (outEdges (zaEdges Z) (srNode r)) s)
      end
  end.
(** zone_automaton.hh:34-61; the loop ends after at most (number of states + 1)
    rounds: each round but the first visits a new state *)
Fixpoint sampleLoop (fuel : nat) (Z : zauto) (runs : list srun) (visited : list nat) : option tword :=
  match fuel with
  | O => None
  | S n =>
      match runs with
      | [] => None
      | _ => match sampleRound Z runs ([], visited) with
             | inl w => Some w
             | inr (next, visited') => sampleLoop n Z next visited'
             end
      end
  end.
(** zone_automaton.hh:23-62 *)
Definition zaSample (Z : zauto) : option tword :=
  sampleLoop (S (S (length (zaNodes Z)))) Z
    (map (fun k => mkSR k (match nth_error (zaNodes Z) k with Some n => znZone n | None => [] end) []) (zaInit Z))
    (zaInit Z).

(** zone_automaton.hh:76-134 removeDeadStates: the live states, by a backward
    search from the accepting ones; [acc] the live states so far, newest last *)
Definition predsOf (zedges : list zedge) (k : nat) : list nat :=
  map zeSrc (filter (fun e => (zeTgt e =? k)%nat) zedges).
Fixpoint liveLoop (fuel : nat) (zedges : list zedge) (live queue : list nat) : list nat :=
  match fuel, queue with
  | S n, k :: q =>
      let new := nodup Nat.eq_dec (filter (fun p => negb (existsb (Nat.eqb p) live)) (predsOf zedges k)) in
      liveLoop n zedges (live ++ new) (q ++ new)
  | _, _ => live
  end.
Definition matchNodes (Z : zauto) : list nat :=
  filter (fun k => match nth_error (zaNodes Z) k with Some n => znMatch n | None => false end) (seq 0 (length (zaNodes Z))).
Definition liveNodes (Z : zauto) : list nat :=
  liveLoop (S (length (zaNodes Z))) (zaEdges Z) (matchNodes Z) (matchNodes Z).
(** the result as a subset of the states: the positions kept, the edges and
    the initial states among them (addresses do not change) *)
Definition removeDead (Z : zauto) : list nat * list zedge * list nat :=
  let live := liveNodes Z in
  let isLive k := existsb (Nat.eqb k) live in
  (filter isLive (seq 0 (length (zaNodes Z))),
   filter (fun e => isLive (zeSrc e) && isLive (zeTgt e)) (zaEdges Z),
   filter isLive (zaInit Z)).

(** *** ta2za.cc *)
(** ta2za.cc:65-77: the zone after the transition, [None] if it cannot be
    taken; the conversion to bool of line 67 canonizes in place *)
Definition zgPost (now : matrix) (t : trans) : option matrix :=
  let z1 := canonize (tightenG now (tgrd t)) in
  if isSatNoCanon z1 then
    let z2 := canonize (canonize (zapplyResets z1 (trst t))) in
    if isSatNoCanon z2 then Some (zeroDiag z2) else None
  else None.
(** the state of the construction: the automaton, the queue newStates, and the
    word that made it return early (ta2za.cc:108-111) *)
Record zgst := mkZG { zgA : zauto; zgQ : list nat; zgFound : option tword }.
(** ta2za.cc:83-91: the iteration order of the hash table zaMap is not
    specified, so the find_if is any function that finds a match if there is one *)
Definition picker := list zn -> (zn -> bool) -> option nat.
Definition zgMc (A : ta) : list Q := map inject_Z (tmax A).
(** ta2za.cc:59-113 one transition *)
Definition zgEdge (quick : bool) (pick : picker) (A : ta) (src : nat) (now : matrix) (s : zgst) (ct : letter * trans) : zgst :=
  let (c, t) := ct in
  match zgFound s with
  | Some _ => s
  | None =>
    match lookup A (ttgt t) with
    | None => s
    | Some q =>
      match zgPost now t with
      | None => s
      | Some z0 =>
        let z := if quick then z0 else zeroDiag (extrapolate (zgMc A) z0) in
        let Z := zgA s in
        let s1 :=
          match pick (zaNodes Z) (fun n => (znLoc n =? ttgt t)%nat && zincludes (znZone n) z) with
          | Some k => mkZG (mkZA (zaNodes Z) (zaEdges Z ++ [mkZE src c t k]) (zaInit Z)) (zgQ s) None
          | None =>
              let z' := if quick then zeroDiag (canonize (extrapolate (zgMc A) z)) else z in
              let k := length (zaNodes Z) in
              mkZG (mkZA (zaNodes Z ++ [mkZN (ttgt t) (isMatch q) z']) (zaEdges Z ++ [mkZE src c t k]) (zaInit Z))
                   (zgQ s ++ [k]) None
          end in
        if isMatch q && quick then mkZG (zgA s1) (zgQ s1) (zaSample (zgA s1)) else s1
      end
    end
  end.
(** the transitions of a state in iteration order *)
Definition outOf (A : ta) (l : loc) : list (letter * trans) :=
  match lookup A l with
  | None => []
  | Some q => flat_map (fun p => map (fun t => (fst p, t)) (snd p)) (snext q)
  end.
(** ta2za.cc:53-115 the loop *)
Fixpoint zgLoop (fuel : nat) (quick : bool) (pick : picker) (A : ta) (s : zgst) : option zgst :=
  match zgFound s with
  | Some _ => Some s
  | None =>
    match zgQ s with
    | [] => Some s
    | k :: q =>
      match fuel with
      | O => None
      | S n =>
        match nth_error (zaNodes (zgA s)) k with
        | None => None
        | Some nd =>
            zgLoop n quick pick A
              (fold_left (zgEdge quick pick A k (elapse (znZone nd))) (outOf A (znLoc nd)) (mkZG (zgA s) q None))
        end
      end
    end
  end.
(** ta2za.cc:15-52 *)
Definition zgInit (A : ta) : zgst :=
  let n := length (tinit A) in
  mkZG (mkZA (map (fun l => mkZN l (match lookup A l with Some q => isMatch q | None => false end) (zzero (S (length (tmax A)))))
                  (tinit A)) [] (seq 0 n)) (seq 0 n) None.
(** ta2za.cc:15-117 *)
Definition ta2za (fuel : nat) (quick : bool) (pick : picker) (A : ta) : option zgst :=
  zgLoop fuel quick pick A (zgInit A).
(** zone_automaton.hh:64-71 sampleWithMemo after the construction *)
Definition zgSample (s : zgst) : option tword :=
  match zgFound s with Some w => Some w | None => zaSample (zgA s) end.
