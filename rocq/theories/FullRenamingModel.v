(** Model of findEquivalentRenaming (include/equivalence.hh:578-740), the search
    for a renaming that need not be deterministic.
    Simplifications.  std::lower_bound on a candidate that may not be sorted is
    a function [pos]; a loop that has not ended within the given number of
    rounds gives [None].  The indices of the loop of lines 640-688 are the lists of
    what remains.  Asserts are dropped. *)
From Coq Require Import QArith ZArith Bool List Arith.
From Verif Require Import BoundsModel ConstraintModel ZoneModel TimedWordModel TimedConditionModel ElementaryModel RegionalModel RenamingModel.
Import ListNotations.
Open Scope nat_scope.

Definition memN (x : nat) (l : list nat) : bool := existsb (Nat.eqb x) l.
(** lines 684-688 *)
Fixpoint dropLe (b : nat) (l : list nat) : list nat :=
  match l with [] => [] | x :: r => if x <=? b then dropLe b r else l end.
(** lines 666-682, the edges being those of the component *)
Definition extendAll (v1s v2s : list nat) (cs : list renaming) : list renaming :=
  flat_map (fun a => flat_map (fun b => flat_map (fun c => [c; c ++ [(a, b)]; [(a, b)]]) cs) v2s) v1s.
(** lines 640-689 *)
Fixpoint genLoop (n : nat) (e1 e2 : list (list nat)) (lc rc : list nat) (cs : list renaming) : option (list renaming) :=
  match lc, rc with
  | v1 :: lc', v2 :: rc' =>
      match n with
      | O => None
      | S n' =>
          let t1 := nth v1 e1 [] in let t2 := nth v2 e2 [] in
          match t1, t2 with
          | [], _ => genLoop n' e1 e2 lc' rc cs
          | _, [] => genLoop n' e1 e2 lc rc' cs
          | _, _ =>
              if negb (memN v2 t1) then if v2 <=? last t1 0 then genLoop n' e1 e2 lc rc' cs else genLoop n' e1 e2 lc' rc cs
              else if negb (memN v1 t2) then if v1 <=? last t2 0 then genLoop n' e1 e2 lc' rc cs else genLoop n' e1 e2 lc rc' cs
              else genLoop n' e1 e2 (dropLe (last t2 0) lc) (dropLe (last t1 0) rc) (extendAll t2 t1 cs)
          end
      end
  | _, _ => Some cs
  end.

Section Search.
Context (pos : renaming -> nat * nat -> nat) (test : renaming -> bool).
(** lines 720-724: [None] if the edge is at the position found *)
Definition insertEdge (c : renaming) (e : nat * nat) : option renaming :=
  match nth_error c (pos c e) with
  | Some e' => if pairEqb e' e then None else Some (firstn (pos c e) c ++ e :: skipn (pos c e) c)
  | None => Some (c ++ [e])
  end.
(** lines 717-733, one candidate: the renaming found or the new candidates *)
Fixpoint tryEdges (c : renaming) (es : list (nat * nat)) : renaming + list renaming :=
  match es with
  | [] => inr []
  | e :: r => match insertEdge c e with
              | None => tryEdges c r
              | Some c' => if test c' then inl c' else match tryEdges c r with inl f => inl f | inr l => inr (c' :: l) end
              end
  end.
(** lines 713-735 *)
Fixpoint searchLoop (n : nat) (es : list (nat * nat)) (q : list renaming) : option (option renaming) :=
  match q with
  | [] => Some None
  | c :: r => match n with
              | O => None
              | S n' => match tryEdges c es with inl f => Some (Some f) | inr l => searchLoop n' es (r ++ l) end
              end
  end.
End Search.

(** lines 578-740; [Some None] is std::nullopt *)
Definition findFull (pos : renaming -> nat * nat -> nat) (n : nat) (left : elem) (lr : list (list tcond)) (right : elem) (rr : list (list tcond))
    (sufs : list elem) : option (option renaming) :=
  let l := ec left in let r := ec right in
  if equivE left lr right rr sufs [] then Some (Some [])
  else if negb (sameEmptiness lr rr) then Some None
  else
    let lc := map (fun s => ec (elConcat left s)) sufs in let rc := map (fun s => ec (elConcat right s)) sufs in
    let g := toGraph l r in
    let lcon := filter (fun v => match nth v (fst g) [] with [] => false | _ => true end) (constrainedVars lr lc (length (ew left) + 1)) in
    let rcon := filter (fun v => match nth v (snd g) [] with [] => false | _ => true end) (constrainedVars rr rc (length (ew right) + 1)) in
    match genLoop n (fst g) (snd g) lcon rcon [[]] with
    | None => None
    | Some cs =>
        let j := (tcSize l, jux l r) in
        let cands := map (fun c => match c with [] => c | _ => addImplicit c j (tcSize r) end) (sortCands cs) in
        match find (equivJ j (juxLefts lr rc sufs) (juxRights lc rr sufs)) cands with
        | Some c => Some (Some c)
        | None => searchLoop pos (equivE left lr right rr sufs) n (flat_map (fun i => map (pair i) (nth i (fst g) [])) lcon) cands
        end
    end.
