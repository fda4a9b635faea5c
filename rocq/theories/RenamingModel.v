(** Model of include/equivalence.hh, include/renaming_relation.hh and the two
    constructors of include/juxtaposed_zone_set.hh used there.
    Simplifications: doubles are rationals; the memo tables of JuxtaposedZone
    are caches keyed by the arguments and are dropped; assertions are
    hypotheses of the theorems; [std::sort] is insertion sort (the sorted
    sequences are unique up to equal elements).  findEquivalentRenaming
    (equivalence.hh:578-743) is called nowhere and is not modelled. *)
From Coq Require Import QArith Bool List Arith.
From Verif Require Import BoundsModel ConstraintModel ZoneModel AutomatonModel TimedConditionModel ElementaryModel RegionalModel.
Import ListNotations.

(** renaming_relation.hh:18 *)
Definition renaming := list (nat * nat).

(** ** juxtaposed_zone_set.hh *)
(** a juxtaposed zone with its leftSize (juxtaposed_zone.hh:15-17) *)
Definition jzone : Type := nat * matrix.
(** juxtaposed_zone_set.hh:28-36, timed_condition.hh:203-205 *)
Definition juxSetLeft (ls : list tcond) (r : tcond) (cv : nat) : list jzone :=
  map (fun c => (tcSize c, juxCommon c r cv)) ls.
(** juxtaposed_zone_set.hh:41-50, timed_condition.hh:212-214 *)
Definition juxSetRight (l : tcond) (rs : list tcond) (cv : nat) : list jzone :=
  map (fun c => (tcSize l, juxCommon l c cv)) rs.
(** juxtaposed_zone_set.hh:58-67 *)
Definition jzsAdd (zs : list jzone) (ren : renaming) : list jzone :=
  filter (fun z => isSatNoCanon (snd z)) (map (fun z => (fst z, addRenaming (fst z) (snd z) ren)) zs).
(** juxtaposed_zone_set.hh:74-81 *)
Definition jzsEq (a b : list jzone) : bool := jsEq (map snd a) (map snd b).

(** ** equivalence.hh *)
(** equivalence.hh:92-101 the cells, one after the other; a list that is too
    short is the exception of at() *)
Fixpoint rowsEq (lr : list (list tcond)) (lc : list tcond) (rr : list (list tcond)) (rc : list tcond)
    (sufs : list elem) (ren : renaming) : bool :=
  match lr with
  | [] => true
  | a :: lr' =>
      match lc, rr, rc, sufs with
      | l :: lc', b :: rr', r :: rc', s :: sufs' =>
          jzsEq (jzsAdd (juxSetLeft a r (length (ew s))) ren) (jzsAdd (juxSetRight l b (length (ew s))) ren)
          && rowsEq lr' lc' rr' rc' sufs' ren
      | _, _, _, _ => false
      end
  end.
(** equivalence.hh:69-104, the concatenations being given *)
Definition equivB (left : tcond) (lr : list (list tcond)) (lc : list tcond) (right : tcond) (rr : list (list tcond)) (rc : list tcond)
    (sufs : list elem) (ren : renaming) : bool :=
  isSatNoCanon (addRenaming (tcSize left) (jux left right) ren) && rowsEq lr lc rr rc sufs ren.
(** equivalence.hh:22-62, computing the concatenations *)
Definition equivE (left : elem) (lr : list (list tcond)) (right : elem) (rr : list (list tcond)) (sufs : list elem) (ren : renaming) : bool :=
  equivB (ec left) lr (map (fun s => ec (elConcat left s)) sufs) (ec right) rr (map (fun s => ec (elConcat right s)) sufs) sufs ren.
(** std::equal of equivalence.hh:127-133 *)
Fixpoint juxsEq (a b : list (list jzone)) (ren : renaming) : bool :=
  match a, b with
  | [], [] => true
  | x :: a', y :: b' => jzsEq (jzsAdd x ren) (jzsAdd y ren) && juxsEq a' b' ren
  | _, _ => false
  end.
(** equivalence.hh:115-134; the conversion to bool canonizes *)
Definition equivJ (j : jzone) (a b : list (list jzone)) (ren : renaming) : bool :=
  isSatisfiable (addRenaming (fst j) (snd j) ren) && juxsEq a b ren.

(** *** toGraph *)
(** v.at(i).push_back(x) *)
Fixpoint pushAt (i x : nat) (v : list (list nat)) : list (list nat) :=
  match v, i with
  | [], _ => []
  | l :: r, O => (l ++ [x]) :: r
  | l :: r, S k => l :: pushAt k x r
  end.
(** operator< on Bounds = std::pair<double, bool> *)
Definition bltb (a b : bound) : bool := negb (ble b a).
(** T_{i,N-1} *)
Definition ubN (c : tcond) (i : nat) : bound := getUpperBound c i (tcSize c - 1).
Record graphSt := mkG { gV1 : nat; gV2 : nat; gSame1 : list nat; gSame2 : list nat; gE1 : list (list nat); gE2 : list (list nat) }.
(** equivalence.hh:158-187 one round of the loop *)
Definition graphStep (l r : tcond) (g : graphSt) : graphSt :=
  let v1 := gV1 g in let v2 := gV2 g in
  if beqb (ubN l v1) (ubN r v2) then
    let e1 := fold_left (fun e x => pushAt v1 x e) (gSame2 g) (gE1 g) in
    let e2 := fold_left (fun e x => pushAt x v1 e) (gSame2 g) (gE2 g) in
    let e2 := fold_left (fun e x => pushAt v2 x e) (gSame1 g) e2 in
    let e1 := fold_left (fun e x => pushAt x v2 e) (gSame1 g) e1 in
    let e1 := pushAt v1 v2 e1 in
    let e2 := pushAt v2 v1 e2 in
    let next1 := ((v1 + 1 <? tcSize l)%nat && beqb (ubN l v1) (ubN l (v1 + 1)))%bool in
    mkG (if next1 then v1 + 1 else v1)%nat (if next1 then v2 else v2 + 1)%nat
        (gSame1 g ++ [v1]) (gSame2 g ++ [v2]) e1 e2
  else if bltb (ubN l v1) (ubN r v2) then mkG v1 (v2 + 1)%nat [] [] (gE1 g) (gE2 g)
  else mkG (v1 + 1)%nat v2 [] [] (gE1 g) (gE2 g).
(** equivalence.hh:157-188; each round moves one index, so N + M rounds
    suffice *)
Fixpoint graphLoop (fuel : nat) (l r : tcond) (g : graphSt) : graphSt :=
  match fuel with
  | O => g
  | S n => if ((gV1 g <? tcSize l)%nat && (gV2 g <? tcSize r)%nat)%bool then graphLoop n l r (graphStep l r g) else g
  end.
(** std::sort, std::unique, erase *)
Fixpoint insertU (x : nat) (l : list nat) : list nat :=
  match l with
  | [] => [x]
  | y :: r => if (x <? y)%nat then x :: l else if (x =? y)%nat then l else y :: insertU x r
  end.
Definition sortUniq (l : list nat) : list nat := fold_right insertU [] l.
(** equivalence.hh:146-200 *)
Definition toGraph (l r : tcond) : list (list nat) * list (list nat) :=
  let g := graphLoop (tcSize l + tcSize r) l r (mkG 0 0 [] [] (repeat [] (tcSize l)) (repeat [] (tcSize r))) in
  (map sortUniq (gE1 g), map sortUniq (gE2 g)).

(** ** renaming_relation.hh *)
(** renaming_relation.hh:92-100 *)
Definition rightVariables (ren : renaming) : list nat := sortUniq (map snd ren).
(** renaming_relation.hh:105-107 *)
Definition eraseLeft (ren : renaming) (x : nat) : renaming := filter (fun p => negb (fst p =? x)%nat) ren.
(** renaming_relation.hh:112-116 *)
Definition onlyTrivial (ren : renaming) (target : tcond) : bool := forallb (fun p => isPointAt target (snd p)) ren.
(** renaming_relation.hh:153-166 *)
Definition renFull (ren : renaming) (c : tcond) : bool :=
  (length (sortUniq (rightVariables ren ++ filter (isPointAt c) (seq 0 (tcSize c)))) =? tcSize c)%nat.
(** renaming_relation.hh:171-173 *)
Definition hasImpreciseClocks (ren : renaming) (target : tcond) : bool :=
  match ren with [] => false | _ => true end && negb (renFull ren target) && negb (onlyTrivial ren target).
(** renaming_relation.hh:178-190 *)
Definition impreciseClocks (ren : renaming) (target : tcond) : list nat :=
  if hasImpreciseClocks ren target
  then filter (fun x => negb (isPointAt target x) && negb (existsb (fun p => (snd p =? x)%nat) ren)) (seq 0 (tcSize target))
  else [].
(** the comparison of renaming_relation.hh:200-202 *)
Definition pairLtR (a b : nat * nat) : bool :=
  ((snd a <? snd b) || ((snd a =? snd b) && (fst a <? fst b)))%nat.
Fixpoint insertR (x : nat * nat) (l : renaming) : renaming :=
  match l with [] => [x] | y :: r => if pairLtR y x then y :: insertR x r else x :: l end.
Definition sortR (l : renaming) : renaming := fold_right insertR [] l.
(** std::unique with the comparison of renaming_relation.hh:203-205: the first
    of each run is kept *)
Fixpoint uniqR (prev : option nat) (l : renaming) : renaming :=
  match l with
  | [] => []
  | p :: r => if match prev with Some x => (x =? snd p)%nat | None => false end then uniqR prev r else p :: uniqR (Some (snd p)) r
  end.
(** renaming_relation.hh:195-206; [rs] is the rightSize of the juxtaposed
    condition *)
Definition addImplicit (ren : renaming) (j : jzone) (rs : nat) : renaming :=
  uniqR None (sortR (ren ++ makeRenaming (fst j) rs (addRenaming (fst j) (snd j) ren))).
(** renaming_relation.hh:218-220 *)
Definition isRightUnique (ren : renaming) : bool := (length (rightVariables ren) =? length ren)%nat.
(** renaming_relation.hh:23-42 *)
Definition toValStep (st : tcond * list Q) (i : nat) : tcond * list Q :=
  let (c, vs) := st in
  let n := (tcSize c - 1)%nat in
  let lo := getLowerBound c i n in
  let up := getUpperBound c i n in
  match lo, up with
  | Fin l ls, Fin u us =>
      if Qeq_bool l (- u) && ls && us then (c, vs ++ [u])
      else let mid := ((u - l) / 2)%Q in
           (restrictUpperBound (restrictLowerBound c i n (Fin (- mid) true) false) i n (Fin mid true) false, vs ++ [mid])
  | _, _ => (c, vs ++ [0%Q]) (* an unbounded condition is not simple: excluded by the precondition *)
  end.
Definition toValuation (c : tcond) : list Q := snd (fold_left toValStep (seq 0 (tcSize c)) (c, [])).
(** renaming_relation.hh:44-69; the value of a clock renamed twice is the
    first pair found *)
Fixpoint overwriteFirst (x : clock) (q : Q) (rs : resets) : resets :=
  match rs with
  | [] => []
  | r :: rest => if (fst r =? x)%nat then (x, RConst q) :: rest else r :: overwriteFirst x q rest
  end.
Definition toResetStep (vs : list Q) (rs : resets) (x : nat) : resets :=
  let v := nth x vs 0%Q in
  if existsb (fun r => (fst r =? x)%nat) rs
  then if Qeq_bool v (qfloor v) then overwriteFirst x v rs else rs
  else rs ++ [(x, RConst v)].
Definition toReset (ren : renaming) (target : tcond) : resets :=
  fold_left (toResetStep (toValuation target)) (seq 0 (tcSize target)) (map (fun p => (snd p, RVar (fst p))) ren).

(** ** equivalence.hh, continued *)
Definition pairEqb (a b : nat * nat) : bool := ((fst a =? fst b) && (snd a =? snd b))%nat.
(** equivalence.hh:228-246 the candidates extended by the right variable j *)
Definition extendCand (l r : tcond) (lcon rcon : list nat) (edges : list nat) (j : nat) (cand : renaming) : list renaming :=
  if (0 <? j)%nat && beqb (getUpperBound r (j - 1) (j - 1)) bz
  then [cand ++ [(fst (last cand (0, 0)%nat), j)]]
  else
    let lower := match cand with [] => 0 | _ => fst (last cand (0, 0)) + 1 end%nat in
    let constrained := existsb (Nat.eqb j) rcon in
    flat_map (fun i =>
      if (lower <=? i)%nat && Bool.eqb constrained (existsb (Nat.eqb i) lcon)
         && ((i =? 0)%nat || negb (beqb (getUpperBound l (i - 1) (i - 1)) bz))
      then [cand ++ [(i, j)]] else []) edges.
Definition candStep (l r : tcond) (lcon rcon : list nat) (g2 : list (list nat)) (cands : list renaming) (j : nat) : list renaming :=
  let edges := nth j g2 [] in
  if match edges with [] => true | _ => false end || bSnd (ubN r j) then cands
  else flat_map (extendCand l r lcon rcon edges j) cands.
(** std::sort and std::unique on renamings, lexicographically *)
Fixpoint renLt (a b : renaming) : bool :=
  match a, b with
  | _, [] => false
  | [], _ :: _ => true
  | x :: a', y :: b' =>
      if ((fst x <? fst y) || ((fst x =? fst y) && (snd x <? snd y)))%nat then true
      else if pairEqb x y then renLt a' b' else false
  end.
Fixpoint renEqb (a b : renaming) : bool :=
  match a, b with [], [] => true | x :: a', y :: b' => pairEqb x y && renEqb a' b' | _, _ => false end.
Fixpoint insertC (x : renaming) (l : list renaming) : list renaming :=
  match l with
  | [] => [x]
  | y :: r => if renLt x y then x :: l else if renEqb x y then l else y :: insertC x r
  end.
Definition sortCands (l : list renaming) : list renaming := fold_right insertC [] l.
(** equivalence.hh:213-264 *)
Definition genCandidates (l r : tcond) (lcon rcon : list nat) (g : list (list nat) * list (list nat)) : list renaming :=
  let full := fold_left (candStep l r lcon rcon (snd g)) (seq 0 (tcSize r)) [[]] in
  sortCands (filter (fun c => negb (hasImpreciseClocks c r)) (full ++ [[]])).

(** equivalence.hh:274-278, 285-305 *)
Inductive cellStatus := Bottom | Top | Middle.
Definition decideStatus (conc : tcond) (cell : list tcond) : cellStatus :=
  match cell with
  | [] => Bottom
  | [c] => if tcEqb c conc then Top else Middle
  | _ => Middle
  end.
Definition statusEqb (a b : cellStatus) : bool :=
  match a, b with Bottom, Bottom => true | Top, Top => true | Middle, Middle => true | _, _ => false end.
Fixpoint statusesEqb (a b : list cellStatus) : bool :=
  match a, b with [], [] => true | x :: a', y :: b' => statusEqb x y && statusesEqb a' b' | _, _ => false end.
(** std::transform over the concatenations and the row *)
Definition statuses (concs : list tcond) (row : list (list tcond)) : list cellStatus :=
  map (fun p => decideStatus (fst p) (snd p)) (combine concs row).
(** timed_condition.hh:580-590; the columns and rows are compared entry by
    entry *)
Definition strictlyConstrained (c orig : tcond) (n : nat) : list nat :=
  filter (fun x => existsb (fun k => negb (beqb (get c k (S x)) (get orig k (S x))) || negb (beqb (get c (S x) k) (get orig (S x) k)))
                           (seq 0 (dim c))) (seq 0 n).
(** timed_condition_set.hh:117-127 *)
Definition strictlyConstrainedS (cell : list tcond) (orig : tcond) (n : nat) : list nat :=
  flat_map (fun c => strictlyConstrained c orig n) cell.
(** equivalence.hh:319-346, one side *)
Definition constrainedVars (row : list (list tcond)) (concs : list tcond) (n : nat) : list nat :=
  sortUniq (flat_map (fun p => strictlyConstrainedS (fst p) (snd p) n) (combine row concs)).
(** equivalence.hh:537-546, the juxtapositions *)
Fixpoint juxLefts (lr : list (list tcond)) (rc : list tcond) (sufs : list elem) : list (list jzone) :=
  match lr, rc, sufs with
  | a :: lr', r :: rc', s :: sufs' => juxSetLeft a r (length (ew s)) :: juxLefts lr' rc' sufs'
  | _, _, _ => []
  end.
Fixpoint juxRights (lc : list tcond) (rr : list (list tcond)) (sufs : list elem) : list (list jzone) :=
  match lc, rr, sufs with
  | l :: lc', b :: rr', s :: sufs' => juxSetRight l b (length (ew s)) :: juxRights lc' rr' sufs'
  | _, _, _ => []
  end.
(** equivalence.hh:479-557 *)
Definition findDet (left : elem) (lr : list (list tcond)) (lc : list tcond) (right : elem) (rr : list (list tcond)) (rc : list tcond)
    (sufs : list elem) : option renaming :=
  let l := ec left in let r := ec right in
  if negb (statusesEqb (statuses lc lr) (statuses rc rr)) then None
  else if equivB l lr lc r rr rc sufs [] then Some []
  else
    let g := toGraph l r in
    let lcon := constrainedVars lr lc (length (ew left) + 1) in
    let rcon := constrainedVars rr rc (length (ew right) + 1) in
    let j := (tcSize l, jux l r) in
    let cands := map (fun c => match c with [] => c | _ => addImplicit c j (tcSize r) end) (genCandidates l r lcon rcon g) in
    find (equivJ j (juxLefts lr rc sufs) (juxRights lc rr sufs)) cands.
(** equivalence.hh:365-464, computing the concatenations, after a quick check
    on the emptiness of the cells *)
Fixpoint sameEmptiness (lr rr : list (list tcond)) : bool :=
  match lr, rr with
  | [], [] => true
  | a :: lr', b :: rr' => Bool.eqb (match a with [] => true | _ => false end) (match b with [] => true | _ => false end) && sameEmptiness lr' rr'
  | _, _ => false
  end.
Definition findDetE (left : elem) (lr : list (list tcond)) (right : elem) (rr : list (list tcond)) (sufs : list elem) : option renaming :=
  if negb (sameEmptiness lr rr) then None
  else findDet left lr (map (fun s => tcConcat (ec left) (ec s)) sufs) right rr (map (fun s => tcConcat (ec right) (ec s)) sufs) sufs.
