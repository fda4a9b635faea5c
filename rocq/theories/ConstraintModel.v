(** Model of include/constraint.hh (guards of transitions).

    Clock variables (uint8_t) are [nat]; constants (int) are [Z];
    a clock valuation (std::vector<double>) is a function [nat -> Q]
    (simplification: [.at(x)] never throws). *)
From Coq Require Import QArith ZArith Bool List.
From Verif Require Import BoundsModel.
Import ListNotations.
Open Scope Q_scope.

Definition clock := nat.
Definition valuation := clock -> Q.

(** constraint.hh:33-35 *)
Inductive order := Olt | Ole | Oge | Ogt.

(** constraint.hh:32-39 *)
Record constraint := mkC { cx : clock; codr : order; cc : Z }.

Arguments mkC _%nat_scope _ _%Z_scope.

Definition guard := list constraint.

(** constraint.hh:41-53, [satisfy(double)] *)
Definition satisfy (k : constraint) (d : Q) : bool :=
  match codr k with
  | Olt => Qltb d (inject_Z (cc k))
  | Ole => Qle_bool d (inject_Z (cc k))
  | Ogt => Qltb (inject_Z (cc k)) d
  | Oge => Qle_bool (inject_Z (cc k)) d
  end.

(** constraint.hh:55-57, [satisfy(valuation)] and its use on whole guards
    (std::all_of), e.g. timed_automaton_runner.hh:85-88. *)
Definition gsatb (g : guard) (v : valuation) : bool :=
  forallb (fun k => satisfy k (v (cx k))) g.

(** constraint.hh:71-73 operator== *)
Definition order_eqb (a b : order) : bool :=
  match a, b with Olt, Olt | Ole, Ole | Oge, Oge | Ogt, Ogt => true | _, _ => false end.
Definition constraint_eqb (a b : constraint) : bool :=
  order_eqb (codr a) (codr b) && Z.eqb (cc a) (cc b) && Nat.eqb (cx a) (cx b).

(** constraint.hh:75-77 *)
Definition isUpper (k : constraint) : bool :=
  match codr k with Ole | Olt => true | _ => false end.

(** constraint.hh:143-156 toDBMBound *)
Definition toDBMBound (k : constraint) : bound :=
  match codr k with
  | Ole => Fin (inject_Z (cc k)) true
  | Oge => Fin (inject_Z (- cc k)) true
  | Olt => Fin (inject_Z (cc k)) false
  | Ogt => Fin (inject_Z (- cc k)) false
  end.

(** constraint.hh:85-95 Constraint::isWeaker *)
Definition isWeaker1 (this another : constraint) : bool :=
  if Nat.eqb (cx this) (cx another)
  then eqb (isUpper this) (isUpper another) && ble (toDBMBound another) (toDBMBound this)
  else false.

(** constraint.hh:97-110 negate *)
Definition cnegate (k : constraint) : constraint :=
  match codr k with
  | Olt => mkC (cx k) Oge (cc k)
  | Ole => mkC (cx k) Ogt (cc k)
  | Ogt => mkC (cx k) Ole (cc k)
  | Oge => mkC (cx k) Olt (cc k)
  end.

(** constraint.hh:178-184 isWeaker on guards *)
Definition isWeaker (left right : guard) : bool :=
  forallb (fun l => existsb (fun r => isWeaker1 l r) right) left.

(** constraint.hh:240-247 widen *)
Definition widen (g : guard) : guard :=
  filter (fun k => match codr k with Oge | Ogt => false | _ => true end) g.

(** constraint.hh:249-257 *)
Definition negateAll (g : guard) : guard := map cnegate g.

(** constraint.hh:259-266 *)
Definition conjunction (l r : guard) : guard := l ++ r.

(** constraint.hh:29 IntBounds; the lexicographic order of std::pair<int,bool>. *)
Definition ibounds := (Z * bool)%type.
Definition ib_eqb (a b : ibounds) : bool := Z.eqb (fst a) (fst b) && eqb (snd a) (snd b).
Definition ib_ltb (a b : ibounds) : bool :=
  Z.ltb (fst a) (fst b) || (Z.eqb (fst a) (fst b) && negb (snd a) && snd b).
(** unary minus (bounds.hh:44-46; the int pair converts to a double pair). *)
Definition ib_neg (a : ibounds) : ibounds := (Z.opp (fst a), snd a).

(** std::numeric_limits<int>::max() *)
Definition INT_MAX : Z := 2147483647.
(** constraint.hh:277,278 initial entries *)
Definition maxUB : ibounds := (INT_MAX, false).
Definition minLB : ibounds := (0%Z, true).

(** constraint.hh:129-140 toBound *)
Definition toBound (k : constraint) : ibounds :=
  match codr k with
  | Ole | Oge => (cc k, true)
  | Olt | Ogt => (cc k, false)
  end.

(** The two parallel vectors of toBounds, as one vector of (upper, lower)
    pairs (simplification: the code keeps them of equal length). *)
Definition btable := list (ibounds * ibounds).
Definition defB : ibounds * ibounds := (maxUB, minLB).

(** constraint.hh:271-281 resizeBounds *)
Definition resizeBounds (t : btable) (x : clock) : btable :=
  t ++ repeat defB (S x - length t).

Fixpoint updNth {A} (n : nat) (f : A -> A) (l : list A) : list A :=
  match n, l with
  | _, [] => []
  | O, a :: r => f a :: r
  | S n', a :: r => a :: updNth n' f r
  end.

(** constraint.hh:283-296, one iteration of the loop *)
Definition toBoundsStep (t : btable) (k : constraint) : btable :=
  let b := toBound k in
  updNth (cx k)
    (fun ul =>
       if isUpper k
       then (if ib_ltb b (fst ul) then b else fst ul, snd ul)
       else (fst ul, if ib_ltb (ib_neg b) (ib_neg (snd ul)) then b else snd ul))
    (resizeBounds t (cx k)).

(** constraint.hh:268-299 *)
Definition toBounds (g : guard) : btable := fold_left toBoundsStep g [].

(** isSimple(upper, -lower) on the int table (bounds.hh:17-33) *)
Definition ib_isSimple (u l : ibounds) : bool :=
  (Z.eqb (fst l) (fst u) && snd u && snd l)
  || (Z.eqb (fst l + 1) (fst u) && negb (snd u) && negb (snd l)).

(** constraint.hh:306-319 *)
Definition simpleVariables (g : guard) : list clock :=
  let t := toBounds g in
  filter (fun i => let '(u, l) := nth i t defB in ib_isSimple u l) (seq 0 (length t)).

(** constraint.hh:325-327: the row test *)
Definition rowSat (ul : ibounds * ibounds) : bool :=
  let '(u, l) := ul in
  negb (Z.ltb (fst u) (fst l) || (Z.eqb (fst l) (fst u) && negb (snd l && snd u))).

(** constraint.hh:321-333 *)
Definition satisfiable (g : guard) : bool := forallb rowSat (toBounds g).

(** constraint.hh:341-347 and 351-357 *)
Definition rowLower (i : clock) (l : ibounds) : guard :=
  if ib_eqb l minLB then []
  else if snd l then [mkC i Oge (fst l)] else [mkC i Ogt (fst l)].
Definition rowUpper (i : clock) (u : ibounds) : guard :=
  if ib_eqb u maxUB then []
  else if snd u then [mkC i Ole (fst u)] else [mkC i Olt (fst u)].

(** constraint.hh:335-361 *)
Definition simplify (g : guard) : guard :=
  let t := toBounds g in
  flat_map (fun i => rowLower i (snd (nth i t defB))) (seq 0 (length t))
  ++ flat_map (fun i => rowUpper i (fst (nth i t defB))) (seq 0 (length t)).

(** constraint.hh:417-427: the in-place erase loop; [kept] is the range
    [begin, it), [rest] is [it, end). *)
Fixpoint eraseStronger (kept rest : list guard) : list guard :=
  match rest with
  | [] => kept
  | g :: r =>
      if existsb (fun c => isWeaker c g) r || existsb (fun c => isWeaker c g) kept
      then eraseStronger kept r
      else eraseStronger (kept ++ [g]) r
  end.

(** constraint.hh:408-416: product of the next disjunct with the DNF so far *)
Definition dnfProduct (disjunct : guard) (dnf : list guard) : list guard :=
  flat_map (fun k =>
    flat_map (fun conjunct =>
      let c := conjunct ++ [k] in
      if satisfiable c then [simplify c] else []) dnf) disjunct.

(** constraint.hh:397-430: loop over the CNF; the state is ([initial], dnf) *)
Fixpoint cnfToDnf (initial : bool) (dnf : list guard) (cnf : list guard) : list guard :=
  match cnf with
  | [] => dnf
  | [] :: r => cnfToDnf initial dnf r
  | d :: r =>
      if initial then cnfToDnf false (map (fun k => [k]) d) r
      else cnfToDnf false (eraseStronger [] (dnfProduct d dnf)) r
  end.

(** constraint.hh:389-433 negate(DNF) *)
Definition negateDNF (dnf : list guard) : list guard :=
  cnfToDnf true [] (map negateAll dnf).

(** *** unionHull (constraint.hh:440-496).  The unordered map from
    (clock, isUpper) to a bound is an association list; bounds are int pairs
    in DBM form ([toDBMBound] negates lower constants). *)
Definition hkey := (clock * bool)%type.
Definition hkey_eqb (a b : hkey) : bool := Nat.eqb (fst a) (fst b) && eqb (snd a) (snd b).
Definition hmap := list (hkey * ibounds).
Definition keyOf (k : constraint) : hkey := (cx k, isUpper k).
Definition toDBMBoundZ (k : constraint) : ibounds :=
  if isUpper k then toBound k else ib_neg (toBound k).

Fixpoint hfind (m : hmap) (k : hkey) : option ibounds :=
  match m with
  | [] => None
  | (k', b) :: r => if hkey_eqb k k' then Some b else hfind r k
  end.
Fixpoint hset (m : hmap) (k : hkey) (b : ibounds) : hmap :=
  match m with
  | [] => [(k, b)]
  | (k', b') :: r => if hkey_eqb k k' then (k', b) :: r else (k', b') :: hset r k b
  end.
Definition ib_max (a b : ibounds) : ibounds := if ib_ltb a b then b else a.

(** constraint.hh:445-457 *)
Definition hullStep (initial : bool) (m : hmap) (k : constraint) : hmap :=
  match hfind m (keyOf k) with
  | None => if initial then hset m (keyOf k) (toDBMBoundZ k) else m
  | Some b => hset m (keyOf k) (ib_max b (toDBMBoundZ k))
  end.

(** constraint.hh:443-467: one guard *)
Definition hullGuard (initial : bool) (m : hmap) (g : guard) : hmap :=
  filter (fun kb => existsb (fun k => hkey_eqb (fst kb) (keyOf k)) g)
         (fold_left (hullStep initial) g m).

Fixpoint hullGuards (initial : bool) (m : hmap) (gs : list guard) : hmap :=
  match gs with
  | [] => m
  | g :: r => hullGuards false (hullGuard initial m g) r
  end.

(** constraint.hh:471-488 *)
Definition hullConstraint (kb : hkey * ibounds) : constraint :=
  let '((x, up), (c, s)) := kb in
  if up then mkC x (if s then Ole else Olt) c
  else mkC x (if s then Oge else Ogt) (- c).

Definition unionHull (gs : list guard) : guard :=
  map hullConstraint (hullGuards true [] gs).

(** constraint.hh:501-503 *)
Definition unionHull2 (l r : guard) : guard := unionHull [l; r].

(** constraint.hh:505-525 addUpperBound; the map from clock to constraints is
    an association in order of first occurrence.  Line 518 tests [odr == le]
    inside the branch where the constraint is a lower bound. *)
Definition clocksOf (g : guard) : list clock := nodup Nat.eq_dec (map cx g).
Definition onClock (g : guard) (x : clock) : guard := filter (fun k => Nat.eqb (cx k) x) g.
Definition addUpperBound (g : guard) : guard :=
  g ++ flat_map (fun x =>
    match onClock g x with
    | [k] => if isUpper k then []
             else match codr k with
                  | Ole => [mkC x Ole (cc k)]
                  | _ => [mkC x Olt (cc k + 1)]
                  end
    | _ => []
    end) (clocksOf g).

(** *** adjacent (constraint.hh:530-607) *)
Definition ib_neqb a b := negb (ib_eqb a b).

(** lines 539-545: fill in a missing upper bound *)
Definition fillUB (lu ll ru : ibounds) : ibounds :=
  if ib_eqb lu maxUB && ib_neqb ru maxUB
  then (if snd ll then ll else ((fst ll + 1)%Z, snd ll)) else lu.

Definition rows := ((ibounds * ibounds) * (ibounds * ibounds))%type. (* left (u,l), right (u,l) *)
Definition fillRow (r : rows) : rows :=
  let '((lu, ll), (ru, rl)) := r in
  ((fillUB lu ll ru, ll), (if ib_eqb lu maxUB && ib_neqb ru maxUB then ru else fillUB ru rl lu, rl)).

(** lines 546-562: [None] = return false, [Some true] = different, [Some false] = continue *)
Definition rowKind (r : rows) : option bool :=
  let '((lu, ll), (ru, rl)) := fillRow r in
  if ib_eqb lu ru && ib_eqb ll rl then Some false
  else if Z.eqb (fst lu) (fst rl)
       then (if eqb (snd lu) (snd rl) then None else Some true)
  else if Z.eqb (fst ru) (fst ll)
       then (if eqb (snd ru) (snd ll) then None else Some true)
  else None.

Inductive kinds := KDefault | KLeftLower | KRightLower | KLeftUpper | KRightUpper.
Definition kinds_eqb (a b : kinds) : bool :=
  match a, b with
  | KDefault, KDefault | KLeftLower, KLeftLower | KRightLower, KRightLower
  | KLeftUpper, KLeftUpper | KRightUpper, KRightUpper => true
  | _, _ => false
  end.

(** lines 578-604: the kind of one differing row (KDefault = no branch taken) *)
Definition kindOf (r : rows) : kinds :=
  let '((lu, ll), (ru, rl)) := fillRow r in
  if snd ll then KLeftLower
  else if snd rl then KRightLower
  else if snd lu then KLeftUpper
  else if snd ru then KRightUpper
  else KDefault.

Fixpoint kindsConsistent (kind : kinds) (l : list kinds) : bool :=
  match l with
  | [] => true
  | KDefault :: r => kindsConsistent kind r
  | k :: r => match kind with
              | KDefault => kindsConsistent k r
              | _ => if kinds_eqb kind k then kindsConsistent kind r else false
              end
  end.

Fixpoint traverse {A B} (f : A -> option B) (l : list A) : option (list B) :=
  match l with
  | [] => Some []
  | a :: r => match f a, traverse f r with Some b, Some bs => Some (b :: bs) | _, _ => None end
  end.

(** the rows that differ *)
Definition adjRows (l r : guard) : list rows := combine (toBounds l) (toBounds r).
Definition differing (l r : guard) : list rows :=
  filter (fun x => match rowKind x with Some true => true | _ => false end) (adjRows l r).

Definition adjacent (l r : guard) : bool :=
  if Nat.eqb (length (toBounds l)) (length (toBounds r)) then
    match traverse rowKind (adjRows l r) with
    | None => false
    | Some _ =>
        if Nat.leb (length (differing l r)) 1 then true
        else kindsConsistent KDefault (map kindOf (differing l r))
    end
  else false.

(** constraint.hh:112-127 (single constraint).  [None] is [-infinity,false]. *)
Definition lowerDur1 (k : constraint) (v : valuation) : option (Q * bool) :=
  let x := v (cx k) in
  match codr k with
  | Olt | Ole => if Qle_bool x (inject_Z (cc k)) then Some (0, true) else None
  | Oge => let b := - inject_Z (cc k) + x in
           if Qltb b 0 then Some (b, true) else Some (0, true)
  | Ogt => let b := - inject_Z (cc k) + x in
           if Qltb 0 b then Some (0, true) else Some (b, false)
  end.

(** constraint.hh:363-372.  min_element; [None] stands for the undefined
    behaviour of dereferencing [end()] on the empty guard, [Some None] for
    -infinity. *)
Definition qb_ltb (a b : Q * bool) : bool :=
  Qltb (fst a) (fst b) || (Qeq_bool (fst a) (fst b) && negb (snd a) && snd b).
Definition dur_min (a b : option (Q * bool)) : option (Q * bool) :=
  match a, b with
  | None, _ => None
  | _, None => None
  | Some p, Some q => if qb_ltb q p then Some q else Some p
  end.
Definition lowerDur (g : guard) (v : valuation) : option (option (Q * bool)) :=
  match map (fun k => lowerDur1 k v) g with
  | [] => None
  | d :: r => Some (fold_left dur_min r d)
  end.
