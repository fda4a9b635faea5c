(** Model of include/timed_condition.hh.

    A timed condition of size N constrains the sums T_{i,j} = tau_i + ... +
    tau_j of N durations.  It is stored as a zone over x_0 .. x_{N-1} with
    x_i = T_{i,N-1}, so T_{i,j} = x_i - x_{j+1} (and x_i for j = N-1).
    Simplifications: as in ZoneModel (a zone is its matrix, doubles are
    rationals, DBL_MAX is [Inf]); methods that modify their object return the
    new object; assertions about index ranges are hypotheses of the theorems. *)
From Coq Require Import QArith ZArith Bool List Qround.
From Verif Require Import BoundsModel ConstraintModel ZoneModel.
Import ListNotations.
Open Scope Q_scope.

Definition tcond := matrix.

(** timed_condition.hh:91-93 size *)
Definition tcSize (m : tcond) : nat := pred (dim m).

(** timed_condition.hh:29 and 79-84 the empty timed condition tau_0 = 0 *)
Definition tcEmpty : tcond := zzero 2.

(** the matrix column of the variable x_{j+1} used for T_{i,j}
    (timed_condition.hh:222-226, 235-239, 250-254, 265-269) *)
Definition colOf (m : tcond) (j : nat) : nat := if (j =? tcSize m - 1)%nat then 0%nat else (j + 2)%nat.

(** timed_condition.hh:219-227 *)
Definition getLowerBound (m : tcond) (i j : nat) : bound := get m (colOf m j) (i + 1).
(** timed_condition.hh:232-240 *)
Definition getUpperBound (m : tcond) (i j : nat) : bound := get m (i + 1) (colOf m j).

(** timed_condition.hh:247-256 *)
Definition restrictLowerBound (m : tcond) (i j : nat) (b : bound) (force : bool) : tcond :=
  canonize (set1 m (colOf m j) (i + 1) (if force then b else bmin b (get m (colOf m j) (i + 1)))).
(** timed_condition.hh:263-272 *)
Definition restrictUpperBound (m : tcond) (i j : nat) (b : bound) (force : bool) : tcond :=
  canonize (set1 m (i + 1) (colOf m j) (if force then b else bmin b (get m (i + 1) (colOf m j)))).

(** std::floor *)
Definition qfloor (q : Q) : Q := inject_Z (Qfloor q).

(** timed_condition.hh:42-50 the body of the inner loop *)
Definition regionStep (acc : list Q) (i : nat) (m : tcond) (j : nat) : tcond :=
  let d := nth i acc 0 - (if (j + 1 <? length acc)%nat then nth (j + 1) acc 0 else 0) in
  if Qeq_bool (qfloor d) d
  then restrictLowerBound (restrictUpperBound m i j (Fin d true) true) i j (Fin (- d) true) true
  else restrictLowerBound (restrictUpperBound m i j (Fin (qfloor d + 1) false) true) i j (Fin (- qfloor d) false) true.
(** the pairs (i, j) with i <= j < n in the order of the loops *)
Definition ijPairs (n : nat) : list (nat * nat) :=
  flat_map (fun i => map (fun j => (i, j)) (seq i (n - i))) (seq 0 n).
(** timed_condition.hh:37-53 *)
Definition tcOf (acc : list Q) : tcond :=
  fold_left (fun m p => regionStep acc (fst p) m (snd p)) (ijPairs (length acc)) (ztop (length acc + 1)).

(** timed_condition.hh:61-74 *)
Definition exactStep (acc : list Q) (i : nat) (m : tcond) (j : nat) : tcond :=
  let d := nth i acc 0 - (if (j + 1 <? length acc)%nat then nth (j + 1) acc 0 else 0) in
  restrictLowerBound (restrictUpperBound m i j (Fin d true) true) i j (Fin (- d) true) true.
Definition makeExact (acc : list Q) : tcond :=
  fold_left (fun m p => exactStep acc (fst p) m (snd p)) (ijPairs (length acc)) (ztop (length acc + 1)).

(** timed_condition.hh:100-112 isSimple *)
Definition isSimple (m : tcond) : bool :=
  forallb (fun i => forallb (fun j => isSimpleB (get m i j) (get m j i))
                            (seq (i + 1) (dim m - (i + 1)))) (seq 0 (dim m)).

(** timed_condition.hh:152-187 operator+ ; the blocks assigned and then added *)
Definition tcConcat (a b : tcond) : tcond :=
  let N := tcSize a in
  let M := tcSize b in
  let base i j :=
    if (i <=? N)%nat && (j <=? N)%nat then get a i j
    else if (1 <=? i)%nat && (i <=? N)%nat then get a i 0         (* j > N *)
    else if (1 <=? j)%nat && (j <=? N)%nat then get a 0 j         (* i > N *)
    else if (N <? i)%nat && (N <? j)%nat then get b (i - N + 1) (j - N + 1)
    else if (N <? i)%nat && (j =? 0)%nat then get b (i - N + 1) 0
    else get b 0 (j - N + 1) in                                   (* i = 0, j > N *)
  let added i j :=
    if (N <? i)%nat && (1 <=? j)%nat && (j <=? N)%nat then badd (base i j) (get b (i - N + 1) 1)
    else if (1 <=? i)%nat && (i <=? N)%nat && (N <? j)%nat then badd (base i j) (get b 1 (j - N + 1))
    else if (1 <=? i)%nat && (i <=? N)%nat && (j =? 0)%nat then badd (base i j) (get b 1 0)
    else if (i =? 0)%nat && (1 <=? j)%nat && (j <=? N)%nat then badd (base i j) (get b 0 1)
    else base i j in
  canonize (mk (N + M) added).

(** timed_condition.hh:277-286 cwiseMax *)
Definition tcHull (a b : tcond) : tcond := mk (dim a) (fun i j => bmax (get a i j) (get b i j)).

(** *** enumerate *)
(** the pieces cut out by the while loop, timed_condition.hh:318-340: the
    current lower and upper bounds of each iteration.  The fuel is shown to
    suffice; an infinite upper bound (DBL_MAX) is excluded by hypothesis. *)
Fixpoint walk (fuel : nat) (l : Q) (lincl : bool) (cur upper : bound) : list (bound * bound) :=
  match fuel with
  | O => []
  | S n =>
      if ble cur upper
      then (Fin l lincl, cur) ::
           (if lincl then walk n l false (Fin (- l + 1) false) upper
            else walk n (l - 1) true (Fin (- l + 1) true) upper)
      else []
  end.
Definition walkFuel (l : Q) (upper : bound) : nat :=
  match upper with Fin u _ => (2 * Z.to_nat (Qceiling (u + l)) + 3)%nat | Inf => O end.
Definition pieces (lower upper : bound) : list (bound * bound) :=
  match lower with
  | Fin l s => walk (walkFuel l upper) l s (if s then Fin (- l) true else Fin (- l + 1) false) upper
  | Inf => []
  end.
(** timed_condition.hh:306-341 one condition in the body of the loops: the
    conditions appended to simpleConditions and to nextConditions *)
Definition refine (i j : nat) (c : tcond) : list tcond * list tcond :=
  if isSimple c then ([c], [])
  else
    let l := getLowerBound c i j in
    let u := getUpperBound c i j in
    if isPoint u l || isUnitOpen u l then ([], [c])
    else
      let cs := map (fun p => restrictUpperBound (restrictLowerBound c i j (fst p) false) i j (snd p) false) (pieces l u) in
      (filter isSimple cs, filter (fun x => negb (isSimple x)) cs).
(** timed_condition.hh:304-343 *)
Fixpoint enumLoop (ps : list (nat * nat)) (simple current : list tcond) : list tcond :=
  match ps with
  | [] => simple
  | (i, j) :: r =>
      let rs := map (refine i j) current in
      let simple' := simple ++ flat_map fst rs in
      match flat_map snd rs with
      | [] => simple'
      | next => enumLoop r simple' next
      end
  end.
(** timed_condition.hh:299-344, called with an empty vector (357-362) *)
Definition enumerate (m : tcond) : list tcond :=
  if isSimple m then [m] else enumLoop (ijPairs (tcSize m)) [] [m].

(** *** moving between neighbouring conditions *)
Definition bInc (b : bound) (q : Q) (s : bool) : bound := match b with Fin c _ => Fin (c + q) s | Inf => Inf end.
Definition bSecond (b : bound) (s : bool) : bound := match b with Fin c _ => Fin c s | Inf => Inf end.
Definition bSnd (b : bound) : bool := match b with Fin _ s => s | Inf => false end.
(** timed_condition.hh:370-382 one variable of successor (and successorAssign, 391-404) *)
Definition succ1 (m : tcond) (i : nat) : tcond :=
  let u := get m (i + 1) 0 in
  let l := get m 0 (i + 1) in
  if bSnd l
  then set1 (set1 m (i + 1) 0 (bInc u 1 false)) 0 (i + 1) (bSecond l false)
  else set1 (set1 m (i + 1) 0 (bSecond u true)) 0 (i + 1) (bInc l (- (1)) true).
(** timed_condition.hh:367-386, 391-405 *)
Definition tcSuccessor (m : tcond) (vars : list nat) : tcond := fold_left succ1 vars m.
(** timed_condition.hh:438-451 one variable of predecessor *)
Definition pred1 (m : tcond) (i : nat) : tcond :=
  let k := ((i + 2) mod (dim m))%nat in
  let u := get m 1 k in
  let l := get m k 1 in
  if isPoint u l
  then set1 (set1 m 1 k (bInc u 1 false)) k 1 (bSecond l false)
  else set1 (set1 m 1 k (bSecond u true)) k 1 (bInc l (- (1)) true).
(** timed_condition.hh:435-454 *)
Definition tcPredecessor (m : tcond) (vars : list nat) : tcond := fold_left pred1 vars m.
(** timed_condition.hh:462-475 one variable of prefix *)
Definition prefix1 (m : tcond) (i : nat) : tcond :=
  let u := get m (i + 1) 0 in
  let l := get m 0 (i + 1) in
  if isPoint u l
  then set1 (set1 m (i + 1) 0 (bSecond u false)) 0 (i + 1) (bInc l 1 false)
  else set1 (set1 m (i + 1) 0 (bInc u (- (1)) true)) 0 (i + 1) (bSecond l true).
(** timed_condition.hh:459-478 *)
Definition tcPrefix (m : tcond) (vars : list nat) : tcond := fold_left prefix1 vars m.
(** timed_condition.hh:486-499 one variable of suffix *)
Definition suffix1 (m : tcond) (i : nat) : tcond :=
  let k := colOf m i in
  let u := get m 1 k in
  let l := get m k 1 in
  if isPoint u l
  then set1 (set1 m 1 k (bSecond u false)) k 1 (bInc l 1 false)
  else set1 (set1 m 1 k (bInc u (- (1)) true)) k 1 (bSecond l true).
(** timed_condition.hh:483-502 *)
Definition tcSuffix (m : tcond) (vars : list nat) : tcond := fold_left suffix1 vars m.

(** timed_condition.hh:411-419 removeEqualityUpperBoundAssign *)
Definition removeEqualityUpperBound (m : tcond) : tcond :=
  mk (dim m) (fun i j => if (1 <=? i)%nat && (j =? 0)%nat && bSnd (get m i j) then Inf else get m i j).
(** timed_condition.hh:425-430 removeUpperBoundAssign *)
Definition removeUpperBound (m : tcond) : tcond :=
  mk (dim m) (fun i j => if (1 <=? i)%nat && (j =? 0)%nat then Inf else get m i j).

(** timed_condition.hh:507-518 extendN: the new last variable is zero *)
Definition extendN (m : tcond) : tcond :=
  let n := dim m in
  let c i j := if (j =? n)%nat then (if (i =? n)%nat then Inf else get m i 0) else get m i j in
  mk (S n) (fun i j =>
    if (i =? n)%nat && (j =? 0)%nat then bz
    else if (i =? 0)%nat && (j =? n)%nat then bz
    else if (i =? n)%nat then c 0%nat j else c i j).
(** timed_condition.hh:523-529 removeN *)
Definition removeN (m : tcond) : tcond := mk (dim m - 1) (get m).
(** timed_condition.hh:548-553 hasEqualityN *)
Definition hasEqualityN (m : tcond) : bool := existsb (fun i => bSnd (get m (i + 1) 0)) (seq 0 (tcSize m)).
(** timed_condition.hh:558-573 extendZero: x_i becomes x_{i+1}, and x_0 = x_1 *)
Definition extendZero (m : tcond) : tcond :=
  let n := dim m in
  let sh i := match i with O => O | S k => k end in
  let f i j :=
    if (2 <=? i)%nat && (2 <=? j)%nat then get m (sh i) (sh j)
    else if (i =? 0)%nat && (2 <=? j)%nat then get m 0 (sh j)
    else if (2 <=? i)%nat && (j =? 0)%nat then get m (sh i) 0
    else Inf in
  let g i j := if (j =? 1)%nat then f i 2%nat else f i j in
  mk (S n) (fun i j =>
    if (i =? 1)%nat && (j =? 2)%nat then bz
    else if (i =? 2)%nat && (j =? 1)%nat then bz
    else if (i =? 1)%nat then g 2%nat j else g i j).

(** timed_condition.hh:592-594 operator== *)
Definition tcEqb (a b : tcond) : bool := (tcSize a =? tcSize b)%nat && zstrictEqual a b.

(** int(d): truncation towards zero *)
Definition toInt (q : Q) : Z := if Qle_bool 0 q then Qfloor q else Qceiling q.
(** timed_condition.hh:609-627 *)
Definition toGuard1 (m : tcond) (i : nat) : guard :=
  (match getLowerBound m i (tcSize m - 1) with
   | Fin l s => if Qeq_bool l 0 && s then [] else [mkC i (if s then Oge else Ogt) (- toInt l)]
   | Inf => []
   end) ++
  (match getUpperBound m i (tcSize m - 1) with
   | Fin u s => [mkC i (if s then Ole else Olt) (toInt u)]
   | Inf => []
   end).
(** timed_condition.hh:603-633 *)
Definition toGuard (m : tcond) : guard := flat_map (toGuard1 m) (seq 0 (tcSize m)).

(** timed_condition.hh:638-643 and 648-652 *)
Definition hasPrefix (m : tcond) : bool :=
  negb (beqb (getUpperBound m (tcSize m - 1) (tcSize m - 1)) bz && beqb (getLowerBound m (tcSize m - 1) (tcSize m - 1)) bz).
Definition hasSuffix (m : tcond) : bool :=
  negb (beqb (getUpperBound m 0 0) bz && beqb (getLowerBound m 0 0) bz).

(** timed_condition.hh:661-663 operator&& ; 657 includes *)
Definition tcAnd (a b : tcond) : tcond := zand a b.
Definition tcIncludes (a b : tcond) : bool := zincludes a b.

(** timed_condition.hh:684-700 applyResets(resets), constants only *)
Definition setRegion (m : tcond) (x : nat) (q : Q) : tcond :=
  let e := (tcSize m - 1)%nat in
  if Qeq_bool q (qfloor q)
  then restrictUpperBound (restrictLowerBound m x e (Fin (- q) true) true) x e (Fin q true) true
  else restrictUpperBound (restrictLowerBound m x e (Fin (- qfloor q) false) true) x e (Fin (inject_Z (Qceiling q)) false) true.
Definition tcReset1 (m : tcond) (r : clock * rhs) : tcond :=
  match r with
  | (x, RConst q) => setRegion (unconstrain m x) x q
  | (x, RVar _) => m (* assert(assignedValue.index() == 0) *)
  end.
Definition tcApplyResets (m : tcond) (rs : resets) : tcond := fold_left tcReset1 rs m.

(** timed_condition.hh:774-776 isPoint(i) *)
Definition isPointAt (m : tcond) (i : nat) : bool :=
  isPoint (getUpperBound m i (tcSize m - 1)) (getLowerBound m i (tcSize m - 1)).
