(** Model of include/zone.hh (difference bound matrices) and
    include/juxtaposed_zone.hh.

    A zone is its matrix [value]; the thresholds [M] and [maxConstraints] are
    passed as arguments to the operations that use them.  Matrix index 0 is
    the constant clock, index x+1 the clock x (the code computes it by
    incrementing a ClockVariables, with the literal -1 wrapping to 0). *)
From Coq Require Import QArith ZArith Bool List.
From Verif Require Import BoundsModel ConstraintModel.
Import ListNotations.
Open Scope Q_scope.

Definition matrix := list (list bound).

(** [value(i, j)] (out of range: undefined behaviour in Eigen release builds;
    all statements range over indices below the dimension). *)
Definition get (m : matrix) (i j : nat) : bound := nth j (nth i m []) Inf.

(** [value.cols()] *)
Definition dim (m : matrix) : nat := length m.

(** the n x n matrix with entries [f i j] *)
Definition mk (n : nat) (f : nat -> nat -> bound) : matrix :=
  map (fun i => map (f i) (seq 0 n)) (seq 0 n).

(** assignment to one coefficient *)
Definition set1 (m : matrix) (x y : nat) (b : bound) : matrix :=
  mk (dim m) (fun i j => if (i =? x)%nat && (j =? y)%nat then b else get m i j).

Definition bz : bound := Fin 0 true.

(** zone.hh:71-79 [Zone::zero(size)] (size = number of clocks + 1) *)
Definition zzero (n : nat) : matrix := mk n (fun _ _ => bz).

(** zone.hh:84-92 [Zone::top(size)] *)
Definition ztop (n : nat) : matrix := mk n (fun _ _ => Inf).

(** zone.hh:263, one iteration of the loop of close1: row i := min(row i, row x + value(i,x)) *)
Definition closeRow (x : nat) (m : matrix) (i : nat) : matrix :=
  mk (dim m) (fun a j => if (a =? i)%nat then bmin (get m i j) (badd (get m x j) (get m i x)) else get m a j).

(** zone.hh:261-268 close1 *)
Definition close1 (m : matrix) (x : nat) : matrix :=
  fold_left (closeRow x) (seq 0 (dim m)) m.

(** zone.hh:314-318 canonize *)
Definition canonize (m : matrix) : matrix := fold_left close1 (seq 0 (dim m)) m.

(** zone.hh:333-335 isSatisfiableNoCanonize *)
Definition isSatNoCanon (m : matrix) : bool :=
  forallb (fun i => forallb (fun j => ble bz (badd (get m i j) (get m j i))) (seq 0 (dim m))) (seq 0 (dim m)).

(** zone.hh:323-326 isSatisfiable *)
Definition isSatisfiable (m : matrix) : bool := isSatNoCanon (canonize m).

(** zone.hh:95-101 tighten(x, y, c), on matrix indices *)
Definition tighten (m : matrix) (x y : nat) (c : bound) : matrix :=
  close1 (close1 (set1 m x y (bmin (get m x y) c)) x) y.

(** zone.hh:104-123 tighten(Constraint) *)
Definition tightenC (m : matrix) (k : constraint) : matrix :=
  match codr k with
  | Oge => tighten m 0 (S (cx k)) (Fin (- inject_Z (cc k)) true)
  | Ogt => tighten m 0 (S (cx k)) (Fin (- inject_Z (cc k)) false)
  | Ole => tighten m (S (cx k)) 0 (Fin (inject_Z (cc k)) true)
  | Olt => tighten m (S (cx k)) 0 (Fin (inject_Z (cc k)) false)
  end.

(** zone.hh:126-130 tighten(guard) *)
Definition tightenG (m : matrix) (g : guard) : matrix := fold_left tightenC g m.

(** zone.hh:51-60 Zone(valuation, M): the zone containing one valuation *)
Definition zpoint1 (v : nat -> Q) (m : matrix) (i : nat) : matrix :=
  tighten (tighten m (S i) 0 (Fin (v i) true)) 0 (S i) (Fin (- v i) true).
Definition zpoint (n : nat) (v : nat -> Q) : matrix :=
  fold_left (zpoint1 v) (seq 0 n) (ztop (S n)).

(** zone.hh:283-288 unconstrain(x), x a clock *)
Definition unconstrain (m : matrix) (x : clock) : matrix :=
  mk (dim m) (fun i j => if (i =? S x)%nat || (j =? S x)%nat then Inf else get m i j).

(** timed_automaton.hh resetVars: clock := constant | clock *)
Inductive rhs := RConst (q : Q) | RVar (y : clock).
Definition resets := list (clock * rhs).

(** zone.hh:134-141, one renaming; self-renamings are skipped *)
Definition zrename (m : matrix) (r : clock * rhs) : matrix :=
  match r with
  | (x, RVar y) => if (x =? y)%nat then m
                   else canonize (set1 (set1 (unconstrain m x) (S x) (S y) bz) (S y) (S x) bz)
  | _ => m
  end.

(** zone.hh:143-150, one constant assignment *)
Definition zassign (m : matrix) (r : clock * rhs) : matrix :=
  match r with
  | (x, RConst q) => canonize (set1 (set1 (unconstrain m x) 0 (S x) (Fin (- q) true)) (S x) 0 (Fin q true))
  | _ => m
  end.

(** zone.hh:132-151 applyResets *)
Definition zapplyResets (m : matrix) (rs : resets) : matrix :=
  fold_left zassign rs (fold_left zrename rs m).

(** zone.hh:158-177 revertResets; [reverseAssignments] keeps the last entry
    for a source variable. *)
Definition revFind (rs : resets) (y : clock) : option clock :=
  fold_left (fun acc r => match r with
                          | (x, RVar y') => if (y' =? y)%nat && negb (x =? y')%nat then Some x else acc
                          | _ => acc end) rs None.
Definition zrevert1 (rs : resets) (m : matrix) (x : clock) : matrix :=
  let m1 := unconstrain m x in
  canonize (match revFind rs x with
            | Some t => set1 (set1 m1 (S x) (S t) bz) (S t) (S x) bz
            | None => m1
            end).
Definition zrevertResets (m : matrix) (rs : resets) : matrix :=
  fold_left (zrevert1 rs) (rev (map fst rs)) m.

(** zone.hh:182-203 operator&&, operator&= *)
Definition zand (a b : matrix) : matrix :=
  canonize (mk (dim a) (fun i j => bmin (get a i j) (get b i j))).

(** zone.hh:295-298 elapse *)
Definition elapse (m : matrix) : matrix :=
  mk (dim m) (fun i j => if (j =? 0)%nat then Inf else get m i j).

(** zone.hh:307-309 reverseElapse *)
Definition reverseElapse (m : matrix) : matrix :=
  mk (dim m) (fun i j => if (i =? 0)%nat then bz else get m i j).

(** zone.hh:347-356 abstractize, [M] the first component of the threshold *)
Definition abstractize (M : Q) (m : matrix) : matrix :=
  mk (dim m) (fun i j =>
    if blt (Fin M true) (get m i j) then Inf
    else if blt (get m i j) (Fin (- M) false) then Fin (- M) false
    else get m i j).

(** [b.first > c] and [-b.first > c] for a double c < DBL_MAX *)
Definition bfst_gt (b : bound) (c : Q) : bool := match b with Fin q _ => Qltb c q | Inf => true end.
Definition bfst_neg_gt (b : bound) (c : Q) : bool := match b with Fin q _ => Qltb c (- q) | Inf => false end.

(** zone.hh:373-381, the inner loop body *)
Definition extraInner (mc : list Q) (i : nat) (m : matrix) (j : nat) : matrix :=
  if bfst_gt (get m (S i) (S j)) (nth i mc 0)
     || bfst_neg_gt (get m 0 (S i)) (nth i mc 0)
     || bfst_neg_gt (get m 0 (S j)) (nth j mc 0)
  then set1 m (S i) (S j) Inf else m.
(** zone.hh:366-372 *)
Definition extraOuter (mc : list Q) (m : matrix) (i : nat) : matrix :=
  let m1 := if bfst_gt (get m (S i) 0) (nth i mc 0) then set1 m (S i) 0 Inf else m in
  let m2 := if bfst_neg_gt (get m1 0 (S i)) (nth i mc 0)
            then set1 m1 0 (S i) (Fin (- nth i mc 0) false) else m1 in
  fold_left (extraInner mc i) (seq 0 (length mc)) m2.
(** zone.hh:364-383 extrapolate *)
Definition extrapolate (mc : list Q) (m : matrix) : matrix :=
  fold_left (extraOuter mc) (seq 0 (length mc)) m.

(** zone.hh:397-399 includes *)
Definition zincludes (this z : matrix) : bool :=
  forallb (fun i => forallb (fun j => beqb (bmax (get this i j) (get z i j)) (get this i j))
                            (seq 0 (dim this))) (seq 0 (dim this)).

(** zone.hh:406-408 operator== *)
Definition zeq (a b : matrix) : bool :=
  (dim a =? dim b)%nat &&
  forallb (fun i => forallb (fun j => beqb (get a i j) (get b i j)) (seq 0 (dim a))) (seq 0 (dim a)).

(** zone.hh:425-428 strictEqual: equality off the diagonal *)
Definition zstrictEqual (a b : matrix) : bool :=
  forallb (fun i => forallb (fun j => (i =? j)%nat || beqb (get a i j) (get b i j)) (seq 0 (dim a))) (seq 0 (dim a)).

(** [value.diagonal().fill({0,true})], e.g. ta2za.cc:76 *)
Definition zeroDiag (m : matrix) : matrix :=
  mk (dim m) (fun i j => if (i =? j)%nat then bz else get m i j).

(** zone.hh:226-258 sample.  [None]: one of the bounds used is infinite or
    the assertion [lower <= upper] fails (the code would use DBL_MAX). *)
Definition bval (b : bound) : option Q := match b with Fin q _ => Some q | Inf => None end.
Definition bincl (b : bound) : bool := match b with Fin _ s => s | Inf => false end.
(** std::max / std::min on doubles *)
Definition qmax (a b : Q) : Q := if Qltb a b then b else a.
Definition qmin (a b : Q) : Q := if Qltb b a then b else a.
(** lines 241-246; an infinite bound never wins the max (-DBL_MAX + v) nor the min *)
Definition loUpd (m : matrix) (i : nat) (val : list Q) (lower : Q) (j : nat) : Q :=
  match bval (get m (S j) (S i)) with
  | Some b => qmax lower (- b + nth j val 0)
  | None => lower
  end.
Definition upUpd (m : matrix) (i : nat) (val : list Q) (upper : option Q) (j : nat) : option Q :=
  match bval (get m (S i) (S j)), upper with
  | Some b, Some u => Some (qmin u (b + nth j val 0))
  | Some b, None => Some (b + nth j val 0)
  | None, _ => upper
  end.
(** lines 232-254; [upper = None] is DBL_MAX *)
Definition sampleStep (m : matrix) (val : list Q) (i : nat) : list Q :=
  let lb := get m 0 (S i) in
  let ub := get m (S i) 0 in
  let v :=
    match isPoint ub lb, ub with
    | true, Fin u _ => u
    | _, _ =>
      let lower0 := match bval lb with Some b => qmax 0 (- b) | None => 0 end in
      let lower := fold_left (loUpd m i val) (seq 0 i) lower0 in
      let upper := fold_left (upUpd m i val) (seq 0 i) (bval ub) in
      if bincl lb then lower
      else match upper with
           | None => lower + (1#2)
           | Some u => if Qltb (1#2) (u - lower) then lower + (1#2) else (lower + u) * (1#2)
           end
    end in
  val ++ [v].
Definition zsample (m : matrix) : list Q :=
  let c := canonize m in
  fold_left (sampleStep c) (seq 0 (pred (dim c))) [].

(** *** juxtaposed_zone.hh *)
(** juxtaposed_zone.hh:34-48: two zones without shared variables.  The memo
    table (lines 30-33, 49) is a cache keyed by the two matrices. *)
Definition jux (l r : matrix) : matrix :=
  let nl := dim l in
  let nr := dim r in
  let f i j :=
    if (i <? nl)%nat && (j <? nl)%nat then get l i j
    else if (nl <=? i)%nat && (nl <=? j)%nat then get r (i - nl + 1) (j - nl + 1)
    else if (i =? 0)%nat && (nl <=? j)%nat then get r 0 (j - nl + 1)
    else if (nl <=? i)%nat && (j =? 0)%nat then get r (i - nl + 1) 0
    else Inf in
  canonize (mk (nl + nr - 1) f).

(** juxtaposed_zone.hh:70-117: [cv] variables in common, the last ones of both *)
Definition juxCommon (l r : matrix) (cv : nat) : matrix :=
  let M := pred (dim l) in
  let N := pred (dim r) in
  let n := (M + N - cv + 1)%nat in
  let cb := (M - cv + 1)%nat in        (* commonBeginIndex *)
  let cr := (N - cv + 1)%nat in        (* commonBeginInRightIndex *)
  let rb := (M + 1)%nat in             (* rightBeginIndex *)
  let isC i := (cb <=? i)%nat && (i <? cb + cv)%nat in
  let isR i := (rb <=? i)%nat in
  let m0 := mk n (fun i j => if (i <=? M)%nat && (j <=? M)%nat then get l i j else Inf) in
  let m1 := mk n (fun i j =>
      if isC i && isC j then bmin (get m0 i j) (get r (cr + (i - cb)) (cr + (j - cb)))
      else if (i =? 0)%nat && isC j then bmin (get m0 i j) (get r 0 (cr + (j - cb)))
      else if isC i && (j =? 0)%nat then bmin (get m0 i j) (get r (cr + (i - cb)) 0)
      else get m0 i j) in
  let m2 := canonize m1 in
  let m3 := mk n (fun i j =>
      if isR i && isR j then get r (1 + (i - rb)) (1 + (j - rb))
      else if (i =? 0)%nat && isR j then get r 0 (1 + (j - rb))
      else if isR i && (j =? 0)%nat then get r (1 + (i - rb)) 0
      else get m2 i j) in
  let m4 := canonize m3 in
  let m5 := mk n (fun i j =>
      if isR i && isC j then bmin (get m4 i j) (get r (1 + (i - rb)) (cr + (j - cb)))
      else if isC i && isR j then bmin (get m4 i j) (get r (cr + (i - cb)) (1 + (j - rb)))
      else get m4 i j) in
  canonize m5.

(** juxtaposed_zone.hh:130-141 *)
Definition renameSet (ls : nat) (m : matrix) (p : nat * nat) : matrix :=
  let li := S (fst p) in
  let ri := (snd p + ls + 1)%nat in
  let m1 := set1 m li ri (bmin (get m li ri) bz) in
  set1 m1 ri li (bmin (get m1 ri li) bz).
(** juxtaposed_zone.hh:127-146 addRenaming, [ls] = leftSize *)
Definition addRenaming (ls : nat) (m : matrix) (ren : list (nat * nat)) : matrix :=
  fold_left close1
    (flat_map (fun p => [S (fst p); (snd p + ls + 1)%nat]) ren)
    (fold_left (renameSet ls) ren m).

(** juxtaposed_zone.hh:149-160 makeRenaming *)
Definition makeRenaming (ls rs : nat) (m : matrix) : list (nat * nat) :=
  flat_map (fun l => flat_map (fun r =>
     if beqb (get m (S l) (ls + S r)) bz && beqb (get m (ls + S r) (S l)) bz then [(l, r)] else [])
     (seq 0 rs)) (seq 0 ls).

(** juxtaposed_zone.hh:167-183 getRight *)
Definition getRight (ls rs : nat) (m : matrix) : matrix :=
  canonize (mk (S rs) (fun i j =>
    match i, j with
    | O, O => Inf
    | O, S j' => get m 0 (ls + S j')
    | S i', O => get m (ls + S i') 0
    | S i', S j' => get m (ls + S i') (ls + S j')
    end)).

(** timed_automaton_runner.hh:60-71 applyReset: all right-hand sides are read
    in the old valuation. *)
Definition applyReset1 (old acc : valuation) (r : clock * rhs) : valuation :=
  fun z => if (z =? fst r)%nat
           then match snd r with RConst q => q | RVar y => old y end
           else acc z.
Definition applyReset (old : valuation) (rs : resets) : valuation :=
  fold_left (applyReset1 old) rs old.

(** juxtaposed_zone_set.hh:58-67 addRenaming on a set of juxtaposed zones *)
Definition jsAddRenaming (ls : nat) (zs : list matrix) (ren : list (nat * nat)) : list matrix :=
  filter isSatNoCanon (map (fun m => addRenaming ls m ren) zs).

(** juxtaposed_zone_set.hh:74-81 operator== *)
Definition jsEq (a b : list matrix) : bool :=
  (length a =? length b)%nat && forallb (fun z => existsb (fun z' => zstrictEqual z z') b) a.
