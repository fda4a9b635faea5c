(** Specification of the row equivalence of the observation table. *)
From Coq Require Import QArith List.
From Verif Require Import BoundsModel ConstraintModel ZoneModel ZoneSpec AutomatonModel TimedWordModel TimedWordSpec
  TimedConditionModel TimedConditionSpec ElementaryModel ElementarySpec RegionalModel RegionalSpec OracleModel SymbolicModel SymbolicSpec
  CexModel CexSpec RenamingModel.
Import ListNotations.
Open Scope Q_scope.

(** one cell of the table as the symbolic oracle answers it: the conditions
    hold exactly of the members of [x] in the target, each is usable, and no
    two of them overlap *)
Definition exactCell (f : tword -> bool) (x : elem) (cs : list tcond) : Prop :=
  exactAnswer f x cs /\ (forall c, In c cs -> wfElem (mkEL (ew x) c)) /\
  (forall i j d, (i < length cs)%nat -> (j < length cs)%nat -> inCond (nth i cs []) d -> inCond (nth j cs []) d -> i = j).
(** the row of the prefix [x] for the suffixes [sufs] *)
Definition exactRow (f : tword -> bool) (x : elem) (sufs : list elem) (row : list (list tcond)) : Prop :=
  Forall2 (fun s cs => exactCell f (elConcat x s) cs) sufs row.

(** every pair relates a duration of [x] to one of [y] *)
Definition renIn (ren : list (nat * nat)) (x y : elem) : Prop :=
  forall i j, In (i, j) ren -> (i <= length (ew x))%nat /\ (j <= length (ew y))%nat.

(** no suffix of the given languages distinguishes related words of [x] and
    [y], and there are such words *)
Definition indistinguishable (f : tword -> bool) (x y : elem) (sufs : list elem) (ren : list (nat * nat)) : Prop :=
  (exists p p', inElem x p /\ inElem y p' /\ related ren p p') /\
  forall z p p' s, In z sufs -> inElem x p -> inElem y p' -> related ren p p' -> inElem z s ->
    f (concatTW p s) = f (concatTW p' s).

(** ** The candidates of findDeterministicEquivalentRenaming
    an event of [y] is renamed if some event of [x] has the same upper bound on
    the time since it, and the bound is strict *)
Definition sameUpper (x y : elem) (i j : nat) : Prop :=
  (i < tcSize (ec x))%nat /\ (j < tcSize (ec y))%nat /\ beqb (getUpperBound (ec x) i (tcSize (ec x) - 1)) (getUpperBound (ec y) j (tcSize (ec y) - 1)) = true.
Definition renamed (x y : elem) (j : nat) : Prop :=
  (exists i, sameUpper x y i j) /\ bSnd (getUpperBound (ec y) j (tcSize (ec y) - 1)) = false.
(** no time passes between event [k - 1] and event [k] *)
Definition together (x : elem) (k : nat) : Prop := (0 < k)%nat /\ beqb (getUpperBound (ec x) (k - 1) (k - 1)) bz = true.
(** a full candidate renames exactly these events, in their order; an event that
    comes together with the one before it gets the same event of [x]; any other
    one a later event of [x] that does not come together with the one before
    it; both are constrained by the columns or neither is *)
Definition fullCandidate (x y : elem) (lcon rcon : list nat) (c : renaming) : Prop :=
  (forall j, In j (map snd c) <-> renamed x y j) /\
  (forall a b, (a < b)%nat -> (b < length c)%nat -> (snd (nth a c (0, 0)) < snd (nth b c (0, 0)))%nat) /\
  forall k, (k < length c)%nat ->
    let i := fst (nth k c (0, 0)%nat) in let j := snd (nth k c (0, 0)%nat) in
    sameUpper x y i j /\
    (together y j -> (0 < k)%nat /\ i = fst (nth (k - 1) c (0, 0)%nat)) /\
    (~ together y j -> (k = 0%nat \/ (fst (nth (k - 1) c (0, 0)) < i)%nat) /\ (In i lcon <-> In j rcon) /\ ~ together x i).
