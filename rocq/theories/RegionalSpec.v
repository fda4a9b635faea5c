(** Specification of fractional orders and regional elementary languages. *)
From Coq Require Import QArith ZArith List Sorted Permutation Qround.
From Verif Require Import BoundsModel ConstraintModel ZoneModel TimedWordModel TimedWordSpec TimedConditionModel TimedConditionSpec
  ElementaryModel ElementarySpec RegionalModel.
Import ListNotations.
Open Scope Q_scope.

(** lo < v_1 < v_2 < ... where v_k is the common value of the k-th block *)
Fixpoint ordAbove (lo : Q) (bs : list (list nat)) (f : nat -> Q) : Prop :=
  match bs with
  | [] => True
  | b :: r => b <> [] /\ exists v, lo < v /\ (forall i, In i b -> f i == v) /\ ordAbove v r f
  end.
(** [{x1,x2},{x3},...] means 0 = f x1 = f x2 < f x3 < ... ; the variables are
    0 .. n-1, each once, ascending inside a block *)
Definition orderOf (o : forder) (n : nat) (f : nat -> Q) : Prop :=
  fsize o = n /\ Permutation (concat (blocks o)) (seq 0 n) /\ Forall (StronglySorted lt) (blocks o) /\
  match blocks o with
  | [] => False
  | z :: r => (forall i, In i z -> f i == 0) /\ ordAbove 0 r f
  end.

(** letting time pass at the end of the word (q >= 0), or taking it back *)
Definition delayed (d : list Q) (q : Q) : list Q := addBack d q.
(** letting time pass at the beginning *)
Definition predelayed (d : list Q) (q : Q) : list Q := match d with [] => [] | x :: r => (x + q) :: r end.

(** the durations since each event: x_i = T_{i,n}; up to each event: T_{0,i} *)
Definition since (d : list Q) (i : nat) : Q := T d i (length d - 1).
Definition upto (d : list Q) (i : nat) : Q := T d 0 i.

(** the bounds u, l say exactly which point or open unit interval q lies in *)
Definition unitBounds (u l : bound) (q : Q) : Prop :=
  exists z c e,
    (u = Fin c true /\ l = Fin e true /\ c == inject_Z z /\ e == - inject_Z z /\ q == inject_Z z) \/
    (u = Fin c false /\ l = Fin e false /\ c == inject_Z z + 1 /\ e == - inject_Z z /\ inject_Z z < q /\ q < inject_Z z + 1).
(** the condition of the language bounds every T_{i,j} by the unit in which
    it lies for the durations d (and the unused diagonal admits 0) *)
Definition regionCond (m : tcond) (d : list Q) : Prop :=
  length d = tcSize m /\ ((2 <= dim m)%nat /\ forall k, (k < dim m)%nat -> bsat (get m k k) 0) /\
  forall i j, (i <= j)%nat -> (j < tcSize m)%nat -> unitBounds (getUpperBound m i j) (getLowerBound m i j) (T d i j).

(** a forward regional language is the region of [w]: same letters, the
    bounds of the region of its durations, and the order of the fractional
    parts of the T_{i,n} *)
Definition regionalF (x : frel) (w : tword) : Prop :=
  tw w = ew (fel x) /\ wfTW w /\ regionCond (ec (fel x)) (td w) /\
  orderOf (fo x) (length (td w)) (fun i => frac (since (td w) i)).
(** the same for backward regional languages, over the T_{0,i} *)
Definition regionalB (x : frel) (w : tword) : Prop :=
  tw w = ew (fel x) /\ wfTW w /\ regionCond (ec (fel x)) (td w) /\
  orderOf (fo x) (length (td w)) (fun i => frac (upto (td w) i)).

(** [q] reaches the next region and no region in between is skipped: up to
    some moment the durations stay in the region of d, afterwards they are in
    the region reached *)
Definition nextRegion (move : list Q -> Q -> list Q) (d : list Q) (q : Q) : Prop :=
  0 < q /\ ~ sameRegion d (move d q) /\
  forall e, 0 <= e -> e <= q -> sameRegion d (move d e) \/ sameRegion (move d q) (move d e).

(** a timed word that can occur: well formed, no negative duration *)
Definition nonnegTW (w : tword) : Prop := wfTW w /\ Forall (fun q => 0 <= q) (td w).
(** [p] can be extended to [w] by letting time pass and events happen *)
Definition timedPrefix (p w : tword) : Prop :=
  nonnegTW p /\ exists y, nonnegTW y /\ sameTW w (concatTW p y).
(** [k] continuous successors *)
Fixpoint frSuccs (k : nat) (x : frel) : frel := match k with O => x | S n => frSuccs n (frSucc x) end.

(** a backward regional language with the order of the fractional parts of
    the -T_{0,i}, the times still to go when the start is moved back *)
Definition regionalBack (x : frel) (w : tword) : Prop :=
  tw w = ew (fel x) /\ wfTW w /\ regionCond (ec (fel x)) (td w) /\
  orderOf (fo x) (length (td w)) (fun i => frac (- upto (td w) i)).
