(** Specification of morphisms between elementary languages, recognizable
    timed languages and counterexample analysis. *)
From Coq Require Import QArith ZArith List.
From Verif Require Import BoundsModel ConstraintModel ZoneModel ZoneSpec AutomatonModel TimedWordModel TimedWordSpec
  TimedConditionModel TimedConditionSpec ElementaryModel ElementarySpec RegionalModel RegionalSpec CexModel.
Import ListNotations.
Open Scope Q_scope.

(** a word as the library handles them: one duration more than actions, no
    negative duration, observable actions *)
Definition properTW (w : tword) : Prop := nonnegTW w /\ ~ In UNOBSERVABLE (tw w).
(** a usable elementary language of such words *)
Definition properEL (x : elem) : Prop :=
  wfElem x /\ visible x /\ forall w, inElem x w -> Forall (fun q => 0 <= q) (td w).
(** the words are related by the renaming: the time since event i of the first
    equals the time since event j of the second, for each pair (i, j) *)
Definition related (ren : list (nat * nat)) (w w' : tword) : Prop :=
  forall i j, In (i, j) ren -> since (td w) i == since (td w') j.
(** a morphism as built from an observation table: the codomain is one region,
    and each word of the domain has a related word in it *)
Definition properMorph (m : morph) : Prop :=
  properEL (mdom m) /\ properEL (mcod m) /\ elIsSimple (mcod m) = true /\
  (forall i j, In (i, j) (mren m) -> (i <= length (ew (mdom m)))%nat /\ (j <= length (ew (mcod m)))%nat) /\
  (forall w, inElem (mdom m) w -> exists w', inElem (mcod m) w' /\ related (mren m) w w').
Definition properRL (h : rlang) : Prop :=
  (forall x, In x (rprefixes h) -> properEL x) /\ (forall x, In x (rfinal h) -> properEL x) /\
  (forall m, In m (rmorphs h) -> properMorph m).

(** [w] is read through the morphism [m]: a prefix of [w] in its domain is
    replaced by a related word of its codomain *)
Definition mapsStep (h : rlang) (w w' s : tword) : Prop :=
  exists m p p', In m (rmorphs h) /\ inElem (mdom m) p /\ inElem (mcod m) p' /\ related (mren m) p p' /\
    properTW s /\ sameTW w (concatTW p s) /\ sameTW w' (concatTW p' s).

(** the target: a set of timed words, given by what the oracle answers *)
Definition respects (f : tword -> bool) : Prop := forall x y, sameTW x y -> f x = f y.
(** the suffix [s] shows that the hypothesis is wrong about some morphism:
    it separates a word of its domain from a related word of its codomain *)
Definition breaks (h : rlang) (f : tword -> bool) (s : tword) : Prop :=
  exists m p p', In m (rmorphs h) /\ inElem (mdom m) p /\ inElem (mcod m) p' /\ related (mren m) p p' /\
    properTW s /\ f (concatTW p s) <> f (concatTW p' s).
(** [w] is read as [w']: a prefix is replaced along a morphism, repeatedly *)
Inductive reads (h : rlang) : tword -> tword -> Prop :=
| reads_done w : reads h w w
| reads_step w w1 s w2 : mapsStep h w w1 s -> reads h w1 w2 -> reads h w w2.
(** the word after [n] rounds of the loop of contains() and analyzeCEX() *)
Fixpoint afterRounds (n : nat) (h : rlang) (w : tword) : option tword :=
  match n with
  | O => Some w
  | S k => if inPrefixes h w then None else match rSplit h w with None => None | Some t => afterRounds k h (splitApply t) end
  end.
