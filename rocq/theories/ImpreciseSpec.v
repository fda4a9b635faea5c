(** Specification for ImpreciseClockHandler::run: what relaxing does to an
    automaton, and what is on its loop. *)
From Coq Require Import QArith ZArith List Arith.
From Verif Require Import ConstraintModel GuardSpec AutomatonModel TimedWordModel TimedConditionModel TimedConditionSpec RegionalModel RegionalSpec RenamingModel HypothesisModel NeighborModel NeighborSpec TargetResetModel ImpreciseModel.
Import ListNotations.
Open Scope Q_scope.

(** [t'] leads where [t] leads and fires whenever [t] does *)
Definition relaxation (t t' : trans) : Prop :=
  ttgt t' = ttgt t /\ forall v, gsat (tgrd t) v -> gsat (tgrd t') v.
(** the same states, letters and acceptance; to each list of transitions only
    relaxations of transitions of the list are added, at its end *)
Definition onlyRelaxes (sts sts' : list (loc * tastate)) : Prop :=
  Forall2 (fun p p' => fst p' = fst p /\ isMatch (snd p') = isMatch (snd p) /\
    Forall2 (fun e e' => fst e' = fst e /\
      exists new, snd e' = snd e ++ new /\ forall t', In t' new -> exists t, In t (snd e) /\ relaxation t t')
      (snext (snd p)) (snext (snd p'))) sts sts'.
(** [t] leaves the state [q] (the first one at this address) *)
Definition leaves (sts : list (loc * tastate)) (q : loc) (t : trans) : Prop :=
  exists p a ts, find (fun p => (fst p =? q)%nat) sts = Some p /\ find (fun e => (fst e =? a)%nat) (snext (snd p)) = Some (a, ts) /\ In t ts.
(** the values the clocks have in the situations that look like [u], clock by clock *)
Definition looksLike (u : tword) (v : nat -> Q) : Prop :=
  nonneg v /\ forall k, (k < length (td u))%nat -> sameUnit (clocksOf u k) (v k).
(** [u] is the word [w] after [e] time units, up to equality of rationals *)
Definition later (w u : tword) (e : Q) : Prop :=
  0 <= e /\ length (td u) = length (td w) /\ forall k, (k < length (td w))%nat -> since (td u) k == since (td w) k + e.
(** the neighbours after [n] regions *)
Fixpoint nbSuccs (ord : list frel -> list frel) (k n : nat) (c : nbr) : option nbr :=
  match n with
  | O => Some c
  | S m => match nbSucc ord k c with Some c' => nbSuccs ord k m c' | None => None end
  end.
(** the guard of the transition made from [t]: without upper bounds if [t] has
    none *)
Definition newGuard (c : nbr) (t : trans) : guard :=
  if existsb isUpper (tgrd t) then toRelaxedGuard c else filter (fun d => negb (isUpper d)) (toRelaxedGuard c).
(** [t] is matched and that guard is strictly weaker *)
Definition relaxable (c : nbr) (t : trans) : Prop :=
  nbMatch c (tgrd t) = true /\ isWeaker (newGuard c t) (tgrd t) = true /\ isWeaker (tgrd t) (newGuard c t) = false.
(** if [t] can be relaxed, the transition made from it leaves [q] with letter [a]
    in [sts'], and the neighbours after [t] go to the work list [Q] if they have
    imprecise clocks, and precise ones.  The clock size of the target is that
    of some moment between [sts] and [sts'] *)
Definition relaxedInto (ord : list frel -> list frel) (k : nat) (c : nbr) (a : letter) (t : trans) (q : loc) (sts sts' : states) (Q : loc * nbr -> Prop) : Prop :=
  relaxable c t ->
  exists N c', (clockSizeAt sts (ttgt t) <= N)%nat /\ (N <= clockSizeAt sts' (ttgt t))%nat /\ makeAfter ord k c a t N = Some c' /\
    In (mkT (ttgt t) (embedIfImprecise (trst t) (preciseAfterReset (nPrec c) N (trst t)) (toValuation (ElementaryModel.ec (fel (nOrig c'))))) (newGuard c t))
       (nfind (nextOf sts' q) a) /\
    (preciseAfterReset (nPrec c) N (trst t) <> [] -> nbPrecise c' = false -> Q (ttgt t, c')).
(** the loop for the pair (q, c) has been gone through, for [n] + 1 regions:
    the transitions of [q] are relaxed for each; something has matched; for the
    last region no match has an upper bound; and whenever it went on, nothing
    had matched, or a match had an upper bound *)
Definition explored (ord : list frel -> list frel) (k : nat) (q : loc) (c : nbr) (sts sts' : states) (Q : loc * nbr -> Prop) : Prop :=
  exists n cn, nbSuccs ord k n c = Some cn /\
    (forall j cj a t, (j <= n)%nat -> nbSuccs ord k j c = Some cj -> In t (nfind (nextOf sts q) a) -> relaxedInto ord k cj a t q sts sts' Q) /\
    (exists j cj t, (j <= n)%nat /\ nbSuccs ord k j c = Some cj /\ leaves sts' q t /\ nbMatch cj (tgrd t) = true) /\
    (forall t, leaves sts q t -> nbMatch cn (tgrd t) = true -> existsb isUpper (tgrd t) = false) /\
    (forall j cj, (j < n)%nat -> nbSuccs ord k j c = Some cj ->
       (forall i ci t, (i <= j)%nat -> nbSuccs ord k i c = Some ci -> leaves sts q t -> nbMatch ci (tgrd t) = false) \/
       (exists t, leaves sts' q t /\ nbMatch cj (tgrd t) = true /\ existsb isUpper (tgrd t) = true)).
