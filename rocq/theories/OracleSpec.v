(** Specification vocabulary for the oracles. *)
From Coq Require Import QArith Bool List Arith.
From Verif Require Import ConstraintModel AutomatonModel AutomatonSpec TimedWordModel TimedWordSpec OracleModel.
Import ListNotations.
Open Scope Q_scope.

(** a fresh runner of [A] answers [b] on the word [x] *)
Definition says (fuel : nat) (A : ta) (x : tword) (b : bool) : Prop :=
  exists r, answerQuery fuel (mkRunner A) (firstDur x) (events x) = Some (r, b).
(** the word distinguishes the two automata *)
Definition differ (fuel : nat) (A B : ta) (x : tword) : Prop :=
  exists a b, says fuel A x a /\ says fuel B x b /\ a <> b.
Definition agree (fuel : nat) (A B : ta) (x : tword) : Prop :=
  exists b, says fuel A x b /\ says fuel B x b.
(** a timed word as the library builds them *)
Definition goodTW (x : tword) : Prop := wfTW x /\ ~ In UNOBSERVABLE (tw x).
(** an equivalence oracle returns only distinguishing words *)
Definition soundFor {St} (fuel : nat) (A : ta) (o : eOracle St) : Prop :=
  forall s h s' x, o s h = Some (s', Some x) -> goodTW x /\ differ fuel A h x.
(** what happened in a run of an oracle on a list of hypotheses: the i-th
    answer was given by the oracle in some state *)
Definition acceptsTW (A : ta) (x : tword) : Prop := accepts A (firstDur x) (events x).
(** automata for which the runner decides acceptance (see C27) *)
Definition plainDTA (A : ta) : Prop :=
  wfTA A /\ noSilent A /\ nonnegResets A /\ detTA A /\ exists l0, tinit A = [l0].
Definition nonnegTW (x : tword) : Prop := forall q, In q (td x) -> 0 <= q.
(** no two words of the list are equal *)
Fixpoint allDistinct (l : list tword) : Prop :=
  match l with [] => True | x :: r => (forall y, In y r -> ~ sameTW x y) /\ allDistinct r end.
