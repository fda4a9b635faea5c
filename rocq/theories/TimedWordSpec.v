(** Specification of timed words as step functions of time: the word is read
    as the list of its events with the absolute time at which each occurs, and
    a total duration. *)
From Coq Require Import QArith List.
From Verif Require Import AutomatonModel TimedWordModel.
Import ListNotations.
Open Scope Q_scope.

(** a timed word has one duration more than events *)
Definition wfTW (x : tword) : Prop := length (td x) = S (length (tw x)).
(** same letters, numerically equal durations *)
Definition sameTW (x y : tword) : Prop := tw x = tw y /\ Forall2 Qeq (td x) (td y).

(** the events with their absolute times, reading the durations from [t] *)
Fixpoint timeline (t : Q) (word : list letter) (durs : list Q) : list (Q * letter) :=
  match word, durs with
  | a :: word', q :: durs' => (t + q, a) :: timeline (t + q) word' durs'
  | _, _ => []
  end.
Fixpoint total (durs : list Q) : Q := match durs with [] => 0 | q :: r => q + total r end.
(** a timeline compared numerically *)
Definition sameTL (a b : list (Q * letter)) : Prop :=
  Forall2 (fun p q => fst p == fst q /\ snd p = snd q) a b.
(** only the observable events *)
Definition observableTL (l : list (Q * letter)) : list (Q * letter) :=
  filter (fun p => negb (Nat.eqb (snd p) UNOBSERVABLE)) l.
(** [p] is a prefix of [x] *)
Definition prefixTW (p x : tword) : Prop := exists y, wfTW y /\ sameTW x (concatTW p y).
(** [p] read up to time [t] of [x]: what a word says before its suffix *)
Definition timelineOf (x : tword) : list (Q * letter) := timeline 0 (tw x) (td x).
Definition later (t : Q) (l : list (Q * letter)) : list (Q * letter) := map (fun p => (t + fst p, snd p)) l.
