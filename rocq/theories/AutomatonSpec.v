(** Specification: the timed language of an automaton, by declarative runs. *)
From Coq Require Import QArith ZArith Bool List.
From Verif Require Import ConstraintModel GuardSpec ZoneModel AutomatonModel.
Import ListNotations.
Open Scope Q_scope.

(** [t] is a transition labelled [a] leaving location [l]. *)
Definition edge (A : ta) (l : loc) (a : letter) (t : trans) : Prop :=
  exists s ts, In (l, s) (tstates A) /\ In (a, ts) (snext s) /\ In t ts.
Definition accepting (A : ta) (l : loc) : Prop :=
  exists s, In (l, s) (tstates A) /\ isMatch s = true.

Definition conf := (loc * valuation)%type.
Definition veq (v v' : valuation) : Prop := forall x, v x == v' x.

(** parallel assignment: a clock assigned by the list gets the value of its
    last entry, read in the old valuation; the others keep theirs *)
Definition isReset (rs : resets) (v v' : valuation) : Prop :=
  forall x,
    (~ In x (map fst rs) -> v' x == v x) /\
    (forall a r b, rs = a ++ (x, r) :: b -> ~ In x (map fst b) ->
       v' x == match r with RConst q => q | RVar y => v y end).

(** a discrete step *)
Definition fire (A : ta) (a : letter) (c c' : conf) : Prop :=
  exists t, edge A (fst c) a t /\ gsat (tgrd t) (snd c) /\ fst c' = ttgt t /\ isReset (trst t) (snd c) (snd c').

(** letting [d] time units pass, with unobservable steps on the way *)
Inductive flow (A : ta) : conf -> Q -> conf -> Prop :=
| flow_delay l v d v' : 0 <= d -> veq v' (delay v d) -> flow A (l, v) d (l, v')
| flow_silent c d1 c1 c2 d2 c' d : flow A c d1 c1 -> fire A UNOBSERVABLE c1 c2 -> flow A c2 d2 c' ->
    d == d1 + d2 -> flow A c d c'.

(** reading events (letter, duration afterwards) *)
Inductive run (A : ta) : conf -> list (letter * Q) -> conf -> Prop :=
| run_nil c : run A c [] c
| run_cons c a d c1 c2 w c' : fire A a c c1 -> flow A c1 d c2 -> run A c2 w c' -> run A c ((a, d) :: w) c'.

(** the timed word d0 (a1,d1) ... (an,dn) is accepted *)
Definition accepts (A : ta) (d0 : Q) (w : list (letter * Q)) : Prop :=
  exists l0 c0 c, In l0 (tinit A) /\ flow A (l0, fun _ => 0) d0 c0 /\ run A c0 w c /\ accepting A (fst c).

(** a timed word over an alphabet *)
Definition wordOver (alphabet : list letter) (d0 : Q) (w : list (letter * Q)) : Prop :=
  0 <= d0 /\ forall a d, In (a, d) w -> In a alphabet /\ 0 <= d.

(** same timed language *)
Definition sameLang (A B : ta) : Prop := forall d0 w, accepts A d0 w <-> accepts B d0 w.

(** a well-formed automaton: addresses are distinct, each letter has one entry,
    transitions and initial states point into the automaton *)
Definition wfTA (A : ta) : Prop :=
  NoDup (map fst (tstates A)) /\
  (forall l s, In (l, s) (tstates A) -> NoDup (map fst (snext s))) /\
  (forall l a t, edge A l a t -> In (ttgt t) (map fst (tstates A))) /\
  (forall l, In l (tinit A) -> In l (map fst (tstates A))).
Definition noSilent (A : ta) : Prop := forall l t, ~ edge A l UNOBSERVABLE t.
(** clocks are never made negative *)
Definition nonnegResets (A : ta) : Prop :=
  forall l a t x q, edge A l a t -> In (x, RConst q) (trst t) -> 0 <= q.
Definition smallTA (A : ta) : Prop := forall l a t, edge A l a t -> smallConsts (tgrd t).
(** no valuation enables two transitions (at different positions) with the
    same letter *)
Definition detTA (A : ta) : Prop :=
  forall l s a ts, In (l, s) (tstates A) -> In (a, ts) (snext s) ->
  forall i j ti tj v, (i < j)%nat -> nth_error ts i = Some ti -> nth_error ts j = Some tj ->
    nonneg v -> ~ (gsat (tgrd ti) v /\ gsat (tgrd tj) v).

(** graph reachability in the automaton *)
Inductive areach (A : ta) : loc -> Prop :=
| ar_init l : In l (tinit A) -> areach A l
| ar_step l a t : areach A l -> edge A l a t -> areach A (ttgt t).

(** some accepting state is reachable in the graph *)
Inductive alive (A : ta) : loc -> Prop :=
| al_acc l : accepting A l -> alive A l
| al_step l a t : edge A l a t -> alive A (ttgt t) -> alive A l.

(** every transition's guard satisfies [P] *)
Definition allGuards (P : guard -> Prop) (A : ta) : Prop := forall l a t, edge A l a t -> P (tgrd t).
(** transitions with the same source, letter and target do the same resets *)
Definition resetsAgree (A : ta) : Prop :=
  forall l a t u, edge A l a t -> edge A l a u -> ttgt t = ttgt u ->
  forall v v', isReset (trst t) v v' -> isReset (trst u) v v'.

(** every clock mentioned by the automaton is below [n] *)
Definition clocksBelow (n : nat) (A : ta) : Prop :=
  forall l a t, edge A l a t ->
    (forall k, In k (tgrd t) -> (cx k < n)%nat) /\
    (forall x r, In (x, r) (trst t) -> (x < n)%nat /\ forall y, r = RVar y -> (y < n)%nat).
(** a word of observable events *)
Definition observable (w : list (letter * Q)) : Prop := forall a d, In (a, d) w -> a <> UNOBSERVABLE.
