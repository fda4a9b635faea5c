(** Specification of zone graphs. *)
From Coq Require Import QArith ZArith Bool List.
From Verif Require Import BoundsModel ConstraintModel GuardSpec ZoneModel ZoneSpec AutomatonModel AutomatonSpec TimedWordModel TimedWordSpec ZoneGraphModel.
Import ListNotations.
Open Scope Q_scope.

(** the configurations of a run at the start and just after its transitions *)
Inductive entered (A : ta) : conf -> Prop :=
| en_init l v : In l (tinit A) -> veq v (fun _ => 0) -> entered A (l, v)
| en_step l v d v1 a c : entered A (l, v) -> 0 <= d -> veq v1 (delay v d) -> fire A a (l, v1) c -> entered A c.
(** all the configurations of a run *)
Definition reached (A : ta) (c : conf) : Prop :=
  exists v d, entered A (fst c, v) /\ 0 <= d /\ veq (snd c) (delay v d).

(** the k-th state of the zone automaton *)
Definition nodeAt (Z : zauto) (k : nat) (nd : zn) : Prop := nth_error (zaNodes Z) k = Some nd.
(** a path of the zone automaton and the letters on it *)
Inductive zpath (Z : zauto) : nat -> list letter -> nat -> Prop :=
| zp_nil k : zpath Z k [] k
| zp_cons e u k : In e (zaEdges Z) -> zpath Z (zeTgt e) u k -> zpath Z (zeSrc e) (zeAct e :: u) k.
(** unobservable letters are not seen *)
Definition seen (u : list letter) : list letter := filter (fun a => negb (Nat.eqb a UNOBSERVABLE)) u.

(** zone [z0] (over n clocks) is exactly what the transition makes of the
    valuations in [now] *)
Definition exactPost (n : nat) (now : matrix) (t : trans) (z0 : matrix) : Prop :=
  forall w', inZone z0 w' <-> exists w, inZone now w /\ gsat (tgrd t) w /\ agree n w' (applyReset w (trst t)).

(** find_if finds a match if there is one *)
Definition picks (pick : picker) : Prop :=
  forall l f, match pick l f with
              | Some k => exists nd, nth_error l k = Some nd /\ f nd = true
              | None => forall nd, In nd l -> f nd = false
              end.

(** no clock of the resets is assigned twice, and no renaming reads a clock
    that an earlier renaming of the same transition has changed *)
Definition raceFreeTA (A : ta) : Prop :=
  forall l a t, edge A l a t -> NoDup (map fst (trst t)) /\
    forall p x y q, trst t = p ++ (x, RVar y) :: q -> forall z, In (y, RVar z) p -> z = y.

(** no clock is assigned twice by a transition, and no renaming reads a clock
    that the same transition assigns *)
Definition readsKeptTA (A : ta) : Prop :=
  forall l a t, edge A l a t -> NoDup (map fst (trst t)) /\ forall x y, In (x, RVar y) (trst t) -> ~ In y (map fst (trst t)).
(** a path of the automaton: the transitions with their letters *)
Inductive tpath (A : ta) : loc -> list (letter * trans) -> loc -> Prop :=
| tp_nil l : tpath A l [] l
| tp_cons l a t u l' : edge A l a t -> tpath A (ttgt t) u l' -> tpath A l ((a, t) :: u) l'.
