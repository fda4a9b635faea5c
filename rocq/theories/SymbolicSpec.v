(** Specification of symbolic membership. *)
From Coq Require Import QArith ZArith List.
From Verif Require Import BoundsModel ConstraintModel ZoneModel ZoneSpec AutomatonModel AutomatonSpec TimedWordModel TimedWordSpec
  TimedConditionModel TimedConditionSpec ElementaryModel ElementarySpec OracleModel SymbolicModel.
Import ListNotations.
Open Scope Q_scope.

(** [f] does not distinguish words (of the class P) of the same region *)
Definition regionInvariant (P : tword -> Prop) (f : tword -> bool) : Prop :=
  forall w w', wfTW w -> wfTW w' -> P w -> P w' -> tw w = tw w' -> sameRegion (td w) (td w') -> f w = f w'.

(** a language that can be queried: the class invariant, integer finite
    bounds, observable actions *)
Definition queryable (x : elem) : Prop := wfElem x /\ intCond (ec x) /\ boundedCond (ec x) /\ visible x.

(** the conditions [cs], over the letters of [x], hold exactly of the members
    of [x] in the target [f] *)
Definition exactAnswer (f : tword -> bool) (x : elem) (cs : list tcond) : Prop :=
  forall w, (exists c, In c cs /\ inElem (mkEL (ew x) c) w) <-> inElem x w /\ f w = true.

(** a client interleaving symbolic queries and plain membership queries *)
Inductive symReq := AskSymbolic (x : elem) | AskWord (w : tword).
Inductive symResp := GotConditions (cs : list tcond) | GotBool (b : bool).
Fixpoint symSession {St} (o : mOracle St) (y : symOracle St) (rs : list symReq) : option (symOracle St * list symResp) :=
  match rs with
  | [] => Some (y, [])
  | r :: rs' =>
      match (match r with
             | AskSymbolic x => option_map (fun p => (fst p, GotConditions (snd p))) (symQuery o y x)
             | AskWord w => option_map (fun p => (fst p, GotBool (snd p))) (symAnswer o y w)
             end) with
      | None => None
      | Some (y', a) => match symSession o y' rs' with
                        | None => None
                        | Some (y'', bs) => Some (y'', a :: bs)
                        end
      end
  end.

(** every constant assigned by a transition is an integer *)
Definition intResets (A : ta) : Prop :=
  forall l a t x q, edge A l a t -> In (x, RConst q) (trst t) -> exists z, q == inject_Z z.
