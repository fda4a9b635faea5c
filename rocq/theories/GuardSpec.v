(** Specification: what a guard means, independently of the algorithms. *)
From Coq Require Import QArith ZArith List.
From Verif Require Import ConstraintModel.
Import ListNotations.
Open Scope Q_scope.

(** [x ~ c] holds of the clock value [d]. *)
Definition holds (k : constraint) (d : Q) : Prop :=
  match codr k with
  | Olt => d < inject_Z (cc k)
  | Ole => d <= inject_Z (cc k)
  | Oge => inject_Z (cc k) <= d
  | Ogt => inject_Z (cc k) < d
  end.

(** A valuation satisfies a guard when it satisfies all its conjuncts. *)
Definition gsat (g : guard) (v : valuation) : Prop :=
  forall k, In k g -> holds k (v (cx k)).

(** A valuation satisfies a disjunction of guards. *)
Definition dnfsat (gs : list guard) (v : valuation) : Prop :=
  exists g, In g gs /\ gsat g v.

(** Clocks are never negative. *)
Definition nonneg (v : valuation) : Prop := forall x, 0 <= v x.

(** All constants are representable and differ from the INT_MAX sentinel. *)
Definition smallConsts (g : guard) : Prop :=
  forall k, In k g -> (cc k < INT_MAX)%Z.

(** No two conjuncts bound the same clock from the same side. *)
Definition nonRedundant (g : guard) : Prop :=
  NoDup (map (fun k => (cx k, isUpper k)) g).

(** The part of a guard that talks about clock [x]. *)
Definition clockSat (g : guard) (x : clock) (d : Q) : Prop :=
  forall k, In k g -> cx k = x -> holds k d.

(** The valuation after letting [d] time units pass. *)
Definition delay (v : valuation) (d : Q) : valuation := fun x => v x + d.

(** A constraint that some non-negative value violates. *)
Definition nonTrivial (k : constraint) : Prop := exists d, 0 <= d /\ ~ holds k d.

(** The lower-bound part of a guard. *)
Definition lowerSat (g : guard) (v : valuation) : Prop :=
  forall k, In k g -> isUpper k = false -> holds k (v (cx k)).

(** both guards bound the same clocks from above *)
Definition sameBoundedness (l r : guard) : Prop :=
  forall x, (exists k, In k l /\ cx k = x /\ isUpper k = true) <->
            (exists k, In k r /\ cx k = x /\ isUpper k = true).

(** the conjuncts of a guard on clock [x], and guards with the same conjuncts
    on every clock but [x] *)
Definition conjunctsOn (g : guard) (x : clock) : guard := filter (fun k => Nat.eqb (cx k) x) g.
Definition agreeOff (x : clock) (l r : guard) : Prop :=
  forall y, y <> x -> conjunctsOn l y = conjunctsOn r y.

(** every conjunct is on clock [x] and one of them is an upper bound *)
Definition boundedOn (x : clock) (g : guard) : Prop :=
  (forall k, In k g -> cx k = x) /\ exists k, In k g /\ isUpper k = true.
