(** Specification of zones: which clock valuations they contain. *)
From Coq Require Import QArith ZArith List.
From Verif Require Import BoundsModel ConstraintModel ZoneModel.
Import ListNotations.
Open Scope Q_scope.

(** the valuation extended with the constant clock at index 0 *)
Definition ext (w : valuation) (i : nat) : Q := match i with O => 0 | S k => w k end.

(** [w] belongs to the zone: every entry (i,j) bounds w_i - w_j *)
Definition inZone (m : matrix) (w : valuation) : Prop :=
  forall i j, (i < dim m)%nat -> (j < dim m)%nat -> bsat (get m i j) (ext w i - ext w j).

Definition nonemptyZ (m : matrix) : Prop := exists w, inZone m w.

(** canonical form: no entry can be tightened by going through a third clock *)
Definition closed (m : matrix) : Prop :=
  forall i j k, (i < dim m)%nat -> (j < dim m)%nat -> (k < dim m)%nat ->
    ble (get m i j) (badd (get m i k) (get m k j)) = true.

(** semantic canonicity: each off-diagonal entry is the tightest bound on
    the difference it bounds *)
Definition tight (m : matrix) : Prop :=
  forall i j b, (i < dim m)%nat -> (j < dim m)%nat -> i <> j ->
    (forall w, inZone m w -> bsat b (ext w i - ext w j)) ->
    ble (get m i j) b = true.

(** one clock changed *)
Definition upd (w : valuation) (x : clock) (q : Q) : valuation :=
  fun y => if Nat.eqb y x then q else w y.

(** equality of valuations on the first n clocks *)
Definition agree (n : nat) (w w' : valuation) : Prop := forall x, (x < n)%nat -> w x == w' x.

(** relatively open: from every member one can go a little further away from
    any other member, as in the solutions of equations and strict inequalities *)
Definition relOpen (P : valuation -> Prop) : Prop :=
  forall w0 w1, P w0 -> P w1 ->
    exists e, 0 < e /\ forall t, 0 <= t -> t <= e -> P (fun x => w0 x + t * (w0 x - w1 x)).
