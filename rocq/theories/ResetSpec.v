(** Vocabulary for assignments applied to a timed condition. *)
From Coq Require Import QArith List Arith.
From Verif Require Import ConstraintModel ZoneModel.
Import ListNotations.

(** the last value assigned to clock k, if any *)
Definition assigned (rs : resets) (k : nat) : option rhs := option_map snd (find (fun r => (fst r =? k)%nat) (rev rs)).
(** only constants are assigned, to clocks below n *)
Definition constResets (n : nat) (rs : resets) : Prop := forall x v, In (x, v) rs -> (x < n)%nat /\ exists q, v = RConst q.
