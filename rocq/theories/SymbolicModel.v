(** Model of include/symbolic_membership_oracle.hh and
    TimedConditionSet::reduce of include/timed_condition_set.hh.
    Simplifications: sizes are unbounded (no int/size_t overflow); the two
    assertions of reduce are hypotheses of the theorems; the hash map is a
    list searched with operator==. *)
From Coq Require Import QArith Bool List Arith.
From Verif Require Import BoundsModel ConstraintModel ZoneModel AutomatonModel TimedWordModel TimedConditionModel ElementaryModel OracleModel.
Import ListNotations.

(** ** timed_condition_set.hh *)
(** timed_condition_set.hh:65-76: the inner loop over it2; [pre] are the
    entries between it and it2 *)
Fixpoint findMerge (c : tcond * nat) (pre post : list (tcond * nat)) : option ((tcond * nat) * list (tcond * nat)) :=
  match post with
  | [] => None
  | x :: r =>
      let h := tcHull (fst c) (fst x) in
      if (length (enumerate h) =? snd c + snd x)%nat then Some ((h, snd c + snd x)%nat, pre ++ r)
      else findMerge c (pre ++ [x]) r
  end.
(** timed_condition_set.hh:61-81: [done] are the entries before it, [rest]
    those from it on; a merge restarts from the beginning *)
Fixpoint reduceLoop (fuel : nat) (done rest : list (tcond * nat)) : option (list (tcond * nat)) :=
  match fuel with
  | O => None
  | S n =>
      match rest with
      | [] => Some done
      | c :: r =>
          match findMerge c [] r with
          | Some (c', r') => reduceLoop n [] (done ++ c' :: r')
          | None => reduceLoop n (done ++ [c]) r
          end
      end
  end.
(** timed_condition_set.hh:39-91; the fuel is shown to suffice *)
Definition tcsReduce (l : list elem) : option (list tcond) :=
  match l with
  | [] => Some []
  | _ => option_map (map fst) (reduceLoop (S (length l) * S (length l)) [] (map (fun x => (ec x, 1%nat)) l))
  end.

(** ** symbolic_membership_oracle.hh *)
(** symbolic_membership_oracle.hh:19-22: the oracle, the cache and the two
    counters *)
Record symOracle (St : Type) := mkSym { smOracle : St; smCache : list (elem * list tcond); smCount : nat; smMiss : nat }.
Arguments mkSym {St}. Arguments smOracle {St}. Arguments smCache {St}. Arguments smCount {St}. Arguments smMiss {St}.
Definition newSym {St} (s : St) : symOracle St := mkSym s [] 0 0.
Definition findEL (m : list (elem * list tcond)) (x : elem) : option (list tcond) :=
  option_map snd (find (fun p => elEqb (fst p) x) m).
(** symbolic_membership_oracle.hh:47-53: the loop over the simple languages,
    which are answered in order *)
Fixpoint included {St} (o : mOracle St) (s : St) (l : list elem) : option (St * list elem * bool) :=
  match l with
  | [] => Some (s, [], true)
  | x :: r =>
      match o s (elSample x) with
      | None => None
      | Some (s1, b) =>
          match included o s1 r with
          | None => None
          | Some (s2, inc, all) => Some (s2, if b then x :: inc else inc, if b then all else false)
          end
      end
  end.
(** symbolic_membership_oracle.hh:37-75 query *)
Definition symQuery {St} (o : mOracle St) (y : symOracle St) (x : elem) : option (symOracle St * list tcond) :=
  match findEL (smCache y) x with
  | Some cs => Some (mkSym (smOracle y) (smCache y) (S (smCount y)) (smMiss y), cs)
  | None =>
      match included o (smOracle y) (elEnumerate x) with
      | None => None
      | Some (s, inc, all) =>
          let res := match inc with
                     | [] => Some []
                     | _ => if all then Some [ec x]
                            else let h := elHull inc in
                                 if (length (elEnumerate h) =? length inc)%nat then Some [ec h]
                                 else tcsReduce inc
                     end in
          match res with
          | None => None
          | Some cs => Some (mkSym s ((x, cs) :: smCache y) (S (smCount y)) (S (smMiss y)), cs)
          end
      end
  end.
(** symbolic_membership_oracle.hh:81-83 answerQuery *)
Definition symAnswer {St} (o : mOracle St) : mOracle (symOracle St) := fun y w =>
  match o (smOracle y) w with
  | None => None
  | Some (s, b) => Some (mkSym s (smCache y) (smCount y) (smMiss y), b)
  end.
