(** Model of include/fractional_order.hh,
    include/forward_regional_elementary_language.hh and
    include/backward_regional_elementary_language.hh.
    Simplifications: doubles are rationals; the assertion on sizes is a
    hypothesis; [std::sort] on (value, index) pairs is insertion sort. *)
From Coq Require Import QArith ZArith Bool List Arith Qround.
From Verif Require Import BoundsModel ConstraintModel ZoneModel AutomatonModel TimedWordModel TimedConditionModel ElementaryModel.
Import ListNotations.
Open Scope Q_scope.

(** ** fractional_order.hh *)
(** fractional_order.hh:25-28: the blocks, and the number of variables *)
Record forder := mkFO { blocks : list (list nat); fsize : nat }.

(** fractional_order.hh:30-33 *)
Definition foDefault : forder := mkFO [[0%nat]] 1.

(** operator< on pair<double, ClockVariables> *)
Definition pairLt (a b : Q * nat) : bool :=
  Qltb (fst a) (fst b) || (negb (Qltb (fst b) (fst a)) && (snd a <? snd b)%nat).
Fixpoint insertPair (x : Q * nat) (l : list (Q * nat)) : list (Q * nat) :=
  match l with [] => [x] | y :: r => if pairLt x y then x :: l else y :: insertPair x r end.
Definition sortPairs (l : list (Q * nat)) : list (Q * nat) := fold_right insertPair [] l.
(** fractional_order.hh:50-58: [done] are the blocks before the last one [cur] *)
Fixpoint groupPairs (done : list (list nat)) (cur : list nat) (val : Q) (l : list (Q * nat)) : list (list nat) :=
  match l with
  | [] => done ++ [cur]
  | (q, i) :: r =>
      if Qeq_bool val q then groupPairs done (cur ++ [i]) val r
      else groupPairs (done ++ [cur]) [i] q r
  end.
(** fractional_order.hh:42-61 *)
Definition foOf (fs : list Q) : forder :=
  mkFO (groupPairs [] [] 0 (sortPairs (combine fs (seq 0 (length fs))))) (length fs).

(** fractional_order.hh:66-72 *)
Definition foSuccVars (o : forder) : list nat :=
  match blocks o with
  | [] => []
  | [] :: r => last (blocks o) []
  | z :: _ => z
  end.
(** fractional_order.hh:77-103 successor, successorAssign: swap the (empty)
    front with the back and drop the back, or add an empty front *)
Definition foSucc (o : forder) : forder :=
  mkFO (match blocks o with
        | [] => [[]]
        | [] :: [] => []
        | [] :: r => last r [] :: removelast r
        | z :: r => [] :: z :: r
        end) (fsize o).
(** fractional_order.hh:108-120 *)
Definition foPredVars (o : forder) : list nat :=
  match blocks o with
  | [] => []
  | [] :: r => hd [] r
  | z :: _ => z
  end.
(** fractional_order.hh:125-137 *)
Definition foPred (o : forder) : forder :=
  mkFO (match blocks o with
        | [] => []
        | [] :: r => r
        | z :: r => [] :: r ++ [z]
        end) (fsize o).
(** fractional_order.hh:142-146 *)
Definition foExtendN (o : forder) : forder :=
  mkFO (match blocks o with [] => [] | z :: r => (z ++ [fsize o]) :: r end) (S (fsize o)).
(** fractional_order.hh:153-160 *)
Definition foRemoveN (o : forder) : forder :=
  mkFO (match blocks o with [] => [] | z :: r => removelast z :: r end) (fsize o - 1).
(** fractional_order.hh:165-176 *)
Definition foExtendZero (o : forder) : forder :=
  mkFO (match map (map S) (blocks o) with [] => [] | z :: r => (0%nat :: z) :: r end) (S (fsize o)).
(** fractional_order.hh:183-185 *)
Fixpoint eqNats (a b : list nat) : bool :=
  match a, b with [], [] => true | x :: r, y :: s => (x =? y)%nat && eqNats r s | _, _ => false end.
Fixpoint eqBlocks (a b : list (list nat)) : bool :=
  match a, b with [], [] => true | x :: r, y :: s => eqNats x y && eqBlocks r s | _, _ => false end.
Definition foEqb (a b : forder) : bool := (fsize a =? fsize b)%nat && eqBlocks (blocks a) (blocks b).

(** ** forward_regional_elementary_language.hh *)
Record frel := mkFR { fel : elem; fo : forder }.
(** q - floor(q) *)
Definition frac (q : Q) : Q := q - qfloor q.
(** forward_regional_elementary_language.hh:32-35 the default constructor *)
Definition frDefault : frel := mkFR elEmpty foDefault.
(** forward_regional_elementary_language.hh:46-60; the accumulated durations
    are those of TimedWord::getAccumulatedDurations *)
Definition frFromTimedWord (w : tword) : frel :=
  mkFR (mkEL (tw w) (tcOf (accum (td w)))) (foOf (map frac (accum (td w)))).
(** forward_regional_elementary_language.hh:65-67 *)
Definition frSuccAct (x : frel) (a : letter) : frel :=
  mkFR (mkEL (ew (fel x) ++ [a]) (extendN (ec (fel x)))) (foExtendN (fo x)).
(** forward_regional_elementary_language.hh:72-83 *)
Definition frSucc (x : frel) : frel :=
  mkFR (mkEL (ew (fel x)) (tcSuccessor (ec (fel x)) (foSuccVars (fo x)))) (foSucc (fo x)).
(** forward_regional_elementary_language.hh:98-114 *)
Definition frImmediatePrefix (x : frel) : option frel :=
  if hasPrefix (ec (fel x))
  then Some (mkFR (mkEL (ew (fel x)) (tcPrefix (ec (fel x)) (foPredVars (fo x)))) (foPred (fo x)))
  else match ew (fel x) with
       | [] => None
       | _ => Some (mkFR (mkEL (removelast (ew (fel x))) (removeN (ec (fel x)))) (foRemoveN (fo x)))
       end.
(** forward_regional_elementary_language.hh:119-136: the loop, with fuel *)
Fixpoint frPrefixes (fuel : nat) (x : frel) (acc : list frel) : list frel :=
  match fuel with
  | O => acc
  | S n => match frImmediatePrefix x with None => x :: acc | Some y => frPrefixes n y (x :: acc) end
  end.

(** ** backward_regional_elementary_language.hh *)
(** backward_regional_elementary_language.hh:27 the default constructor
    (the members' default constructors: ElementaryLanguage::empty and
    fractional_order.hh:30-33) *)
Definition brDefault : frel := mkFR elEmpty foDefault.
(** backward_regional_elementary_language.hh:35-54: the durations summed from
    the front *)
Fixpoint accumFront (s : Q) (l : list Q) : list Q :=
  match l with [] => [] | x :: r => (s + x) :: accumFront (s + x) r end.
Definition brFromTimedWord (w : tword) : frel :=
  mkFR (mkEL (tw w) (tcOf (accum (td w)))) (foOf (map frac (accumFront 0 (td w)))).
(** backward_regional_elementary_language.hh:59-61 *)
Definition brPredAct (x : frel) (a : letter) : frel :=
  mkFR (mkEL (a :: ew (fel x)) (extendZero (ec (fel x)))) (foExtendZero (fo x)).
(** backward_regional_elementary_language.hh:66-69 *)
Definition brPred (x : frel) : frel :=
  mkFR (mkEL (ew (fel x)) (tcPredecessor (ec (fel x)) (foPredVars (fo x)))) (foPred (fo x)).
(** backward_regional_elementary_language.hh:74-90, the continuous case *)
Definition brImmediateSuffixC (x : frel) : frel :=
  mkFR (mkEL (ew (fel x)) (tcSuffix (ec (fel x)) (foPredVars (fo x)))) (foPred (fo x)).
