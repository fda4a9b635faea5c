(** Model of ForwardRegionalElementaryLanguage::suffix.
    Simplifications as in RegionalModel. *)
From Coq Require Import QArith ZArith Bool List Arith Qround.
From Verif Require Import BoundsModel ConstraintModel ZoneModel AutomatonModel TimedWordModel TimedConditionModel ElementaryModel RegionalModel.
Import ListNotations.
Open Scope Q_scope.

(** ** forward_regional_elementary_language.hh:145-177 suffix *)
(** 155-161: the durations of the suffix *)
Definition suffixDurs (pw fw : tword) : list Q :=
  match skipn (wordSize pw) (td fw) with [] => [] | q :: r => (q - last (td pw) 0) :: r end.
(** 165-171: the fractional parts of the durations summed from the front, each
    from the one before *)
Fixpoint fracsFrom (f : Q) (l : list Q) : list Q :=
  match l with [] => [] | q :: r => frac (f + q) :: fracsFrom (frac (f + q)) r end.
Definition suffixFracs (d : list Q) : list Q := match d with [] => [] | q :: r => frac q :: fracsFrom (frac q) r end.
(** 145-177; the assertions are hypotheses *)
Definition frSuffix (x p : frel) : frel :=
  let pw := elSample (fel p) in
  let fw := elSample (elConstrain (fel x) pw) in
  let d := suffixDurs pw fw in
  let forward := frFromTimedWord (mkTimedWord (skipn (length (ew (fel p))) (ew (fel x))) d) in
  mkFR (mkEL (ew (fel forward)) (ec (fel forward))) (foOf (suffixFracs d)).
