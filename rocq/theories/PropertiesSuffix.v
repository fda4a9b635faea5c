(** Suffixes of forward regional elementary languages. *)
From Coq Require Import QArith ZArith Bool List Arith Lia Lqa Qround.
From Verif Require Import BoundsModel ConstraintModel ZoneModel AutomatonModel TimedWordModel TimedWordSpec TimedConditionModel TimedConditionSpec TimedConditionProofs3
  ElementaryModel ElementarySpec RegionalModel RegionalSpec RegionalProofs4 RegionalProofs5 SuffixModel SuffixProofs4.
Import ListNotations.
Open Scope Q_scope.

(** *** C81: suffix(prefix) *)
(** x is a region, w one of its words, p the region of a prefix u of w.  Then
    every word of x is a word of p followed by one of the suffix, and a word of
    the suffix (a region of words without negative durations, with the
    documented order) follows the representative of p in x *)
Theorem C81_suffix :
  forall (x p : frel) (w u : tword),
    regionalF x w -> nonnegTW w -> regionalF p u -> timedPrefix u w -> visible (fel x) -> okCond (ec (fel x)) ->
    (exists y, nonnegTW y /\ regionalB (frSuffix x p) y /\ inElem (fel x) (concatTW (elSample (fel p)) y)) /\
    (forall v, inElem (fel x) v -> exists v1 y, inElem (fel p) v1 /\ inElem (fel (frSuffix x p)) y /\ sameTW v (concatTW v1 y)).
Proof. exact suffix_covers. Qed.
Print Assumptions C81_suffix.
(** as it is used: for the language of a word and all its prefixes() *)
Theorem C81_suffixes_of_a_word :
  forall w : tword, nonnegTW w -> (forall a, In a (tw w) -> a <> UNOBSERVABLE) ->
    exists n, forall fuel, (n < fuel)%nat -> forall p, In p (frPrefixes fuel (frFromTimedWord w) []) ->
      (exists y, nonnegTW y /\ regionalB (frSuffix (frFromTimedWord w) p) y /\ inElem (fel (frFromTimedWord w)) (concatTW (elSample (fel p)) y)) /\
      (forall v, inElem (fel (frFromTimedWord w)) v -> exists v1 y, inElem (fel p) v1 /\ inElem (fel (frSuffix (frFromTimedWord w) p)) y /\ sameTW v (concatTW v1 y)).
Proof.
  intros w N V. assert (R := frFromTimedWord_regional w (proj1 N)). destruct (frPrefixes_spec (mu w) _ w R N (le_n _)) as (L & A & _ & B & C & D). exists (mu w).
  intros fuel F p I. rewrite A in I by exact F. rewrite app_nil_r in I. destruct (C p I) as (u & Tu & Ru). apply (suffix_covers _ p w u R N Ru Tu).
  - unfold visible. rewrite Forall_forall. exact V.
  - apply tcOf_ok. destruct N as [W _]. unfold wfTW in W. destruct (td w); discriminate.
Qed.
Print Assumptions C81_suffixes_of_a_word.
(** concrete cases: durations 1/2 a 3/4 b 1/4 and the prefix 1/2 a 1/4 *)
Example C81_satisfiable :
  let w := mkTW [1%nat; 2%nat] [1 # 2; 3 # 4; 1 # 4] in let u := mkTW [1%nat] [1 # 2; 1 # 4] in
  let x := frFromTimedWord w in let p := frFromTimedWord u in
  regionalF x w /\ nonnegTW w /\ regionalF p u /\ timedPrefix u w /\ visible (fel x) /\ okCond (ec (fel x)) /\ ew (fel (frSuffix x p)) = [2%nat].
Proof.
  cbv zeta. split; [apply frFromTimedWord_regional; reflexivity|]. split; [split; [reflexivity|repeat constructor; vm_compute; congruence]|]. split; [apply frFromTimedWord_regional; reflexivity|]. split.
  - split; [split; [reflexivity|repeat constructor; vm_compute; congruence]|]. exists (mkTW [2%nat] [1 # 2; 1 # 4]). split; [split; [reflexivity|repeat constructor; vm_compute; congruence]|].
    split; [reflexivity|]. repeat constructor; vm_compute; reflexivity.
  - split; [repeat constructor; discriminate|]. split; [apply tcOf_ok; discriminate|vm_compute; reflexivity].
Qed.
(** the suffix does not give back exactly the language: in x the durations sum
    to less than 1, in the prefix followed by the suffix they may not *)
Example C81_suffix_may_have_more :
  let x := frFromTimedWord (mkTW [1%nat] [3 # 10; 3 # 10]) in let p := frFromTimedWord (mkTW [] [3 # 10]) in
  let v := mkTW [] [3 # 4] in let y := mkTW [1%nat] [0; 3 # 4] in
  elContains (fel p) v = true /\ elContains (fel (frSuffix x p)) y = true /\ elContains (fel x) (concatTW v y) = false.
Proof. cbv zeta. split; [vm_compute; reflexivity|]. split; vm_compute; reflexivity. Qed.
(** as in C44, predecessor() does not follow the order of a suffix: here the
    suffix by the empty word, whose predecessor() has no words *)
Example C81_predecessor_of_a_suffix :
  let s := frSuffix (frFromTimedWord (mkTW [1%nat] [3 # 10; 3 # 10])) frDefault in
  elContains (fel s) (mkTW [1%nat] [3 # 10; 3 # 10]) = true /\ isSatisfiable (ec (fel (brPred s))) = false.
Proof. cbv zeta. split; vm_compute; reflexivity. Qed.
