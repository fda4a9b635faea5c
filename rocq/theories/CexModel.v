(** Model of include/single_morphism.hh, include/recognizable_languages.hh and
    include/counterexample_analyzer.hh.
    Simplifications: doubles are rationals; assertions are compiled out
    (NDEBUG) and appear as hypotheses of the theorems; log output is dropped;
    unbounded loops take fuel, [None] is "no result within the fuel" or an
    undefined dereference of an empty optional. *)
From Coq Require Import QArith Bool List Arith.
From Verif Require Import BoundsModel ConstraintModel ZoneModel AutomatonModel TimedWordModel TimedConditionModel
  ElementaryModel RegionalModel OracleModel.
Import ListNotations.
Open Scope Q_scope.

(** single_morphism.hh:20-21 *)
Record morph := mkMorph { mdom : elem; mcod : elem; mren : list (nat * nat) }.
(** single_morphism.hh:35-37 *)
Definition inDomain (m : morph) (w : tword) : bool := elContains (mdom m) w.
(** single_morphism.hh:42-44 *)
Definition isDomain (m : morph) (x : elem) : bool := elEqb (mdom m) x.
(** single_morphism.hh:57-62: the juxtaposed condition *)
Definition mapsZone (m : morph) (w : tword) : matrix :=
  let l := makeExact (accum (td w)) in
  canonize (addRenaming (tcSize l) (jux l (ec (mcod m))) (mren m)).
(** single_morphism.hh:64-72: the durations from the sampled values *)
Definition mapsDurs (m : morph) (values : list Q) : list Q :=
  map (fun i => if (i =? length (ew (mcod m)))%nat then last values 0
                else nth (i + 1 + length (ew (mdom m))) values 0 - nth (i + 2 + length (ew (mdom m))) values 0)
      (seq 0 (length (ew (mcod m)) + 1)).
(** single_morphism.hh:55-75 *)
Definition mMaps (m : morph) (w : tword) : tword :=
  mkTimedWord (ew (mcod m)) (mapsDurs m (zsample (mapsZone m w))).

(** recognizable_languages.hh:19-21 *)
Record rlang := mkRL { rprefixes : list elem; rfinal : list elem; rmorphs : list morph }.
(** recognizable_languages.hh:46-50 *)
Definition inPrefixes (h : rlang) (w : tword) : bool := existsb (fun x => elContains x w) (rprefixes h).
(** recognizable_languages.hh:55-59 *)
Definition isFinal (h : rlang) (w : tword) : bool := existsb (fun x => elContains x w) (rfinal h).
(** recognizable_languages.hh:61-64 *)
Record splitT := mkSplit { spre : tword; ssuf : tword; smor : morph }.
(** recognizable_languages.hh:65-68 apply *)
Definition splitApply (t : splitT) : tword := concatTW (mMaps (smor t) (spre t)) (ssuf t).
(** a bound on the number of region prefixes of a word (for the loop of
    prefixes(), forward_regional_elementary_language.hh:119-136; shown to
    suffice): every accumulated duration q passes at most 2q+2 regions *)
Definition prefixFuel (w : tword) : nat :=
  (length (tw w) + fold_right (fun q n => Z.to_nat (2 * (Qround.Qfloor q) + 2) + n)%nat 1%nat (accum (td w)))%nat.
(** recognizable_languages.hh:114-122: the condition of the domain with the
    durations before the last one fixed *)
Definition splitCond (x : elem) (w : tword) : tcond :=
  fold_left (fun m i => restrictEq m i (nth i (td w) 0)) (seq 0 (length (ew x))) (ec x).
(** recognizable_languages.hh:123-134: the last duration of the prefix *)
Definition splitLast (x : elem) (w : tword) : Q :=
  let n := length (ew x) in
  let c := splitCond x w in
  let ub := getUpperBound c n n in
  let q := nth n (td w) 0 in
  if ble (Fin q true) ub then q
  else if bincl ub then bval ub
  else last (td (elSample (mkEL (ew x) c))) 0.
(** recognizable_languages.hh:92-138 *)
Definition rSplit (h : rlang) (w : tword) : option splitT :=
  let ps := frPrefixes (prefixFuel w) (frFromTimedWord w) [] in
  match find (fun m => existsb (fun p => isDomain m (fel p)) ps) (rmorphs h) with
  | None => None
  | Some m =>
      if elContains (mdom m) w then Some (mkSplit w (mkTimedWord [] [0]) m)
      else
        let n := length (ew (mdom m)) in
        let p := mkTimedWord (ew (mdom m)) (firstn n (td w) ++ [splitLast (mdom m) w]) in
        Some (mkSplit p (getSuffix w p) m)
  end.
(** recognizable_languages.hh:143-148 contains, with maps (lines 23-29) *)
Fixpoint rContains (fuel : nat) (h : rlang) (w : tword) : option bool :=
  match fuel with
  | O => None
  | S n =>
      if inPrefixes h w then Some (isFinal h w)
      else match rSplit h w with
           | None => None
           | Some t => rContains n h (splitApply t)
           end
  end.

(** counterexample_analyzer.hh:29-38: the splits of the loop, in order; the
    vector mappedWords is the word followed by their results, suffixes the
    empty word followed by their suffixes *)
Fixpoint cexSplits (fuel : nat) (h : rlang) (w : tword) : option (list splitT) :=
  match fuel with
  | O => None
  | S n =>
      if inPrefixes h w then Some []
      else match rSplit h w with
           | None => None
           | Some t => option_map (cons t) (cexSplits n h (splitApply t))
           end
  end.
Inductive cexResult := CFresh (s : tword) | CNone | CError.
(** counterexample_analyzer.hh:41-43 eval *)
Definition cexEval {St} (o : mOracle St) (r : bool) (s : St) (w : tword) : option (St * bool) :=
  match o s w with Some (s', b) => Some (s', Bool.eqb b r) | None => None end.
(** counterexample_analyzer.hh:70-79: the linear search; [w] is
    mappedWords[index] and the head of the list gives mappedWords[index + 1]
    and suffixes[index + 1] *)
Fixpoint cexSearch {St} (o : mOracle St) (cur : list elem) (r : bool) (s : St) (w : tword) (ts : list splitT) : option (St * cexResult) :=
  match ts with
  | [] => Some (s, CNone)
  | t :: ts' =>
      match cexEval o r s w with
      | None => None
      | Some (s1, a) =>
          match cexEval o r s1 (splitApply t) with
          | None => None
          | Some (s2, b) =>
              if negb (Bool.eqb a b) && forallb (fun x => negb (elContains x (ssuf t))) cur
              then Some (s2, CFresh (ssuf t))
              else cexSearch o cur r s2 (splitApply t) ts'
          end
      end
  end.
(** the last of mappedWords *)
Definition lastMapped (w : tword) (ts : list splitT) : tword := last (w :: map splitApply ts) w.
(** counterexample_analyzer.hh:24-81; the throw of line 55 is [CError] (what
    follows it cannot be reached) *)
Definition analyzeCEX {St} (fuel : nat) (h : rlang) (cur : list elem) (o : mOracle St) (s : St) (w : tword) : option (St * cexResult) :=
  match cexSplits fuel h w with
  | None => None
  | Some ts =>
      match rContains fuel h (lastMapped w ts) with
      | None => None
      | Some r =>
          match cexEval o r s w with
          | None => None
          | Some (s1, true) => Some (s1, CError)
          | Some (s1, false) => cexSearch o cur r s1 w ts
          end
      end
  end.
