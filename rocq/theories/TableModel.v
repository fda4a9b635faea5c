(** The observation table (observation_table.hh) and the main loop of the
    learner (learner.hh), without the construction of the automaton
    (observation_table.hh:832-1215) and without the two functions the learner
    never calls (renameConsistent, optimizeTarget).

    Simplifications.  The state the code keeps in fields is threaded
    explicitly.  Unordered containers are lists; the order in which the code
    iterates over them is given by parameters: [ordP] for pIndices, [ordR] for
    the keys of closedRelation, and [place] for the position at which a new
    entry of an inner map of closedRelation appears (entries already present
    keep their relative order: rehashing is not modelled).  vector::at on the
    rows and prefixes is [nth]; that the indices are in range is proved.
    Asserts are not modelled (NDEBUG).  The key of the column cache is compared
    structurally (the bounds of all languages built here are integers over the
    denominator 1). *)
From Coq Require Import QArith ZArith Bool List Arith.
From Verif Require Import BoundsModel ConstraintModel ZoneModel AutomatonModel TimedWordModel TimedConditionModel
  ElementaryModel RegionalModel OracleModel SymbolicModel CexModel RenamingModel.
Import ListNotations.

(** how a call can end without returning: the bound on the recursion of the
    model is exceeded, the code calls abort(), an exception leaves it, or the
    membership oracle does not answer *)
Inductive stop := SFuel | SAbort | SThrow | SOracle.
Inductive res (A : Type) := Ok (a : A) | Stop (s : stop).
Arguments Ok {A}. Arguments Stop {A}.
Definition bind {A B} (m : res A) (k : A -> res B) : res B := match m with Ok a => k a | Stop s => Stop s end.
Notation "'do' x <- m ; k" := (bind m (fun x => k)) (at level 200, x pattern, m at level 100, k at level 200).

(** observation_table.hh:45-63, 163 *)
Record ot (St : Type) := mkOT {
  otMem : symOracle St;
  otAlpha : list letter;
  otPre : list frel;
  otSuf : list frel;
  otCon : list (list tcond);
  otP : list nat;
  otRel : list (nat * list (nat * renaming));
  otTab : list (list (list tcond));
  otCont : list (nat * nat);
  otDisc : list ((nat * letter) * nat);
  otDist : list (nat * nat);
  otCol : list ((nat * nat * frel) * (nat * bool)) }.
Arguments mkOT {St}. Arguments otMem {St}. Arguments otAlpha {St}. Arguments otPre {St}. Arguments otSuf {St}. Arguments otCon {St}. Arguments otP {St}.
Arguments otRel {St}. Arguments otTab {St}. Arguments otCont {St}. Arguments otDisc {St}. Arguments otDist {St}. Arguments otCol {St}.

(** equality of the keys of the column cache (observation_table.hh:163) *)
Definition Q_dec (a b : Q) : {a = b} + {a <> b}.
Proof. decide equality; [apply Pos.eq_dec|apply Z.eq_dec]. Defined.
Definition bound_dec (a b : bound) : {a = b} + {a <> b}.
Proof. decide equality; [apply Bool.bool_dec|apply Q_dec]. Defined.
Definition elem_dec (a b : elem) : {a = b} + {a <> b}.
Proof. decide equality; [apply (list_eq_dec (list_eq_dec bound_dec))|apply (list_eq_dec Nat.eq_dec)]. Defined.
Definition frel_dec (a b : frel) : {a = b} + {a <> b}.
Proof. decide equality; [decide equality; [apply Nat.eq_dec|apply (list_eq_dec (list_eq_dec Nat.eq_dec))]|apply elem_dec]. Defined.
Definition colKeyEqb (a b : nat * nat * frel) : bool :=
  ((fst (fst a) =? fst (fst b)) && (snd (fst a) =? snd (fst b)))%nat && (if frel_dec (snd a) (snd b) then true else false).

(** forward_regional_elementary_language.hh:201-204 *)
Definition frEqb (a b : frel) : bool := elEqb (fel a) (fel b) && foEqb (fo a) (fo b).
(** timed_condition.hh:548-553, forward_regional_elementary_language.hh:90-93 *)
Definition hasEqualityN (x : frel) : bool :=
  existsb (fun i => bSnd (get (ec (fel x)) i 0)) (seq (dim (ec (fel x)) - tcSize (ec (fel x))) (tcSize (ec (fel x)))).

(** maps *)
Definition mapAt {A} (m : list (nat * A)) (i : nat) : option A := option_map snd (find (fun p => (fst p =? i)%nat) m).
Fixpoint mapPut {A} (m : list (nat * A)) (i : nat) (a : A) : list (nat * A) :=
  match m with [] => [(i, a)] | p :: r => if (fst p =? i)%nat then (i, a) :: r else p :: mapPut r i a end.
(** a new key at position n, a known one in place *)
Definition mapPutAt {A} (n : nat) (m : list (nat * A)) (i : nat) (a : A) : list (nat * A) :=
  match mapAt m i with Some _ => mapPut m i a | None => firstn n m ++ (i, a) :: skipn n m end.
Definition mapErase {A} (m : list (nat * A)) (i : nat) : list (nat * A) := filter (fun p => negb (fst p =? i)%nat) m.

Section Table.
Context {St : Type}.
Notation tbl := (ot St).

Definition preAt (t : tbl) (i : nat) : frel := nth i (otPre t) frDefault.
Definition rowAt (t : tbl) (i : nat) : list (list tcond) := nth i (otTab t) [].
Definition conAt (t : tbl) (i : nat) : list tcond := nth i (otCon t) [].
Definition sufEL (t : tbl) : list elem := map fel (otSuf t).
(** observation_table.hh:269-271 *)
Definition inP (t : tbl) (i : nat) : bool := existsb (Nat.eqb i) (otP t).
(** observation_table.hh:262-264 *)
Definition isMatch (t : tbl) (i : nat) : bool := negb (match nth 0 (rowAt t i) [] with [] => true | _ => false end).
Definition contAt (t : tbl) (i : nat) : option nat := mapAt (otCont t) i.
Definition discAt (t : tbl) (i : nat) (a : letter) : option nat :=
  option_map snd (find (fun p => ((fst (fst p) =? i) && (snd (fst p) =? a))%nat) (otDisc t)).
Definition relAt (t : tbl) (i : nat) : list (nat * renaming) := match mapAt (otRel t) i with Some m => m | None => [] end.
(** the calls of equivalence() and findDeterministicEquivalentRenaming() on
    two rows of the table *)
Definition equivRows (t : tbl) (i j : nat) (ren : renaming) : bool :=
  equivB (ec (fel (preAt t i))) (rowAt t i) (conAt t i) (ec (fel (preAt t j))) (rowAt t j) (conAt t j) (sufEL t) ren.
Definition findRows (t : tbl) (i j : nat) : option renaming :=
  findDet (fel (preAt t i)) (rowAt t i) (conAt t i) (fel (preAt t j)) (rowAt t j) (conAt t j) (sufEL t).

Definition withMem (t : tbl) (y : symOracle St) : tbl :=
  mkOT y (otAlpha t) (otPre t) (otSuf t) (otCon t) (otP t) (otRel t) (otTab t) (otCont t) (otDisc t) (otDist t) (otCol t).
Definition withRel (t : tbl) (r : list (nat * list (nat * renaming))) : tbl :=
  mkOT (otMem t) (otAlpha t) (otPre t) (otSuf t) (otCon t) (otP t) r (otTab t) (otCont t) (otDisc t) (otDist t) (otCol t).
Definition withDist (t : tbl) (d : list (nat * nat)) : tbl :=
  mkOT (otMem t) (otAlpha t) (otPre t) (otSuf t) (otCon t) (otP t) (otRel t) (otTab t) (otCont t) (otDisc t) d (otCol t).
Definition withCol (t : tbl) (c : list ((nat * nat * frel) * (nat * bool))) : tbl :=
  mkOT (otMem t) (otAlpha t) (otPre t) (otSuf t) (otCon t) (otP t) (otRel t) (otTab t) (otCont t) (otDisc t) (otDist t) c.
Definition withSuf (t : tbl) (s : list frel) : tbl :=
  mkOT (otMem t) (otAlpha t) (otPre t) s (otCon t) (otP t) (otRel t) (otTab t) (otCont t) (otDisc t) (otDist t) (otCol t).
Definition withTab (t : tbl) (y : symOracle St) (tab : list (list (list tcond))) (con : list (list tcond)) : tbl :=
  mkOT y (otAlpha t) (otPre t) (otSuf t) con (otP t) (otRel t) tab (otCont t) (otDisc t) (otDist t) (otCol t).

Context (o : mOracle St) (ordP : tbl -> list nat) (ordR : tbl -> list nat) (place : tbl -> nat -> nat -> nat).

(** ** observation_table.hh:68-83 refreshTable *)
(** lines 75-80 for one prefix *)
Fixpoint fillCells (y : symOracle St) (x : frel) (sufs : list frel) : res (symOracle St * list (list tcond) * list tcond) :=
  match sufs with
  | [] => Ok (y, [], [])
  | s :: r =>
      let c := elConcat (fel x) (fel s) in
      match symQuery o y c with
      | None => Stop SOracle
      | Some (y1, cs) => do (y2, css, ccs) <- fillCells y1 x r; Ok (y2, cs :: css, ec c :: ccs)
      end
  end.
(** the loop over the prefixes; a row or concatenation not yet present is
    empty (lines 69-70).  A row of the table and the one of the concatenations
    have the same length. *)
Fixpoint fillRows (y : symOracle St) (pre : list frel) (tab : list (list (list tcond))) (con : list (list tcond)) (sufs : list frel)
  : res (symOracle St * list (list (list tcond)) * list (list tcond)) :=
  match pre with
  | [] => Ok (y, [], [])
  | x :: pre' =>
      let row := hd [] tab in
      do (y1, css, ccs) <- fillCells y x (skipn (length row) sufs);
      do (y2, tab', con') <- fillRows y1 pre' (tl tab) (tl con) sufs;
      Ok (y2, (row ++ css) :: tab', (hd [] con ++ ccs) :: con')
  end.
Definition refreshTable (t : tbl) : res tbl :=
  do (y, tab, con) <- fillRows (otMem t) (otPre t) (otTab t) (otCon t) (otSuf t); Ok (withTab t y tab con).

(** closedRelation[i][j] = r *)
Definition putRel (t : tbl) (i j : nat) (r : renaming) : tbl :=
  withRel t (mapPut (otRel t) i (mapPutAt (place t i j) (relAt t i) j r)).
(** ** observation_table.hh:129-140 equivalent *)
Definition equivalentRows (t : tbl) (i j : nat) : tbl * option renaming :=
  match findRows t i j with
  | Some r => (putRel t i j r, Some r)
  | None => (withDist t ((i, j) :: otDist t), None)
  end.
(** ** observation_table.hh:142-163 equivalentWithMemo *)
Definition inDist (t : tbl) (i j : nat) : bool := existsb (fun p => pairEqb p (i, j)) (otDist t).
Definition equivMemo (t : tbl) (i j : nat) : tbl * option renaming :=
  if inDist t i j || inDist t j i then (t, None)
  else match mapAt (relAt t i) j with
       | Some r => if equivRows t i j r then (t, Some r) else equivalentRows t i j
       | None => equivalentRows t i j
       end.

(** ** observation_table.hh:168-212 and 217-240: with a new suffix *)
(** the extended row and concatenations of prefix i *)
Definition extRow (t : tbl) (i : nat) (s : frel) : res (tbl * list (list tcond) * list tcond) :=
  let c := elConcat (fel (preAt t i)) (fel s) in
  match symQuery o (otMem t) c with
  | None => Stop SOracle
  | Some (y, cs) => Ok (withMem t y, rowAt t i ++ [cs], conAt t i ++ [ec c])
  end.
Definition colPut (t : tbl) (key : nat * nat * frel) (b : bool) : tbl := withCol t ((key, (length (otSuf t), b)) :: otCol t).
Definition colAt (t : tbl) (key : nat * nat * frel) : option (nat * bool) := option_map snd (find (fun p => colKeyEqb (fst p) key) (otCol t)).
(** lines 217-240 *)
Definition equivNewWith (t : tbl) (i j : nat) (s : frel) (ren : renaming) : res (tbl * bool) :=
  do (t1, lr, lc) <- extRow t i s;
  do (t2, rr, rc) <- extRow t1 j s;
  Ok (t2, equivB (ec (fel (preAt t i))) lr lc (ec (fel (preAt t j))) rr rc (sufEL t ++ [fel s]) ren).
(** lines 192-211 *)
Definition equivNewFind (t : tbl) (i j : nat) (s : frel) : res (tbl * bool) :=
  do (t1, lr, lc) <- extRow t i s;
  do (t2, rr, rc) <- extRow t1 j s;
  let b := match findDet (fel (preAt t i)) lr lc (fel (preAt t j)) rr rc (sufEL t ++ [fel s]) with Some _ => true | None => false end in
  Ok (colPut t2 (i, j, s) b, b).
Definition equivNew (t : tbl) (i j : nat) (s : frel) : res (tbl * bool) :=
  let go (t : tbl) :=
    match mapAt (relAt t i) j with
    | Some r => do (t1, b) <- equivNewWith t i j s r;
                if b then Ok (colPut t1 (i, j, s) true, true) else equivNewFind t1 i j s
    | None => equivNewFind t i j s
    end in
  match colAt t (i, j, s) with
  | Some (n, b) => if (length (otSuf t) =? n)%nat then Ok (t, b) else go t
  | None => go t
  end.

(** ** observation_table.hh:94-127 moveToP *)
(** lines 99-107 *)
Definition addSuccessors (t : tbl) (index : nat) : tbl :=
  let x := preAt t index in
  let base := length (otPre t) in
  mkOT (otMem t) (otAlpha t) (otPre t ++ map (frSuccAct x) (otAlpha t) ++ [frSucc x]) (otSuf t) (otCon t) (otP t ++ [index]) (otRel t) (otTab t)
    ((index, (base + length (otAlpha t))%nat) :: otCont t)
    (rev (map (fun p => ((index, fst p), (base + snd p)%nat)) (combine (otAlpha t) (seq 0 (length (otAlpha t))))) ++ otDisc t)
    (otDist t) (otCol t).
Fixpoint moveToP (fuel : nat) (t : tbl) (index : nat) : res tbl :=
  match fuel with
  | O => Stop SFuel
  | S n =>
      if (index <? length (otPre t))%nat
      then do t1 <- refreshTable (addSuccessors t index);
           match contAt t1 index with
           | None => Stop SThrow
           | Some k => let (t2, r) := equivMemo t1 k index in
                       match r with Some _ => Ok t2 | None => moveToP n t2 k end
           end
      else Stop SThrow
  end.

(** ** observation_table.hh:301-310 the constructor *)
Definition newTable (fuel : nat) (alpha : list letter) (y : symOracle St) : res tbl :=
  do t <- moveToP fuel (mkOT y alpha [frDefault] [brDefault] [] [] [] [] [] [] [] []) 0;
  refreshTable t.

(** ** observation_table.hh:317-407 close *)
(** lines 329-351: the entries kept and whether a target in P was confirmed *)
Fixpoint confirm (t : tbl) (i : nat) (l : list (nat * renaming)) : list (nat * renaming) * bool :=
  match l with
  | [] => ([], false)
  | (j, r) :: l' =>
      if equivRows t i j r
      then if inP t j then (l, true) else let (k, b) := confirm t i l' in ((j, r) :: k, b)
      else confirm t i l'
  end.
Definition confirmRel (t : tbl) (i : nat) : tbl * bool :=
  match mapAt (otRel t) i with
  | None => (t, false)
  | Some m => let (k, b) := confirm t i m in (withRel t (mapPut (otRel t) i k), b)
  end.
(** lines 357-359 and 361-363: std::any_of over pIndices *)
Fixpoint jumpSame (t : tbl) (i : nat) (l : list nat) : res (tbl * bool) :=
  match l with
  | [] => Ok (t, false)
  | j :: l' =>
      match contAt t j with
      | None => Stop SThrow
      | Some k => if (k =? i)%nat
                  then let (t1, r) := equivMemo t i j in match r with Some _ => Ok (t1, true) | None => jumpSame t1 i l' end
                  else jumpSame t i l'
      end
  end.
Fixpoint jumpAny (t : tbl) (i : nat) (l : list nat) : tbl * bool :=
  match l with
  | [] => (t, false)
  | j :: l' => let (t1, r) := equivMemo t i j in match r with Some _ => (t1, true) | None => jumpAny t1 i l' end
  end.
(** lines 318-376, the rows still to be considered *)
Fixpoint closeLoop (fuel : nat) (t : tbl) (is : list nat) : res (tbl * bool) :=
  match is with
  | [] => Ok (t, true)
  | i :: is' =>
      if inP t i then closeLoop fuel t is'
      else
        let (t1, b1) := confirmRel t i in
        if b1 then closeLoop fuel t1 is'
        else do (t2, b2) <- jumpSame t1 i (ordP t1);
             if (b2 : bool) then closeLoop fuel t2 is'
             else let (t3, b3) := jumpAny t2 i (ordP t2) in
                  if (b3 : bool) then closeLoop fuel t3 is'
                  else do t4 <- moveToP fuel t3 i; do t5 <- refreshTable t4; Ok (t5, false)
  end.
Definition close (fuel : nat) (t : tbl) : res (tbl * bool) := closeLoop fuel t (seq 0 (length (otPre t))).

(** ** observation_table.hh:417-466 the two ways to resolve an inconsistency *)
(** std::find_if_not *)
Fixpoint findBreaking (t : tbl) (i j : nat) (pred : frel -> frel) (l : list frel) : res (tbl * option frel) :=
  match l with
  | [] => Ok (t, None)
  | s :: l' => do (t1, b) <- equivNew t i j (pred s);
               if (b : bool) then findBreaking t1 i j pred l' else Ok (t1, Some (pred s))
  end.
Definition addSuffix (t : tbl) (s : frel) : res tbl := refreshTable (withSuf t (otSuf t ++ [s])).
Definition resolveDiscrete (t : tbl) (i j : nat) (a : letter) : res tbl :=
  do (t1, r) <- findBreaking t i j (fun s => brPredAct s a) (otSuf t);
  match r with None => Stop SAbort | Some s => addSuffix t1 s end.
Definition resolveContinuous (t : tbl) (i j : nat) : res (tbl * bool) :=
  do (t1, r) <- findBreaking t i j brPred (otSuf t);
  match r with None => Ok (t1, false) | Some s => do t2 <- addSuffix t1 s; Ok (t2, true) end.

(** ** observation_table.hh:519-549 consistent *)
(** lines 527-536 *)
Fixpoint discreteConsistent (t : tbl) (i j : nat) (l : list letter) : res (tbl * bool) :=
  match l with
  | [] => Ok (t, true)
  | a :: l' =>
      match discAt t i a, discAt t j a with
      | Some k, Some m =>
          let (t1, r) := equivMemo t k m in
          match r with
          | Some _ => discreteConsistent t1 i j l'
          | None => do t2 <- resolveDiscrete t1 i j a; Ok (t2, false)
          end
      | _, _ => Stop SThrow
      end
  end.
(** lines 525-544 for one pair *)
Definition pairConsistent (t : tbl) (i j : nat) : res (tbl * bool) :=
  let (t1, r) := equivMemo t i j in
  match r with
  | None => Ok (t1, true)
  | Some _ =>
      do (t2, b) <- discreteConsistent t1 i j (otAlpha t1);
      if negb b then Ok (t2, false)
      else match contAt t2 i, contAt t2 j with
           | Some k, Some m =>
               let (t3, r3) := equivMemo t2 k m in
               match r3 with
               | Some _ => Ok (t3, true)
               | None => do (t4, b4) <- resolveContinuous t3 i j; Ok (t4, negb b4)
               end
           | _, _ => Stop SThrow
           end
  end.
Fixpoint consistentLoop (t : tbl) (ps : list (nat * nat)) : res (tbl * bool) :=
  match ps with
  | [] => Ok (t, true)
  | (i, j) :: ps' =>
      if (i <=? j)%nat then consistentLoop t ps'
      else do (t1, b) <- pairConsistent t i j; if (b : bool) then consistentLoop t1 ps' else Ok (t1, false)
  end.
(** pIndices does not change during the loops *)
Definition consistent (t : tbl) : res (tbl * bool) := consistentLoop t (list_prod (ordP t) (ordP t)).

(** lines 578-583, 628-632: move a list of rows to P *)
Fixpoint moveAll (fuel : nat) (t : tbl) (l : list nat) : res tbl :=
  match l with [] => Ok t | i :: l' => do t1 <- moveToP fuel t i; moveAll fuel t1 l' end.
(** ** observation_table.hh:556-584 exteriorConsistent *)
Fixpoint exteriorNew (t : tbl) (l : list nat) : res (list nat) :=
  match l with
  | [] => Ok []
  | p :: l' =>
      match contAt t p with
      | None => Stop SThrow
      | Some k => do r <- exteriorNew t l'; Ok (if inP t k then r else if hasEqualityN (preAt t p) then r else k :: r)
      end
  end.
Definition exteriorConsistent (fuel : nat) (t : tbl) : res (tbl * bool) :=
  do new <- exteriorNew t (ordP t);
  match new with
  | [] => Ok (t, true)
  | _ => do t1 <- moveAll fuel t new; do t2 <- refreshTable t1; Ok (t2, false)
  end.

(** ** observation_table.hh:594-635 timeSaturate *)
(** lines 599-621 for one p: the successor is to be added (Some) or not *)
Definition saturateOne (t : tbl) (p k : nat) : res (tbl * option nat) :=
  let (t1, r) := equivMemo t k p in
  match r with
  | None => Ok (t1, Some k)
  | Some _ =>
      match mapAt (relAt t1 k) p with
      | None => Stop SThrow
      | Some [] => Ok (withRel t1 (mapPut (otRel t1) k [(p, [])]), None)
      | Some _ => if equivRows t1 k p [] then Ok (withRel t1 (mapPut (otRel t1) k [(p, [])]), None) else Ok (t1, Some k)
      end
  end.
Fixpoint saturateLoop (t : tbl) (l : list nat) : res (tbl * list nat) :=
  match l with
  | [] => Ok (t, [])
  | p :: l' =>
      match contAt t p with
      | None => Stop SThrow
      | Some k =>
          if inP t k then saturateLoop t l'
          else do (t1, r) <- saturateOne t p k;
               do (t2, new) <- saturateLoop t1 l';
               Ok (t2, match r with Some k => k :: new | None => new end)
      end
  end.
Definition timeSaturate (fuel : nat) (t : tbl) : res (tbl * bool) :=
  do (t1, new) <- saturateLoop t (ordP t);
  match new with
  | [] => Ok (t1, true)
  | _ => do t2 <- moveAll fuel t1 new; do t3 <- refreshTable t2; Ok (t3, false)
  end.

(** ** observation_table.hh:485-512 toRecognizable *)
(** lines 499-508: the keys of the inner map still to be considered *)
Fixpoint pickTarget (t : tbl) (i : nat) (js : list nat) : tbl * option (nat * renaming) :=
  match js with
  | [] => (t, None)
  | j :: js' =>
      let erased (t : tbl) := withRel t (mapPut (otRel t) i (mapErase (relAt t i) j)) in
      if inP t j
      then let (t1, r) := equivMemo t i j in
           match r with
           | Some _ => (t1, match mapAt (relAt t1 i) j with Some r => Some (j, r) | None => None end)
           | None => pickTarget (erased t1) i js'
           end
      else pickTarget (erased t) i js'
  end.
Fixpoint morphLoop (t : tbl) (is : list nat) : tbl * list morph :=
  match is with
  | [] => (t, [])
  | i :: is' =>
      if inP t i then morphLoop t is'
      else let (t1, r) := pickTarget t i (map fst (relAt t i)) in
           let (t2, ms) := morphLoop t1 is' in
           (t2, match r with Some (j, ren) => mkMorph (fel (preAt t i)) (fel (preAt t j)) ren :: ms | None => ms end)
  end.
Definition toRecognizable (t : tbl) : tbl * rlang :=
  let idx := filter (inP t) (seq 0 (length (otPre t))) in
  let (t1, ms) := morphLoop t (ordR t) in
  (t1, mkRL (map (fun i => fel (preAt t i)) idx) (map (fun i => fel (preAt t i)) (filter (isMatch t) idx)) ms).

(** ** observation_table.hh:716-747 handleCEX *)
(** std::find on the prefixes *)
Definition findPrefix (t : tbl) (x : frel) : option nat := find (fun i => frEqb (preAt t i) x) (seq 0 (length (otPre t))).
Fixpoint addPrefixes (fuel : nat) (t : tbl) (updated : bool) (l : list frel) : res tbl :=
  match l with
  | [] => if updated then Ok t else Stop SAbort
  | x :: l' =>
      match findPrefix t x with
      | None => Stop SThrow
      | Some i =>
          if inP t i then addPrefixes fuel t updated l'
          else do t1 <- moveToP fuel t i;
               do (t2, b) <- close fuel t1;
               if (b : bool) then addPrefixes fuel t2 true l' else Ok t2
      end
  end.
Definition handleCEX (fuel : nat) (t : tbl) (w : tword) : res tbl :=
  let (t1, h) := toRecognizable t in
  match analyzeCEX fuel h (sufEL t1) (symAnswer o) (otMem t1) w with
  | None => Stop SFuel
  | Some (y, CError) => Stop SThrow
  | Some (y, CFresh s) => addSuffix (withMem t1 y) (brFromTimedWord s)
  | Some (y, CNone) => addPrefixes fuel (withMem t1 y) false (frPrefixes fuel (frFromTimedWord w) [])
  end.

(** ** learner.hh:28-54 run *)
(** lines 31-37 *)
Fixpoint refine (fuel : nat) (t : tbl) : res tbl :=
  match fuel with
  | O => Stop SFuel
  | S n =>
      do (t1, b1) <- close n t;
      if negb b1 then refine n t1
      else do (t2, b2) <- consistent t1;
           if negb b2 then refine n t2
           else do (t3, b3) <- exteriorConsistent n t2;
                if negb b3 then refine n t3
                else do (t4, b4) <- timeSaturate n t3;
                     if (b4 : bool) then Ok t4 else refine n t4
  end.
(** the loop; the construction of the hypothesis (lines 38-43: generateHypothesis
    and the simplifications) and the equivalence oracle, with its state, are
    parameters *)
Context {Es : Type} (hypothesis : tbl -> res ta) (eqOracle : Es -> ta -> res (Es * option tword)).
Fixpoint learn (fuel : nat) (t : tbl) (e : Es) : res (tbl * Es * ta) :=
  match fuel with
  | O => Stop SFuel
  | S n =>
      do t1 <- refine n t;
      do h <- hypothesis t1;
      do (e1, c) <- eqOracle e h;
      match c with
      | None => Ok (t1, e1, h)
      | Some w => do t2 <- handleCEX n t1 w; learn n t2 e1
      end
  end.
End Table.
