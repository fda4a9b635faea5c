(** Specification of the observation table and of the learning loop. *)
From Coq Require Import QArith List Arith Permutation.
From Verif Require Import BoundsModel ConstraintModel ZoneModel ZoneSpec AutomatonModel AutomatonSpec TimedWordModel TimedWordSpec
  TimedConditionModel TimedConditionSpec ElementaryModel ElementarySpec RegionalModel RegionalSpec OracleModel SymbolicModel SymbolicSpec
  CexModel CexSpec RenamingModel RenamingSpec TableModel.
Import ListNotations.
Open Scope Q_scope.

(** the membership oracle [o] answers [f] on every proper word, in every state
    it can be in *)
Definition oracleFor {St} (o : mOracle St) (f : tword -> bool) (Inv : St -> Prop) : Prop :=
  forall s x, Inv s -> properTW x -> exists s', o s x = Some (s', f x) /\ Inv s'.

Section Ops.
Context {St : Type} (o : mOracle St) (ordP ordR : ot St -> list nat) (place : ot St -> nat -> nat -> nat).
(** what a client can do with a table *)
Inductive tblOp := OpClose | OpConsistent | OpExterior | OpSaturate | OpRecognizable | OpCex (w : tword).
Definition runOp (fuel : nat) (t : ot St) (op : tblOp) : res (ot St) :=
  match op with
  | OpClose => do (t', b) <- close o ordP place fuel t; Ok t'
  | OpConsistent => do (t', b) <- consistent o ordP place t; Ok t'
  | OpExterior => do (t', b) <- exteriorConsistent o ordP place fuel t; Ok t'
  | OpSaturate => do (t', b) <- timeSaturate o ordP place fuel t; Ok t'
  | OpRecognizable => Ok (fst (toRecognizable ordR place t))
  | OpCex w => handleCEX o ordP ordR place fuel t w
  end.
Fixpoint runOps (fuel : nat) (t : ot St) (ops : list tblOp) : res (ot St) :=
  match ops with [] => Ok t | op :: ops' => do t' <- runOp fuel t op; runOps fuel t' ops' end.
(** a table made by the constructor over a fresh symbolic oracle and changed by
    the operations [ops] *)
Definition history (fuel : nat) (alpha : list letter) (s : St) (ops : list tblOp) (t : ot St) : Prop :=
  exists t0, newTable o place fuel alpha (newSym s) = Ok t0 /\ runOps fuel t0 ops = Ok t.
End Ops.
(** the counterexamples given are words *)
Definition properOps (ops : list tblOp) : Prop := forall w, In (OpCex w) ops -> properTW w.
Definition noCex (ops : list tblOp) : Prop := forall w, ~ In (OpCex w) ops.

Section Table.
Context {St : Type} (f : tword -> bool).
(** the languages asked about so far, and that each can be satisfied *)
Definition askedNonempty (t : ot St) : Prop := forall x cs, In (x, cs) (smCache (otMem t)) -> nonemptyZ (ec x).
(** cell (i, s) says exactly which words of prefix i followed by suffix s are
    in the target *)
Definition exactTable (t : ot St) : Prop :=
  forall i, (i < length (otPre t))%nat -> exactRow f (fel (preAt t i)) (sufEL t) (rowAt t i).
(** no suffix of the table distinguishes related words of rows i and j *)
Definition alike (t : ot St) (i j : nat) (r : renaming) : Prop :=
  renIn r (fel (preAt t i)) (fel (preAt t j)) /\ indistinguishable f (fel (preAt t i)) (fel (preAt t j)) (sufEL t) r.
Definition row (t : ot St) (i : nat) : Prop := (i < length (otPre t))%nat.
(** P and its boundary: the successors of each row of P are rows; every row but
    the first is a successor of an earlier row of P *)
Definition prefixTree (t : ot St) : Prop :=
  In 0%nat (otP t) /\ preAt t 0 = frDefault /\ NoDup (otP t) /\ (forall p, In p (otP t) -> row t p) /\
  (forall p, In p (otP t) -> exists k, row t k /\ preAt t k = frSucc (preAt t p)) /\
  (forall p a, In p (otP t) -> In a (otAlpha t) -> exists k, row t k /\ preAt t k = frSuccAct (preAt t p) a) /\
  (forall i, (0 < i)%nat -> row t i -> exists p, In p (otP t) /\ (p < i)%nat /\
     (preAt t i = frSucc (preAt t p) \/ exists a, In a (otAlpha t) /\ preAt t i = frSuccAct (preAt t p) a)).
(** the row of P, and the renaming, that the hypothesis uses for row i: the
    first recorded relation whose target is in P *)
Definition hypTarget (t : ot St) (i : nat) : option (nat * renaming) := find (fun e => inP t (fst e)) (relAt t i).
(** the successors of a row *)
Definition timeSuccessor (t : ot St) (p k : nat) : Prop := row t k /\ preAt t k = frSucc (preAt t p).
Definition letterSuccessor (t : ot St) (p : nat) (a : letter) (k : nat) : Prop := row t k /\ preAt t k = frSuccAct (preAt t p) a.
(** on the first n columns the search for a renaming from row i to row j finds
    none (n: the columns there were when the rows were compared) *)
Definition differentUpTo (t : ot St) (n i j : nat) : Prop :=
  let sufs := firstn n (sufEL t) in
  let con k := map (fun s => ec (elConcat (fel (preAt t k)) s)) sufs in
  findDet (fel (preAt t i)) (firstn n (rowAt t i)) (con i) (fel (preAt t j)) (firstn n (rowAt t j)) (con j) sufs = None.
Definition foundDifferent (t : ot St) (i j : nat) : Prop :=
  exists n, (n <= length (otSuf t))%nat /\ (differentUpTo t n i j \/ differentUpTo t n j i).
(** after any word of row i, the reset built for the target (j, r) gives the
    clocks the values they have after a related word of row j, and no suffix of
    the table tells the two words apart *)
Definition resetLands (t : ot St) (i j : nat) (r : renaming) : Prop :=
  forall p, inElem (fel (preAt t i)) p -> exists p', inElem (fel (preAt t j)) p' /\ related r p p' /\
    (forall v, isReset (toReset r (ec (fel (preAt t j)))) (since (td p)) v -> forall k, (k < length (td p'))%nat -> v k == since (td p') k) /\
    forall z s, In z (sufEL t) -> inElem z s -> f (concatTW p s) = f (concatTW p' s).
Definition closedTable (t : ot St) : Prop :=
  forall i, row t i -> ~ In i (otP t) -> exists j r, hypTarget t i = Some (j, r) /\ In j (otP t) /\ alike t i j r /\ resetLands t i j r.
Definition consistentTable (t : ot St) : Prop :=
  forall i j, In i (otP t) -> In j (otP t) -> (j < i)%nat -> foundDifferent t i j \/
    ((exists r, alike t i j r) /\
     (forall a, In a (otAlpha t) -> exists k m r, letterSuccessor t i a k /\ letterSuccessor t j a m /\ alike t k m r) /\
     exists k m, timeSuccessor t i k /\ timeSuccessor t j m /\ ((exists r, alike t k m r) \/ foundDifferent t k m)).
(** at the end of the words of the language some event is a whole number of
    time units ago *)
Definition onInteger (x : elem) : Prop :=
  exists i z, (i <= length (ew x))%nat /\ forall w, inElem x w -> since (td w) i == inject_Z z.
Definition exteriorTable (t : ot St) : Prop :=
  forall p, In p (otP t) -> exists k, timeSuccessor t p k /\ (In k (otP t) \/ onInteger (fel (preAt t p))).
(** a row of P whose time successor is outside P: letting time pass changes
    nothing, whatever the clocks *)
Definition saturatedTable (t : ot St) : Prop :=
  forall p, In p (otP t) -> exists k, timeSuccessor t p k /\ (In k (otP t) \/ (hypTarget t k = Some (p, []) /\ alike t k p [])).
End Table.
