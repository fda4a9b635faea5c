(** The cached runner of an automaton as a membership oracle for the theorems
    about symbolic queries and tables. *)
From Coq Require Import QArith ZArith Bool List Arith Lia Lqa.
From Verif Require Import BoundsModel ConstraintModel GuardSpec ZoneModel ZoneSpec AutomatonModel AutomatonSpec TimedWordModel TimedWordSpec TimedWordProofs
  TimedConditionModel TimedConditionSpec ElementaryModel ElementarySpec OracleModel OracleSpec OracleProofs OracleProofs2 PropertiesAutomata PropertiesOracles
  SymbolicModel SymbolicSpec SymbolicProofs SymbolicProofs2 RegionInvariance PropertiesSymbolic.
Import ListNotations.
Open Scope Q_scope.

Definition goodTW (w : tword) : Prop := wfTW w /\ nonnegTW w.
(** what the runner of [A] answers *)
Definition answerF (fuel : nat) (A : ta) (x : tword) : bool := match sulAnswer fuel (mkRunner A) x with Some (_, b) => b | None => false end.
Definition cacheInv (fuel : nat) (A : ta) (c : cache runner) : Prop :=
  rta (cOracle c) = A /\ forall x b, In (x, b) (cMap c) -> goodTW x /\ b = answerF fuel A x.
Lemma plain_oracle fuel A : plainDTA A -> intResets A ->
  (forall x, goodTW x -> (answerF fuel A x = true <-> acceptsTW A x)) /\
  (forall c x, cacheInv fuel A c -> goodTW x -> exists c', cacheAnswer (sulAnswer fuel) c x = Some (c', answerF fuel A x) /\ cacheInv fuel A c') /\
  regionInvariant goodTW (answerF fuel A) /\ cacheInv fuel A (newCache (mkRunner A)).
Proof.
  intros P IR. set (f := answerF fuel A).
  assert (Hf : forall x, goodTW x -> (f x = true <-> acceptsTW A x)).
  { intros x [H1 H2]. destruct (plain_answer fuel A (mkRunner A) x P eq_refl H1 H2) as (r' & b & E & _ & _ & K). unfold f, answerF. rewrite E. exact K. }
  assert (Hb : forall x y, goodTW x -> goodTW y -> (acceptsTW A x <-> acceptsTW A y) -> f x = f y).
  { intros x y Gx Gy E. assert (Fx := Hf x Gx). assert (Fy := Hf y Gy). destruct (f x), (f y); auto; [symmetry; apply Fy, E, Fx; auto|apply Fx, E, Fy; auto]. }
  assert (Ho : forall s x, rta s = A -> goodTW x -> exists s', sulAnswer fuel s x = Some (s', f x) /\ rta s' = A).
  { intros s x Es G. destruct (plain_answer fuel A s x P Es (proj1 G) (proj2 G)) as (r' & b & E & Er & _ & K). exists r'. split; [|auto]. rewrite E. f_equal. f_equal.
    specialize (Hf x G). destruct b, (f x); auto; [symmetry; apply Hf, K; reflexivity|apply K, Hf; reflexivity]. }
  assert (Hq : forall x y, goodTW x -> goodTW y -> sameTW x y -> f x = f y).
  { intros x y Gx Gy E. apply Hb; auto. split; apply acceptsTW_Q; [auto|apply sameTW_sym; auto]. }
  split; [exact Hf|]. split; [|split].
  - intros c x [I1 I2] G. unfold cacheAnswer, findTW. destruct (find (fun p => eqTW (fst p) x) (cMap c)) as [[k b]|] eqn:Fd; cbn [option_map snd].
    + apply find_some in Fd. destruct Fd as [F1 F2]. cbn [fst] in F2. destruct (I2 k b F1) as [Gk ->]. apply eqTW_iff in F2.
      eexists. split; [do 3 f_equal; apply (Hq k x Gk G F2)|]. split; auto.
    + destruct (Ho _ x I1 G) as [s' [E Es]]. rewrite E. eexists. split; [reflexivity|]. split; [exact Es|]. cbn [cMap]. intros k b [K|K]; [injection K as <- <-; auto|auto].
  - intros w w' W W' N N' Et R. apply Hb; auto. apply accepts_region; auto; [apply P|apply N].
  - split; [reflexivity|intros ? ? []].
Qed.
