(** C70: can the learner fail with an exception although the equivalence oracle
    only gives genuine counterexamples?  It can. *)
From Coq Require Import QArith ZArith Bool List Lqa Lia Arith Permutation.
From Verif Require Import BoundsModel ConstraintModel GuardSpec ConstraintProofs ZoneModel ZoneSpec AutomatonModel AutomatonSpec AutomatonProofs AutomatonProofs2 TimedWordModel TimedWordSpec
  OracleModel OracleSpec TimedConditionModel ElementaryModel RegionalModel SymbolicModel SymbolicSpec CexModel CexSpec TableModel TableSpec HypothesisModel HypothesisSpec
  ZoneGraphModel ZoneGraphSpec SimplifyZonesModel FinalHypothesisModel PropertiesAutomata PropertiesZoneGraph PropertiesSymbolic PropertiesTable PropertiesHypothesis PropertiesSimplifyZones.
Import ListNotations.
Open Scope Q_scope.

(** *** Acceptance of a word by an automaton without unobservable transitions,
    by search through all runs *)
Definition nextConfs (A : ta) (a : letter) (c : conf) : list conf :=
  flat_map (fun ls => if (fst ls =? fst c)%nat
    then flat_map (fun p => if (fst p =? a)%nat then flat_map (fun t => if gsatb (tgrd t) (snd c) then [(ttgt t, applyReset (snd c) (trst t))] else []) (snd p) else []) (snext (snd ls))
    else []) (tstates A).
Fixpoint acceptFrom (A : ta) (c : conf) (w : list (letter * Q)) : bool :=
  match w with
  | [] => existsb (fun ls => (fst ls =? fst c)%nat && AutomatonModel.isMatch (snd ls)) (tstates A)
  | (a, d) :: w' => Qle_bool 0 d && existsb (fun c1 => acceptFrom A (fst c1, delay (snd c1) d) w') (nextConfs A a c)
  end.
Definition acceptB (A : ta) (w : tword) : bool :=
  Qle_bool 0 (firstDur w) && existsb (fun l => acceptFrom A (l, delay (fun _ => 0) (firstDur w)) (events w)) (tinit A).
Lemma nextConfs_ok A a c c1 : In c1 (nextConfs A a c) <-> exists t, edge A (fst c) a t /\ gsat (tgrd t) (snd c) /\ c1 = (ttgt t, applyReset (snd c) (trst t)).
Proof.
  unfold nextConfs. rewrite in_flat_map. split.
  - intros ([l s] & Hl & H). cbn [fst snd] in H. destruct (l =? fst c)%nat eqn:E; [|destruct H]. apply Nat.eqb_eq in E. subst l.
    apply in_flat_map in H. destruct H as ([a' ts] & Ha & H). cbn [fst snd] in H. destruct (a' =? a)%nat eqn:E; [|destruct H]. apply Nat.eqb_eq in E. subst a'.
    apply in_flat_map in H. destruct H as (t & Ht & H). destruct (gsatb (tgrd t) (snd c)) eqn:G; [|destruct H]. destruct H as [<-|[]]. exists t. split; [exists s, ts; auto|]. split; [apply gsatb_gsat; exact G|reflexivity].
  - intros (t & (s & ts & H1 & H2 & H3) & G & ->). exists (fst c, s). split; [exact H1|]. cbn [fst snd]. rewrite Nat.eqb_refl. apply in_flat_map. exists (a, ts). split; [exact H2|]. cbn [fst snd]. rewrite Nat.eqb_refl.
    apply in_flat_map. exists t. split; [exact H3|]. rewrite (proj2 (gsatb_gsat _ _) G). left. reflexivity.
Qed.
Lemma acceptFrom_ok A : noSilent A -> forall w l v v', veq v v' -> (acceptFrom A (l, v) w = true <-> exists c, run A (l, v') w c /\ accepting A (fst c)).
Proof.
  intros NS. induction w as [|[a d] w IH]; intros l v v' EV; cbn [acceptFrom fst snd].
  - rewrite existsb_exists. split.
    + intros ([l' s] & H & K). cbn [fst snd] in K. apply andb_true_iff in K. destruct K as [K1 K2]. apply Nat.eqb_eq in K1. subst l'. exists (l, v'). split; [constructor|]. exists s. auto.
    + intros (c & R & (s & H & M)). inversion R; subst. cbn [fst] in H. exists (l, s). split; [exact H|]. cbn [fst snd]. rewrite Nat.eqb_refl, M. reflexivity.
  - rewrite andb_true_iff, Qle_bool_iff, existsb_exists. split.
    + intros (D & [l1 v1] & H & K). apply nextConfs_ok in H. destruct H as (t & E & G & X). injection X as -> ->. cbn [fst snd] in *.
      assert (F : fire A a (l, v') (ttgt t, applyReset v (trst t))).
      { apply (fire_veq A a l v); [exact EV|]. exists t. cbn [fst snd]. split; [exact E|]. split; [exact G|]. split; [reflexivity|apply applyReset_isReset]. }
      destruct (proj1 (IH _ _ _ (fun x => Qeq_refl _)) K) as (c & R & AC). exists c. split; [|exact AC].
      eapply run_cons; [exact F| |exact R]. constructor; [exact D|intro; reflexivity].
    + intros (c & R & AC). inversion R as [|c0 a0 d0 [l1 v1] [l2 v2] w0 c' F FL R' X1 X2 X3]; subst. destruct (flow_plain A l1 v1 d _ NS FL) as (D & E2 & E3). cbn [fst snd] in E2, E3. subst l2. split; [exact D|].
      destruct F as (t & E & G & L & RS). cbn [fst snd] in *. exists (ttgt t, applyReset v (trst t)). split.
      * apply nextConfs_ok. exists t. split; [exact E|]. split; [|reflexivity]. apply (gsat_veq _ v'); [intro x; symmetry; apply EV|exact G].
      * cbn [fst snd]. subst l1. apply (IH _ _ v2); [|exists c; auto]. intro x. rewrite (E3 x). unfold delay. apply Qplus_comp; [|reflexivity].
        assert (RS' : isReset (trst t) v v1) by (eapply isReset_veq; [| |exact RS]; [intro; rewrite (EV x0); reflexivity|intro; reflexivity]). apply isReset_applyReset in RS'. symmetry. apply RS'.
Qed.
Lemma acceptB_ok A w : noSilent A -> (acceptB A w = true <-> acceptsTW A w).
Proof.
  intro NS. unfold acceptB, acceptsTW, accepts. rewrite andb_true_iff, Qle_bool_iff, existsb_exists. split.
  - intros (D & l & Hl & K). apply (acceptFrom_ok A NS (events w) l _ _ (fun x => Qeq_refl _)) in K. destruct K as (c & R & AC). exists l, (l, delay (fun _ => 0) (firstDur w)), c. split; [exact Hl|]. split; [constructor; [exact D|intro; reflexivity]|]. auto.
  - intros (l & [l1 v1] & c & Hl & F & R & AC). destruct (flow_plain A l _ _ _ NS F) as (D & E2 & E3). cbn [fst snd] in E2, E3. subst l1. split; [exact D|]. exists l. split; [exact Hl|].
    apply (acceptFrom_ok A NS (events w) l _ v1); [|exists c; auto]. intro x. symmetry. apply E3.
Qed.

(** *** The rounds of the learner *)
(** an equivalence oracle that never lies: its counterexamples are timed words
    over the alphabet on which the automaton and the target differ *)
Definition genuine {Es} (T : ta) (alpha : list letter) (eqOracle : Es -> ta -> res (Es * option tword)) : Prop :=
  forall e h e' w, eqOracle e h = Ok (e', Some w) -> properTW w /\ (forall a, In a (tw w) -> In a alpha) /\ (acceptsTW h w <-> ~ acceptsTW T w).
Section Rounds.
Context {St Es : Type} (o : mOracle St) (ordP ordR : ot St -> list nat) (place : ot St -> nat -> nat -> nat) (hyp : ot St -> res ta) (eqOracle : Es -> ta -> res (Es * option tword)).
(** the learner, started with fuel [n] on the table [t] and the oracle state
    [e], gets to a round that starts with [n'], [t'] and [e'] *)
Inductive atRound : nat -> ot St -> Es -> nat -> ot St -> Es -> Prop :=
| round_here n t e : atRound n t e n t e
| round_next n t e t1 h e1 w t2 n' t' e' : refine o ordP place n t = Ok t1 -> hyp t1 = Ok h -> eqOracle e h = Ok (e1, Some w) -> handleCEX o ordP ordR place n t1 w = Ok t2 ->
    atRound n t2 e1 n' t' e' -> atRound (S n) t e n' t' e'.
Lemma round_learn n t e n' t' e' st : atRound n t e n' t' e' -> learn o ordP ordR place hyp eqOracle n' t' e' = Stop st -> learn o ordP ordR place hyp eqOracle n t e = Stop st.
Proof. intros H K. induction H as [|n t e t1 h e1 w t2 n' t' e' H1 H2 H3 H4 H IH]; [exact K|]. cbn [learn]. rewrite H1. cbn [bind]. rewrite H2. cbn [bind]. rewrite H3. cbn [bind]. rewrite H4. cbn [bind]. apply IH. exact K. Qed.
(** [k] rounds, executed *)
Fixpoint rounds (k n : nat) (t : ot St) (e : Es) : res (nat * ot St * Es) :=
  match k with
  | O => Ok (n, t, e)
  | S k' =>
      match n with
      | O => Stop SFuel
      | S m => do t1 <- refine o ordP place m t; do h <- hyp t1; do (e1, c) <- eqOracle e h;
               match c with None => Stop SFuel | Some w => do t2 <- handleCEX o ordP ordR place m t1 w; rounds k' m t2 e1 end
      end
  end.
Lemma rounds_ok : forall k n t e n' t' e', rounds k n t e = Ok (n', t', e') -> atRound n t e n' t' e'.
Proof.
  induction k as [|k IH]; intros n t e n' t' e' H; cbn [rounds] in H; [injection H as <- <- <-; constructor|]. destruct n as [|m]; [discriminate|].
  destruct (refine o ordP place m t) as [t1|] eqn:E1; [|discriminate]. cbn [bind] in H. destruct (hyp t1) as [h|] eqn:E2; [|discriminate]. cbn [bind] in H. destruct (eqOracle e h) as [[e1 [w|]]|] eqn:E3; [|discriminate|discriminate]. cbn [bind] in H.
  destruct (handleCEX o ordP ordR place m t1 w) as [t2|] eqn:E4; [|discriminate]. cbn [bind] in H. eapply round_next; eauto.
Qed.
(** the last round, with what it has computed *)
Definition lastRound (k n : nat) (t : ot St) (e : Es) : res (nat * ot St * Es * ot St * ta * tword) :=
  do (x, e1) <- rounds k n t e; let (m, t1) := (x : nat * ot St) in
  match m with
  | O => Stop SFuel
  | S m' => do t2 <- refine o ordP place m' t1; do h <- hyp t2; do (e2, c) <- eqOracle e1 h; match c with None => Stop SFuel | Some w => Ok (m', t1, e1, t2, h, w) end
  end.
Lemma lastRound_ok k n t e m t1 e1 t2 h w : lastRound k n t e = Ok (m, t1, e1, t2, h, w) ->
  atRound n t e (S m) t1 e1 /\ refine o ordP place m t1 = Ok t2 /\ hyp t2 = Ok h /\ exists e2, eqOracle e1 h = Ok (e2, Some w).
Proof.
  unfold lastRound. intro H. destruct (rounds k n t e) as [[[n' t'] e']|] eqn:E; [|discriminate]. cbn [bind] in H. apply rounds_ok in E. destruct n' as [|m']; [discriminate|].
  destruct (refine o ordP place m' t') as [u|] eqn:E1; [|discriminate]. cbn [bind] in H. destruct (hyp u) as [g|] eqn:E2; [|discriminate]. cbn [bind] in H. destruct (eqOracle e' g) as [[e2 [v|]]|] eqn:E3; [|discriminate|discriminate]. cbn [bind] in H. injection H as <- <- <- <- <- <-.
  split; [exact E|]. split; [exact E1|]. split; [exact E2|]. exists e2. exact E3.
Qed.
End Rounds.

(** *** From a computation to the statement *)
Section Generic.
Context (T : ta) (alpha : list letter) (n : nat) (ordP ordR : ot (cache runner) -> list nat) (place : ot (cache runner) -> nat -> nat -> nat) (ordI : list (loc * tcond) -> list (loc * tcond))
        (relax : neighbours -> states -> states) (split : states -> states) (prefer : trans -> trans -> bool) (pick : picker) (eqOracle : unit -> ta -> res (unit * option tword)) (fuel fuel' fz k : nat).
Notation o := (cacheAnswer (sulAnswer n)).
Notation hyp := (finalHypothesis ordP ordI relax split prefer fz pick).
Definition crError (m : nat) (t : ot (cache runner)) (w : tword) : bool :=
  match analyzeCEX m (snd (toRecognizable ordR place t)) (sufEL (fst (toRecognizable ordR place t))) (symAnswer o) (otMem (fst (toRecognizable ordR place t))) w with Some (_, CError) => true | _ => false end.
Definition crCheck (x : nat * ot (cache runner) * unit * ot (cache runner) * ta * tword) : bool :=
  match x with (m, t1, e1, t2, h, w) =>
    tbSat t2 && forallb smallRowb (otPre t2) && noSilentb h && acceptB T w && negb (acceptB h w) && crError m t2 w &&
    match learnerHypothesis ordP ordI relax split prefer t2 with Ok b => noSilentb b && acceptB b w | Stop _ => false end
  end.
Lemma crGeneric : noSilent T ->
  bind2 (newTable o place fuel alpha (newSym (newCache (mkRunner T)))) (fun t => lastRound o ordP ordR place hyp eqOracle k fuel' t tt) crCheck = true ->
  exists t0, newTable o place fuel alpha (newSym (newCache (mkRunner T))) = Ok t0 /\
    learn o ordP ordR place hyp eqOracle fuel' t0 tt = Stop SThrow /\
    exists m t1 t2 b c w,
      atRound o ordP ordR place hyp eqOracle fuel' t0 tt (S m) t1 tt /\
      refine o ordP place m t1 = Ok t2 /\ askedNonempty t2 /\ smallRows t2 /\
      learnerHypothesis ordP ordI relax split prefer t2 = Ok b /\ hyp t2 = Ok c /\
      acceptsTW T w /\ acceptsTW b w /\ ~ acceptsTW c w /\ eqOracle tt c = Ok (tt, Some w) /\
      exists y, analyzeCEX m (snd (toRecognizable ordR place t2)) (sufEL (fst (toRecognizable ordR place t2))) (symAnswer o) (otMem (fst (toRecognizable ordR place t2))) w = Some (y, CError).
Proof.
  intros NS H. destruct (bind2_ok _ _ _ H) as (t0 & [[[[[m t1] e1] t2] h] w] & E0 & E1 & C). exists t0. apply lastRound_ok in E1. destruct E1 as (R & E2 & E3 & e2 & E4).
  unfold crCheck in C. destruct e1, e2.
  apply andb_true_iff in C. destruct C as [C C7]. apply andb_true_iff in C. destruct C as [C C6]. apply andb_true_iff in C. destruct C as [C C5]. apply andb_true_iff in C. destruct C as [C C4]. apply andb_true_iff in C. destruct C as [C C3]. apply andb_true_iff in C. destruct C as [C1 C2].
  destruct (learnerHypothesis ordP ordI relax split prefer t2) as [b|] eqn:Eb; [|discriminate C7]. apply andb_true_iff in C7. destruct C7 as [C7 C8]. apply negb_true_iff in C5. apply noSilentb_ok in C3, C7.
  assert (CE : exists y, analyzeCEX m (snd (toRecognizable ordR place t2)) (sufEL (fst (toRecognizable ordR place t2))) (symAnswer o) (otMem (fst (toRecognizable ordR place t2))) w = Some (y, CError)).
  { unfold crError in C6. destruct (analyzeCEX _ _ _ _ _ w) as [[y [| |]]|]; try discriminate C6. exists y. reflexivity. }
  split; [exact E0|]. split.
  - apply (round_learn _ _ _ _ _ _ _ _ _ _ _ _ _ R). cbn [learn]. rewrite E2. cbn [bind]. rewrite E3. cbn [bind]. rewrite E4. cbn [bind].
    assert (HC : handleCEX o ordP ordR place m t2 w = Stop SThrow). { unfold handleCEX. destruct CE as [y CE]. destruct (toRecognizable ordR place t2) as [t3 g]. cbn [fst snd] in CE. rewrite CE. reflexivity. }
    rewrite HC. reflexivity.
  - exists m, t1, t2, b, h, w. split; [exact R|]. split; [exact E2|]. split; [apply tbSat_ok; exact C1|]. split; [apply smallRowb_ok; exact C2|]. split; [exact Eb|]. split; [exact E3|].
    split; [apply acceptB_ok; [exact NS|exact C4]|]. split; [apply acceptB_ok; [exact C7|exact C8]|]. split; [intro X; apply acceptB_ok in X; [congruence|exact C3]|]. split; [exact E4|exact CE].
Qed.
End Generic.

(** *** The witness *)
Definition crT : ta := mkTA
  [ (1, mkS false [ (1, [mkT 2 [] [mkC 0 Ole 0]; mkT 4 [(1, RConst 0)] [mkC 0 Ogt 0; mkC 0 Olt 1]]) ]);
    (2, mkS false [ (1, [mkT 5 [(1, RConst 0)] [mkC 0 Ogt 0; mkC 0 Olt 1]]) ]);
    (4, mkS false [ (1, [mkT 5 [] [mkC 1 Ogt 0; mkC 0 Olt 1]]) ]);
    (5, mkS false [ (1, [mkT 6 [] [mkC 0 Ogt 1; mkC 1 Olt 1]]) ]);
    (6, mkS true []) ]%nat [1%nat] [1; 1]%Z.
Definition crA : list letter := [1%nat].
Definition crW1 : tword := mkTW [1;1;1]%nat [0; 3#4; 1#2; 0].
Definition crW2 : tword := mkTW [1;1;1]%nat [1#2; 1#4; 1#2; 0].
Definition crWords : list tword := [crW1; crW2].
(** the equivalence oracle: the first of the two words on which the automata
    differ, if there is one *)
Definition crEq (e : unit) (h : ta) : res (unit * option tword) :=
  Ok (e, if noSilentb h then find (fun w => negb (Bool.eqb (acceptB h w) (acceptB crT w))) crWords else None).
Definition crRelax (_ : neighbours) (s : states) : states := s.
Definition crSplit (s : states) : states := s.
Lemma crRun :
  bind2 (newTable (cacheAnswer (sulAnswer 0)) tbPl 300 crA (newSym (newCache (mkRunner crT))))
    (fun t => lastRound (cacheAnswer (sulAnswer 0)) tbP tbR tbPl (finalHypothesis tbP hypI crRelax crSplit hypPrefer 200 firstPick) crEq 3 60 t tt)
    (crCheck crT 0 tbP tbR tbPl hypI crRelax crSplit hypPrefer) = true.
Proof. vm_cast_no_check (eq_refl true). Qed.
Lemma crPlain : plainDTA crT /\ intResets crT.
Proof.
  split; [|apply intResetsb_ok; reflexivity]. split; [apply wfb_ok; reflexivity|]. split; [apply noSilentb_ok; reflexivity|]. split.
  - intros l a t x q K I. assert (X := edgeAll_ok (fun e => forallb (fun p => match snd p with RConst q => Qle_bool 0 q | _ => true end) (trst (snd e))) crT l a t eq_refl K). cbn [snd] in X. rewrite forallb_forall in X. specialize (X _ I). cbn [snd] in X. apply Qle_bool_iff. exact X.
  - split; [apply deterministic_exact; [apply smallb_ok; reflexivity|reflexivity]|]. exists 1%nat. reflexivity.
Qed.
Lemma okInj {A B} (a c : A) (b d : B) : Ok (a, b) = Ok (c, d) -> b = d.
Proof. congruence. Qed.
Lemma crGenuine : genuine crT crA crEq.
Proof.
  intros e h e' w H. unfold crEq in H. apply okInj in H. destruct (noSilentb h) eqn:N; [|discriminate]. apply noSilentb_ok in N. apply find_some in H. destruct H as [I H].
  assert (NT : noSilent crT) by (apply noSilentb_ok; reflexivity).
  split; [|split].
  - destruct I as [<-|[<-|[]]]; (split; [split; [reflexivity|]|]); try (cbn; intros [X|[X|[X|[]]]]; discriminate X); repeat (constructor; [unfold Qle; cbn; lia|]); constructor.
  - destruct I as [<-|[<-|[]]]; cbn; intros a [<-|[<-|[<-|[]]]]; auto.
  - rewrite <- (acceptB_ok h w N), <- (acceptB_ok crT w NT). destruct (acceptB h w), (acceptB crT w); try discriminate H; intuition congruence.
Qed.
(** A property one would want: if every counterexample is genuine, the learner
    raises no exception.  It is false.  There are a deterministic target
    automaton, orders of iteration and an equivalence oracle that only gives
    genuine counterexamples with which the learner gets to a round where
    - the hypothesis [b] read off the table accepts a word that the target accepts,
    - the automaton [c] that simplifyWithZones leaves of it rejects that word,
    - the oracle gives this word,
    - the analysis of the word reaches the throw of counterexample_analyzer.hh:55
    and so the learner ends with the exception. *)
Theorem C70_genuine_counterexamples_never_throw_refuted :
  exists (T : ta) (alpha : list letter) (n : nat) (ordP ordR : ot (cache runner) -> list nat) (place : ot (cache runner) -> nat -> nat -> nat) (ordI : list (loc * tcond) -> list (loc * tcond))
         relax split prefer pick (eqOracle : unit -> ta -> res (unit * option tword)) (fuel fuel' fz : nat) (t0 : ot (cache runner)),
    plainDTA T /\ intResets T /\ ~ In UNOBSERVABLE alpha /\ NoDup alpha /\ (forall t, Permutation (ordP t) (otP t)) /\ (forall l, Permutation (ordI l) l) /\ picks pick /\ genuine T alpha eqOracle /\
    newTable (cacheAnswer (sulAnswer n)) place fuel alpha (newSym (newCache (mkRunner T))) = Ok t0 /\
    learn (cacheAnswer (sulAnswer n)) ordP ordR place (finalHypothesis ordP ordI relax split prefer fz pick) eqOracle fuel' t0 tt = Stop SThrow /\
    exists m t1 t2 b c w,
      atRound (cacheAnswer (sulAnswer n)) ordP ordR place (finalHypothesis ordP ordI relax split prefer fz pick) eqOracle fuel' t0 tt (S m) t1 tt /\
      refine (cacheAnswer (sulAnswer n)) ordP place m t1 = Ok t2 /\ askedNonempty t2 /\ smallRows t2 /\
      learnerHypothesis ordP ordI relax split prefer t2 = Ok b /\ finalHypothesis ordP ordI relax split prefer fz pick t2 = Ok c /\
      acceptsTW T w /\ acceptsTW b w /\ ~ acceptsTW c w /\ eqOracle tt c = Ok (tt, Some w) /\
      exists y, analyzeCEX m (snd (toRecognizable ordR place t2)) (sufEL (fst (toRecognizable ordR place t2))) (symAnswer (cacheAnswer (sulAnswer n))) (otMem (fst (toRecognizable ordR place t2))) w = Some (y, CError).
Proof.
  exists crT, crA, 0%nat, tbP, tbR, tbPl, hypI, crRelax, crSplit, hypPrefer, firstPick, crEq, 300%nat, 60%nat, 200%nat.
  assert (NS : noSilent crT) by (apply noSilentb_ok; reflexivity).
  destruct (crGeneric crT crA 0 tbP tbR tbPl hypI crRelax crSplit hypPrefer firstPick crEq 300 60 200 3 NS crRun) as (t0 & K1 & K2 & K3). exists t0.
  destruct crPlain as [P1 P2]. split; [exact P1|]. split; [exact P2|]. split; [cbn; intros [X|[]]; discriminate X|]. split; [repeat constructor; cbn; intuition discriminate|].
  split; [intro; apply Permutation_refl|]. split; [intro; apply Permutation_refl|]. split; [apply firstPick_ok|]. split; [exact crGenuine|]. split; [exact K1|]. split; [exact K2|exact K3].
Qed.
Print Assumptions C70_genuine_counterexamples_never_throw_refuted.
