(** C71: the hypothesis automaton and the recognizable language of a refined
    table. *)
From Coq Require Import QArith ZArith Bool List Arith Lia Lqa Permutation.
From Verif Require Import BoundsModel BoundsProofs ConstraintModel GuardSpec ZoneModel ZoneSpec ZoneProofs AutomatonModel AutomatonSpec AutomatonProofs TimedWordModel TimedWordSpec TimedWordProofs
  TimedConditionModel TimedConditionSpec TimedConditionProofs ElementaryModel ElementarySpec ElementaryProofs
  RegionalModel RegionalSpec OracleModel OracleSpec SymbolicModel SymbolicSpec CexModel CexSpec RenamingModel RenamingSpec PropertiesAutomata PropertiesSymbolic PropertiesCex PropertiesRenaming OracleInstance TableModel TableSpec
  TableProofs ShapeProofs ShapeProofs2 TableProofs2 TableProofs3 TableProofs4 TableProofs5 TableProofs6 TableProofs7 TableProofs8 TableProofs9 TableProofs10 TableProofs11 TableProofs12 PropertiesTable
  HypothesisModel HypothesisSpec HypothesisGuard HypothesisMain HypothesisMain2 HypothesisMain3 HypothesisAgree3 PropertiesHypothesis.
Import ListNotations.
Open Scope Q_scope.

(** ** the common premise *)
Section Refined.
Context {St : Type} (o : mOracle St) (f : tword -> bool) (Inv : St -> Prop) (ordP ordR : ot St -> list nat) (place : ot St -> nat -> nat -> nat) (ordI : list (loc * tcond) -> list (loc * tcond)).
Context (HO : oracleFor o f Inv) (RI : regionInvariant properTW f) (TS : delayInvariant f) (HP : forall t, Permutation (ordP t) (otP t)) (HI : forall l, Permutation (ordI l) l).
Context (fuel fuel' : nat) (alpha : list letter) (s : St) (ops : list tblOp) (t t' : ot St).
Context (I : Inv s) (NA : ~ In UNOBSERVABLE alpha) (ND : NoDup alpha) (P : properOps ops) (H : history o ordP ordR place fuel alpha s ops t).
Context (E : refine o ordP place fuel' t = Ok t') (A : askedNonempty t') (SM : smallRows t').
Context (prefer : trans -> trans -> bool) (UT : usesTargets t' (snd (toRecognizable ordR place t'))).
Lemma refined_tinv : tinv f Inv t'.
Proof using HO RI HP I NA P H E A.
  assert (L := refine_le _ _ _ _ _ _ E). assert (T : tinv f Inv t) by (eapply history_tinv; eauto; eapply tle_allSat; eauto). exact (proj1 (refine_spec o f Inv ordP place HO RI HP fuel' t t' T A E)).
Qed.
Lemma refined_contains : exists h, (forall relax split, generateHypothesis ordP ordI relax split prefer t' = Ok h) /\
  forall fuel'' w c, properTW w -> rContains fuel'' (snd (toRecognizable ordR place t')) w = Some c -> (acceptsTW h w <-> c = true).
Proof using HO RI TS HP HI I NA ND P H E A SM UT.
  assert (L := refine_le _ _ _ _ _ _ E). assert (T : tinv f Inv t) by (eapply history_tinv; eauto; eapply tle_allSat; eauto). destruct (refine_spec o f Inv ordP place HO RI HP fuel' t t' T A E) as [T' [C1 [C2 [C3 C4]]]].
  assert (EA : otAlpha t' = alpha) by (destruct L as [_ [-> _]]; eapply history_alpha; exact H). rewrite <- EA in ND.
  destruct (toRecognizable ordR place t') as [t2 h0] eqn:ET. cbn [snd] in *.
  destruct (toRecognizable_spec o f Inv ordR place HO RI t' t2 h0 (tinv_okT _ _ _ T' A) (ti_rel _ _ _ T') ET) as (_ & _ & PR & _ & PX & FI).
  destruct (m_contains o f Inv HO RI TS t' T' A C1 C4 C3 ND (fun i w Hi Iw k Hk => SM i w k Hi Iw Hk) ordP ordI (fun l => Permutation_sym (HI l)) (Permutation_sym (HP t')) prefer h0 PR FI) as (h & G & _ & K); [|exact UT|exists h; auto].
  intros x Hx. apply PX in Hx. destruct Hx as (i & Hi & _ & ->). exists i. auto.
Qed.
End Refined.

(** C71: wherever RecognizableLanguage::contains of the refined table has an
    answer, the hypothesis - before and after the learner's simplification -
    accepts the word exactly when that answer is "contained". *)
Theorem C71_hypothesis_agrees_with_recognizable_language :
  forall (St : Type) (o : mOracle St) (f : tword -> bool) (Inv : St -> Prop) (ordP ordR : ot St -> list nat) (place : ot St -> nat -> nat -> nat) (ordI : list (loc * tcond) -> list (loc * tcond)),
    oracleFor o f Inv -> regionInvariant properTW f -> delayInvariant f -> (forall t, Permutation (ordP t) (otP t)) -> (forall l, Permutation (ordI l) l) ->
    forall (fuel fuel' : nat) (alpha : list letter) (s : St) (ops : list tblOp) (t t' : ot St), Inv s -> ~ In UNOBSERVABLE alpha -> NoDup alpha -> properOps ops ->
      history o ordP ordR place fuel alpha s ops t -> refine o ordP place fuel' t = Ok t' -> askedNonempty t' -> smallRows t' ->
      usesTargets t' (snd (toRecognizable ordR place t')) ->
      forall relax split prefer h b, generateHypothesis ordP ordI relax split prefer t' = Ok h -> learnerHypothesis ordP ordI relax split prefer t' = Ok b ->
      forall fuel'' w c, properTW w -> rContains fuel'' (snd (toRecognizable ordR place t')) w = Some c ->
        (acceptsTW h w <-> c = true) /\ (acceptsTW b w <-> c = true).
Proof.
  intros St o f Inv ordP ordR place ordI HO RI TS HP HI fuel fuel' alpha s ops t t' I NA ND P H E A SM UT relax split prefer h b Eh Eb fuel'' w c PW Hc.
  destruct (refined_contains o f Inv ordP ordR place ordI HO RI TS HP HI fuel fuel' alpha s ops t t' I NA ND P H E A SM prefer UT) as (h' & G & K).
  destruct (refined_learner o f Inv ordP ordR place ordI HO RI TS HP HI fuel fuel' alpha s ops t t' I NA ND P H E A SM prefer) as (h2 & b' & G2 & L & _).
  rewrite (proj1 (G2 relax split)) in Eh. rewrite (proj2 (G2 relax split)) in Eb. specialize (G relax split). rewrite (proj1 (G2 relax split)) in G. injection G as ->. injection Eh as ->. injection Eb as ->.
  assert (X := K fuel'' w c PW Hc). split; [exact X|]. rewrite <- X. unfold acceptsTW. apply L.
Qed.
Print Assumptions C71_hypothesis_agrees_with_recognizable_language.

(** and so a word on which that hypothesis is wrong is a counterexample that
    handleCEX can treat: it neither throws nor aborts *)
Theorem C71_wrong_word_never_throws :
  forall (St : Type) (o : mOracle St) (f : tword -> bool) (Inv : St -> Prop) (ordP ordR : ot St -> list nat) (place : ot St -> nat -> nat -> nat) (ordI : list (loc * tcond) -> list (loc * tcond)),
    oracleFor o f Inv -> regionInvariant properTW f -> delayInvariant f -> (forall t, Permutation (ordP t) (otP t)) -> (forall l, Permutation (ordI l) l) ->
    forall (fuel fuel' : nat) (alpha : list letter) (s : St) (ops : list tblOp) (t t' : ot St), Inv s -> ~ In UNOBSERVABLE alpha -> NoDup alpha -> properOps ops ->
      history o ordP ordR place fuel alpha s ops t -> refine o ordP place fuel' t = Ok t' -> askedNonempty t' -> smallRows t' ->
      usesTargets t' (snd (toRecognizable ordR place t')) ->
      forall relax split prefer b, learnerHypothesis ordP ordI relax split prefer t' = Ok b ->
      forall fuel'' w, properTW w -> ~ (acceptsTW b w <-> f w = true) ->
        handleCEX o ordP ordR place fuel'' t' w <> Stop SThrow /\ handleCEX o ordP ordR place fuel'' t' w <> Stop SAbort.
Proof.
  intros St o f Inv ordP ordR place ordI HO RI TS HP HI fuel fuel' alpha s ops t t' I NA ND P H E A SM UT relax split prefer b Eb fuel'' w PW NW.
  destruct (refined_contains o f Inv ordP ordR place ordI HO RI TS HP HI fuel fuel' alpha s ops t t' I NA ND P H E A SM prefer UT) as (h & G & K).
  destruct (refined_learner o f Inv ordP ordR place ordI HO RI TS HP HI fuel fuel' alpha s ops t t' I NA ND P H E A SM prefer) as (h2 & b' & G2 & L & _).
  rewrite (proj2 (G2 relax split)) in Eb. specialize (G relax split). rewrite (proj1 (G2 relax split)) in G. injection G as ->. injection Eb as ->.
  assert (N : rContains fuel'' (snd (toRecognizable ordR place t')) w <> Some (f w)).
  { intro X. apply NW. rewrite <- (K fuel'' w (f w) PW X). unfold acceptsTW. apply L. }
  assert (T' := refined_tinv o f Inv ordP ordR place HO RI HP fuel fuel' alpha s ops t t' I NA P H E A).
  split; intro X; destruct (handleCEX_nostop o f Inv ordP ordR place HO RI fuel'' t' w _ T' A PW N X) as [Y|Y]; discriminate Y.
Qed.
Print Assumptions C71_wrong_word_never_throws.

(** ** when the recognizable language uses the targets of the hypothesis *)
Section Settled.
Context {St : Type} (place : ot St -> nat -> nat -> nat).
Lemma find_erase (g : nat -> bool) (l : list (nat * renaming)) k : g k = false -> find (fun e => g (fst e)) (mapErase l k) = find (fun e => g (fst e)) l.
Proof.
  intro G. induction l as [|[a r] l IH]; [reflexivity|]. unfold mapErase. cbn [filter find fst]. destruct (Nat.eqb_spec a k) as [->|N]; cbn [negb].
  - rewrite G. exact IH.
  - cbn [find fst]. destruct (g a); [reflexivity|exact IH].
Qed.
Lemma find_mapAt (g : nat -> bool) (l : list (nat * renaming)) j r : find (fun e => g (fst e)) l = Some (j, r) -> mapAt l j = Some r.
Proof.
  intro F. assert (G : g j = true) by (apply find_some in F; exact (proj2 F)). unfold mapAt. induction l as [|[a q] l IH]; [discriminate|]. cbn [find fst] in *. destruct (Nat.eqb_spec a j) as [->|N].
  - rewrite G in F. injection F as <-. reflexivity.
  - destruct (g a); [injection F as <- _; contradiction|auto].
Qed.
Lemma inDist_in (t : ot St) i j : inDist t i j = true <-> In (i, j) (otDist t).
Proof.
  unfold inDist. rewrite existsb_exists. split.
  - intros ([a b] & K & X). unfold pairEqb in X. cbn [fst snd] in X. apply andb_true_iff in X. destruct X as [X Y]. apply Nat.eqb_eq in X. apply Nat.eqb_eq in Y. subst. exact K.
  - intro K. exists (i, j). split; [exact K|]. unfold pairEqb. cbn [fst snd]. rewrite !Nat.eqb_refl. reflexivity.
Qed.
(** everything but the recorded relations is the same, and so are the targets *)
Definition kept (t t1 : ot St) : Prop := same t t1 /\ otDist t1 = otDist t /\ forall k, hypTarget t1 k = hypTarget t k.
Lemma kept_settled t t1 : kept t t1 -> settledTargets t -> settledTargets t1.
Proof.
  intros (S0 & D & T) H i j r Hi Ni F. rewrite T in F. rewrite D. destruct S0 as (S1 & S2 & S3 & S4 & S5 & S6 & S7 & _). unfold row in Hi. rewrite S3 in Hi. rewrite S6 in Ni. destruct (H i j r Hi Ni F) as (A & B & C). split; [exact A|]. split; [exact B|].
  rewrite <- C. unfold equivRows, preAt, rowAt, conAt, sufEL. rewrite S3, S4, S5, S7. reflexivity.
Qed.
Lemma kept_erased (t : ot St) i k : inP t k = false -> kept t (withRel t (mapPut (otRel t) i (mapErase (relAt t i) k))).
Proof.
  intro N. split; [apply same_rel|]. split; [reflexivity|]. intro x. unfold hypTarget. rewrite (relAt_put t i (mapErase (relAt t i) k) (withRel t (mapPut (otRel t) i (mapErase (relAt t i) k))) x eq_refl). destruct (Nat.eqb_spec i x) as [->|]; [|reflexivity]. apply (find_erase (inP t)). exact N.
Qed.
Lemma kept_trans a b c : kept a b -> kept b c -> kept a c.
Proof. intros (A1 & A2 & A3) (B1 & B2 & B3). split; [eapply same_trans; eauto|]. split; [congruence|]. intro k. rewrite B3. auto. Qed.
Lemma pickTarget_settled i : forall js (t : ot St), settledTargets t -> row t i -> ~ In i (otP t) ->
  match find (inP t) js with Some j => exists r, hypTarget t i = Some (j, r) | None => True end ->
  exists t1, pickTarget place t i js = (t1, match find (inP t) js with Some _ => hypTarget t i | None => None end) /\ kept t t1.
Proof.
  induction js as [|k js IH]; intros t H Hi Ni F; cbn [pickTarget find] in *; [exists t; split; [reflexivity|]; split; [apply same_refl|auto]|]. destruct (inP t k) eqn:Pk.
  - destruct F as (r & F). destruct (H i k r Hi Ni F) as (D1 & D2 & Q). unfold equivMemo.
    assert (X1 : inDist t i k = false) by (destruct (inDist t i k) eqn:X; [apply inDist_in in X; contradiction|auto]). assert (X2 : inDist t k i = false) by (destruct (inDist t k i) eqn:X; [apply inDist_in in X; contradiction|auto]).
    assert (M := find_mapAt (inP t) (relAt t i) k r F). rewrite X1, X2, M, Q. cbn [orb]. rewrite M, F. exists t. split; [reflexivity|]. split; [apply same_refl|auto].
  - set (t2 := withRel t (mapPut (otRel t) i (mapErase (relAt t i) k))). assert (K : kept t t2) by (apply kept_erased; exact Pk).
    assert (EP : forall x, inP t2 x = inP t x) by reflexivity. destruct (IH t2) as (t1 & E1 & E2).
    + eapply kept_settled; eauto.
    + exact Hi.
    + exact Ni.
    + change (inP t2) with (inP t). destruct (find (inP t) js) as [j|]; [|exact Logic.I]. destruct K as (_ & _ & K). rewrite K. exact F.
    + exists t1. split; [|eapply kept_trans; eauto]. cbv zeta. fold t2. rewrite E1. change (inP t2) with (inP t). destruct K as (_ & _ & K). rewrite K. reflexivity.
Qed.
Lemma find_keys (g : nat -> bool) (l : list (nat * renaming)) : find g (map fst l) = option_map fst (find (fun e => g (fst e)) l).
Proof. induction l as [|[a r] l IH]; [reflexivity|]. cbn [map find fst]. destruct (g a); [reflexivity|exact IH]. Qed.
Lemma morphLoop_settled : forall is (t : ot St), settledTargets t -> (forall i j r, hypTarget t i = Some (j, r) -> row t i) ->
  exists t1 ms, morphLoop place t is = (t1, ms) /\ forall m, In m ms -> exists i j r, row t i /\ ~ In i (otP t) /\ hypTarget t i = Some (j, r) /\ m = mkMorph (fel (preAt t i)) (fel (preAt t j)) r.
Proof.
  induction is as [|i is IH]; intros t H R; cbn [morphLoop]; [exists t, []; split; [reflexivity|intros ? []]|]. destruct (inP t i) eqn:Pi; [apply IH; auto|]. apply inP_false in Pi.
  assert (X : exists t1, pickTarget place t i (map fst (relAt t i)) = (t1, hypTarget t i) /\ kept t t1).
  { destruct (hypTarget t i) as [[j r]|] eqn:F.
    - assert (FK : find (inP t) (map fst (relAt t i)) = Some j) by (rewrite find_keys; unfold hypTarget in F; rewrite F; reflexivity).
      assert (X := pickTarget_settled i (map fst (relAt t i)) t H (R _ _ _ F) Pi). rewrite FK, F in X. apply X. eauto.
    - clear R. unfold hypTarget in F. assert (N : forall j, In j (map fst (relAt t i)) -> inP t j = false).
      { intros j Hj. apply in_map_iff in Hj. destruct Hj as (e & <- & He). apply (find_none _ _ F e He). }
      revert N. generalize (map fst (relAt t i)). clear F. intro js. revert H Pi. generalize t. clear t IH. induction js as [|k js IHj]; intros t H Pi N; cbn [pickTarget]; [exists t; split; [reflexivity|split; [apply same_refl|auto]]|].
      rewrite (N k (or_introl eq_refl)). set (t2 := withRel t (mapPut (otRel t) i (mapErase (relAt t i) k))). assert (K : kept t t2) by (apply kept_erased, N; left; auto).
      destruct (IHj t2) as (t1 & E & K1); [eapply kept_settled; eauto|exact Pi|intros j Hj; apply (N j); right; exact Hj|]. exists t1. split; [exact E|eapply kept_trans; eauto]. }
  destruct X as (t1 & -> & K). destruct (IH t1) as (t2 & ms & E & M); [eapply kept_settled; eauto|intros a b c F; destruct K as (S0 & _ & KT); rewrite KT in F; unfold row; destruct S0 as (_ & _ & -> & _); eapply R; eauto|]. rewrite E. eexists _, _. split; [reflexivity|].
  assert (M' : forall m, In m ms -> exists i j r, row t i /\ ~ In i (otP t) /\ hypTarget t i = Some (j, r) /\ m = mkMorph (fel (preAt t i)) (fel (preAt t j)) r).
  { intros m Hm. destruct (M m Hm) as (a & b & c & Y). destruct K as (S0 & _ & KT). rewrite KT in Y. unfold row, preAt in *. destruct S0 as (_ & _ & E1 & _ & _ & E2 & _). rewrite E1, E2 in Y. exists a, b, c. exact Y. }
  destruct (hypTarget t i) as [[j r]|] eqn:F; [|exact M']. intros m [<-|Hm]; [|auto]. exists i, j, r. split; [eapply R; eauto|]. auto.
Qed.
End Settled.

(** the premise of the two theorems above, read off the table *)
Theorem C71_settled_table_uses_targets :
  forall (St : Type) (o : mOracle St) (f : tword -> bool) (Inv : St -> Prop) (ordP ordR : ot St -> list nat) (place : ot St -> nat -> nat -> nat),
    oracleFor o f Inv -> regionInvariant properTW f -> (forall t, Permutation (ordP t) (otP t)) ->
    forall (fuel fuel' : nat) (alpha : list letter) (s : St) (ops : list tblOp) (t t' : ot St), Inv s -> ~ In UNOBSERVABLE alpha -> properOps ops ->
      history o ordP ordR place fuel alpha s ops t -> refine o ordP place fuel' t = Ok t' -> askedNonempty t' ->
      settledTargets t' -> usesTargets t' (snd (toRecognizable ordR place t')).
Proof.
  intros St o f Inv ordP ordR place HO RI HP fuel fuel' alpha s ops t t' I NA P H E A ST.
  assert (T' := refined_tinv o f Inv ordP ordR place HO RI HP fuel fuel' alpha s ops t t' I NA P H E A).
  destruct (morphLoop_settled place (ordR t') t' ST) as (t1 & ms & EM & M).
  - intros i j r F. apply find_some in F. exact (proj1 (relOK_rel t' (ti_rel _ _ _ T') i j r (proj1 F))).
  - unfold toRecognizable. cbv zeta. rewrite EM. cbn [snd]. exact M.
Qed.
Print Assumptions C71_settled_table_uses_targets.

(** *** Non-vacuity: the tables of C65; the recognizable language has morphisms
    and answers for a word outside its prefixes *)
Definition settledb {St} (t : ot St) : bool :=
  forallb (fun i => inP t i || match hypTarget t i with Some (j, r) => negb (inDist t i j) && negb (inDist t j i) && equivRows t i j r | None => true end) (seq 0 (length (otPre t))).
Lemma settledb_ok {St} (t : ot St) : settledb t = true -> settledTargets t.
Proof.
  intros H i j r Hi Ni F. unfold settledb in H. rewrite forallb_forall in H. specialize (H i ltac:(apply in_seq; unfold row in Hi; lia)). apply inP_false in Ni. rewrite Ni, F in H. cbn [orb] in H.
  apply andb_true_iff in H. destruct H as [H Q]. apply andb_true_iff in H. destruct H as [H1 H2]. apply negb_true_iff in H1. apply negb_true_iff in H2.
  split; [intro K; apply inDist_in in K; congruence|]. split; [intro K; apply inDist_in in K; congruence|exact Q].
Qed.
Definition agreeWord : tword := mkTW [1%nat; 1%nat] [(1 # 2); (5 # 2); (1 # 4)].
Definition agreeCheck (x : ot (cache runner) * ta) : bool :=
  let h := snd (toRecognizable tbR tbPl (fst x)) in
  tbSat (fst x) && forallb smallRowb (otPre (fst x)) && settledb (fst x) && (negb (length (rmorphs h) =? 0)%nat && negb (inPrefixes h agreeWord) && match rContains 20 h agreeWord with Some b => negb b | None => false end) && match rContains 20 h tbCex with Some b => negb (Bool.eqb b (tbF tbCex)) | None => false end.
Lemma agreeCheck_ok (t : ot (cache runner)) b : agreeCheck (t, b) = true -> askedNonempty t /\ smallRows t /\ settledTargets t /\
  rmorphs (snd (toRecognizable tbR tbPl t)) <> [] /\ inPrefixes (snd (toRecognizable tbR tbPl t)) agreeWord = false /\ rContains 20 (snd (toRecognizable tbR tbPl t)) agreeWord = Some false /\
  exists c, rContains 20 (snd (toRecognizable tbR tbPl t)) tbCex = Some c /\ c <> tbF tbCex.
Proof.
  unfold agreeCheck. cbn [fst snd]. cbv zeta. set (h := snd (toRecognizable tbR tbPl t)). intro X. apply andb_true_iff in X. destruct X as [X X5]. apply andb_true_iff in X. destruct X as [X X4]. apply andb_true_iff in X. destruct X as [X X3]. apply andb_true_iff in X. destruct X as [X1 X2].
  apply andb_true_iff in X4. destruct X4 as [X4 X6]. apply andb_true_iff in X4. destruct X4 as [X4 X7].
  split; [apply tbSat_ok; exact X1|]. split; [apply smallRowb_ok; exact X2|]. split; [apply settledb_ok; exact X3|]. split; [intro Z; rewrite Z in X4; discriminate X4|]. split; [apply negb_true_iff; exact X7|].
  split; [destruct (rContains 20 h agreeWord) as [[|]|]; [discriminate X6|reflexivity|discriminate X6]|]. destruct (rContains 20 h tbCex) as [c|]; [|discriminate X5]. exists c. split; [reflexivity|]. intro Z. rewrite Z, Bool.eqb_reflx in X5. discriminate X5.
Qed.
Lemma agreeGood ops : bindCheck (tbRun ops) (refine tbO tbP tbPl 40) (learnerHypothesis tbP hypI (fun _ s => s) (fun s => s) hypPrefer) agreeCheck = true -> exists t t' b, history tbO tbP tbR tbPl 40 tbA tbS ops t /\ refine tbO tbP tbPl 40 t = Ok t' /\ askedNonempty t' /\ smallRows t' /\ settledTargets t' /\
  learnerHypothesis tbP hypI (fun _ s => s) (fun s => s) hypPrefer t' = Ok b /\
  rmorphs (snd (toRecognizable tbR tbPl t')) <> [] /\ inPrefixes (snd (toRecognizable tbR tbPl t')) agreeWord = false /\ rContains 20 (snd (toRecognizable tbR tbPl t')) agreeWord = Some false /\
  exists c, rContains 20 (snd (toRecognizable tbR tbPl t')) tbCex = Some c /\ c <> tbF tbCex.
Proof.
  intro X. apply bind3 in X. destruct X as (t & t' & b & Et & Er & Eb & C). apply agreeCheck_ok in C. destruct C as (C1 & C2 & C3 & C4). exists t, t', b. split; [apply tbRun_ok; exact Et|]. split; [exact Er|]. split; [exact C1|]. split; [exact C2|]. split; [exact C3|]. split; [exact Eb|exact C4].
Qed.
Lemma agreeRun : bindCheck (tbRun (tbRound ++ [OpCex tbCex])) (refine tbO tbP tbPl 40) (learnerHypothesis tbP hypI (fun _ s => s) (fun s => s) hypPrefer) agreeCheck = true.
Proof. vm_compute. reflexivity. Qed.
(** all hypotheses of the three theorems hold of a table that has seen a
    counterexample: it has settled targets, its hypothesis rejects [agreeWord],
    a word outside the prefixes, and is wrong on [tbCex] *)
Example C71_satisfiable : exists t t' b,
  history tbO tbP tbR tbPl 40 tbA tbS (tbRound ++ [OpCex tbCex]) t /\ refine tbO tbP tbPl 40 t = Ok t' /\ askedNonempty t' /\ smallRows t' /\ settledTargets t' /\ usesTargets t' (snd (toRecognizable tbR tbPl t')) /\
  learnerHypothesis tbP hypI (fun _ s => s) (fun s => s) hypPrefer t' = Ok b /\
  rmorphs (snd (toRecognizable tbR tbPl t')) <> [] /\ properTW agreeWord /\ inPrefixes (snd (toRecognizable tbR tbPl t')) agreeWord = false /\ rContains 20 (snd (toRecognizable tbR tbPl t')) agreeWord = Some false /\ ~ acceptsTW b agreeWord /\
  properTW tbCex /\ ~ (acceptsTW b tbCex <-> tbF tbCex = true).
Proof.
  destruct (agreeGood _ agreeRun) as (t & t' & b & H & E & A & SM & ST & Eb & M1 & M2 & M3 & c & M4 & M5). exists t, t', b.
  assert (PA : properTW agreeWord). { split; [split; [reflexivity|]|]; [repeat (constructor; [unfold Qle; cbn; lia|]); constructor|]. cbn. intros [X|[X|[]]]; discriminate X. }
  destruct exR_plain as [PL IR]. destruct (plain_table 0 exR PL IR) as (HO & RI & TS & I & _). destruct C56_C64_common_hypotheses as (_ & _ & HP & _ & NA & PC & PO & _).
  assert (PO' : properOps (tbRound ++ [OpCex tbCex])) by (intros x Hx; apply PO; apply in_app_or in Hx; apply in_or_app; destruct Hx as [Hx|Hx]; [left; exact Hx|right; apply in_or_app; left; exact Hx]).
  assert (ND : NoDup tbA) by (constructor; [intros [X|[]]; discriminate X|]; constructor; [intros []|constructor]).
  assert (UT := C71_settled_table_uses_targets _ tbO tbF (cacheInv 0 exR) tbP tbR tbPl HO RI HP 40 40 tbA tbS _ t t' I NA PO' H E A ST).
  assert (HI : forall l, Permutation (hypI l) l) by (intro; apply Permutation_refl).
  destruct (refined_learner tbO tbF (cacheInv 0 exR) tbP tbR tbPl hypI HO RI TS HP HI 40 40 tbA tbS _ t t' I NA ND PO' H E A SM hypPrefer) as (h & b' & G & _).
  assert (Eb' := proj2 (G (fun _ s => s) (fun s => s))). assert (Eh := proj1 (G (fun _ s => s) (fun s => s))). rewrite Eb in Eb'. injection Eb' as <-.
  assert (K := C71_hypothesis_agrees_with_recognizable_language _ tbO tbF (cacheInv 0 exR) tbP tbR tbPl hypI HO RI TS HP HI 40 40 tbA tbS _ t t' I NA ND PO' H E A SM UT _ _ hypPrefer h b Eh Eb 20).
  split; [exact H|]. split; [exact E|]. split; [exact A|]. split; [exact SM|]. split; [exact ST|]. split; [exact UT|]. split; [exact Eb|]. split; [exact M1|]. split; [exact PA|]. split; [exact M2|]. split; [exact M3|].
  split; [intro X; apply (K _ _ PA M3) in X; discriminate X|]. split; [exact PC|]. intro X. apply M5. apply eq_true_iff_eq. rewrite <- X. symmetry. apply (K _ _ PC M4).
Qed.
