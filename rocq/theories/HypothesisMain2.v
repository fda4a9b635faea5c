(** The hypothesis of a table: what the learner gets. *)
From Coq Require Import QArith Qround ZArith Bool List Arith Lia Lqa Permutation Wf_nat.
From Verif Require Import BoundsModel BoundsProofs ConstraintModel GuardSpec ConstraintProofs ZoneModel ZoneSpec ZoneProofs ZoneProofs2 ZoneProofs3 ZoneProofs4 AutomatonModel AutomatonSpec AutomatonProofs AutomatonProofs2 AutomatonProofs6
  TimedWordModel TimedWordSpec TimedWordProofs TimedConditionModel TimedConditionSpec TimedConditionProofs TimedConditionProofs4 ElementaryModel
  ElementarySpec ElementaryProofs ElementaryProofs2 LooseProofs RegionalModel RegionalSpec RegionalProofs RegionalProofs2 RegionalProofs3 RegionalProofs4 RegionalProofs5 RegionalProofs6 OracleModel OracleSpec SymbolicModel SymbolicSpec CexModel CexSpec CexProofs CexProofs2
  RenamingModel RenamingSpec RenamingProofs RenamingProofs2 RenamingProofs5 RenamingProofs6 ShapeProofs TableModel TableSpec TableProofs TableProofs2 TableProofs3 TableProofs4 TableProofs5 TableProofs6 TableProofs7 TableProofs8 TableProofs9 TableProofs10 TableProofs11 TableProofs12 PropertiesRenaming HypothesisSpec
  HypothesisModel HypothesisBox HypothesisChain HypothesisGuard HypothesisTimes HypothesisBfs HypothesisBfs3 HypothesisRaw HypothesisRaw2 HypothesisRows HypothesisReset HypothesisStep HypothesisStep2 HypothesisRun HypothesisMain.
Import ListNotations.
Open Scope Q_scope.

(** ** the runs of an automaton do not depend on its accepting states *)
Definition markAll (s : tastate) : tastate := mkS true (snext s).
Definition allAcc (A : ta) : ta := mapStates (fun _ => markAll) A.
Lemma allAcc_edge A l a tr : edge (allAcc A) l a tr <-> edge A l a tr.
Proof.
  unfold edge, allAcc, mapStates. cbn [tstates]. split.
  - intros (s & ts & I & J & K). apply in_map_iff in I. destruct I as ([l' s'] & E & I). cbn [fst snd] in E. injection E as -> <-. exists s', ts. auto.
  - intros (s & ts & I & J & K). exists (markAll s), ts. split; [|auto]. apply in_map_iff. exists (l, s). auto.
Qed.
Lemma edge_fire A B : (forall l a tr, edge A l a tr -> edge B l a tr) -> forall a c c', fire A a c c' -> fire B a c c'.
Proof. intros H a c c' (tr & E & K). exists tr. split; auto. Qed.
Lemma edge_flow A B : (forall l a tr, edge A l a tr -> edge B l a tr) -> forall c d c', flow A c d c' -> flow B c d c'.
Proof. intros H c d c'. induction 1; [constructor; auto|]. econstructor; eauto. eapply edge_fire; eauto. Qed.
Lemma edge_run A B : (forall l a tr, edge A l a tr -> edge B l a tr) -> forall c w c', run A c w c' -> run B c w c'.
Proof. intros H c w c'. induction 1; [constructor|]. econstructor; eauto; [eapply edge_fire; eauto|eapply edge_flow; eauto]. Qed.
Lemma fire_in A a c c' : wfTA A -> fire A a c c' -> In (fst c') (map fst (tstates A)).
Proof. intros (_ & _ & W & _) (tr & E & _ & -> & _). apply (W _ _ _ E). Qed.
Lemma flow_in A c d c' : wfTA A -> In (fst c) (map fst (tstates A)) -> flow A c d c' -> In (fst c') (map fst (tstates A)).
Proof. intros W I F. induction F; [auto|]. apply IHF2. eapply fire_in; eauto. Qed.
Lemma run_in A c w c' : wfTA A -> In (fst c) (map fst (tstates A)) -> run A c w c' -> In (fst c') (map fst (tstates A)).
Proof. intros W I F. induction F as [|c a d c1 c2 w c' F1 F2 F3 IH]; [auto|]. apply IH. apply (flow_in A c1 d c2 W); [apply (fire_in A a c c1 W F1)|exact F2]. Qed.
Lemma readsAll_acc al A : wfTA A -> (readsAll al A <-> forall d0 w, wordOver al d0 w -> accepts (allAcc A) d0 w).
Proof.
  intro W. split; intros H d0 w Hw; destruct (H d0 w Hw) as (l0 & c0 & c & I & F & K).
  - exists l0, c0, c. split; [auto|]. split; [apply (edge_flow A); auto; intros; apply allAcc_edge; auto|]. split; [apply (edge_run A); auto; intros; apply allAcc_edge; auto|].
    assert (X : In (fst c) (map fst (tstates A))). { apply (run_in A c0 w c W); [|auto]. apply (flow_in A (l0, fun _ => 0) d0 c0 W); [|auto]. apply W. auto. }
    apply in_map_iff in X. destruct X as ([l s] & E & X). exists (markAll s). split; [|reflexivity]. unfold allAcc, mapStates. cbn [tstates]. apply in_map_iff. exists (l, s). rewrite <- E. auto.
  - destruct K as [K _]. exists l0, c0, c. split; [auto|]. split; [apply (edge_flow (allAcc A)); auto; intros; apply allAcc_edge; auto|]. apply (edge_run (allAcc A)); auto; intros; apply allAcc_edge; auto.
Qed.
Lemma allAcc_locs A : map fst (tstates (allAcc A)) = map fst (tstates A).
Proof. unfold allAcc, mapStates. cbn [tstates]. rewrite map_map. reflexivity. Qed.
Lemma allAcc_wf A : wfTA A -> wfTA (allAcc A).
Proof.
  intros (A1 & A2 & A3 & A4). split; [rewrite allAcc_locs; auto|]. split; [|split].
  - intros l s I. unfold allAcc, mapStates in I. cbn [tstates] in I. apply in_map_iff in I. destruct I as ([l' s'] & E & I). cbn [fst snd] in E. injection E as -> <-. apply (A2 l s' I).
  - intros l a tr E. rewrite allAcc_locs. apply (A3 l a tr). apply allAcc_edge. auto.
  - intros l I. rewrite allAcc_locs. apply A4. auto.
Qed.
Lemma search_ext n f g : (forall l, f l = g l) -> forall s q, search n f s q = search n g s q.
Proof. intro H. induction n as [|n IH]; intros s [|l q]; cbn [search]; auto. rewrite H. destruct (fold_left insertNew (g l) (s, q)) as [s' q']. apply IH. Qed.
Lemma allAcc_succsOf A l : succsOf (allAcc A) l = succsOf A l.
Proof.
  unfold succsOf, lookup, allAcc, mapStates. cbn [tstates]. induction (tstates A) as [|[k s] ts IH]; [reflexivity|]. cbn [map find fst snd]. destruct (k =? l)%nat; [reflexivity|exact IH].
Qed.
Lemma allAcc_reach A : reachableStates (allAcc A) = reachableStates A.
Proof.
  unfold reachableStates. rewrite (search_ext _ _ _ (allAcc_succsOf A)). f_equal. unfold searchFuel. f_equal. f_equal; [f_equal; unfold allAcc, mapStates; cbn [tstates]; apply map_length|].
  f_equal. unfold allAcc, mapStates. cbn [tstates]. induction (tstates A) as [|[k s] ts IH]; [reflexivity|]. cbn [map flat_map fst snd]. rewrite IH. reflexivity.
Qed.
Lemma allAcc_max sts : makeMaxConstants (map (fun p : loc * tastate => (fst p, markAll (snd p))) sts) = makeMaxConstants sts.
Proof. unfold makeMaxConstants. generalize (@nil Z). induction sts as [|[k s] sts IH]; intro m; [reflexivity|]. cbn [map fold_left fst snd markAll snext]. apply IH. Qed.
Lemma allAcc_simplifyT A : simplifyTransitions (allAcc A) = allAcc (simplifyTransitions A).
Proof. unfold simplifyTransitions, allAcc, mapStates. cbn [tstates tinit tmax]. f_equal. rewrite !map_map. reflexivity. Qed.
Lemma allAcc_unreach A : removeTriviallyUnreachableStates (allAcc A) = allAcc (removeTriviallyUnreachableStates A).
Proof.
  unfold removeTriviallyUnreachableStates. rewrite allAcc_reach. replace (length (tstates (allAcc A))) with (length (tstates A)) by (unfold allAcc, mapStates; cbn [tstates]; rewrite map_length; reflexivity).
  destruct (_ =? _)%nat; [reflexivity|]. cbv zeta. assert (E : filter (fun p => memb (fst p) (reachableStates A)) (tstates (allAcc A)) = map (fun p => (fst p, markAll (snd p))) (filter (fun p => memb (fst p) (reachableStates A)) (tstates A))).
  { unfold allAcc, mapStates. cbn [tstates]. generalize (reachableStates A). intro r. induction (tstates A) as [|[k s] ts IH]; [reflexivity|]. cbn [map filter fst snd]. destruct (memb k r); cbn [map fst snd]; rewrite IH; reflexivity. }
  rewrite E. unfold allAcc at 2, mapStates. cbn [tstates tinit tmax]. f_equal. apply allAcc_max.
Qed.
Lemma allAcc_unused A : removeUnusedClockVariables (allAcc A) = allAcc (removeUnusedClockVariables A).
Proof.
  assert (U : usedClocks (allAcc A) = usedClocks A).
  { unfold usedClocks. f_equal. unfold allTrans, allAcc, mapStates. cbn [tstates]. f_equal. induction (tstates A) as [|[k s] ts IH]; [reflexivity|]. cbn [map flat_map fst snd markAll snext]. rewrite IH. reflexivity. }
  unfold removeUnusedClockVariables. rewrite U. unfold allAcc, mapStates. cbn [tstates tinit tmax]. f_equal. rewrite !map_map. reflexivity.
Qed.
Lemma taSimplify_readsAll al A : wfTA A -> readsAll al A -> readsAll al (taSimplify A).
Proof.
  intros W H. assert (W1 := proj2 (taSimplify_ok A W)). apply (readsAll_acc al _ W1). assert (H' := proj1 (readsAll_acc al _ W) H). clear H. intros d0 w Hw. assert (H := H' d0 w Hw). clear H'.
  assert (E : allAcc (taSimplify A) = taSimplify (allAcc A)) by (unfold taSimplify; rewrite allAcc_simplifyT, allAcc_unreach, allAcc_unused; reflexivity).
  rewrite E. apply (proj1 (taSimplify_ok _ (allAcc_wf _ W))). exact H.
Qed.

(** ** resets are to nonnegative constants *)
Lemma absorb_resets (P : resets -> Prop) : forall rest it it' r', AutomatonModel.absorb it rest = (it', r') -> P (trst it) -> (forall u, In u rest -> P (trst u)) -> P (trst it') /\ forall u, In u r' -> P (trst u).
Proof.
  induction rest as [|t r IH]; intros it it' r' E H K; cbn [AutomatonModel.absorb] in E; [injection E as <- <-; auto|]. destruct (mergeable it t).
  - apply (IH _ _ _ E); [cbn [mergeT trst]; apply K; left; auto|intros u Hu; apply K; right; auto].
  - destruct (AutomatonModel.absorb it r) as [i2 r2] eqn:E2. injection E as <- <-. destruct (IH _ _ _ E2 H (fun u Hu => K u (or_intror Hu))) as [A B]. split; [auto|]. intros u [<-|Hu]; [apply K; left; auto|auto].
Qed.
Lemma mergeAdj_resets (P : resets -> Prop) n : forall ts, (forall u, In u ts -> P (trst u)) -> forall u, In u (mergeAdj n ts) -> P (trst u).
Proof.
  induction n as [|n IH]; intros [|t r] H u Hu; cbn [mergeAdj] in Hu; try solve [destruct Hu|apply H; auto]. destruct (AutomatonModel.absorb t r) as [t' r'] eqn:E.
  destruct (absorb_resets P _ _ _ _ E (H t (or_introl eq_refl)) (fun v Hv => H v (or_intror Hv))) as [A B]. destruct Hu as [<-|Hu]; [auto|]. apply (IH r'); auto.
Qed.
Lemma removeWeaker_in : forall rest kept u, In u (removeWeaker kept rest) -> In u kept \/ In u rest.
Proof.
  induction rest as [|t r IH]; intros kept u H; cbn [removeWeaker] in H; [auto|]. destruct (existsb _ _); apply IH in H; destruct H as [H|H]; auto; [right; right; auto| |right; right; auto]. apply in_app_or in H. destruct H as [H|[<-|[]]]; [auto|right; left; auto].
Qed.
Lemma absorbND_resets (P : resets -> Prop) prefer : forall rest it it' r', absorbND prefer it rest = (it', r') -> P (trst it) -> (forall u, In u rest -> P (trst u)) -> P (trst it') /\ forall u, In u r' -> P (trst u).
Proof.
  induction rest as [|t r IH]; intros it it' r' E H K; cbn [absorbND] in E; [injection E as <- <-; auto|]. destruct (satisfiable _).
  - apply (IH _ _ _ E); [unfold mergeTransitions; destruct (prefer it t); cbn [trst]; [auto|apply K; left; auto]|intros u Hu; apply K; right; auto].
  - destruct (absorbND prefer it r) as [i2 r2] eqn:E2. injection E as <- <-. destruct (IH _ _ _ E2 H (fun u Hu => K u (or_intror Hu))) as [A B]. split; [auto|]. intros u [<-|Hu]; [apply K; left; auto|auto].
Qed.
Lemma mergeND_resets (P : resets -> Prop) prefer n : forall ts, (forall u, In u ts -> P (trst u)) -> forall u, In u (mergeND prefer n ts) -> P (trst u).
Proof.
  induction n as [|n IH]; intros [|t r] H u Hu; cbn [mergeND] in Hu; try solve [destruct Hu|apply H; auto]. destruct (absorbND prefer t r) as [t' r'] eqn:E.
  destruct (absorbND_resets P prefer _ _ _ _ E (H t (or_introl eq_refl)) (fun v Hv => H v (or_intror Hv))) as [A B]. destruct Hu as [<-|Hu]; [auto|]. apply (IH r'); auto.
Qed.
Lemma insertReset_in p l q : In q (insertReset p l) -> q = p \/ In q l.
Proof.
  induction l as [|r l IH]; cbn [insertReset]; [intros [<-|[]]; auto|]. destruct (_ <? _)%nat.
  - intros [<-|H]; [right; left; auto|]. apply IH in H. destruct H; [auto|right; right; auto].
  - intros [<-|H]; auto.
Qed.
Lemma sortResets_in rs q : In q (sortResets rs) -> In q rs.
Proof. unfold sortResets. induction rs as [|p rs IH]; cbn [fold_right]; [auto|]. intro H. apply insertReset_in in H. destruct H as [<-|H]; [left; auto|right; auto]. Qed.
Lemma tidyTs_resets (P : resets -> Prop) prefer ts : (forall u, In u ts -> P (sortResets (trst u))) -> forall u, In u (tidyTs prefer ts) -> P (trst u).
Proof.
  intro H. unfold tidyTs. apply mergeND_resets. intros u Hu. apply removeWeaker_in in Hu. destruct Hu as [[]|Hu]. revert u Hu. apply mergeAdj_resets. intros u Hu. apply in_map_iff in Hu. destruct Hu as (v & <- & Hv). apply H. auto.
Qed.
(** a reset that makes a valuation nonnegative has nonnegative constants *)
Lemma isReset_const rs v v' x q : NoDup (map fst rs) -> isReset rs v v' -> In (x, RConst q) rs -> v' x == q.
Proof.
  intros ND H I. apply in_split in I. destruct I as (a & b & E). apply (proj2 (H x) a (RConst q) b E). rewrite E, map_app in ND. cbn [map fst] in ND. apply NoDup_remove_2 in ND. intro K. apply ND. apply in_or_app. right. exact K.
Qed.

Section Nonneg.
Context {St : Type}.
Notation tbl := (ot St).
Context (t : tbl) (f : tword -> bool) (T : tree t).
Context (GP : forall i, goodPre (preAt t i)) (ND : NoDup (otAlpha t)) (PR0 : preAt t 0 = frDefault).
Context (SM : forall i w, (i < length (otPre t))%nat -> inElem (fel (preAt t i)) w -> smallTW w).
Context (CV : forall i, (i < length (otPre t))%nat -> inP t i = false -> exists j r, chosen t i = Some (j, r) /\ validRel f t i j r).
Context (ME : forall i j r, (i < length (otPre t))%nat -> inP t i = false -> chosen t i = Some (j, r) -> isMatch t i = isMatch t j).
Context (R : list nat) (RO : roots t R).
Context (W : loc -> letter -> list trans) (prefer : trans -> trans -> bool).
Context (WL : forall l a, (l < length R)%nat -> In a (otAlpha t) -> exists cs, Permutation (front t l R) cs /\
    W l a = map (fun c => TR t R c a) cs ++ [TX t R (prevOf t l R) (extOf t l R) a]).

Lemma TF_nonneg l a m x q : (l < length R)%nat -> In a (otAlpha t) -> (m <= lastRow t R l)%nat -> In (x, RConst q) (trst (TF t R l a m)) -> 0 <= q.
Proof using T GP ND PR0 SM CV ME RO.
  intros L Ha M I. destruct (GP (rowOf t R l m)) as [[w [Pw Rw]] _]. assert (Iw := region_self _ _ Rw).
  set (v := fun k => if (k <? length (td w))%nat then since (td w) k else 0). assert (Nv : nonneg v). { intro k. unfold v. destruct (k <? length (td w))%nat; [apply since_nonneg; apply Pw|lra]. }
  assert (AtM : At t (rowOf t R l m) w v). { split; [auto|]. split; [auto|]. intros k Hk. unfold v. rewrite <- (row_len t _ _ Iw) in Hk. apply Nat.ltb_lt in Hk. rewrite Hk. reflexivity. }
  set (v' := applyReset v (trst (TF t R l a m))). assert (Hr : isReset (trst (TF t R l a m)) v v') by apply applyReset_isReset.
  destruct (TF_lands t f T GP ND PR0 SM CV ME R RO l a m v v' L Ha M Nv (fun _ => ex_intro _ w AtM) Hr) as (_ & N & _).
  rewrite <- (isReset_const _ v v' x q (TF_keys t f T GP CV R RO l a m L Ha M) Hr I). apply N.
Qed.
Lemma tidy_nonneg l a tr x q : (l < length R)%nat -> In a (otAlpha t) -> In tr (tidyTs prefer (W l a)) -> In (x, RConst q) (trst tr) -> 0 <= q.
Proof using T GP ND PR0 SM CV ME RO WL.
  intros L Ha I. revert x q. refine (tidyTs_resets (fun rs => forall x q, In (x, RConst q) rs -> 0 <= q) prefer (W l a) _ tr I). intros u Hu x q K. apply sortResets_in in K.
  destruct (W_rows t T R RO W WL l a L Ha) as (is & Pi & E). rewrite E in Hu. apply in_map_iff in Hu. destruct Hu as (m & <- & Hm). apply (TF_nonneg l a m x q L Ha); auto. apply Permutation_sym in Pi. apply (Permutation_in _ Pi) in Hm. apply in_seq in Hm. lia.
Qed.
End Nonneg.
