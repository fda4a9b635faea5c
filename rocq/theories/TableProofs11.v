(** The observation table: histories. *)
From Coq Require Import QArith ZArith Bool List Arith Lia Lqa Permutation.
From Verif Require Import BoundsModel BoundsProofs ConstraintModel ZoneModel ZoneSpec ZoneProofs AutomatonModel TimedWordModel TimedWordSpec TimedWordProofs
  TimedConditionModel TimedConditionSpec TimedConditionProofs ElementaryModel ElementarySpec ElementaryProofs LooseProofs
  RegionalModel RegionalSpec RegionalProofs RegionalProofs2 RegionalProofs6 OracleModel SymbolicModel SymbolicSpec SymbolicProofs2 CexModel CexSpec RenamingModel RenamingSpec TableModel TableSpec
  TableProofs ShapeProofs ShapeProofs2 TableProofs2 TableProofs3 TableProofs4 TableProofs5 TableProofs6 TableProofs7 TableProofs8 TableProofs9 TableProofs10.
Import ListNotations.
Open Scope Q_scope.

Section Hist.
Context {St : Type} (o : mOracle St) (f : tword -> bool) (Inv : St -> Prop) (ordP ordR : ot St -> list nat) (place : ot St -> nat -> nat -> nat).
Notation tbl := (ot St).
Hypothesis HO : oracleFor o f Inv.
Hypothesis RI : regionInvariant properTW f.
Hypothesis HordP : forall t, Permutation (ordP t) (otP t).

Lemma runOp_le fuel t op t' : runOp o ordP ordR place fuel t op = Ok t' -> tle t t'.
Proof.
  destruct op; cbn [runOp]; intro E; try (bind_inv E; destruct a as [t1 b]; injection E as <-).
  - eapply close_le; eauto.
  - unfold consistent in E0. eapply consistentLoop_le; eauto.
  - eapply exteriorConsistent_le; eauto.
  - eapply timeSaturate_le; eauto.
  - injection E as <-. destruct (toRecognizable ordR place t) as [t1 h] eqn:E. apply same_tle. eapply toRecognizable_same; eauto.
  - eapply handleCEX_le; eauto.
Qed.
Lemma runOps_le fuel : forall ops t t', runOps o ordP ordR place fuel t ops = Ok t' -> tle t t'.
Proof. induction ops as [|op ops IH]; intros t t' E; cbn [runOps] in E; [injection E as <-; apply tle_refl|]. bind_inv E. eapply tle_trans; [eapply runOp_le; eauto|eauto]. Qed.
Lemma tinv_sameRec t t' h : tinv f Inv t -> allSat (otMem t) -> toRecognizable ordR place t = (t', h) -> tinv f Inv t'.
Proof using HO RI.
  intros H A E. assert (OK : okT f Inv t) by (split; [apply H|split; [apply H|auto]]). destruct (toRecognizable_spec o f Inv ordR place HO RI t t' h OK (ti_rel _ _ _ H) E) as [S0 [R1 _]].
  assert (C1 := toRecognizable_col _ _ _ _ _ E). constructor.
  - eapply str_same; [exact S0|apply H].
  - eapply filled_same; [exact S0|apply H].
  - exact R1.
  - eapply colOK_tle; [exact C1|apply same_tle; exact S0|apply H].
  - destruct S0 as [_ [_ [_ [_ [_ [-> _]]]]]]. apply H.
Qed.
Lemma runOp_tinv fuel t op t' : tinv f Inv t -> allSat (otMem t') -> (forall w, op = OpCex w -> properTW w) -> runOp o ordP ordR place fuel t op = Ok t' -> tinv f Inv t'.
Proof using HO RI HordP.
  intros H A P E. assert (A0 := tle_allSat _ _ (runOp_le _ _ _ _ E) A). destruct op; cbn [runOp] in E; try (bind_inv E; destruct a as [t1 b]; injection E as <-).
  - exact (proj1 (close_tinv o f Inv ordP place HO RI HordP fuel t t1 b H A E0)).
  - exact (proj1 (consistent_tinv o f Inv ordP place HO RI HordP t t1 b H A E0)).
  - exact (proj1 (exteriorConsistent_tinv o f Inv ordP place HO RI HordP fuel t t1 b H A E0)).
  - exact (proj1 (timeSaturate_tinv o f Inv ordP place HO RI HordP fuel t t1 b H A E0)).
  - injection E as <-. destruct (toRecognizable ordR place t) as [t1 h] eqn:E. cbn [fst]. eapply tinv_sameRec; eauto.
  - exact (proj1 (handleCEX_spec o f Inv ordP ordR place HO RI fuel t w t' H A (P w eq_refl) E)).
Qed.
Lemma runOps_tinv fuel : forall ops t t', tinv f Inv t -> allSat (otMem t') -> properOps ops -> runOps o ordP ordR place fuel t ops = Ok t' -> tinv f Inv t'.
Proof using HO RI HordP.
  induction ops as [|op ops IH]; intros t t' H A P E; cbn [runOps] in E; [injection E as <-; auto|]. bind_inv E. assert (A1 := tle_allSat _ _ (runOps_le _ _ _ _ E) A).
  eapply IH; [|exact A|intros w Hw; apply P; right; auto|exact E]. eapply runOp_tinv; [exact H|exact A1| |exact E0]. intros w ->. apply P. left; auto.
Qed.
Lemma newSym_mem s : Inv s -> memOK f Inv (newSym s) /\ keysOf rback (newSym s).
Proof. intro I. split; [|intros k cs []]. split; [|intros k cs []]. intros _. split; [exact I|intros k cs []]. Qed.
Lemma history_tinv fuel alpha s ops t : Inv s -> ~ In UNOBSERVABLE alpha -> properOps ops -> history o ordP ordR place fuel alpha s ops t -> askedNonempty t -> tinv f Inv t.
Proof using HO RI HordP.
  intros I NA P [t0 [E0 E]] A. assert (A0 : allSat (otMem t0)) by (eapply tle_allSat; [eapply runOps_le; exact E|exact A]).
  eapply runOps_tinv; [|exact A|exact P|exact E]. eapply newTable_tinv; [exact HO|exact RI|exact NA|apply newSym_mem; exact I|exact E0|exact A0].
Qed.
Lemma runOps_gens fuel : forall ops t t', gens rback t -> noCex ops -> runOps o ordP ordR place fuel t ops = Ok t' -> gens rback t'.
Proof.
  induction ops as [|op ops IH]; intros t t' G N E; cbn [runOps] in E; [injection E as <-; auto|]. bind_inv E.
  eapply IH; [|intros w Hw; apply (N w); right; auto|exact E]. clear E. destruct op; cbn [runOp] in E0; try (bind_inv E0; destruct a0 as [t1 b]; injection E0 as <-).
  - eapply close_g; eauto.
  - eapply consistent_g; [apply rback_pred|apply rback_act|exact G|exact E].
  - eapply exterior_g; eauto.
  - eapply saturate_g; eauto.
  - injection E0 as <-. destruct (toRecognizable ordR place t) as [t1 h] eqn:E. eapply gens_same; [eapply toRecognizable_same; exact E|exact G].
  - destruct (N w). left; auto.
Qed.
Lemma history_gens fuel alpha s ops t : Inv s -> ~ In UNOBSERVABLE alpha -> noCex ops -> history o ordP ordR place fuel alpha s ops t -> gens rback t.
Proof.
  intros I NA N [t0 [E0 E]]. eapply runOps_gens; [|exact N|exact E]. eapply newTable_g; [apply rback_default|exact NA|apply newSym_mem; exact I|exact E0].
Qed.
End Hist.
