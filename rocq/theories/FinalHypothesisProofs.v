(** The clocks of the hypotheses have a maximal constant. *)
From Coq Require Import QArith ZArith Bool List Arith Lia.
From Verif Require Import ConstraintModel AutomatonModel AutomatonSpec AutomatonProofs AutomatonProofs5 AutomatonProofs6 TimedConditionModel EquivProofs TableModel TableProofs HypothesisModel HypothesisMain ZoneGraphModel SimplifyZonesModel FinalHypothesisModel.
Import ListNotations.
Open Scope nat_scope.
Definition cb (A : ta) : Prop := clocksBelow (length (tmax A)) A.
Lemma cb_sub A B : subTA B A -> length (tmax A) <= length (tmax B) -> cb A -> cb B.
Proof. intros S L C l a t H. destruct (C l a t (S l a t H)) as [C1 C2]. split; [intros k Hk; specialize (C1 k Hk); lia|]. intros x r Hr. destruct (C2 x r Hr) as [D1 D2]. split; [lia|]. intros y E. specialize (D2 y E). lia. Qed.
Lemma cb_make sts i : cb (mkTA sts i (makeMaxConstants sts)).
Proof. intros l a t (s & ts & H1 & H2 & H3). exact (makeMax_covers sts l s a ts t H1 H2 H3). Qed.
Lemma cb_simplifyTransitions A : cb A -> cb (simplifyTransitions A).
Proof. apply cb_sub; [apply simplifyTransitions_sub|apply le_n]. Qed.
Lemma cb_unreach A : cb A -> cb (removeTriviallyUnreachableStates A).
Proof.
  intro C. unfold removeTriviallyUnreachableStates. destruct (_ =? _); [exact C|]. apply cb_make.
Qed.
Lemma thin_subTA B A : thin B A -> subTA B A.
Proof. intros T l a t H. apply (thin_edge B A l a t T H). Qed.
Lemma cb_unused A : cb A -> cb (removeUnusedClockVariables A).
Proof.
  intros C l a t H. unfold removeUnusedClockVariables at 1 2 3. cbn [tmax]. rewrite (compactMax_length A C).
  assert (K := fun x => unused_clocks A l a t x H). split; [intros k I; apply K; left; apply in_map; auto|].
  intros x r I. split; [apply K; right; left; apply in_map_iff; exists (x, r); auto|]. intros y ->. apply K. right; right. exists x. auto.
Qed.
Lemma cb_simplify A : cb A -> cb (taSimplify A).
Proof. intro C. apply cb_unused, cb_unreach, cb_simplifyTransitions, C. Qed.
Lemma cb_strong A : cb A -> cb (taSimplifyStrong A).
Proof.
  intro C. unfold taSimplifyStrong. apply cb_unused. apply (cb_sub (removeTriviallyUnreachableStates (simplifyTransitions A))); [| |apply cb_unreach, cb_simplifyTransitions, C].
  - apply thin_subTA. apply (thin_trans _ _ _ (thin_useless _)). apply (thin_trans _ _ _ (thin_deadLoop _)). apply thin_deadStates.
  - unfold removeUselessTransitions. rewrite (proj2 (useless_sub _ _)). change (tmax (removeDeadLoop ?x)) with (tmax x). unfold removeTriviallyDeadStates. destruct (_ =? _); apply le_n.
Qed.
Lemma cb_hypothesis {St} (ordP : ot St -> list nat) ordI relax split prefer (t : ot St) h : generateHypothesis ordP ordI relax split prefer t = Ok h -> cb h.
Proof.
  unfold generateHypothesis. intro E. destruct (rawHypothesis ordP ordI t) as [[q ns]|]; [|discriminate]. cbn [bind] in E. destruct (forallb _ _) in E; [|discriminate]. injection E as <-. apply cb_simplify, cb_make.
Qed.
Lemma cb_learner {St} (ordP : ot St -> list nat) ordI relax split prefer (t : ot St) b : learnerHypothesis ordP ordI relax split prefer t = Ok b -> cb b.
Proof.
  unfold learnerHypothesis. destruct (generateHypothesis ordP ordI relax split prefer t) as [h|] eqn:E; [|discriminate]. cbn [bind]. intro X. injection X as <-. apply cb_strong. eapply cb_hypothesis. exact E.
Qed.
