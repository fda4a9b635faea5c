(** The automaton of transition vectors and what its clean-up keeps. *)
From Coq Require Import QArith Qround ZArith Bool List Arith Lia Lqa Permutation Wf_nat.
From Verif Require Import BoundsModel BoundsProofs ConstraintModel GuardSpec ConstraintProofs ZoneModel ZoneSpec ZoneProofs ZoneProofs2 ZoneProofs3 ZoneProofs4 AutomatonModel AutomatonSpec AutomatonProofs AutomatonProofs2 AutomatonProofs6
  TimedWordModel TimedWordSpec TimedWordProofs TimedConditionModel TimedConditionSpec TimedConditionProofs TimedConditionProofs4 ElementaryModel
  ElementarySpec ElementaryProofs ElementaryProofs2 LooseProofs RegionalModel RegionalSpec RegionalProofs RegionalProofs2 RegionalProofs3 RegionalProofs4 RegionalProofs5 RegionalProofs6 OracleModel OracleSpec SymbolicModel SymbolicSpec CexModel CexSpec CexProofs CexProofs2
  RenamingModel RenamingSpec RenamingProofs RenamingProofs2 RenamingProofs5 RenamingProofs6 ShapeProofs TableModel TableSpec TableProofs TableProofs2 TableProofs3 TableProofs4 TableProofs5 TableProofs6 TableProofs7 TableProofs8 TableProofs9 TableProofs10 TableProofs11 TableProofs12 PropertiesRenaming HypothesisSpec
  HypothesisModel HypothesisBox HypothesisChain HypothesisGuard HypothesisTimes HypothesisBfs HypothesisBfs3 HypothesisRaw HypothesisRaw2 HypothesisRows HypothesisReset HypothesisStep HypothesisStep2 HypothesisRun.
Import ListNotations.
Open Scope Q_scope.

(** ** the automaton of a family of transition vectors *)
Section Rep.
Context (alpha : list letter) (sts : states) (n : nat) (mt : loc -> bool) (W : loc -> letter -> list trans) (prefer : trans -> trans -> bool).
Context (ST : stRep alpha sts n mt W) (N0 : (0 < n)%nat).
Let A : ta := mkTA (tidy prefer sts) [0%nat] (makeMaxConstants (tidy prefer sts)).

Lemma tidy_nil : tidyTs prefer [] = [].
Proof using. reflexivity. Qed.
Lemma nfind_in nx a ts : NoDup (map fst nx) -> In (a, ts) nx -> nfind nx a = ts.
Proof using.
  intros ND I. unfold nfind. induction nx as [|[b us] nx IH]; [destruct I|]. cbn [map fst] in ND. inversion ND as [|? ? NI ND']; subst. cbn [find fst]. destruct (Nat.eqb_spec b a) as [->|Ne].
  - destruct I as [E|I]; [injection E as ->; reflexivity|]. destruct NI. change a with (fst (a, ts)). apply in_map. auto.
  - destruct I as [E|I]; [congruence|]. apply IH; auto.
Qed.
Lemma nfind_cases nx a : nfind nx a = [] \/ exists ts, In (a, ts) nx /\ nfind nx a = ts.
Proof using.
  unfold nfind. induction nx as [|[b us] nx IH]; [left; reflexivity|]. cbn [find fst]. destruct (Nat.eqb_spec b a) as [->|Ne]; [right; exists us; split; [left; auto|reflexivity]|].
  destruct IH as [IH|(ts & I & IH)]; [left; exact IH|right; exists ts; split; [right; auto|exact IH]].
Qed.
Lemma rep_states : exists nx : loc -> nextmap, tstates A = map (fun l => (l, mkS (mt l) (mapNext (tidyTs prefer) (nx l)))) (seq 0 n) /\
  forall l, (l < n)%nat -> NoDup (map fst (nx l)) /\ (forall b, In b (map fst (nx l)) -> In b alpha) /\ forall a, nfind (nx l) a = W l a.
Proof using ST N0.
  destruct ST as (nx & E & H). exists nx. split; [|exact H]. unfold A. cbn [tstates]. unfold tidy. rewrite E, map_map. reflexivity.
Qed.
Lemma rep_edge l a tr : edge A l a tr <-> ((l < n)%nat /\ In a alpha /\ In tr (tidyTs prefer (W l a))).
Proof using ST N0.
  destruct rep_states as (nx & E & H). unfold edge. rewrite E. split.
  - intros (s & ts & I & J & K). apply in_map_iff in I. destruct I as (l' & El & I). injection El as -> <-. apply in_seq in I. destruct (H l ltac:(lia)) as (ND & AL & NF). cbn [snext] in J.
    unfold mapNext in J. apply in_map_iff in J. destruct J as ([b us] & Eb & J). cbn [fst snd] in Eb. injection Eb as -> <-. split; [lia|]. split; [apply AL; change a with (fst (a, us)); apply in_map; auto|].
    rewrite <- NF, (nfind_in _ _ _ ND J). exact K.
  - intros (L & Ha & I). destruct (H l L) as (ND & AL & NF). rewrite <- NF in I.
    assert (X : exists ts, In (a, ts) (nx l) /\ In tr (tidyTs prefer ts)).
    { destruct (nfind_cases (nx l) a) as [X|(ts & X1 & X2)]; [rewrite X in I; destruct I|]. exists ts. rewrite X2 in I. auto. }
    destruct X as (ts & X1 & X2). exists (mkS (mt l) (mapNext (tidyTs prefer) (nx l))), (tidyTs prefer ts). split; [apply in_map_iff; exists l; split; [reflexivity|apply in_seq; lia]|]. split; [|exact X2].
    cbn [snext]. unfold mapNext. apply in_map_iff. exists (a, ts). auto.
Qed.
Lemma rep_accepting l : accepting A l <-> ((l < n)%nat /\ mt l = true).
Proof using ST N0.
  destruct rep_states as (nx & E & H). unfold accepting. rewrite E. split.
  - intros (s & I & M). apply in_map_iff in I. destruct I as (l' & El & I). injection El as -> <-. apply in_seq in I. split; [lia|exact M].
  - intros (L & M). exists (mkS (mt l) (mapNext (tidyTs prefer) (nx l))). split; [apply in_map_iff; exists l; split; [reflexivity|apply in_seq; lia]|exact M].
Qed.
Lemma rep_locs : map fst (tstates A) = seq 0 n.
Proof using ST N0. destruct rep_states as (nx & E & _). rewrite E, map_map. cbn [fst]. apply map_id. Qed.
Lemma rep_next l s a ts : In (l, s) (tstates A) -> In (a, ts) (snext s) -> (l < n)%nat /\ In a alpha /\ ts = tidyTs prefer (W l a).
Proof using ST N0.
  destruct rep_states as (nx & E & H). rewrite E. intros I J. apply in_map_iff in I. destruct I as (l' & El & I). injection El as -> <-. apply in_seq in I. destruct (H l ltac:(lia)) as (ND & AL & NF). cbn [snext] in J.
  unfold mapNext in J. apply in_map_iff in J. destruct J as ([b us] & Eb & J). cbn [fst snd] in Eb. injection Eb as -> <-. split; [lia|]. split; [apply AL; change a with (fst (a, us)); apply in_map; auto|].
  rewrite <- NF, (nfind_in _ _ _ ND J). reflexivity.
Qed.
Lemma rep_wf : (forall l a tr, (l < n)%nat -> In a alpha -> In tr (tidyTs prefer (W l a)) -> (ttgt tr < n)%nat) -> wfTA A.
Proof using ST N0.
  intro TG. split; [|split; [|split]].
  - rewrite rep_locs. apply seq_NoDup.
  - intros l s I. destruct rep_states as (nx & E & H). rewrite E in I. apply in_map_iff in I. destruct I as (l' & El & I). injection El as -> <-. apply in_seq in I. cbn [snext]. unfold mapNext. rewrite map_map. cbn [fst].
    apply (H l). lia.
  - intros l a t Ed. apply rep_edge in Ed. rewrite rep_locs. apply in_seq. destruct Ed as (L & Ha & I). assert (X := TG l a t L Ha I). lia.
  - intros l [<-|[]]. rewrite rep_locs. apply in_seq. lia.
Qed.
Lemma rep_needSplit : (forall l a, (l < n)%nat -> In a alpha -> needSplitTs (W l a) = false) -> existsb (fun p => needSplitting (snd p)) sts = false.
Proof using ST N0.
  intro NS. destruct ST as (nx & E & H). rewrite E. destruct (existsb _ _) eqn:X; [|auto]. apply existsb_exists in X. destruct X as ([l s] & I & X). apply in_map_iff in I. destruct I as (l' & El & I). injection El as -> <-. apply in_seq in I.
  destruct (H l ltac:(lia)) as (ND & AL & NF). unfold needSplitting in X. cbn [snd snext] in X. apply existsb_exists in X. destruct X as ([a ts] & J & X). cbn [snd] in X. rewrite <- (nfind_in _ _ _ ND J), NF, NS in X; [discriminate|lia|].
  apply AL. change a with (fst (a, ts)). apply in_map. auto.
Qed.
Lemma rep_det : (forall l a, (l < n)%nat -> In a alpha -> disjTs (tidyTs prefer (W l a))) -> detTA A.
Proof using ST N0.
  intros D l s a ts I J i k ti tk v Lt Ei Ek Nv [Gi Gk]. destruct (rep_next l s a ts I J) as (L & Ha & ->). assert (X := D l a L Ha). revert i k Lt Ei Ek. generalize dependent (tidyTs prefer (W l a)). clear - Nv Gi Gk.
  intros ts _ X. induction X as [|t ts F X IH]; intros i k Lt Ei Ek; [destruct i; discriminate|]. destruct k as [|k]; [lia|]. cbn [nth_error] in Ek. destruct i as [|i].
  - cbn [nth_error] in Ei. injection Ei as ->. rewrite Forall_forall in F. apply (F tk (nth_error_In _ _ Ek) v); auto.
  - cbn [nth_error] in Ei. apply (IH i k ltac:(lia) Ei Ek).
Qed.
End Rep.


(** ** what the clean-up keeps *)
Inductive sub {A} : list A -> list A -> Prop :=
| sub_nil l : sub [] l
| sub_skip x l l' : sub l l' -> sub l (x :: l')
| sub_keep x l l' : sub l l' -> sub (x :: l) (x :: l').
Lemma sub_refl {A} (l : list A) : sub l l.
Proof. induction l; [apply sub_nil|apply sub_keep; auto]. Qed.
Lemma sub_in {A} (l l' : list A) x : sub l l' -> In x l -> In x l'.
Proof. induction 1; intro H'; [destruct H'|right; auto|destruct H' as [->|H']; [left; auto|right; auto]]. Qed.
Lemma sub_trans {A} (b c : list A) : sub b c -> forall a, sub a b -> sub a c.
Proof. induction 1 as [l|x b c H IH|x b c H IH]; intros a K; [inversion K; constructor|apply sub_skip; auto|]. inversion K; subst; [apply sub_nil|apply sub_skip; auto|apply sub_keep; auto]. Qed.
Lemma sub_filter {A} (p : A -> bool) l : sub (filter p l) l.
Proof. induction l as [|x l IH]; [constructor|]. cbn [filter]. destruct (p x); [apply sub_keep; auto|apply sub_skip; auto]. Qed.
Lemma sub_app {A} (l : list A) : forall a b, sub a b -> sub (a ++ l) (b ++ l).
Proof.
  intros a b H. induction H as [b|x a b H IH|x a b H IH]; cbn [app]; [|apply sub_skip; auto|apply sub_keep; auto]. induction b as [|y b IHb]; [apply sub_refl|cbn [app]; apply sub_skip; auto].
Qed.
Lemma sub_simplify ts : sub (simplifyTs ts) ts.
Proof.
  unfold simplifyTs. set (g := fun (red : list trans) (t : trans) => if existsb (fun an => Nat.eqb (ttgt t) (ttgt an) && resets_eqb (trst t) (trst an) && isWeaker (tgrd an) (tgrd t)) red then red else red ++ [t]).
  assert (G : forall ts red a, sub red a -> sub (fold_left g ts red) (a ++ ts)).
  { clear. induction ts as [|t ts IH]; intros red a H; cbn [fold_left]; [rewrite app_nil_r; auto|]. replace (a ++ t :: ts) with ((a ++ [t]) ++ ts) by (rewrite <- app_assoc; reflexivity). apply IH. unfold g.
    destruct (existsb _ red); [|apply sub_app; auto]. apply (sub_trans a); [|auto]. clear. induction a as [|x a IH]; cbn [app]; [apply sub_nil|apply sub_keep; auto]. }
  apply (G ts [] []). constructor.
Qed.
Lemma sub_fop {A} (P : A -> A -> Prop) l l' : sub l l' -> ForallOrdPairs P l' -> ForallOrdPairs P l.
Proof.
  induction 1 as [l|x l l' H IH|x l l' H IH]; intro F; [constructor|inversion F; auto|]. inversion F as [|? ? F1 F2]; subst. constructor; [|auto]. rewrite Forall_forall in *. intros y Hy. apply F1. eapply sub_in; eauto.
Qed.
(** [B] has no transition vector but parts of those of [A] *)
Definition thin (B A : ta) : Prop :=
  forall l s a ts, In (l, s) (tstates B) -> In (a, ts) (snext s) -> exists s' ts', In (l, s') (tstates A) /\ In (a, ts') (snext s') /\ sub ts ts'.
Lemma thin_refl A : thin A A.
Proof. intros l s a ts I J. exists s, ts. split; [auto|]. split; [auto|apply sub_refl]. Qed.
Lemma thin_trans A B C : thin A B -> thin B C -> thin A C.
Proof.
  intros H K l s a ts I J. destruct (H l s a ts I J) as (s1 & ts1 & I1 & J1 & S1). destruct (K l s1 a ts1 I1 J1) as (s2 & ts2 & I2 & J2 & S2). exists s2, ts2. split; [auto|]. split; [auto|]. apply (sub_trans ts1); auto.
Qed.
Lemma thin_erase keep nx a ts : In (a, ts) (eraseTo keep nx) -> exists ts', In (a, ts') nx /\ sub ts ts'.
Proof.
  unfold eraseTo. intro I. apply filter_In in I. destruct I as [I _]. unfold mapNext in I. apply in_map_iff in I. destruct I as ([b us] & E & I). cbn [fst snd] in E. injection E as -> <-. exists us. split; [auto|apply sub_filter].
Qed.
Lemma thin_simplify A : thin (simplifyTransitions A) A.
Proof.
  intros l s a ts I J. unfold simplifyTransitions, mapStates in I. cbn [tstates] in I. apply in_map_iff in I. destruct I as ([l' s'] & E & I). cbn [fst snd] in E. injection E as -> <-. cbn [snext] in J.
  unfold mapNext in J. apply in_map_iff in J. destruct J as ([b us] & E & J). cbn [fst snd] in E. injection E as -> <-. exists s', us. split; [auto|]. split; [auto|apply sub_simplify].
Qed.
Lemma thin_unreach A : thin (removeTriviallyUnreachableStates A) A.
Proof.
  unfold removeTriviallyUnreachableStates. destruct (_ =? _)%nat; [apply thin_refl|]. intros l s a ts I J. cbn [tstates] in I. apply filter_In in I. exists s, ts. split; [tauto|]. split; [auto|apply sub_refl].
Qed.
Lemma thin_deadStates A : thin (removeTriviallyDeadStates A) A.
Proof.
  unfold removeTriviallyDeadStates. destruct (_ =? _)%nat; [apply thin_refl|]. intros l s a ts I J. cbn [tstates] in I. apply in_map_iff in I. destruct I as ([l' s'] & E & I). cbn [fst snd] in E. injection E as -> <-. apply filter_In in I.
  cbn [snext] in J. destruct (thin_erase _ _ _ _ J) as (us & J' & K). exists s', us. split; [tauto|]. split; auto.
Qed.
Lemma thin_deadLoop A : thin (removeDeadLoop A) A.
Proof.
  intros l s a ts I J. unfold removeDeadLoop, mapStates in I. cbn [tstates] in I. apply in_map_iff in I. destruct I as ([l' s'] & E & I). cbn [fst snd] in E. injection E as -> <-.
  destruct (_ && _ && _); [destruct J|]. exists s', ts. split; [auto|]. split; [auto|apply sub_refl].
Qed.
Lemma thin_useless A : thin (removeUselessTransitions A) A.
Proof.
  unfold removeUselessTransitions. generalize (map fst (filter (fun p => negb (AutomatonModel.isMatch (snd p))) (tstates A))). intro ls. revert A. induction ls as [|l ls IH]; intro A; cbn [fold_left]; [apply thin_refl|].
  apply (thin_trans _ (removeUseless1 A l)); [apply IH|]. unfold removeUseless1. destruct (memb l (tinit A)); [apply thin_refl|]. destruct (lookup A l) as [s0|]; [|apply thin_refl]. destruct (onlySelf l s0); [|apply thin_refl].
  intros k s a ts I J. cbn [tstates] in I. apply in_map_iff in I. destruct I as ([l' s'] & E & I). cbn [fst snd] in E. injection E as -> <-. apply filter_In in I.
  cbn [snext] in J. destruct (thin_erase _ _ _ _ J) as (us & J' & K). exists s', us. split; [tauto|]. split; auto.
Qed.
Lemma thin_init_useless A : tinit (removeUselessTransitions A) = tinit A.
Proof.
  unfold removeUselessTransitions. generalize (map fst (filter (fun p => negb (AutomatonModel.isMatch (snd p))) (tstates A))). intro ls. revert A. induction ls as [|l ls IH]; intro A; cbn [fold_left]; [auto|].
  rewrite IH. unfold removeUseless1. destruct (memb l (tinit A)); [auto|]. destruct (lookup A l) as [s0|]; [|auto]. destruct (onlySelf l s0); reflexivity.
Qed.
(** what [B] inherits from [A] *)
Record tame (al : list letter) (A : ta) : Prop := {
  ta_silent : noSilent A;
  ta_letters : lettersIn al A;
  ta_det : detTA A;
  ta_small : smallTA A;
  ta_nonneg : nonnegResets A;
  ta_init : (length (tinit A) <= 1)%nat }.
Lemma thin_edge B A l a tr : thin B A -> edge B l a tr -> edge A l a tr.
Proof. intros H (s & ts & I & J & K). destruct (H l s a ts I J) as (s' & ts' & I' & J' & S'). exists s', ts'. split; [auto|]. split; [auto|]. eapply sub_in; eauto. Qed.
Lemma det_disj A : detTA A <-> forall l s a ts, In (l, s) (tstates A) -> In (a, ts) (snext s) -> disjTs ts.
Proof.
  split; intros H l s a ts I J.
  - specialize (H l s a ts I J). clear I J. induction ts as [|t ts IH]; constructor.
    + rewrite Forall_forall. intros u Hu v Nv G1 G2. destruct (In_nth_error _ _ Hu) as [k Hk]. apply (H 0%nat (S k) t u v ltac:(lia) eq_refl Hk Nv). auto.
    + apply IH. intros i k ti tk v Lt Ei Ek. apply (H (S i) (S k) ti tk v ltac:(lia) Ei Ek).
  - intros i k ti tk v Lt Ei Ek Nv [Gi Gk]. assert (X := H l s a ts I J). revert i k Lt Ei Ek. clear I J. induction X as [|t ts F X IH]; intros i k Lt Ei Ek; [destruct i; discriminate|]. destruct k as [|k]; [lia|]. cbn [nth_error] in Ek. destruct i as [|i].
    + cbn [nth_error] in Ei. injection Ei as ->. rewrite Forall_forall in F. apply (F tk (nth_error_In _ _ Ek) v); auto.
    + cbn [nth_error] in Ei. apply (IH i k ltac:(lia) Ei Ek).
Qed.
Lemma thin_tame al B A : thin B A -> (length (tinit B) <= length (tinit A))%nat -> tame al A -> tame al B.
Proof.
  intros H HI [a1 a2 a3 a4 a5 a6]. constructor.
  - intros l tr E. apply (a1 l tr). apply (thin_edge B A); auto.
  - intros l a tr E. apply (a2 l a tr). apply (thin_edge B A); auto.
  - apply det_disj. intros l s a ts I J. destruct (H l s a ts I J) as (s' & ts' & I' & J' & S'). apply (sub_fop _ ts ts' S'). apply (proj1 (det_disj A) a3 l s' a ts' I' J').
  - intros l a tr E. apply (a4 l a tr). apply (thin_edge B A); auto.
  - intros l a tr x q E. apply (a5 l a tr x q). apply (thin_edge B A); auto.
  - lia.
Qed.
Lemma gsat_ren u g v : gsat (map (fun k => mkC (renClock u (cx k)) (codr k) (cc k)) g) v -> gsat g (fun x => v (renClock u x)).
Proof. intros H k Hk. apply (H (mkC (renClock u (cx k)) (codr k) (cc k))). apply in_map_iff. exists k. auto. Qed.
Lemma unused_edge A l a tr : edge (removeUnusedClockVariables A) l a tr -> exists tr', edge A l a tr' /\ tr = renTrans (usedClocks A) tr'.
Proof.
  intros (s & ts & I & J & K). unfold removeUnusedClockVariables in I. cbn [tstates] in I. apply in_map_iff in I. destruct I as ([l' s'] & E & I). cbn [fst snd] in E. injection E as -> <-. cbn [snext] in J.
  unfold mapNext in J. apply in_map_iff in J. destruct J as ([b us] & E & J). cbn [fst snd] in E. injection E as -> <-. apply in_map_iff in K. destruct K as (tr' & <- & K). exists tr'. split; [exists s', us; auto|reflexivity].
Qed.
Lemma unused_tame al A : tame al A -> tame al (removeUnusedClockVariables A).
Proof.
  intros [a1 a2 a3 a4 a5 a6]. constructor.
  - intros l tr E. destruct (unused_edge _ _ _ _ E) as (tr' & E' & _). apply (a1 l tr' E').
  - intros l a tr E. destruct (unused_edge _ _ _ _ E) as (tr' & E' & _). apply (a2 l a tr' E').
  - apply det_disj. intros l s a ts I J. unfold removeUnusedClockVariables in I. cbn [tstates] in I. apply in_map_iff in I. destruct I as ([l' s'] & E & I). cbn [fst snd] in E. injection E as -> <-. cbn [snext] in J.
    unfold mapNext in J. apply in_map_iff in J. destruct J as ([b us] & E & J). cbn [fst snd] in E. injection E as -> <-. assert (D := proj1 (det_disj A) a3 l s' a us I J). clear - D.
    induction D as [|t ts F D IH]; cbn [map]; constructor; [|auto]. rewrite Forall_forall in *. intros y Hy v Nv G1 G2. apply in_map_iff in Hy. destruct Hy as (y' & <- & Hy). cbn [renTrans tgrd] in G1, G2.
    apply (F y' Hy (fun x => v (renClock (usedClocks A) x)) ltac:(intro; apply Nv) (gsat_ren _ _ _ G1) (gsat_ren _ _ _ G2)).
  - intros l a tr E. destruct (unused_edge _ _ _ _ E) as (tr' & E' & ->). intros k Hk. cbn [renTrans tgrd] in Hk. apply in_map_iff in Hk. destruct Hk as (k' & <- & Hk). cbn [cc]. apply (a4 l a tr' E' k' Hk).
  - intros l a tr x q E I. destruct (unused_edge _ _ _ _ E) as (tr' & E' & ->). cbn [renTrans trst] in I. apply in_map_iff in I. destruct I as ([x' r] & X & I). cbn [fst snd] in X. apply filter_In in I. destruct I as [I _]. destruct r as [q'|y]; [|discriminate].
    injection X as _ <-. apply (a5 l a tr' x' q' E' I).
  - exact a6.
Qed.
Lemma simplify_init A : tinit (removeTriviallyUnreachableStates (simplifyTransitions A)) = tinit A.
Proof. unfold removeTriviallyUnreachableStates. destruct (_ =? _)%nat; reflexivity. Qed.
Lemma taSimplify_tame al A : tame al A -> tame al (taSimplify A).
Proof.
  intro H. unfold taSimplify. apply unused_tame. apply (thin_tame al _ A); [|rewrite simplify_init; lia|auto]. apply (thin_trans _ (simplifyTransitions A)); [apply thin_unreach|apply thin_simplify].
Qed.
Lemma taSimplifyStrong_tame al A : tame al A -> tame al (taSimplifyStrong A).
Proof.
  intro H. unfold taSimplifyStrong. apply unused_tame. set (B := removeTriviallyUnreachableStates (simplifyTransitions A)). assert (IB : tinit B = tinit A) by apply simplify_init.
  apply (thin_tame al _ A); [| |auto].
  - apply (thin_trans _ _ _ (thin_useless _)). apply (thin_trans _ _ _ (thin_deadLoop _)). apply (thin_trans _ _ _ (thin_deadStates _)). apply (thin_trans _ (simplifyTransitions A)); [apply thin_unreach|apply thin_simplify].
  - rewrite thin_init_useless. change (tinit (removeDeadLoop (removeTriviallyDeadStates B))) with (tinit (removeTriviallyDeadStates B)). unfold removeTriviallyDeadStates. destruct (_ =? _)%nat; [rewrite IB; lia|]. cbn [tinit]. rewrite IB. generalize (tinit A). clear. intro l. induction l as [|x l IH]; cbn [filter]; [lia|]. destruct (memb x _); cbn [length]; lia.
Qed.
