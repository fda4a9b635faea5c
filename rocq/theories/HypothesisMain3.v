(** The hypothesis of a closed and saturated table. *)
From Coq Require Import QArith Qround ZArith Bool List Arith Lia Lqa Permutation Wf_nat.
From Verif Require Import BoundsModel BoundsProofs ConstraintModel GuardSpec ConstraintProofs ZoneModel ZoneSpec ZoneProofs ZoneProofs2 ZoneProofs3 ZoneProofs4 AutomatonModel AutomatonSpec AutomatonProofs AutomatonProofs2 AutomatonProofs6
  TimedWordModel TimedWordSpec TimedWordProofs TimedConditionModel TimedConditionSpec TimedConditionProofs TimedConditionProofs4 ElementaryModel
  ElementarySpec ElementaryProofs ElementaryProofs2 LooseProofs RegionalModel RegionalSpec RegionalProofs RegionalProofs2 RegionalProofs3 RegionalProofs4 RegionalProofs5 RegionalProofs6 OracleModel OracleSpec SymbolicModel SymbolicSpec CexModel CexSpec CexProofs CexProofs2
  RenamingModel RenamingSpec RenamingProofs RenamingProofs2 RenamingProofs5 RenamingProofs6 ShapeProofs TableModel TableSpec TableProofs TableProofs2 TableProofs3 TableProofs4 TableProofs5 TableProofs6 TableProofs7 TableProofs8 TableProofs9 TableProofs10 TableProofs11 TableProofs12 PropertiesRenaming HypothesisSpec
  HypothesisModel HypothesisBox HypothesisChain HypothesisGuard HypothesisTimes HypothesisBfs HypothesisBfs3 HypothesisRaw HypothesisRaw2 HypothesisRows HypothesisReset HypothesisStep HypothesisStep2 HypothesisRun HypothesisMain HypothesisMain2.
Import ListNotations.
Open Scope Q_scope.

Section Main.
Context {St : Type} (o : mOracle St) (f : tword -> bool) (Inv : St -> Prop).
Notation tbl := (ot St).
Hypothesis HO : oracleFor o f Inv.
Hypothesis RI : regionInvariant properTW f.
Hypothesis TS : delayInvariant f.
Context (t : tbl) (TI : tinv f Inv t) (AN : askedNonempty t) (CT : closedT f t) (SD : saturatedT f t).
Context (ND : NoDup (otAlpha t)).
Context (SM : forall i w, (i < length (otPre t))%nat -> inElem (fel (preAt t i)) w -> smallTW w).

Lemma m_str : str f Inv t.
Proof using TI. apply TI. Qed.
Lemma m_tree : tree t.
Proof using TI. apply (s_tree f Inv t m_str). Qed.
Lemma m_good i : goodPre (preAt t i).
Proof using TI. apply (preAt_good f Inv t i m_str). Qed.
Lemma m_ok : okT f Inv t.
Proof using TI AN. apply tinv_okT; auto. Qed.
Lemma m_pre0 : preAt t 0 = frDefault.
Proof using TI. destruct (s_pre0 f Inv t m_str) as [l E]. unfold preAt. rewrite E. reflexivity. Qed.
Lemma m_root : In 0%nat (otP t).
Proof using TI. apply TI. Qed.
Lemma m_alpha : ~ In UNOBSERVABLE (otAlpha t).
Proof using TI. apply (s_alpha f Inv t m_str). Qed.
Lemma m_proper i w : inElem (fel (preAt t i)) w -> properTW w.
Proof using TI. intro I. apply (proper_member (fel (preAt t i))); [|auto]. apply (proj1 (goodPre_proper _ (m_good i))). Qed.
Lemma m_match i w : (i < length (otPre t))%nat -> inElem (fel (preAt t i)) w -> f w = isMatch t i.
Proof using HO RI TI AN. intros Hi I. apply (match_sem o f Inv HO RI t i w m_ok Hi I). Qed.
Lemma m_same w w' : properTW w -> properTW w' -> sameTW w w' -> f w = f w'.
Proof using RI. intros P P' [E D]. apply RI; [apply P|apply P'|auto|auto|auto|]. apply sameDurs_region. exact D. Qed.
Lemma m_closed i : (i < length (otPre t))%nat -> inP t i = false -> exists j r, chosen t i = Some (j, r) /\ validRel f t i j r.
Proof using CT. intros Hi P. exact (CT i Hi P). Qed.
Lemma m_equal i j r : (i < length (otPre t))%nat -> inP t i = false -> chosen t i = Some (j, r) -> isMatch t i = isMatch t j.
Proof using HO RI TI AN CT.
  intros Hi P C. destruct (m_closed i Hi P) as (j' & r' & C' & V). rewrite C in C'. injection C' as <- <-. destruct V as [_ [(p & p' & Ip & Ip' & R) D]].
  destruct (chosen_in t m_tree i j r C) as [_ Lj]. destruct (s_suf0 f Inv t m_str) as [l El].
  assert (E : In elEmpty (sufEL t)) by (unfold sufEL; rewrite El; left; reflexivity).
  assert (K := D elEmpty p p' emptyTW E Ip Ip' R ltac:(split; [reflexivity|apply (regionCond_exact tcEmpty [0%Q]); [apply frDefault_regional|apply sameRegion_refl]])).
  assert (X : forall k u, inElem (fel (preAt t k)) u -> f (concatTW u emptyTW) = f u).
  { intros k u Iu. assert (Pu := m_proper k u Iu). assert (S0 := concat_unit_r u ltac:(apply Pu)). apply m_same; [|auto|auto].
    apply (m_proper k). eapply sameTW_elem; [apply sameTW_sym; exact S0|exact Iu]. }
  rewrite (X i p Ip), (X j p' Ip') in K. rewrite <- (m_match i p Hi Ip), <- (m_match j p' Lj Ip'). exact K.
Qed.
Lemma m_stable : timeStable t.
Proof using HO RI TI AN TS.
  intros p k C. destruct (tr_contP t m_tree p k C) as [Pp _]. destruct (tr_cont t m_tree p Pp) as (k' & C' & Lk & Ek). rewrite C in C'. injection C' as <-. assert (Lp := tr_lt t m_tree p Pp).
  destruct (m_good p) as [[w [Pw Rw]] _]. destruct (chain_times 1 _ _ Rw) as (tm & T0 & Tn & Ti & Tr & _). assert (R1 := Tr 1%nat (le_n _)). cbn [frSuccs] in R1.
  assert (I0 := region_self _ _ Rw). assert (I1 := region_self _ _ R1). rewrite <- Ek in I1. rewrite <- (m_match p w Lp I0), <- (m_match k _ Lk I1). symmetry. apply TS; [apply (m_proper p w I0)|apply Tn].
Qed.
Lemma m_sat p : In p (otP t) -> exists k, contAt t p = Some k /\ (inP t k = true \/ chosen t k = Some (p, [])).
Proof using SD.
  intro P. destruct (SD p P) as (k & C & K). exists k. split; [auto|]. destruct K as [K|[K _]]; [auto|right]. unfold chosen. rewrite K. cbn [find fst]. rewrite (proj2 (inP_iff t p) P). reflexivity.
Qed.

Context (ordP : tbl -> list nat) (ordI : list (loc * tcond) -> list (loc * tcond)).
Hypothesis OI : forall l, Permutation l (ordI l).
Hypothesis OP : Permutation (otP t) (ordP t).

Lemma m_raw : exists R W h, rawHypothesis ordP ordI t = Ok (h, []) /\ raw t R W h.
Proof using HO RI TS TI AN CT SD ND SM OI OP.
  apply raw_ok; auto.
  - apply m_tree.
  - apply m_stable.
  - apply m_root.
  - intros i Hi P. destruct (m_closed i Hi P) as (j & r & C & _). exists j, r. exact C.
  - intros c a d j r D P C. destruct (tr_discP t m_tree c a d D) as (_ & _ & _ & Ld). destruct (m_closed d Ld P) as (j' & r' & C' & V). rewrite C in C'. injection C' as <- <-.
    apply (er_precise t f m_tree m_good c d j a r D V).
  - apply m_sat.
  - intros R l c p RO L Ic Ip. apply (front_weaker t m_tree m_good R RO l c p SM L Ic Ip).
  - intros R p a RO P Ha. apply (TX_renaming t f m_tree m_good m_closed R p a P Ha).
Qed.


Context (prefer : trans -> trans -> bool).
(** *** the automaton before the clean-up *)
Lemma m_core : exists A, (forall relax split, generateHypothesis ordP ordI relax split prefer t = Ok (taSimplify A)) /\ tinit A = [0%nat] /\ wfTA A /\ tame (otAlpha t) A /\ readsAll (otAlpha t) A /\
  rightOnRows f t A.
Proof using HO RI TS TI AN CT SD ND SM OI OP.
  destruct m_raw as (R & W & h & E & [RO ST WL MP]). assert (N0 : (0 < length R)%nat) by apply (ro_hd t R RO).
  set (A := mkTA (tidy prefer (hSt h)) [0%nat] (makeMaxConstants (tidy prefer (hSt h)))). exists A.
  assert (EA := rep_edge _ _ _ _ _ prefer ST N0). assert (AA := rep_accepting _ _ _ _ _ prefer ST N0). fold A in EA, AA. cbv beta in AA.
  assert (T := m_tree). assert (GP := m_good). assert (CV := m_closed). assert (ME := m_equal). assert (PR0 := m_pre0).
  assert (TC : forall l a, (l < length R)%nat -> In a (otAlpha t) -> disjTs (tidyTs prefer (W l a)) /\ forall tr, In tr (tidyTs prefer (W l a)) -> smallConsts (tgrd tr)).
  { intros l a L Ha. destruct (geo_ok t T GP SM R RO l L) as (N & X & tm & G). destruct (tidy_cover t f T GP CV R RO W prefer WL l a N X tm L Ha G) as (ps & C & _). destruct G as [g1 g2 g3 g4 _ _ _ _ _]. split.
    - apply (cover_disj N (lastRow t R l) X tm g4 (TF t R l a) _ _ C).
    - intros tr I. apply (coverL_all N (lastRow t R l) X tm g1 g2 g3 g4 (TF t R l a) _ _ C tr I). }
  split; [|split; [reflexivity|split; [|split; [|split]]]].
  - intros relax sp. unfold generateHypothesis. rewrite E. cbn [bind]. rewrite (rep_needSplit _ _ _ _ _ ST N0) by (intros l a L Ha; apply (W_noSplit t f T GP SM CV R RO W WL l a L Ha)).
    assert (F : forallb (fun i => match toState h i with Some _ => true | None => false end) (seq 0 (length (otPre t))) = true).
    { apply forallb_forall. intros i Hi. apply in_seq in Hi. destruct (MP i ltac:(lia)) as [l ->]. reflexivity. }
    rewrite F. reflexivity.
  - apply (rep_wf _ _ _ _ _ prefer ST N0). intros l a tr L Ha I. apply (tidy_tgt t f T GP SM CV R RO W prefer WL l a tr L Ha I).
  - constructor.
    + apply (silent_none t R W prefer A m_alpha EA).
    + intros l a tr H. apply EA in H. tauto.
    + apply (rep_det _ _ _ _ _ prefer ST N0). intros l a L Ha. apply TC; auto.
    + intros l a tr H. apply EA in H. destruct H as (L & Ha & I). apply (TC l a L Ha); auto.
    + intros l a tr x q H. apply EA in H. destruct H as (L & Ha & I). apply (tidy_nonneg t f T GP ND PR0 SM CV ME R RO W prefer WL l a tr x q L Ha I).
    + reflexivity.
  - intros d0 w H. destruct (reads_total t f T GP ND PR0 SM CV ME R RO W prefer WL A EA d0 w H) as (c0 & c & K). exists 0%nat, c0, c. split; [left; reflexivity|exact K].
  - intros i w Hi I. rewrite (m_match i w Hi I). apply (accepts_row t f T m_stable GP ND PR0 m_root SM CV ME R RO W prefer WL A m_alpha EA AA eq_refl i w Hi I).
Qed.
Lemma m_hypothesis : exists A, (forall relax split, generateHypothesis ordP ordI relax split prefer t = Ok A) /\ tinit A = [0%nat] /\ wfTA A /\ tame (otAlpha t) A /\ readsAll (otAlpha t) A /\
  rightOnRows f t A.
Proof using HO RI TS TI AN CT SD ND SM OI OP.
  destruct m_core as (A & E & IA & W & TA & RA & AC). exists (taSimplify A). destruct (taSimplify_ok A W) as [L W']. split; [auto|]. split; [unfold taSimplify; cbn [removeUnusedClockVariables tinit]; rewrite simplify_init; auto|]. split; [auto|]. split; [apply taSimplify_tame; auto|]. split; [apply taSimplify_readsAll; auto|].
  intros i w Hi I. rewrite <- (AC i w Hi I). apply L.
Qed.
Lemma m_learner : exists A B, (forall relax split, generateHypothesis ordP ordI relax split prefer t = Ok A /\ learnerHypothesis ordP ordI relax split prefer t = Ok B) /\ sameLang B A /\ wfTA B /\ tame (otAlpha t) B.
Proof using HO RI TS TI AN CT SD ND SM OI OP.
  destruct m_hypothesis as (A & E & _ & W & TA & _ & _). exists A, (taSimplifyStrong A). destruct (taSimplifyStrong_ok A W) as [L W']. split; [intros relax sp; split; [auto|unfold learnerHypothesis; rewrite E; reflexivity]|].
  split; [auto|]. split; [auto|]. apply taSimplifyStrong_tame; auto.
Qed.
End Main.
