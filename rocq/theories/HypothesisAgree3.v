(** The hypothesis of a settled table and its recognizable language. *)
From Coq Require Import QArith Qround ZArith Bool List Arith Lia Lqa Permutation Wf_nat.
From Verif Require Import BoundsModel BoundsProofs ConstraintModel GuardSpec ConstraintProofs ZoneModel ZoneSpec ZoneProofs ZoneProofs2 ZoneProofs3 ZoneProofs4 AutomatonModel AutomatonSpec AutomatonProofs AutomatonProofs2 AutomatonProofs6
  TimedWordModel TimedWordSpec TimedWordProofs TimedConditionModel TimedConditionSpec TimedConditionProofs TimedConditionProofs4 ElementaryModel
  ElementarySpec ElementaryProofs ElementaryProofs2 LooseProofs RegionalModel RegionalSpec RegionalProofs RegionalProofs2 RegionalProofs3 RegionalProofs4 RegionalProofs5 RegionalProofs6 OracleModel OracleSpec SymbolicModel SymbolicSpec CexModel CexSpec CexProofs CexProofs2
  RenamingModel RenamingSpec RenamingProofs RenamingProofs2 RenamingProofs5 RenamingProofs6 ShapeProofs TableModel TableSpec TableProofs TableProofs2 TableProofs3 TableProofs4 TableProofs5 TableProofs6 TableProofs7 TableProofs8 TableProofs9 TableProofs10 TableProofs11 TableProofs12 PropertiesRenaming HypothesisSpec
  HypothesisModel HypothesisBox HypothesisChain HypothesisGuard HypothesisTimes HypothesisBfs HypothesisBfs3 HypothesisRaw HypothesisRaw2 HypothesisRows HypothesisReset HypothesisStep HypothesisStep2 HypothesisRun HypothesisMain HypothesisMain2 HypothesisMain3 HypothesisSample HypothesisAgree HypothesisAgree2 OracleProofs2.
Import ListNotations.
Open Scope Q_scope.


Section Main.
Context {St : Type} (o : mOracle St) (f : tword -> bool) (Inv : St -> Prop).
Notation tbl := (ot St).
Hypothesis HO : oracleFor o f Inv.
Hypothesis RI : regionInvariant properTW f.
Hypothesis TS : delayInvariant f.
Context (t : tbl) (TI : tinv f Inv t) (AN : askedNonempty t) (CT : closedT f t) (SD : saturatedT f t) (XT : exteriorT t).
Context (ND : NoDup (otAlpha t)).
Context (SM : forall i w, (i < length (otPre t))%nat -> inElem (fel (preAt t i)) w -> smallTW w).
Context (ordP : tbl -> list nat) (ordI : list (loc * tcond) -> list (loc * tcond)).
Hypothesis OI : forall l, Permutation l (ordI l).
Hypothesis OP : Permutation (otP t) (ordP t).
Context (prefer : trans -> trans -> bool).

(** replacing a prefix by its image does not change acceptance *)
Lemma m_swap : exists A, (forall relax split, generateHypothesis ordP ordI relax split prefer t = Ok (taSimplify A)) /\ wfTA A /\ rightOnRows f t A /\
  forall i j r p s, row t i -> ~ In i (otP t) -> hypTarget t i = Some (j, r) -> properMorph (mkMorph (fel (preAt t i)) (fel (preAt t j)) r) -> inElem (fel (preAt t i)) p -> 0 <= firstDur s ->
    (acceptsTW A (concatTW p s) <-> acceptsTW A (concatTW (mMaps (mkMorph (fel (preAt t i)) (fel (preAt t j)) r) p) s)).
Proof using HO RI TS TI AN CT SD XT ND SM OI OP.
  destruct (m_raw o f Inv HO RI TS t TI AN CT SD ND SM ordP ordI OI OP) as (R & W & h & E & [RO ST WL MP]). assert (N0 : (0 < length R)%nat) by apply (ro_hd t R RO).
  set (A := mkTA (tidy prefer (hSt h)) [0%nat] (makeMaxConstants (tidy prefer (hSt h)))). exists A.
  assert (EA := rep_edge _ _ _ _ _ prefer ST N0). assert (AA := rep_accepting _ _ _ _ _ prefer ST N0). fold A in EA, AA. cbv beta in AA.
  assert (T := m_tree f Inv t TI). assert (GP := m_good f Inv t TI). assert (CV := m_closed f t CT). assert (ME := m_equal o f Inv HO RI t TI AN CT). assert (PR0 := m_pre0 f Inv t TI). assert (AL := m_alpha f Inv t TI). assert (P0 := m_root f Inv t TI).
  split; [|split; [|split]].
  - intros relax sp. unfold generateHypothesis. rewrite E. cbn [bind]. rewrite (rep_needSplit _ _ _ _ _ ST N0) by (intros l a L Ha; apply (W_noSplit t f T GP SM CV R RO W WL l a L Ha)).
    assert (F : forallb (fun i => match toState h i with Some _ => true | None => false end) (seq 0 (length (otPre t))) = true).
    { apply forallb_forall. intros i Hi. apply in_seq in Hi. destruct (MP i ltac:(lia)) as [l ->]. reflexivity. }
    rewrite F. reflexivity.
  - apply (rep_wf _ _ _ _ _ prefer ST N0). intros l a tr L Ha I. apply (tidy_tgt t f T GP SM CV R RO W prefer WL l a tr L Ha I).
  - intros i w Hi I. rewrite (m_match o f Inv HO RI t TI AN i w Hi I). apply (accepts_row t f T (m_stable o f Inv HO RI TS t TI AN) GP ND PR0 P0 SM CV ME R RO W prefer WL A AL EA AA eq_refl i w Hi I).
  - intros i j r p s Hi Ni HT PM Ip S0. assert (Pi : inP t i = false) by (apply inP_false; auto). change (chosen t i = Some (j, r)) in HT. destruct (CV i Hi Pi) as (j' & r' & HT' & V). rewrite HT in HT'. injection HT' as <- <-.
    assert (NZ : i <> 0%nat) by (intros ->; apply inP_iff in P0; congruence). destruct (tr_kind t T ND i ltac:(lia) Hi) as [(p0 & C)|(c & a & D)].
    + destruct (tr_contP t T p0 i C) as [Pp _]. destruct (m_sat f t SD p0 Pp) as (k & C' & K). rewrite C in C'. injection C' as <-. destruct K as [K|K]; [congruence|]. rewrite HT in K. injection K as -> ->.
      refine (swap_cont t f T GP ND PR0 P0 SM CV ME R RO W prefer WL A AL EA eq_refl _ p0 i p s Pp C Pi PM Ip S0).
      intros q k Pq Cq Pk. destruct (XT q Pq) as (k' & Ck & K). rewrite Cq in Ck. injection Ck as <-. destruct K as [K|K]; [congruence|]. apply (hasEqualityN_iff _ (GP q)) in K. destruct K as (x & n & Hx & Hn). exists x, n. split; [|auto].
      destruct (row_wf t GP q) as (_ & _ & _ & Eq). lia.
    + apply (swap_disc t f T GP ND PR0 P0 SM CV ME R RO W prefer WL A AL EA eq_refl c a i j r p s D Pi HT V PM Ip S0).
Qed.

(** the hypothesis accepts the words that the recognizable language contains *)
Lemma m_contains h : properRL h -> (forall u, properTW u -> inPrefixes h u = true -> f u = isFinal h u) -> (forall x, In x (rprefixes h) -> exists i, row t i /\ x = fel (preAt t i)) -> usesTargets t h ->
  exists A, (forall relax split, generateHypothesis ordP ordI relax split prefer t = Ok A) /\ wfTA A /\ forall fuel w b, properTW w -> rContains fuel h w = Some b -> (acceptsTW A w <-> b = true).
Proof using HO RI TS TI AN CT SD XT ND SM OI OP.
  intros PR FI PX UT. destruct m_swap as (A & E & WF & RR & SW). exists (taSimplify A). destruct (taSimplify_ok A WF) as [L W']. split; [auto|]. split; [auto|].
  assert (K : forall fuel w b, properTW w -> rContains fuel h w = Some b -> (acceptsTW A w <-> b = true)).
  { induction fuel as [|n IH]; intros w b PW H; cbn [rContains] in H; [discriminate|]. destruct (inPrefixes h w) eqn:IP.
    - injection H as <-. unfold inPrefixes in IP. assert (IP' := IP). apply existsb_exists in IP. destruct IP as (x & Ix & Cx). destruct (PX x Ix) as (i & Hi & ->). rewrite <- (FI w PW IP'). apply (RR i w Hi).
      apply elContains_exact; [apply (proj1 PR _ Ix)|apply PW|exact Cx].
    - destruct (rSplit h w) as [sp|] eqn:Es; [|discriminate]. destruct (rSplit_spec h w sp PR PW Es) as (I1 & I2 & I3 & I4 & I5). destruct (rSplit_step h w sp PR PW Es) as [_ PA].
      rewrite <- (IH _ b PA H). unfold splitApply. destruct (UT _ I1) as (i & j & r & Hi & Ni & HT & Em). rewrite Em in *. cbn [mdom] in I2.
      assert (S0 : 0 <= firstDur (ssuf sp)). { destruct I4 as [[_ F] _]. unfold firstDur. destruct (td (ssuf sp)); [cbn; lra|]. inversion F; auto. }
      assert (PM : properMorph (mkMorph (fel (preAt t i)) (fel (preAt t j)) r)) by (apply PR; auto).
      rewrite <- (SW i j r _ _ Hi Ni HT PM I2 S0). split; apply acceptsTW_Q; [|apply sameTW_sym]; exact I5. }
  intros fuel w b PW H. rewrite <- (K fuel w b PW H). unfold acceptsTW. apply L.
Qed.
End Main.
