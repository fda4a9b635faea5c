(** The observation table: the recognizable language it describes and the
    handling of counterexamples. *)
From Coq Require Import QArith Qround ZArith Bool List Arith Lia Permutation.
From Verif Require Import BoundsModel ConstraintModel ZoneModel ZoneSpec AutomatonModel TimedWordModel TimedWordSpec TimedWordProofs
  TimedConditionModel TimedConditionSpec TimedConditionProofs ElementaryModel ElementarySpec ElementaryProofs LooseProofs
  RegionalModel RegionalSpec RegionalProofs RegionalProofs6 OracleModel SymbolicModel SymbolicSpec SymbolicProofs2 CexModel CexSpec CexProofs2 RenamingModel RenamingSpec RenamingProofs6
  PropertiesCex TableModel TableProofs ShapeProofs ShapeProofs2 TableProofs2 TableProofs3 TableProofs4 TableProofs5 TableProofs6 TableProofs7.
Import ListNotations.

Section Cex.
Context {St : Type} (o : mOracle St) (f : tword -> bool) (Inv : St -> Prop) (ordP : ot St -> list nat) (ordR : ot St -> list nat) (place : ot St -> nat -> nat -> nat).
Notation tbl := (ot St).
Hypothesis HO : forall s x, Inv s -> properTW x -> exists s', o s x = Some (s', f x) /\ Inv s'.
Hypothesis RI : regionInvariant properTW f.
Notation strt := (str f Inv).
Notation okTt := (okT f Inv).
Notation valid := (validRel f).

Lemma same_regionTW w w' : properTW w -> sameTW w w' -> properTW w' /\ f w = f w'.
Proof using RI.
  intros P S0. assert (P' : properTW w') by (destruct P as [A B]; split; [eapply RegionalProofs5.nonneg_Q; eauto|destruct S0 as [<- _]; auto]). split; [auto|].
  apply RI; [apply P|apply P'|auto|auto|apply S0|]. assert (N : td w <> []) by (destruct P as [[W _] _]; unfold wfTW in W; destruct (td w); [discriminate|congruence]).
  destruct (region_properEL w P) as [_ [_ I]]. apply (sameTW_elem _ _ _ S0) in I. destruct I as [_ I]. cbn [frFromTimedWord fel ec] in I. apply (regionCond_exact _ (td w)) in I; [exact I|apply tcOf_regionCond; auto].
Qed.
(** membership is constant on a prefix of the table *)
Lemma proper_member x w : properEL x -> inElem x w -> properTW w.
Proof.
  intros [W [V N]] I. split; [split; [|auto]|].
  - destruct I as [E [L _]]. unfold wfTW. rewrite E. destruct W as [_ S0]. rewrite <- S0. exact L.
  - destruct I as [E _]. rewrite E. unfold visible in V. rewrite Forall_forall in V. intro K. exact (V _ K eq_refl).
Qed.
Lemma pre_const x w w' : goodPre x -> inElem (fel x) w -> inElem (fel x) w' -> f w = f w'.
Proof using RI.
  intros G I I'. destruct (goodPre_proper x G) as [PE _]. assert (P := proper_member _ _ PE I). assert (P' := proper_member _ _ PE I'). destruct G as [[u [_ [_ [_ [RC _]]]]] _].
  apply RI; [apply P|apply P'|auto|auto|destruct I as [-> _]; destruct I' as [-> _]; auto|]. destruct I as [_ I]. destruct I' as [_ I']. apply (regionCond_exact _ _ RC) in I. apply (regionCond_exact _ _ RC) in I'.
  eapply sameRegion_trans; [apply sameRegion_sym; exact I|exact I'].
Qed.
Lemma pre_inhab x : goodPre x -> exists w, inElem (fel x) w.
Proof. intros [[w [_ [E [_ [RC _]]]]] _]. exists w. split; [auto|]. apply (regionCond_exact _ _ RC). apply sameRegion_refl. Qed.
(** appending the empty word *)
Lemma wfElem_empty : wfElem elEmpty.
Proof. exact (proj1 (proj1 (goodPre_proper _ goodPre_default))). Qed.
Lemma concat_empty_in x w : wfElem x -> inElem x w -> inElem (elConcat x elEmpty) w.
Proof.
  intros W I. apply elConcat_exactL; [auto|apply wfElem_loose, wfElem_empty|]. exists w, emptyTW. split; [auto|]. split; [split; [reflexivity|apply (regionCond_exact tcEmpty [0%Q]); [apply frDefault_regional|apply sameRegion_refl]]|].
  apply sameTW_sym, concat_unit_r. destruct I as [E [L _]]. unfold wfTW. rewrite E. destruct W as [_ S0]. rewrite <- S0. exact L.
Qed.
Lemma concat_empty_out x w : wfElem x -> inElem (elConcat x elEmpty) w -> inElem x w.
Proof.
  intros W I. apply elConcat_exactL in I; [|auto|apply wfElem_loose, wfElem_empty]. destruct I as [w1 [w2 [I1 [[E2 I2] S0]]]]. eapply sameTW_elem; [|exact I1].
  apply sameTW_sym. eapply sameTW_trans; [exact S0|]. eapply sameTW_trans; [|apply concat_unit_r; destruct I1 as [E [L _]]; unfold wfTW; rewrite E; destruct W as [_ S1]; rewrite <- S1; exact L].
  apply concat_Q; [apply sameTW_refl|]. split; [exact E2|]. cbn [ec elEmpty] in I2. apply (regionCond_exact tcEmpty [0%Q]) in I2; [|apply frDefault_regional]. destruct I2 as [L2 R2]. destruct (td w2) as [|q [|? ?]]; try discriminate.
  constructor; [|constructor]. specialize (R2 0%nat 0%nat (le_n _) ltac:(cbn; lia)). assert (T0 : (T [0] 0 0 == 0)%Q) by (apply T_diag; cbn; lia). assert (T1 : (T [q] 0 0 == q)%Q) by (apply T_diag; cbn; lia).
  destruct R2 as [F1 F2]. rewrite (Qfloor_comp _ _ T0), (Qfloor_comp _ _ T1) in *. change (Qfloor 0) with 0%Z in F1, F2.
  rewrite T0, T1 in F2. assert (K : (0 == inject_Z 0)%Q) by reflexivity. apply F2 in K. rewrite <- F1 in K. exact K.
Qed.
Lemma match_sem t i w : okTt t -> (i < length (otPre t))%nat -> inElem (fel (preAt t i)) w -> f w = isMatch t i.
Proof using HO RI.
  intros H Hi I. destruct (row_exact o f Inv HO RI t i H Hi) as [R _]. assert (G := preAt_good f Inv t i (proj1 H)). destruct (goodPre_proper _ G) as [[W _] _].
  destruct (s_suf0 _ _ t (proj1 H)) as [l El]. unfold sufEL in R. rewrite El in R. cbn [map] in R. inversion R as [|? cs ? row C R2 E1 E2]. unfold isMatch. rewrite <- E2. cbn [nth].
  change (fel brDefault) with elEmpty in C. destruct C as [EA [WF _]]. destruct cs as [|c cs]; cbn [negb].
  - destruct (f w) eqn:F; [|auto]. exfalso. destruct (proj2 (EA w)) as [c [[] _]]. split; [apply concat_empty_in; auto|auto].
  - assert (IN : exists u, inElem (mkEL (ew (elConcat (fel (preAt t i)) elEmpty)) c) u) by (apply RenamingProofs.wfElem_inhabited, WF; left; auto).
    destruct IN as [u U]. destruct (proj1 (EA u)) as [U1 U2]; [exists c; split; [left; auto|auto]|]. apply concat_empty_out in U1; [|auto]. rewrite (pre_const _ w u G I U1). exact U2.
Qed.

(** *** toRecognizable *)
Lemma mapErase_in {A} (m : list (nat * A)) j e : In e (mapErase m j) -> In e m.
Proof. unfold mapErase. rewrite filter_In. tauto. Qed.
Lemma erased_revised (t : tbl) i j : relOK t -> revised i t (withRel t (mapPut (otRel t) i (mapErase (relAt t i) j))).
Proof.
  intro R. set (t' := withRel t _). assert (RA : forall k, relAt t' k = if (i =? k)%nat then mapErase (relAt t i) j else relAt t k) by (intro k; eapply relAt_put; reflexivity).
  split; [apply same_rel|]. split; [|split; [intros a b; auto|intros k N; rewrite RA; destruct (Nat.eqb_spec i k); [congruence|auto]]]. intros _.
  destruct R as [N R]. split; [split; [cbn; apply mapPut_nodup; apply N|eapply distOK_tle; [apply same_tle, same_rel|reflexivity|apply N]]|]. intros i0 m j0 r A B. cbn [t' withRel otRel] in A. rewrite mapAt_put in A. change (otPre t') with (otPre t).
  destruct (Nat.eqb_spec i i0) as [<-|]; [|exact (R i0 m j0 r A B)]. injection A as <-. apply mapErase_in in B. exact (relOK_rel t (conj N R) i j0 r B).
Qed.
Lemma pickTarget_spec i : forall js t t' r, okTt t -> relOK t -> (i < length (otPre t))%nat -> (forall j, In j js -> (j < length (otPre t))%nat) -> pickTarget place t i js = (t', r) ->
  revised i t t' /\ match r with Some (j, ren) => In j js /\ inP t j = true /\ valid t i j ren | None => True end.
Proof using HO RI.
  induction js as [|j js IH]; intros t t' r H R Hi L E; cbn [pickTarget] in E; [injection E as <- <-; split; [apply revised_refl|auto]|]. cbv zeta in E. assert (Lj := L j (or_introl eq_refl)).
  assert (NEXT : forall t1 t' r, revised i t t1 -> relOK t1 -> pickTarget place (withRel t1 (mapPut (otRel t1) i (mapErase (relAt t1 i) j))) i js = (t', r) ->
    revised i t t' /\ match r with Some (k, ren) => In k (j :: js) /\ inP t k = true /\ valid t i k ren | None => True end).
  { intros t1 u s RV R1 E1. assert (RE := erased_revised t1 i j R1). assert (RV2 := revised_trans _ _ _ _ RV RE). assert (S2 := proj1 RV2). assert (Ep : otPre (withRel t1 (mapPut (otRel t1) i (mapErase (relAt t1 i) j))) = otPre t) by (destruct S2 as [_ [_ [K _]]]; exact K).
    apply IH in E1; [|eapply same_okT; eauto|apply RE; auto|rewrite Ep; auto|intros k Hk; rewrite Ep; apply L; right; auto]. destruct E1 as [A B]. split; [eapply revised_trans; eauto|]. destruct s as [[k ren]|]; [|auto].
    destruct B as [B1 [B2 B3]]. split; [right; auto|]. rewrite (same_inP _ _ k S2) in B2. split; [auto|]. apply (same_valid f _ _ _ _ _ S2). exact B3. }
  destruct (inP t j) eqn:P; [|eapply NEXT; [apply revised_refl|auto|exact E]]. destruct (equivMemo place t i j) as [t1 r1] eqn:E1. assert (RV := memo_revised o f Inv place HO RI t i j t1 r1 H R Hi Lj E1).
  destruct (equivMemo_sem o f Inv place HO RI t i j t1 r1 H R Hi Lj E1) as [R1 [_ [_ D]]]. destruct r1 as [r0|]; [|eapply NEXT; eauto].
  destruct D as [V [M _]]. rewrite M in E. injection E as <- <-. split; [auto|]. split; [left; auto|auto].
Qed.
Lemma relOK_revised_all (t : tbl) t' : same t t' -> relOK t' -> forall i j r, In (j, r) (relAt t' i) -> (i < length (otPre t))%nat /\ (j < length (otPre t))%nat.
Proof. intros [_ [_ [E _]]] R i j r K. destruct (relOK_rel t' R i j r K) as [A [B _]]. rewrite E in A, B. auto. Qed.
(** a morphism of the table: a row outside P and an equivalent one in P *)
Definition tableMorph (t : tbl) (m : morph) : Prop := exists i j r, (i < length (otPre t))%nat /\ inP t i = false /\ (j < length (otPre t))%nat /\ inP t j = true /\ valid t i j r /\
  m = mkMorph (fel (preAt t i)) (fel (preAt t j)) r.
Lemma tableMorph_same t t' m : same t t' -> tableMorph t' m -> tableMorph t m.
Proof.
  intros S0 [i [j [r [A [B [C [D [V E]]]]]]]]. exists i, j, r. rewrite (same_inP _ _ i S0) in B. rewrite (same_inP _ _ j S0) in D. rewrite (same_preAt _ _ i S0), (same_preAt _ _ j S0) in E. apply (same_valid f _ _ _ _ _ S0) in V. destruct S0 as [_ [_ [Ep _]]]. rewrite Ep in A, C. auto 10.
Qed.
Lemma morphLoop_spec : forall is t t' ms, okTt t -> relOK t -> morphLoop place t is = (t', ms) -> relOK t' /\ distLe t t' /\ forall m, In m ms -> tableMorph t m.
Proof using HO RI.
  induction is as [|i is IH]; intros t t' ms H R E; cbn [morphLoop] in E; [injection E as <- <-; split; [auto|]; split; [intros a b; auto|intros ? []]|]. destruct (inP t i) eqn:P; [eauto|].
  destruct (pickTarget place t i (map fst (relAt t i))) as [t1 r] eqn:E1. destruct (morphLoop place t1 is) as [t2 ms2] eqn:E2. injection E as <- <-.
  assert (X : revised i t t1 /\ match r with Some (j, ren) => In j (map fst (relAt t i)) /\ inP t j = true /\ valid t i j ren | None => True end).
  { destruct (relAt t i) as [|[j0 r0] l] eqn:RA; [cbn in E1; injection E1 as <- <-; split; [apply revised_refl|auto]|]. eapply pickTarget_spec; eauto.
    - apply (relOK_rel t R i j0 r0). rewrite RA. left; auto.
    - intros j Hj. apply in_map_iff in Hj. destruct Hj as [[j1 r1] [<- Hj]]. rewrite <- RA in Hj. apply (relOK_rel t R i j1 r1 Hj). }
  destruct X as [RV X]. assert (S1 := proj1 RV). destruct (IH t1 t2 ms2) as [R2 [D2 M2]]; [eapply same_okT; eauto|apply RV; auto|auto|]. split; [auto|]. split; [intros a b K; apply D2, RV; auto|].
  assert (M2' : forall m, In m ms2 -> tableMorph t m) by (intros m Hm; eapply tableMorph_same; eauto).
  destruct r as [[j ren]|]; [|auto]. intros m [<-|Hm]; [|auto]. destruct X as [X1 [X2 X3]]. apply in_map_iff in X1. destruct X1 as [[j1 r1] [<- X1]]. destruct (relOK_rel t R i j1 r1 X1) as [A [B _]]. exists i, j1, ren. auto 10.
Qed.
Lemma tableMorph_proper t m : okTt t -> tableMorph t m -> properMorph m.
Proof.
  intros H [i [j [r [A [_ [C [_ [[[RN _] [IND _]] ->]]]]]]]]. assert (Gi := preAt_good f Inv t i (proj1 H)). assert (Gj := preAt_good f Inv t j (proj1 H)).
  destruct (goodPre_proper _ Gi) as [Pi [Si [Ii _]]]. destruct (goodPre_proper _ Gj) as [Pj [Sj [Ij _]]]. split; [exact Pi|]. split; [exact Pj|]. split; [exact Sj|]. split; [exact RN|]. cbn [mdom mcod mren].
  apply region_extension; auto; [apply Pi|apply Pj].
Qed.
Lemma toRecognizable_spec t t' h : okTt t -> relOK t -> toRecognizable ordR place t = (t', h) ->
  same t t' /\ relOK t' /\ properRL h /\ (forall m, In m (rmorphs h) -> tableMorph t m) /\
  (forall x, In x (rprefixes h) <-> exists i, (i < length (otPre t))%nat /\ inP t i = true /\ x = fel (preAt t i)) /\
  (forall u, properTW u -> inPrefixes h u = true -> f u = isFinal h u).
Proof using HO RI.
  intros H R E. assert (S0 := toRecognizable_same _ _ _ _ _ E). unfold toRecognizable in E. cbv zeta in E. destruct (morphLoop place t (ordR t)) as [t1 ms] eqn:E1. injection E as <- <-.
  destruct (morphLoop_spec _ _ _ _ H R E1) as [R1 [_ M]]. split; [auto|]. split; [auto|].
  assert (IDX : forall i, In i (filter (inP t) (seq 0 (length (otPre t)))) <-> (i < length (otPre t))%nat /\ inP t i = true) by (intro i; rewrite filter_In, in_seq; split; [intros [A B]; split; [lia|auto]|intros [A B]; split; [lia|auto]]).
  set (idx := filter (inP t) (seq 0 (length (otPre t)))) in *.
  assert (PR : properRL (mkRL (map (fun i => fel (preAt t i)) idx) (map (fun i => fel (preAt t i)) (filter (isMatch t) idx)) ms)).
  { split; [|split]; cbn [rprefixes rfinal rmorphs].
    - intros x Hx. apply in_map_iff in Hx. destruct Hx as [i [<- _]]. apply goodPre_proper. eapply preAt_good. apply H.
    - intros x Hx. apply in_map_iff in Hx. destruct Hx as [i [<- _]]. apply goodPre_proper. eapply preAt_good. apply H.
    - intros m Hm. eapply tableMorph_proper; eauto. }
  split; [auto|]. split; [auto|]. split.
  - intro x. cbn [rprefixes]. rewrite in_map_iff. split; [intros [i [<- Hi]]; apply IDX in Hi; exists i; split; [apply Hi|split; [apply Hi|auto]]|intros [i [A [B ->]]]; exists i; split; [auto|apply IDX; auto]].
  - intros u Pu Iu. apply inPrefixes_iff in Iu; [|auto|auto]. destruct Iu as [x [Hx Ix]]. cbn [rprefixes] in Hx. apply in_map_iff in Hx. destruct Hx as [i [<- Hi]]. assert (Hi' := proj1 (IDX i) Hi).
    assert (FM := match_sem t i u H (proj1 Hi') Ix). apply eq_true_iff_eq. rewrite (isFinal_iff _ u PR Pu). cbn [rfinal]. split.
    + intro F. exists (fel (preAt t i)). split; [|auto]. apply in_map_iff. exists i. split; [auto|]. apply filter_In. split; [auto|]. congruence.
    + intros [y [Hy Iy]]. apply in_map_iff in Hy. destruct Hy as [k [<- Hk]]. apply filter_In in Hk. destruct Hk as [Hk1 Hk2]. apply IDX in Hk1. rewrite (match_sem t k u H (proj1 Hk1) Iy). exact Hk2.
Qed.

(** *** handleCEX *)
(** a morphism of the table is refuted by a new suffix *)
Definition refuted (t t' : tbl) (w : tword) : Prop := exists s i j r, properTW s /\ otSuf t' = otSuf t ++ [brFromTimedWord s] /\
  (forall z, In z (sufEL t) -> ~ inElem z s) /\
  (i < length (otPre t))%nat /\ inP t i = false /\ (j < length (otPre t))%nat /\ inP t j = true /\ valid t i j r /\
  ~ indistinguishable f (fel (preAt t i)) (fel (preAt t j)) (sufEL t') r.
Lemma suf_sized t z : strt t -> In z (sufEL t) -> sizedEL z.
Proof.
  intros H Hz. unfold sufEL in Hz. apply in_map_iff in Hz. destruct Hz as [s [<- Hs]]. assert (F := s_suf _ _ t H). rewrite Forall_forall in F. destruct (F s Hs) as [[U1 [U2 _]] [U3 _]]. split; [auto|]. split; auto.
Qed.
Lemma mapsStep_proper h w w' s : properRL h -> mapsStep h w w' s -> f w <> f w' -> exists m p p', In m (rmorphs h) /\ inElem (mdom m) p /\ inElem (mcod m) p' /\ CexSpec.related (mren m) p p' /\ properTW s /\ f (concatTW p s) <> f (concatTW p' s).
Proof using RI.
  intros PR [m [p [p' [A [B [C [D [E [F G]]]]]]]]] N. exists m, p, p'. repeat (split; [auto; fail|]). destruct PR as [_ [_ PM]]. destruct (PM m A) as [P1 [P2 _]].
  assert (Q1 := properTW_concat _ _ (proper_member _ _ P1 B) E). assert (Q2 := properTW_concat _ _ (proper_member _ _ P2 C) E).
  rewrite (proj2 (same_regionTW _ _ Q1 (sameTW_sym _ _ F))), (proj2 (same_regionTW _ _ Q2 (sameTW_sym _ _ G))). exact N.
Qed.
Lemma symAnswer_ok y x : symInv f Inv y -> properTW x -> exists y', symAnswer o y x = Some (y', f x) /\ symInv f Inv y'.
Proof using HO. intros [Hs Hc] P. destruct (HO _ _ Hs P) as [s' [E I]]. unfold symAnswer. rewrite E. eexists. split; [reflexivity|]. split; auto. Qed.
Lemma word_in_region s : properTW s -> inElem (fel (brFromTimedWord s)) s.
Proof. intro P. destruct (brFromTimedWord_regional s (proj1 (proj1 P))) as [E [_ [RC _]]]. split; [auto|]. apply (regionCond_exact _ _ RC). apply sameRegion_refl. Qed.
Lemma analysis_table t fuel w t1 h : tinv f Inv t -> allSat (otMem t) -> properTW w -> toRecognizable ordR place t = (t1, h) ->
  forall y res, analyzeCEX fuel h (sufEL t1) (symAnswer o) (otMem t1) w = Some (y, res) -> symInv f Inv y /\
  match res with
  | CFresh s => properTW s /\ (forall z, In z (sufEL t) -> ~ inElem z s) /\ exists m p p', tableMorph t m /\ inElem (mdom m) p /\ inElem (mcod m) p' /\ CexSpec.related (mren m) p p' /\ f (concatTW p s) <> f (concatTW p' s)
  | CNone => False
  | CError => rContains fuel h w = Some (f w)
  end.
Proof using HO RI.
  intros H A P E y res E2. assert (OK : okTt t) by (split; [apply H|split; [apply H|auto]]). destruct (toRecognizable_spec t t1 h OK (ti_rel _ _ _ H) E) as [S0 [R1 [PR [TM [_ FIN]]]]].
  assert (ES : sufEL t1 = sufEL t) by (unfold sufEL; destruct S0 as [_ [_ [_ [-> _]]]]; reflexivity). assert (EM : otMem t1 = otMem t) by apply S0. rewrite ES, EM in E2.
  destruct (s_mem _ _ t (ti_str _ _ _ H)) as [CO KS]. assert (SI := CO (keys_usable _ KS A)).
  assert (RC : exists b, rContains fuel h w = Some b).
  { unfold analyzeCEX in E2. destruct (cexSplits fuel h w) as [ts|] eqn:CS; [|discriminate]. apply cexSplits_contains in CS. destruct CS as [CS _]. eauto. }
  destruct RC as [b RC]. destruct (analyze_ok (symAnswer o) f (symInv f Inv) h (sufEL t) symAnswer_ok PR (fun z Hz => suf_sized t z (ti_str _ _ _ H) Hz) fuel w (otMem t) b RC P SI) as [y' [res' [E3 [I3 B]]]].
  rewrite E2 in E3. injection E3 as <- <-. split; [auto|]. destruct res as [s| |].
  - destruct B as [_ [w1 [w2 [MS [N NC]]]]]. destruct (mapsStep_proper h w1 w2 s PR MS N) as [m [p [p' [M1 [M2 [M3 [M4 [M5 M6]]]]]]]]. split; [auto|]. split; [auto|]. exists m, p, p'. auto 10.
  - destruct B as [_ [[u [U1 [U2 U3]]]|[w1 [w2 [s [MS [N [z [Z1 Z2]]]]]]]]]; [apply U3; auto|]. destruct (mapsStep_proper h w1 w2 s PR MS N) as [m [p [p' [M1 [M2 [M3 [M4 [M5 M6]]]]]]]].
    destruct (TM m M1) as [i [j [r [_ [_ [_ [_ [[_ [_ V]] ->]]]]]]]]. cbn [mdom mcod mren] in *. apply M6. eapply V; eauto.
  - congruence.
Qed.
Lemma handleCEX_spec fuel t w t' : tinv f Inv t -> allSat (otMem t') -> properTW w -> handleCEX o ordP ordR place fuel t w = Ok t' -> tinv f Inv t' /\ otPre t' = otPre t /\ otP t' = otP t /\ refuted t t' w.
Proof using HO RI.
  intros H A P E. assert (TL := handleCEX_le o ordP ordR place fuel t w t' E). assert (A0 := tle_allSat _ _ TL A). assert (OK : okTt t) by (split; [apply H|split; [apply H|auto]]). unfold handleCEX in E.
  destruct (toRecognizable ordR place t) as [t1 h] eqn:ET. destruct (analyzeCEX fuel h (sufEL t1) (symAnswer o) (otMem t1) w) as [[y res]|] eqn:EA; [|discriminate].
  destruct (toRecognizable_spec t t1 h OK (ti_rel _ _ _ H) ET) as [S0 [R1 _]]. destruct (analysis_table t fuel w t1 h H A0 P ET y res EA) as [SI B]. assert (EY := analyzeCEX_cache o fuel h (sufEL t1) (otMem t1) w y res EA).
  destruct res as [s| |]; [|destruct B|discriminate]. destruct B as [Ps [NC [m [p [p' [TM [M2 [M3 [M4 M6]]]]]]]]]. assert (SS := sufShape_word s Ps).
  assert (H1 := str_same f Inv _ _ S0 (ti_str _ _ _ H)). assert (AK : asked t1 (withMem t1 y)) by (apply withMem_asked, cacheLe_eq; auto).
  assert (H2 : strt (withMem t1 y)) by (eapply str_asked; [exact AK| |exact H1]; split; [intros _; exact SI|intros k cs K; cbn in K; rewrite EY in K; exact (proj2 (s_mem _ _ t1 H1) k cs K)]).
  destruct (addSuffix_str o f Inv HO RI (withMem t1 y) _ t' H2 SS E) as [H' [F' [Es [Ep EP]]]]. cbn in Es, Ep, EP. assert (C1 := toRecognizable_col _ _ _ _ _ ET). assert (L2 := addSuffix_le _ _ _ _ E). unfold addSuffix in E. destruct (refresh_rest o _ _ E) as [_ [_ [_ [_ [Er [_ [_ [Ed Ec]]]]]]]]. cbn in Er, Ed, Ec.
  assert (S0' := S0). destruct S0' as [_ [_ [Ep1 [Es1 [_ [EP1 _]]]]]]. split; [|split; [congruence|split; [congruence|]]].
  - constructor; auto.
    + eapply relOK_tle; [eapply tle_trans; [apply asked_tle; exact AK|exact L2]|rewrite Er; reflexivity|rewrite Ed; reflexivity|exact R1].
    + eapply colOK_tle; [rewrite Ec; exact C1|exact TL|apply H].
    + rewrite EP, EP1. apply H.
  - destruct TM as [i [j [r [T1 [T2 [T3 [T4 [T5 ->]]]]]]]]. exists s, i, j, r. split; [auto|]. split; [rewrite Es, Es1; reflexivity|]. repeat (split; [auto; fail|]). intros [_ K]. apply M6. cbn [mdom mcod mren] in *.
    eapply K; [|exact M2|exact M3|exact M4|apply word_in_region; exact Ps]. unfold sufEL. rewrite Es, map_app. apply in_or_app. right. left. reflexivity.
Qed.
(** a genuine counterexample is always turned into a new suffix: neither the
    exception nor abort() *)
Lemma handleCEX_nostop fuel t w st : tinv f Inv t -> allSat (otMem t) -> properTW w -> rContains fuel (snd (toRecognizable ordR place t)) w <> Some (f w) ->
  handleCEX o ordP ordR place fuel t w = Stop st -> st = SFuel \/ st = SOracle.
Proof using HO RI.
  intros H A P N E. unfold handleCEX in E. destruct (toRecognizable ordR place t) as [t1 h] eqn:ET. cbn [snd] in N. destruct (analyzeCEX fuel h (sufEL t1) (symAnswer o) (otMem t1) w) as [[y res]|] eqn:EA; [|injection E as <-; auto].
  destruct (analysis_table t fuel w t1 h H A P ET y res EA) as [_ B]. destruct res as [s| |]; [|destruct B|contradiction].
  unfold addSuffix, refreshTable in E. cbn in E. right. clear - E.
  assert (FC : forall sufs y x s, fillCells o y x sufs = Stop s -> s = SOracle).
  { induction sufs as [|z sufs IH]; intros y0 x0 s0 K; cbn [fillCells] in K; [discriminate|]. cbv zeta in K. destruct (symQuery o y0 _) as [[y1 cs]|]; [|injection K as <-; auto]. unfold bind in K. destruct (fillCells o y1 x0 sufs) as [[[? ?] ?]|] eqn:F; [discriminate|]. injection K as <-. eauto. }
  assert (FR : forall pre y tab con sufs s, fillRows o y pre tab con sufs = Stop s -> s = SOracle).
  { induction pre as [|x pre IH]; intros y0 tab con sufs s0 K; cbn [fillRows] in K; [discriminate|]. cbv zeta in K. unfold bind in K. destruct (fillCells o y0 x _) as [[[? ?] ?]|] eqn:F; [|injection K as <-; eauto].
    destruct (fillRows o s1 pre _ _ sufs) as [[[? ?] ?]|] eqn:G; [discriminate|]. injection K as <-. eauto. }
  unfold bind in E. destruct (fillRows o _ _ _ _ _) as [[[? ?] ?]|] eqn:G; [discriminate|]. injection E as <-. eauto.
Qed.
End Cex.
