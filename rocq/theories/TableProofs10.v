(** The observation table: its operations do not throw. *)
From Coq Require Import QArith ZArith Bool List Arith Lia Lqa Permutation.
From Verif Require Import BoundsModel BoundsProofs ConstraintModel ZoneModel ZoneSpec ZoneProofs AutomatonModel TimedWordModel TimedWordSpec TimedWordProofs
  TimedConditionModel TimedConditionSpec TimedConditionProofs ElementaryModel ElementarySpec ElementaryProofs LooseProofs
  RegionalModel RegionalSpec RegionalProofs RegionalProofs2 RegionalProofs6 OracleModel SymbolicModel SymbolicSpec SymbolicProofs2 CexModel CexSpec RenamingModel RenamingSpec TableModel
  TableProofs ShapeProofs ShapeProofs2 TableProofs2 TableProofs3 TableProofs9.
Import ListNotations.
Open Scope Q_scope.

Ltac bind_stop H :=
  match type of H with
  | bind ?m _ = Stop _ => unfold bind in H at 1; let E := fresh "E" in destruct m eqn:E
  end.

Section NoThrow.
Context {St : Type} (o : mOracle St) (f : tword -> bool) (Inv : St -> Prop) (ordP : ot St -> list nat) (place : ot St -> nat -> nat -> nat).
Notation tbl := (ot St).
Hypothesis HO : forall s x, Inv s -> properTW x -> exists s', o s x = Some (s', f x) /\ Inv s'.
Hypothesis RI : regionInvariant properTW f.
Hypothesis HordP : forall t, Permutation (ordP t) (otP t).
Notation strt := (str f Inv).
Notation genR := (gens rback).

(** the oracle failed, which needs a question about an empty language *)
Definition failing (t : tbl) (st : stop) : Prop := st = SOracle /\ ~ genR t.
Definition lost (t : tbl) (st : stop) : Prop := st = SFuel \/ failing t st.
Lemma failing_le (t t1 : tbl) st : (genR t -> genR t1) -> failing t1 st -> failing t st.
Proof. intros H [A B]. split; [auto|intro K; apply B, H, K]. Qed.
Lemma lost_le (t t1 : tbl) st : (genR t -> genR t1) -> lost t1 st -> lost t st.
Proof. intros H [A|B]; [left; auto|right; eapply failing_le; eauto]. Qed.
Lemma same_g (t t1 : tbl) : same t t1 -> genR t -> genR t1.
Proof. intro. apply gens_same; auto. Qed.

Lemma query_stop y x z : memOK f Inv y -> goodPre x -> rback z -> keysOf rback y -> symQuery o y (elConcat (fel x) (fel z)) <> None.
Proof using HO RI.
  intros [C K] G R KR. assert (A : allSat y) by (intros k cs H; destruct (KR k cs H) as [x' [z' [Gx [Rz ->]]]]; apply rback_concat; auto).
  assert (U : usable (elConcat (fel x) (fel z))) by (apply concat_usable; [auto|apply R|apply rback_concat; auto]).
  destruct (cacheOK_usable_query o f Inv HO RI y _ C (keys_usable _ K A) U) as [y' [cs [E _]]]. congruence.
Qed.
Lemma fillCells_stop x : goodPre x -> forall sufs y st, Forall sufShape sufs -> memOK f Inv y -> fillCells o y x sufs = Stop st -> st = SOracle /\ ~ (Forall rback sufs /\ keysOf rback y).
Proof using HO RI.
  intro G. induction sufs as [|s sufs IH]; intros y st F M H; cbn [fillCells] in H; [discriminate|]. cbv zeta in H. inversion F; subst.
  destruct (symQuery o y (elConcat (fel x) (fel s))) as [[y1 cs]|] eqn:E.
  - assert (M1 : memOK f Inv y1) by (eapply memOK_query; [exact HO|exact RI|exact M| |exact E]; exists x, s; auto).
    bind_stop H; [destruct a as [[y2 css0] ccs0]; discriminate|]. injection H as <-. destruct (IH y1 s0 H3 M1 E0) as [A B]. split; [auto|]. intros [K1 K2]. inversion K1; subst. apply B. split; [auto|].
    eapply keysOf_query; [exact K2| |exact E]. exists x, s. auto.
  - injection H as <-. split; [auto|]. intros [K1 K2]. inversion K1; subst. eapply query_stop; eauto.
Qed.
Lemma fillRows_stop sufs : Forall sufShape sufs -> forall pre y tab con st, Forall goodPre pre -> memOK f Inv y -> fillRows o y pre tab con sufs = Stop st -> st = SOracle /\ ~ (Forall rback sufs /\ keysOf rback y).
Proof using HO RI.
  intro FS. induction pre as [|x pre IH]; intros y tab con st F M H; cbn [fillRows] in H; [discriminate|]. cbv zeta in H. inversion F; subst.
  bind_stop H.
  - destruct a as [[y1 css] ccs]. assert (M1 : memOK f Inv y1) by (eapply fillCells_mem; [exact HO|exact RI| | | |exact E]; auto; apply Forall_skipn'; auto).
    bind_stop H; [destruct a as [[y2 tb] cn]; discriminate|]. injection H as <-. destruct (IH _ _ _ _ H3 M1 E0) as [A B]. split; [auto|]. intros [K1 K2]. apply B. split; [auto|].
    eapply fillCells_g; [exact H2| |exact K2|exact E]. apply Forall_skipn'; auto.
  - injection H as <-. apply fillCells_stop in E; [|auto|apply Forall_skipn'; auto|auto]. destruct E as [A B]. split; [auto|]. intros [K1 K2]. apply B. split; [apply Forall_skipn'; auto|auto].
Qed.
Lemma refresh_stop t st : strt t -> refreshTable o t = Stop st -> failing t st.
Proof using HO RI.
  intros H E. unfold refreshTable in E. bind_stop E; [destruct a as [[y tb] cn]; discriminate|]. injection E as <-.
  apply fillRows_stop in E0; [|apply H|apply H|apply H]. destruct E0 as [A B]. split; [auto|]. intros [_ [_ [K1 K2]]]. apply B. auto.
Qed.
(** a found renaming is recorded *)
Lemma equivMemo_recorded t i j t' r : equivMemo place t i j = (t', Some r) -> mapAt (relAt t' i) j <> None.
Proof.
  assert (G : forall t', equivalentRows place t i j = (t', Some r) -> mapAt (relAt t' i) j <> None).
  { clear t'. intros t' E. unfold equivalentRows in E. destruct (findRows t i j) as [r0|]; [|discriminate]. injection E as <- <-.
    unfold relAt at 1. unfold putRel. cbn [withRel otRel]. rewrite mapAt_put, Nat.eqb_refl, mapPutAt_at. discriminate. }
  unfold equivMemo. destruct (inDist t i j || inDist t j i); [discriminate|]. destruct (mapAt (relAt t i) j) as [r0|] eqn:M; [|apply G].
  destruct (equivRows t i j r0); [|apply G]. intro E. injection E as <- <-. congruence.
Qed.
Lemma moveToP_stop : forall fuel t i st, strt t -> (i < length (otPre t))%nat -> ~ In i (otP t) -> moveToP o place fuel t i = Stop st -> lost t st.
Proof using HO RI.
  induction fuel as [|fuel IH]; intros t i st H Hi NP E; cbn [moveToP] in E; [injection E as <-; left; auto|]. rewrite (proj2 (Nat.ltb_lt _ _) Hi) in E.
  assert (H1 := str_addSuccessors f Inv t i H Hi NP). bind_stop E; [|injection E as <-; right; apply refresh_stop in E0; auto; eapply failing_le; [|exact E0]; apply addSuccessors_g].
  destruct (str_refresh o f Inv HO RI _ _ H1 E0) as [H2 F2]. destruct (refresh_rest o _ _ E0) as [_ [Rp [Rs [RP [_ [Rc _]]]]]].
  assert (CN : contAt a i = Some (length (otPre t) + length (otAlpha t))%nat) by (unfold contAt; rewrite Rc; apply contAt_new). rewrite CN in E.
  destruct (equivMemo place a _ i) as [t2 r] eqn:E2. apply equivMemo_same in E2. assert (H3 := str_same f Inv _ _ E2 H2).
  assert (E2' := E2). destruct E2 as [_ [_ [Ep [Es [_ [EP _]]]]]]. assert (P3 : otP t2 = otP t ++ [i]) by (rewrite EP, RP; reflexivity).
  assert (L3 : length (otPre t2) = (length (otPre t) + length (otAlpha t) + 1)%nat) by (rewrite Ep, Rp; apply addSuccessors_len).
  destruct r as [r|]; [discriminate|]. eapply lost_le; [|eapply IH; [exact H3| | |exact E]].
  - intro K. eapply same_g; [exact E2'|]. eapply refresh_g; [|exact E0]. apply addSuccessors_g; auto.
  - lia.
  - rewrite P3. intro K. apply in_app_or in K. destruct K as [K|[K|[]]]; [apply (tr_lt t (s_tree _ _ t H)) in K|]; lia.
Qed.
Lemma newTable_stop fuel alpha y st : ~ In UNOBSERVABLE alpha -> memOK f Inv y -> keysOf rback y -> newTable o place fuel alpha y = Stop st -> st = SFuel.
Proof using HO RI.
  intros NA M K E. unfold newTable in E. set (t0 := mkOT y alpha [frDefault] [brDefault] [] [] [] [] [] [] [] []) in *.
  assert (H0 : strt t0).
  { constructor; cbn; auto.
    - constructor; [apply goodPre_default|constructor].
    - eexists; reflexivity.
    - constructor; [apply sufShape_default|constructor].
    - eexists; reflexivity.
    - split; [auto|]. split; [cbn; lia|]. cbn. lia.
    - constructor; cbn; try solve [intros ? []|intros ? ? []|discriminate|lia|constructor]. }
  assert (G0 : genR t0).
  { unfold gens; cbn. split; [auto|]. split; [constructor; [apply goodPre_default|constructor]|]. split; [constructor; [apply rback_default|constructor]|auto]. }
  assert (L0 : (0 < length (otPre t0))%nat) by (cbn; lia). assert (N0 : ~ In 0%nat (otP t0)) by (intros []).
  bind_stop E; [|injection E as <-; apply moveToP_stop in E0; auto; destruct E0 as [E0|[_ E0]]; [auto|contradiction]].
  destruct (moveToP_str o f Inv place HO RI fuel t0 0 a H0 L0 N0 E0) as [A _]. apply refresh_stop in E; [|auto]. exfalso. apply (proj2 E). eapply moveToP_g; [exact G0|exact E0].
Qed.
Lemma jumpSame_stop i : forall l t st, (forall j, In j l -> In j (otP t)) -> tree t -> jumpSame place t i l = Stop st -> False.
Proof.
  induction l as [|j l IH]; intros t st P T E; cbn [jumpSame] in E; [discriminate|]. destruct (tr_cont t T j (P j (or_introl eq_refl))) as [k [K _]]. rewrite K in E.
  destruct (k =? i)%nat; [|eapply IH; [|exact T|exact E]; intros; apply P; right; auto]. destruct (equivMemo place t i j) as [t1 r] eqn:E1. destruct r; [discriminate|]. apply equivMemo_same in E1.
  eapply IH; [|eapply tree_asked; [apply same_asked; exact E1|exact T]|exact E]. intros q Hq. destruct E1 as [_ [_ [_ [_ [_ [-> _]]]]]]. apply P. right; auto.
Qed.
Lemma closeLoop_stop fuel : forall is t st, (forall i, In i is -> (i < length (otPre t))%nat) -> strt t -> filled t -> closeLoop o ordP place fuel t is = Stop st -> lost t st.
Proof using HO RI HordP.
  induction is as [|i is IH]; intros t st L H F E; cbn [closeLoop] in E; [discriminate|].
  assert (NEXT : forall t1 st, same t t1 -> closeLoop o ordP place fuel t1 is = Stop st -> lost t st).
  { intros t1 u S1 E1. eapply lost_le; [apply same_g; exact S1|]. eapply IH; [|eapply str_same; eauto|eapply filled_same; eauto|exact E1]. intros k Hk. destruct S1 as [_ [_ [-> _]]]. apply L. right; auto. }
  destruct (inP t i) eqn:IP; [apply (NEXT t); [apply same_refl|exact E]|]. destruct (confirmRel t i) as [t1 b1] eqn:E1. apply confirmRel_same in E1. destruct b1; [eapply NEXT; eauto|].
  bind_stop E; [|exfalso; eapply jumpSame_stop; [| |exact E0]; [intros j Hj; apply (ordP_in ordP HordP) in Hj; exact Hj|eapply tree_asked; [apply same_asked; exact E1|apply H]]].
  destruct a as [t2 b2]. apply jumpSame_same in E0. assert (S2 := same_trans _ _ _ E1 E0). destruct b2; [eapply NEXT; eauto|]. destruct (jumpAny place t2 i (ordP t2)) as [t3 b3] eqn:E3. apply jumpAny_same in E3.
  assert (S3 := same_trans _ _ _ S2 E3). destruct b3; [eapply NEXT; eauto|]. assert (S3' := S3). destruct S3 as [_ [_ [Ep [Es [_ [EP _]]]]]].
  assert (NP : ~ In i (otP t)) by (intro K; apply inP_iff in K; congruence). assert (H3 := str_same f Inv _ _ S3' H). assert (Hi : (i < length (otPre t3))%nat) by (rewrite Ep; apply L; left; auto). assert (NP3 : ~ In i (otP t3)) by (rewrite EP; auto).
  bind_stop E; [|injection E as <-; eapply lost_le; [apply same_g; exact S3'|]; eapply moveToP_stop; [exact H3|exact Hi|exact NP3|exact E2]].
  destruct (moveToP_str o f Inv place HO RI fuel t3 i a H3 Hi NP3 E2) as [A _].
  bind_stop E; [discriminate|]. injection E as <-. apply refresh_stop in E4; [|auto]. right. eapply failing_le; [|exact E4]. intro K. eapply moveToP_g; [|exact E2]. eapply same_g; eauto.
Qed.
Lemma close_stop fuel t st : strt t -> filled t -> close o ordP place fuel t = Stop st -> lost t st.
Proof using HO RI HordP. intros H F E. eapply closeLoop_stop; [|exact H|exact F|exact E]. intros i Hi. apply in_seq in Hi. lia. Qed.
Lemma extRow_stop t i s st : strt t -> sufShape s -> extRow o t i s = Stop st -> st = SOracle /\ ~ (genR t /\ rback s).
Proof using HO RI.
  intros H S0 E. unfold extRow in E. cbv zeta in E. destruct (symQuery o (otMem t) _) as [[y cs]|] eqn:Q; [discriminate|]. injection E as <-. split; [auto|]. intros [K R].
  eapply query_stop; [apply (s_mem _ _ t H)|exact (preAt_g rback t i K)|exact R|apply K|exact Q].
Qed.
Lemma equivNew_stop t i j s st : strt t -> sufShape s -> equivNew o t i j s = Stop st -> st = SOracle /\ ~ (genR t /\ rback s).
Proof using HO RI.
  intros H S0. assert (FD : forall t st, strt t -> equivNewFind o t i j s = Stop st -> st = SOracle /\ ~ (genR t /\ rback s)).
  { clear t st H. intros t st H E. unfold equivNewFind in E. bind_stop E; [|injection E as <-; eapply extRow_stop; eauto]. destruct a as [[t1 lr] lc]. assert (H1 := extRow_str o f Inv HO RI _ _ _ _ _ _ H S0 E0).
    bind_stop E; [destruct a as [[t2 rr] rc]; discriminate|]. injection E as <-. destruct (extRow_stop t1 j s s0 H1 S0 E1) as [A B]. split; [auto|]. intros [K1 K2]. apply B. split; [|auto]. eapply extRow_g; [exact K1|exact K2|exact E0]. }
  unfold equivNew. cbv zeta.
  assert (G : match mapAt (relAt t i) j with
    | Some r => do (t1, b) <- equivNewWith o t i j s r; if (b : bool) then Ok (colPut t1 (i, j, s) true, true) else equivNewFind o t1 i j s
    | None => equivNewFind o t i j s end = Stop st -> st = SOracle /\ ~ (genR t /\ rback s)).
  { intro E. destruct (mapAt (relAt t i) j); [|eapply FD; eauto]. bind_stop E.
    - destruct a as [t1 b1]. unfold equivNewWith in E0. bind_inv E0. destruct a as [[t1' lr] lc]. bind_inv E0. destruct a as [[t2 rr] rc]. injection E0 as <- E0.
      assert (H1 := extRow_str o f Inv HO RI _ _ _ _ _ _ H S0 E1). assert (H2 := extRow_str o f Inv HO RI _ _ _ _ _ _ H1 S0 E2). destruct b1; [discriminate|]. destruct (FD _ _ H2 E) as [A B]. split; [auto|]. intros [K1 K2]. apply B. split; [|auto].
      eapply extRow_g; [|exact K2|exact E2]. eapply extRow_g; [exact K1|exact K2|exact E1].
    - injection E as <-. unfold equivNewWith in E0. bind_stop E0; [|injection E0 as <-; eapply extRow_stop; eauto]. destruct a as [[t1 lr] lc]. assert (H1 := extRow_str o f Inv HO RI _ _ _ _ _ _ H S0 E).
      bind_stop E0; [destruct a as [[t2 rr] rc]; discriminate|]. injection E0 as <-. destruct (extRow_stop t1 j s s1 H1 S0 E1) as [A B]. split; [auto|]. intros [K1 K2]. apply B. split; [|auto]. eapply extRow_g; [exact K1|exact K2|exact E]. }
  destruct (colAt t (i, j, s)) as [[n c]|]; [|exact G]. destruct (length (otSuf t) =? n)%nat; [|exact G]. discriminate.
Qed.
Lemma findBreaking_stop i j p : (forall s, sufShape s -> sufShape (p s)) -> (forall s, rback s -> rback (p s)) -> forall l t st, Forall sufShape l -> strt t -> findBreaking o t i j p l = Stop st ->
  st = SOracle /\ ~ (genR t /\ Forall rback l).
Proof using HO RI.
  intros PS PR. induction l as [|s l IH]; intros t st F H E; cbn [findBreaking] in E; [discriminate|]. inversion F; subst. bind_stop E.
  - destruct a as [t1 b]. assert (H1 := equivNew_str o f Inv HO RI _ _ _ _ _ _ H (PS _ H2) E0). destruct b; [|discriminate]. destruct (IH _ _ H3 H1 E) as [A B]. split; [auto|]. intros [K1 K2]. inversion K2; subst. apply B. split; [|auto].
    eapply equivNew_g; [exact K1| |exact E0]. auto.
  - injection E as <-. apply equivNew_stop in E0; [|auto|auto]. destruct E0 as [A B]. split; [auto|]. intros [K1 K2]. inversion K2; subst. apply B. auto.
Qed.
Lemma addSuffix_stop t s st : strt t -> sufShape s -> addSuffix o t s = Stop st -> st = SOracle /\ ~ (genR t /\ rback s).
Proof using HO RI.
  intros H S0 E. unfold addSuffix in E. assert (H1 : strt (withSuf t (otSuf t ++ [s]))).
  { destruct H as [A B C D E1 F G [h1 h2 h3 h4 h5 h6 h7]]. constructor; cbn; auto.
    - apply Forall_app. split; [auto|constructor; auto].
    - destruct E1 as [l ->]. eexists; reflexivity.
    - rewrite <- (app_nil_r (otPre t)). apply cells_grow; auto.
    - constructor; auto. }
  destruct (refresh_stop _ _ H1 E) as [A B]. split; [auto|]. intros [[K1 [K2 [K3 K4]]] K5]. apply B. unfold gens; cbn. split; [auto|]. split; [auto|]. split; [|auto]. apply Forall_app. split; [auto|constructor; auto].
Qed.
Lemma discreteConsistent_stop i j : forall l t st, In i (otP t) -> In j (otP t) -> (forall a, In a l -> a <> UNOBSERVABLE /\ In a (otAlpha t)) -> strt t -> filled t -> discreteConsistent o place t i j l = Stop st -> st = SAbort \/ failing t st.
Proof using HO RI.
  induction l as [|a l IH]; intros t st Pi Pj NA H F E; cbn [discreteConsistent] in E; [discriminate|].
  destruct (NA a (or_introl eq_refl)) as [Ha1 Ha2]. destruct (tr_disc t (s_tree _ _ t H) i a Pi Ha2) as [k [Ki _]]. destruct (tr_disc t (s_tree _ _ t H) j a Pj Ha2) as [m [Km _]]. rewrite Ki, Km in E.
  destruct (equivMemo place t k m) as [t1 r] eqn:E1. apply equivMemo_same in E1. assert (H1 := str_same f Inv _ _ E1 H). assert (F1 := filled_same _ _ E1 F). assert (S1 := E1). destruct E1 as [_ [Ea [Ep [Es [_ [EP _]]]]]].
  destruct r as [r|].
  - destruct (IH t1 st) as [A|A]; auto; try (rewrite EP; auto); [intros c Hc; rewrite Ea; apply NA; right; auto|]. right. eapply failing_le; [apply same_g; exact S1|exact A].
  - bind_stop E; [discriminate|]. injection E as <-. unfold resolveDiscrete in E0.
    assert (PS : forall s0, sufShape s0 -> sufShape (brPredAct s0 a)) by (intros; apply sufShape_act; auto). assert (PR : forall s0, rback s0 -> rback (brPredAct s0 a)) by (intros; apply rback_act; auto).
    bind_stop E0.
    + destruct a0 as [t2 r2]. assert (FB := findBreaking_str o f Inv HO RI i j _ PS _ _ _ _ (s_suf _ _ t1 H1) H1 E). destruct FB as [A B].
      destruct r2 as [s2|]; [|injection E0 as <-; auto]. destruct B as [B1 _]. right. apply addSuffix_stop in E0; [|auto|auto]. destruct E0 as [X Y]. split; [auto|]. intro K. apply Y.
      assert (K1 := same_g _ _ S1 K). assert (G := findBreaking_g o rback i j _ PR _ _ _ _ (proj1 (proj2 (proj2 K1))) K1 E). exact G.
    + injection E0 as <-. apply findBreaking_stop in E; [|auto|auto|apply H1|auto]. destruct E as [X Y]. right. split; [auto|]. intro K. apply Y. assert (K1 := same_g _ _ S1 K). split; [auto|exact (proj1 (proj2 (proj2 K1)))].
Qed.
Lemma pairConsistent_stop t i j st : In i (otP t) -> In j (otP t) -> strt t -> filled t -> pairConsistent o place t i j = Stop st -> st = SAbort \/ failing t st.
Proof using HO RI.
  intros Pi Pj H F E. unfold pairConsistent in E. destruct (equivMemo place t i j) as [t1 r] eqn:E1. apply equivMemo_same in E1. assert (H1 := str_same f Inv _ _ E1 H). assert (F1 := filled_same _ _ E1 F). assert (S1 := E1). destruct E1 as [_ [_ [Ep [Es [_ [EP _]]]]]].
  destruct r as [r|]; [|discriminate]. assert (NA : forall a, In a (otAlpha t1) -> a <> UNOBSERVABLE) by (intros a Ha ->; exact (s_alpha _ _ t1 H1 Ha)).
  bind_stop E.
  - destruct a as [t2 b2]. assert (DC := discreteConsistent_str o f Inv place HO RI i j _ _ _ _ NA H1 F1 E0). destruct DC as [A [B [C [D _]]]]. assert (GG : genR t -> genR t2) by (intro K; eapply discreteConsistent_g; [apply rback_act|exact NA|eapply same_g; eauto|exact E0]).
    destruct b2; cbn [negb] in E; [|discriminate]. assert (T2 := s_tree _ _ t2 A). assert (P2 : otP t2 = otP t) by congruence.
    destruct (tr_cont t2 T2 i) as [k [K _]]; [rewrite P2; auto|]. destruct (tr_cont t2 T2 j) as [m [M _]]; [rewrite P2; auto|]. rewrite K, M in E.
    destruct (equivMemo place t2 k m) as [t3 r3] eqn:E3. apply equivMemo_same in E3. assert (H3 := str_same f Inv _ _ E3 A). destruct r3; [discriminate|]. assert (G3 : genR t -> genR t3) by (intro X; eapply same_g; [exact E3|auto]).
    bind_stop E; [destruct a; discriminate|]. injection E as <-. unfold resolveContinuous in E1. right. bind_stop E1.
    + destruct a as [t5 r5]. destruct (findBreaking_str o f Inv HO RI i j _ sufShape_pred _ _ _ _ (s_suf _ _ t3 H3) H3 E) as [A5 B5]. destruct r5 as [s5|]; [|discriminate]. bind_stop E1; [discriminate|]. injection E1 as <-. destruct B5 as [B5 _].
      apply addSuffix_stop in E2; [|auto|auto]. destruct E2 as [X Y]. split; [auto|]. intro K0. apply Y. assert (K1 := G3 K0). exact (findBreaking_g o rback i j _ rback_pred _ _ _ _ (proj1 (proj2 (proj2 K1))) K1 E).
    + injection E1 as <-. apply findBreaking_stop in E; [|apply sufShape_pred|apply rback_pred|apply H3|auto]. destruct E as [X Y]. split; [auto|]. intro K0. apply Y. assert (K1 := G3 K0). split; [auto|exact (proj1 (proj2 (proj2 K1)))].
  - injection E as <-. apply discreteConsistent_stop in E0; auto; [|rewrite EP; auto|rewrite EP; auto]. destruct E0 as [X|X]; [auto|]. right. eapply failing_le; [apply same_g; exact S1|exact X].
Qed.
Lemma consistentLoop_stop : forall ps t st, (forall i j, In (i, j) ps -> In i (otP t) /\ In j (otP t)) -> strt t -> filled t -> consistentLoop o place t ps = Stop st -> st = SAbort \/ failing t st.
Proof using HO RI.
  induction ps as [|[i j] ps IH]; intros t st P H F E; cbn [consistentLoop] in E; [discriminate|]. destruct (i <=? j)%nat; [eapply IH; eauto; intros; apply P; right; auto|].
  destruct (P i j (or_introl eq_refl)) as [Pi Pj]. bind_stop E; [|injection E as <-; eapply pairConsistent_stop; [exact Pi|exact Pj|exact H|exact F|exact E0]].
  destruct a as [t1 b1]. destruct (pairConsistent_str o f Inv place HO RI _ _ _ _ _ H F E0) as [A [B [C [D _]]]]. destruct b1; [|discriminate]. destruct (IH t1 st) as [X|X]; auto; [intros; rewrite D; apply P; right; auto|].
  right. eapply failing_le; [|exact X]. intro K. eapply pairConsistent_g; [apply rback_pred|apply rback_act|exact K|exact E0].
Qed.
Lemma consistent_stop t st : strt t -> filled t -> consistent o ordP place t = Stop st -> st = SAbort \/ failing t st.
Proof using HO RI HordP. intros H F E. eapply consistentLoop_stop; [|exact H|exact F|exact E]. intros i j K. apply in_prod_iff in K. rewrite !(ordP_in ordP HordP) in K. exact K. Qed.
Lemma moveAll_stop fuel : forall l t st, NoDup l -> (forall i, In i l -> (i < length (otPre t))%nat /\ ~ In i (otP t)) -> strt t -> filled t -> moveAll o place fuel t l = Stop st -> lost t st.
Proof using HO RI.
  induction l as [|i l IH]; intros t st ND L H F E; cbn [moveAll] in E; [discriminate|]. inversion ND; subst. destruct (L i (or_introl eq_refl)) as [L1 L2].
  bind_stop E; [|injection E as <-; eapply moveToP_stop; eauto]. destruct (moveToP_str o f Inv place HO RI fuel t i a H L1 L2 E0) as [A [B [C [C2 D]]]]. assert (TL := moveToP_le _ _ _ _ _ _ E0). destruct TL as [_ [_ [[lp Lp] _]]].
  assert (LL : (length (otPre t) <= length (otPre a))%nat) by (rewrite Lp, app_length; lia).
  eapply lost_le; [intro K; eapply moveToP_g; [exact K|exact E0]|]. eapply IH; [auto| |exact A|exact B|exact E]. intros k Hk. destruct (L k (or_intror Hk)) as [K1 K2]. split; [lia|]. intro K. destruct (D k K1 K) as [->|K3]; contradiction.
Qed.
Lemma exteriorNew_stop (t : tbl) : tree t -> forall l st, (forall p, In p l -> In p (otP t)) -> exteriorNew t l = Stop st -> False.
Proof.
  intro T. induction l as [|p l IH]; intros st P E; cbn [exteriorNew] in E; [discriminate|]. destruct (tr_cont t T p (P p (or_introl eq_refl))) as [k [K _]]. rewrite K in E. bind_stop E; [discriminate|]. eapply IH; [|reflexivity]. intros; apply P; right; auto.
Qed.
Lemma exterior_stop fuel t st : strt t -> filled t -> exteriorConsistent o ordP place fuel t = Stop st -> lost t st.
Proof using HO RI HordP.
  intros H F E. unfold exteriorConsistent in E. assert (T := s_tree _ _ t H).
  bind_stop E; [|exfalso; eapply exteriorNew_stop; [exact T| |exact E0]; intros p; apply (ordP_in ordP HordP)].
  assert (N := exteriorNew_nodup t T _ _ (ordP_nodup ordP HordP t T) E0). assert (I := exteriorNew_in t _ _ E0). destruct a as [|k new]; [discriminate|].
  assert (L : forall i, In i (k :: new) -> (i < length (otPre t))%nat /\ ~ In i (otP t)).
  { intros i Hi. destruct (I i Hi) as [p [_ [Q2 Q3]]]. split; [eapply cont_lt; eauto|]. intro K. apply inP_iff in K. congruence. }
  bind_stop E; [|injection E as <-; eapply moveAll_stop; [exact N|exact L|exact H|exact F|exact E1]]. destruct (moveAll_str o f Inv place HO RI fuel _ _ _ N L H F E1) as [A _].
  bind_stop E; [discriminate|]. injection E as <-. right. apply refresh_stop in E2; [|auto]. eapply failing_le; [|exact E2]. intro K. eapply moveAll_g; [exact K|exact E1].
Qed.
Lemma saturateLoop_stop : forall l t st, tree t -> (forall p, In p l -> In p (otP t)) -> saturateLoop place t l = Stop st -> False.
Proof.
  induction l as [|p l IH]; intros t st T P E; cbn [saturateLoop] in E; [discriminate|]. destruct (tr_cont t T p (P p (or_introl eq_refl))) as [k [K _]]. rewrite K in E.
  destruct (inP t k); [eapply IH; [exact T| |exact E]; intros; apply P; right; auto|]. bind_stop E.
  - destruct a as [t1 r]. assert (S1 := saturateOne_same _ _ _ _ _ _ E0). bind_stop E; [destruct a; discriminate|]. eapply IH; [|intros q Hq|exact E1]; [eapply tree_asked; [apply same_asked; exact S1|exact T]|]. destruct S1 as [_ [_ [_ [_ [_ [-> _]]]]]]. apply P. right; auto.
  - unfold saturateOne in E0. destruct (equivMemo place t k p) as [t1 r1] eqn:M. destruct r1 as [r1|]; [|discriminate]. assert (R := equivMemo_recorded _ _ _ _ _ M). destruct (mapAt (relAt t1 k) p) as [[|q l0]|]; [discriminate| |contradiction]. destruct (equivRows t1 k p []); discriminate.
Qed.
Lemma saturate_stop fuel t st : strt t -> filled t -> timeSaturate o ordP place fuel t = Stop st -> lost t st.
Proof using HO RI HordP.
  intros H F E. unfold timeSaturate in E. assert (T := s_tree _ _ t H).
  bind_stop E; [|exfalso; eapply saturateLoop_stop; [exact T| |exact E0]; intros p; apply (ordP_in ordP HordP)].
  destruct a as [t1 new]. assert (N := saturateLoop_nodup _ _ _ _ _ T (ordP_nodup ordP HordP t T) E0). assert (I := saturateLoop_in _ _ _ _ _ E0).
  apply saturateLoop_same in E0. assert (H1 := str_same f Inv _ _ E0 H). assert (F1 := filled_same _ _ E0 F). assert (S0 := E0). destruct E0 as [_ [_ [Ep [Es [_ [EP _]]]]]].
  destruct new as [|k new]; [discriminate|].
  assert (L : forall i, In i (k :: new) -> (i < length (otPre t1))%nat /\ ~ In i (otP t1)).
  { intros i Hi. destruct (I i Hi) as [p [_ [Q2 Q3]]]. rewrite Ep, EP. split; [eapply cont_lt; eauto|]. intro K. apply inP_iff in K. congruence. }
  eapply lost_le; [apply same_g; exact S0|].
  bind_stop E; [|injection E as <-; eapply moveAll_stop; [exact N|exact L|exact H1|exact F1|exact E0]]. destruct (moveAll_str o f Inv place HO RI fuel _ _ _ N L H1 F1 E0) as [A _].
  bind_stop E; [discriminate|]. injection E as <-. right. apply refresh_stop in E1; [|auto]. eapply failing_le; [|exact E1]. intro K. eapply moveAll_g; [exact K|exact E0].
Qed.
End NoThrow.
