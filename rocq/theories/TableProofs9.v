(** The observation table: without counterexamples, every question the table
    asks is about a nonempty language. *)
From Coq Require Import QArith ZArith Bool List Arith Lia Lqa Permutation.
From Verif Require Import BoundsModel BoundsProofs ConstraintModel ZoneModel ZoneSpec ZoneProofs AutomatonModel TimedWordModel TimedWordSpec TimedWordProofs
  TimedConditionModel TimedConditionSpec TimedConditionProofs ElementaryModel ElementarySpec ElementaryProofs LooseProofs
  RegionalModel RegionalSpec RegionalProofs RegionalProofs2 RegionalProofs6 OracleModel SymbolicModel SymbolicSpec SymbolicProofs2 CexModel CexSpec RenamingModel RenamingSpec TableModel
  TableProofs ShapeProofs ShapeProofs2 TableProofs2 TableProofs3.
Import ListNotations.
Open Scope Q_scope.

Section Gen.
Context {St : Type} (o : mOracle St) (ordP : ot St -> list nat) (place : ot St -> nat -> nat -> nat).
Notation tbl := (ot St).
(** a property of suffixes closed under predecessor() and predecessor(a) *)
Context (SP : frel -> Prop).
Hypothesis SPdef : SP brDefault.
Hypothesis SPpred : forall z, SP z -> SP (brPred z).
Hypothesis SPact : forall z a, a <> UNOBSERVABLE -> SP z -> SP (brPredAct z a).

Definition keyOf (k : elem) : Prop := exists x z, goodPre x /\ SP z /\ k = elConcat (fel x) (fel z).
Definition keysOf (y : symOracle St) : Prop := forall k cs, In (k, cs) (smCache y) -> keyOf k.
Definition gens (t : tbl) : Prop := ~ In UNOBSERVABLE (otAlpha t) /\ Forall goodPre (otPre t) /\ Forall SP (otSuf t) /\ keysOf (otMem t).

Lemma keysOf_query y x y' cs : keysOf y -> keyOf x -> symQuery o y x = Some (y', cs) -> keysOf y'.
Proof. intros K X E k c H. destruct (symQuery_keys o y x y' cs k c E H) as [H1| ->]; [eapply K; eauto|auto]. Qed.
Lemma fillCells_g x : goodPre x -> forall sufs y y' css ccs, Forall SP sufs -> keysOf y -> fillCells o y x sufs = Ok (y', css, ccs) -> keysOf y'.
Proof.
  intro G. induction sufs as [|s sufs IH]; intros y y' css ccs F M H; cbn [fillCells] in H; [injection H as <- _ _; auto|]. cbv zeta in H.
  destruct (symQuery o y (elConcat (fel x) (fel s))) as [[y1 cs]|] eqn:E; [|discriminate]. bind_inv H. destruct a as [[y2 css0] ccs0]. injection H as <- _ _. inversion F; subst.
  eapply IH; [eauto| |exact E0]. eapply keysOf_query; [exact M| |exact E]. exists x, s. auto.
Qed.
Lemma fillRows_g sufs : Forall SP sufs -> forall pre y tab con y' tab' con', Forall goodPre pre -> keysOf y -> fillRows o y pre tab con sufs = Ok (y', tab', con') -> keysOf y'.
Proof.
  intro FS. induction pre as [|x pre IH]; intros y tab con y' tab' con' F M H; cbn [fillRows] in H; [injection H as <- _ _; auto|]. cbv zeta in H.
  bind_inv H. destruct a as [[y1 css] ccs]. bind_inv H. destruct a as [[y2 tb] cn]. injection H as <- _ _. inversion F; subst.
  eapply IH; [eauto| |exact E0]. eapply fillCells_g; [| | |exact E]; eauto. apply Forall_skipn'; auto.
Qed.
Lemma gens_same t t' : same t t' -> gens t -> gens t'.
Proof. intros [Em [Ea [Ep [Es _]]]] [A [B [C D]]]. unfold gens. rewrite Em, Ea, Ep, Es. auto. Qed.
Lemma refresh_g t t' : gens t -> refreshTable o t = Ok t' -> gens t'.
Proof.
  intros [A [B [C D]]] E. unfold refreshTable in E. bind_inv E. destruct a as [[y tb] cn]. injection E as <-. unfold gens; cbn. split; [auto|]. split; [auto|]. split; [auto|].
  eapply fillRows_g; [| | |exact E0]; auto.
Qed.
Lemma preAt_g t i : gens t -> goodPre (preAt t i).
Proof.
  intros [_ [H _]]. unfold preAt. destruct (le_lt_dec (length (otPre t)) i) as [K|K]; [rewrite nth_overflow by auto; apply goodPre_default|].
  rewrite Forall_forall in H. apply H. apply nth_In. auto.
Qed.
Lemma addSuccessors_g t i : gens t -> gens (addSuccessors t i).
Proof.
  intro H. assert (G := preAt_g t i H). destruct H as [A [B [C D]]]. unfold gens; cbn [addSuccessors otAlpha otPre otSuf otMem]. split; [auto|]. split; [|auto].
  apply Forall_app. split; [auto|]. apply Forall_app. split; [|constructor; [apply goodPre_succ; auto|constructor]].
  apply Forall_forall. intros x Hx. apply in_map_iff in Hx. destruct Hx as [a [<- Ha]]. apply goodPre_act; auto. intros ->. contradiction.
Qed.
Lemma moveToP_g : forall fuel t i t', gens t -> moveToP o place fuel t i = Ok t' -> gens t'.
Proof.
  induction fuel as [|fuel IH]; intros t i t' H E; cbn [moveToP] in E; [discriminate|]. destruct (i <? length (otPre t))%nat; [|discriminate]. bind_inv E.
  apply refresh_g in E0; [|apply addSuccessors_g; auto]. destruct (contAt a i) as [k|]; [|discriminate]. destruct (equivMemo place a k i) as [t2 r] eqn:E2. apply equivMemo_same in E2.
  assert (H2 := gens_same _ _ E2 E0). destruct r; [injection E as <-; auto|]. eapply IH; eauto.
Qed.
Lemma newTable_g fuel alpha y t : ~ In UNOBSERVABLE alpha -> keysOf y -> newTable o place fuel alpha y = Ok t -> gens t.
Proof using SPdef.
  intros NA K E. unfold newTable in E. bind_inv E. apply moveToP_g in E0; [eapply refresh_g; eauto|]. unfold gens; cbn. split; [auto|]. split; [constructor; [apply goodPre_default|constructor]|]. split; [constructor; [auto|constructor]|auto].
Qed.
Lemma closeLoop_g fuel : forall is t t' b, gens t -> closeLoop o ordP place fuel t is = Ok (t', b) -> gens t'.
Proof.
  induction is as [|i is IH]; intros t t' b H E; cbn [closeLoop] in E; [injection E as <- <-; auto|]. destruct (inP t i); [eapply IH; eauto|].
  destruct (confirmRel t i) as [t1 b1] eqn:E1. apply confirmRel_same in E1. assert (H1 := gens_same _ _ E1 H). destruct b1; [eapply IH; eauto|]. bind_inv E. destruct a as [t2 b2].
  apply jumpSame_same in E0. assert (H2 := gens_same _ _ E0 H1). destruct b2; [eapply IH; eauto|]. destruct (jumpAny place t2 i (ordP t2)) as [t3 b3] eqn:E3. apply jumpAny_same in E3.
  assert (H3 := gens_same _ _ E3 H2). destruct b3; [eapply IH; eauto|]. bind_inv E. bind_inv E. injection E as <- <-. eapply refresh_g; [|eauto]. eapply moveToP_g; eauto.
Qed.
Lemma close_g fuel t t' b : gens t -> close o ordP place fuel t = Ok (t', b) -> gens t'.
Proof. apply closeLoop_g. Qed.
Lemma extRow_g t i s t' row con : gens t -> SP s -> extRow o t i s = Ok (t', row, con) -> gens t'.
Proof.
  intros H S0 E. assert (G := preAt_g t i H). assert (A := extRow_asked o _ _ _ _ _ _ E). unfold extRow in E. cbv zeta in E.
  destruct (symQuery o (otMem t) _) as [[y cs]|] eqn:Q; [|discriminate]. injection E as <- _ _. destruct H as [H1 [H2 [H3 H4]]]. unfold gens; cbn. split; [auto|]. split; [auto|]. split; [auto|].
  eapply keysOf_query; [exact H4| |exact Q]. exists (preAt t i), s. auto.
Qed.
Lemma equivNew_g t i j s t' b : gens t -> SP s -> equivNew o t i j s = Ok (t', b) -> gens t'.
Proof.
  intros H S0. assert (FD : forall t t' b, gens t -> equivNewFind o t i j s = Ok (t', b) -> gens t').
  { clear t t' b H. intros t t' b H E. unfold equivNewFind in E. bind_inv E. destruct a as [[t1 lr] lc]. bind_inv E. destruct a as [[t2 rr] rc]. injection E as <- _.
    eapply extRow_g in E0; [|exact H|exact S0]. eapply extRow_g in E1; [|exact E0|exact S0]. exact E1. }
  unfold equivNew. cbv zeta.
  assert (G : forall t' b, match mapAt (relAt t i) j with
    | Some r => do (t1, b) <- equivNewWith o t i j s r; if (b : bool) then Ok (colPut t1 (i, j, s) true, true) else equivNewFind o t1 i j s
    | None => equivNewFind o t i j s end = Ok (t', b) -> gens t').
  { clear t' b. intros t' b E. destruct (mapAt (relAt t i) j); [|eapply FD; eauto]. bind_inv E. destruct a as [t1 b1]. unfold equivNewWith in E0. bind_inv E0. destruct a as [[t1' lr] lc]. bind_inv E0. destruct a as [[t2 rr] rc]. injection E0 as <- E0.
    eapply extRow_g in E1; [|exact H|exact S0]. eapply extRow_g in E2; [|exact E1|exact S0]. destruct b1; [injection E as <- _; exact E2|]. eapply FD; [exact E2|exact E]. }
  destruct (colAt t (i, j, s)) as [[n c]|]; [|apply G]. destruct (length (otSuf t) =? n)%nat; [|apply G]. intro E. injection E as <- _. exact H.
Qed.
Lemma findBreaking_g i j p : (forall s, SP s -> SP (p s)) -> forall l t t' r, Forall SP l -> gens t -> findBreaking o t i j p l = Ok (t', r) ->
  gens t' /\ match r with Some s => SP s | None => True end.
Proof.
  intro PS. induction l as [|s l IH]; intros t t' r F H E; cbn [findBreaking] in E; [injection E as <- <-; auto|]. bind_inv E. destruct a as [t1 b]. inversion F; subst.
  apply equivNew_g in E0; auto. destruct b; [|injection E as <- <-; split; auto]. eapply IH; eauto.
Qed.
Lemma addSuffix_g t s t' : gens t -> SP s -> addSuffix o t s = Ok t' -> gens t'.
Proof.
  intros [A [B [C D]]] S0 E. unfold addSuffix in E. eapply refresh_g; [|exact E]. unfold gens; cbn. split; [auto|]. split; [auto|]. split; [|auto]. apply Forall_app. split; [auto|constructor; auto].
Qed.
Lemma discreteConsistent_g i j : forall l t t' b, (forall a, In a l -> a <> UNOBSERVABLE) -> gens t -> discreteConsistent o place t i j l = Ok (t', b) -> gens t'.
Proof using SPact.
  induction l as [|a l IH]; intros t t' b NA H E; cbn [discreteConsistent] in E; [injection E as <- <-; auto|]. destruct (discAt t i a) as [k|]; [|discriminate]. destruct (discAt t j a) as [m|]; [|discriminate].
  destruct (equivMemo place t k m) as [t1 r] eqn:E1. apply equivMemo_same in E1. assert (H1 := gens_same _ _ E1 H). destruct r as [r|].
  - eapply IH; [|exact H1|exact E]. intros c Hc; apply NA; right; auto.
  - bind_inv E. injection E as <- <-. unfold resolveDiscrete in E0. bind_inv E0. destruct a1 as [t2 r2].
    apply findBreaking_g in E; [|intros s0 Hs; apply SPact; [apply NA; left; auto|auto]|exact (proj1 (proj2 (proj2 H1)))|exact H1]. destruct E as [A B]. destruct r2 as [s|]; [|discriminate]. exact (addSuffix_g _ _ _ A B E0).
Qed.
Lemma pairConsistent_g t i j t' b : gens t -> pairConsistent o place t i j = Ok (t', b) -> gens t'.
Proof using SPact SPpred.
  intros H E. unfold pairConsistent in E. destruct (equivMemo place t i j) as [t1 r] eqn:E1. apply equivMemo_same in E1. assert (H1 := gens_same _ _ E1 H).
  destruct r as [r|]; [|injection E as <- <-; auto]. bind_inv E. destruct a as [t2 b2]. apply discreteConsistent_g in E0; [|intros a Ha ->; exact (proj1 H1 Ha)|auto].
  destruct b2; cbn [negb] in E; [|injection E as <- <-; auto].
  destruct (contAt t2 i) as [k|]; [|discriminate]. destruct (contAt t2 j) as [m|]; [|discriminate]. destruct (equivMemo place t2 k m) as [t3 r3] eqn:E3. apply equivMemo_same in E3. assert (H3 := gens_same _ _ E3 E0).
  destruct r3 as [r3|]; [injection E as <- <-; auto|]. bind_inv E. destruct a as [t4 b4]. injection E as <- <-. unfold resolveContinuous in E2. bind_inv E2. destruct a as [t5 r5].
  apply findBreaking_g in E; [|apply SPpred|exact (proj1 (proj2 (proj2 H3)))|exact H3]. destruct E as [A5 B5]. destruct r5 as [s|]; [|injection E2 as <- <-; auto]. bind_inv E2. injection E2 as <- <-. exact (addSuffix_g _ _ _ A5 B5 E).
Qed.
Lemma consistentLoop_g : forall ps t t' b, gens t -> consistentLoop o place t ps = Ok (t', b) -> gens t'.
Proof using SPact SPpred.
  induction ps as [|[i j] ps IH]; intros t t' b H E; cbn [consistentLoop] in E; [injection E as <- <-; auto|]. destruct (i <=? j)%nat; [eapply IH; eauto|]. bind_inv E. destruct a as [t1 b1].
  apply pairConsistent_g in E0; auto. destruct b1; [|injection E as <- <-; auto]. eapply IH; eauto.
Qed.
Lemma consistent_g t t' b : gens t -> consistent o ordP place t = Ok (t', b) -> gens t'.
Proof using SPact SPpred. intros H E. unfold consistent in E. eapply consistentLoop_g; eauto. Qed.
Lemma moveAll_g fuel : forall l t t', gens t -> moveAll o place fuel t l = Ok t' -> gens t'.
Proof. induction l as [|i l IH]; intros t t' H E; cbn [moveAll] in E; [injection E as <-; auto|]. bind_inv E. eapply IH; [|eauto]. eapply moveToP_g; eauto. Qed.
Lemma exterior_g fuel t t' b : gens t -> exteriorConsistent o ordP place fuel t = Ok (t', b) -> gens t'.
Proof.
  intros H E. unfold exteriorConsistent in E. bind_inv E. destruct a as [|k new]; [injection E as <- <-; auto|]. bind_inv E. bind_inv E. injection E as <- <-.
  eapply refresh_g; [|eauto]. eapply moveAll_g; eauto.
Qed.
Lemma saturate_g fuel t t' b : gens t -> timeSaturate o ordP place fuel t = Ok (t', b) -> gens t'.
Proof.
  intros H E. unfold timeSaturate in E. bind_inv E. destruct a as [t1 new]. apply saturateLoop_same in E0. assert (H1 := gens_same _ _ E0 H).
  destruct new as [|k new]; [injection E as <- <-; auto|]. bind_inv E. bind_inv E. injection E as <- <-. eapply refresh_g; [|eauto]. eapply moveAll_g; eauto.
Qed.
Lemma refine_g : forall fuel t t', gens t -> refine o ordP place fuel t = Ok t' -> gens t'.
Proof using SPact SPpred.
  induction fuel as [|n IH]; intros t t' H E; cbn [refine] in E; [discriminate|]. bind_inv E. destruct a as [t1 b1]. apply close_g in E0; auto. destruct b1; cbn [negb] in E; [|eapply IH; eauto].
  bind_inv E. destruct a as [t2 b2]. apply consistent_g in E1; auto. destruct b2; cbn [negb] in E; [|eapply IH; eauto].
  bind_inv E. destruct a as [t3 b3]. apply exterior_g in E2; auto. destruct b3; cbn [negb] in E; [|eapply IH; eauto].
  bind_inv E. destruct a as [t4 b4]. apply saturate_g in E3; auto. destruct b4; [injection E as <-; auto|eapply IH; eauto].
Qed.
End Gen.

(** ** the suffixes built from the empty one *)
Definition rback (z : frel) : Prop := sufShape z /\ exists w, properTW w /\ regionalBack z w.
Lemma rback_default : rback brDefault.
Proof.
  split; [apply sufShape_default|]. exists emptyTW. split; [|apply brDefault_regional]. split; [|intros []]. split; [reflexivity|]. constructor; [lra|constructor].
Qed.
Lemma rback_act z a : a <> UNOBSERVABLE -> rback z -> rback (brPredAct z a).
Proof.
  intros N [A [w [[[P1 P2] P3] R]]]. split; [apply sufShape_act; auto|]. exists (mkTW (a :: tw w) (0 :: td w)). split; [|apply brPredAct_regional; auto].
  split; [split; [unfold wfTW in *; cbn; lia|constructor; [lra|exact P2]]|]. intros [H|H]; [congruence|exact (P3 H)].
Qed.
Lemma rback_pred z : rback z -> rback (brPred z).
Proof.
  intros [A [w [[[P1 P2] P3] R]]]. split; [apply sufShape_pred; auto|]. destruct (brPred_regional z w R) as [q [[Q _] R']]. exists (mkTW (tw w) (predelayed (td w) q)). split; [|exact R'].
  destruct w as [ls ds]. unfold wfTW in *. cbn [tw td] in *. destruct ds as [|d ds]; [discriminate|]. cbn [predelayed].
  split; [|exact P3]. split; [unfold wfTW; cbn in *; lia|]. inversion P2; subst. constructor; [lra|auto].
Qed.
Lemma rback_concat x z : goodPre x -> rback z -> nonemptyZ (ec (elConcat (fel x) (fel z))).
Proof.
  intros G [Sz [w [P R]]]. destruct (goodPre_proper x G) as [[Px _] _].
  assert (L : looseElem (fel z)).
  { apply suf_loose; [auto|]. exists (td w). apply (proj2 (regionCond_exact _ _ (proj1 (proj2 (proj2 R))) (td w))). apply sameRegion_refl. }
  destruct (wfElem_concatL _ _ Px L) as [[_ [_ N]] _]. exact N.
Qed.
Lemma gens_sat {St} (t : ot St) : gens rback t -> allSat (otMem t).
Proof. intros [_ [_ [_ K]]] k cs H. destruct (K k cs H) as [x [z [Gx [Rz ->]]]]. apply rback_concat; auto. Qed.
