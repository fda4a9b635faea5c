(** The observation table: exterior-consistency, time-saturation, and the
    state in which the learner builds a hypothesis. *)
From Coq Require Import QArith ZArith Bool List Arith Lia Permutation.
From Verif Require Import BoundsModel ConstraintModel ZoneModel ZoneSpec AutomatonModel TimedWordModel TimedWordSpec
  TimedConditionModel TimedConditionSpec ElementaryModel ElementarySpec LooseProofs
  RegionalModel RegionalSpec OracleModel SymbolicModel SymbolicSpec CexModel CexSpec RenamingModel RenamingSpec
  TableModel TableProofs ShapeProofs TableProofs2 TableProofs3 TableProofs4 TableProofs5 TableProofs6.
Import ListNotations.

Section Refine.
Context {St : Type} (o : mOracle St) (f : tword -> bool) (Inv : St -> Prop) (ordP : ot St -> list nat) (place : ot St -> nat -> nat -> nat).
Notation tbl := (ot St).
Hypothesis HO : forall s x, Inv s -> properTW x -> exists s', o s x = Some (s', f x) /\ Inv s'.
Hypothesis RI : regionInvariant properTW f.
Hypothesis HordP : forall t, Permutation (ordP t) (otP t).
Notation strt := (str f Inv).
Notation okTt := (okT f Inv).
Notation valid := (validRel f).
Notation first := (okFirst f).
Notation memoLe := (memoLe f).

Lemma moveAll_rel fuel : forall l t t', NoDup l -> (forall i, In i l -> (i < length (otPre t))%nat /\ ~ In i (otP t)) -> strt t -> relOK t -> moveAll o place fuel t l = Ok t' -> allSat (otMem t') -> relOK t'.
Proof using HO RI.
  induction l as [|i l IH]; intros t t' ND L H R E A; cbn [moveAll] in E; [injection E as <-; auto|]. bind_inv E. inversion ND; subst. assert (Hi := L i (or_introl eq_refl)).
  assert (A1 : allSat (otMem a)) by (eapply tle_allSat; [eapply moveAll_le; exact E|exact A]). assert (R1 := moveToP_rel o f Inv place HO RI fuel t i a H R (proj1 Hi) (proj2 Hi) E0 A1).
  destruct (moveToP_str o f Inv place HO RI fuel t i a H (proj1 Hi) (proj2 Hi) E0) as [H1 [_ [_ [_ D]]]]. assert (TL := moveToP_le _ _ _ _ _ _ E0). destruct TL as [_ [_ [[lp Lp] _]]].
  assert (LL : (length (otPre t) <= length (otPre a))%nat) by (rewrite Lp, app_length; lia).
  refine (IH a t' H3 _ H1 R1 E A). intros k Hk. destruct (L k (or_intror Hk)) as [K1 K2]. split; [lia|]. intro K. destruct (D k K1 K) as [->|K3]; contradiction.
Qed.
(** every continuous successor of P is in P or beyond a region with an equality *)
Definition exteriorT (t : tbl) : Prop := forall p, In p (otP t) -> exists k, contAt t p = Some k /\ (inP t k = true \/ hasEqualityN (preAt t p) = true).
Lemma exteriorNew_nil (t : tbl) : forall l, exteriorNew t l = Ok [] -> forall p, In p l -> exists k, contAt t p = Some k /\ (inP t k = true \/ hasEqualityN (preAt t p) = true).
Proof.
  induction l as [|q l IH]; intros E p Hp; [destruct Hp|]. cbn [exteriorNew] in E. destruct (contAt t q) as [k|] eqn:C; [|discriminate]. bind_inv E. injection E as E1.
  assert (a = [] /\ (inP t k = true \/ hasEqualityN (preAt t q) = true)) as [-> K] by (destruct (inP t k); [auto|]; destruct (hasEqualityN (preAt t q)); [auto|discriminate]).
  destruct Hp as [<-|Hp]; [eauto|]. apply IH; auto.
Qed.
Lemma exteriorConsistent_spec fuel t t' b : strt t -> filled t -> relOK t -> colOK t -> allSat (otMem t') -> exteriorConsistent o ordP place fuel t = Ok (t', b) ->
  relOK t' /\ colOK t' /\ (b = true -> t' = t /\ exteriorT t').
Proof using HO RI HordP.
  intros H F R C A E. assert (C' : colOK t') by (eapply colOK_tle; [eapply exteriorConsistent_col; exact E|eapply exteriorConsistent_le; exact E|exact C]).
  unfold exteriorConsistent in E. bind_inv E. assert (T := s_tree _ _ t H). assert (N := exteriorNew_nodup t T _ _ (ordP_nodup ordP HordP t T) E0). assert (I := exteriorNew_in t _ _ E0).
  destruct a as [|k new].
  - injection E as <- <-. split; [auto|]. split; [auto|]. intros _. split; [auto|]. intros p Hp. eapply exteriorNew_nil; [exact E0|]. apply (ordP_in ordP HordP). exact Hp.
  - bind_inv E. bind_inv E. injection E as <- <-. split; [|split; [auto|discriminate]]. eapply relOK_refresh; [|exact E2]. eapply moveAll_rel; [exact N| |exact H|exact R|exact E1|eapply tle_allSat; [eapply refreshTable_le; exact E2|exact A]].
    intros i Hi. destruct (I i Hi) as [p [_ [Q2 Q3]]]. split; [eapply cont_lt; eauto|]. intro K. apply inP_iff in K. congruence.
Qed.
(** every continuous successor of P is in P or jumps back without any renaming *)
Definition satOne (t : tbl) (p : nat) : Prop := exists k, contAt t p = Some k /\ (inP t k = true \/ relAt t k = [(p, [])] /\ valid t k p []).
Definition saturatedT (t : tbl) : Prop := forall p, In p (otP t) -> satOne t p.
Lemma saturateOne_spec t p k t' r : okTt t -> relOK t -> In p (otP t) -> (k < length (otPre t))%nat -> saturateOne place t p k = Ok (t', r) ->
  memoLe t t' /\ (forall c, c <> k -> relAt t' c = relAt t c) /\ match r with None => relAt t' k = [(p, [])] /\ valid t' k p [] | Some _ => True end.
Proof using HO RI.
  intros H R Pp Lk E. unfold saturateOne in E. destruct (equivMemo place t k p) as [t1 r1] eqn:E1. assert (Lp := tr_lt t (s_tree _ _ t (proj1 H)) p Pp).
  assert (ML := memo_le o f Inv place HO RI t k p t1 r1 H R Lk Lp E1). assert (S1 := equivMemo_same _ _ _ _ _ _ E1). destruct (equivMemo_sem o f Inv place HO RI t k p t1 r1 H R Lk Lp E1) as [R1 [_ [NB D]]].
  destruct r1 as [r0|]; [|injection E as <- <-; auto]. destruct D as [V [M _]]. rewrite M in E.
  assert (IPp : inP t1 p = true) by (rewrite (same_inP t t1 p S1); apply inP_iff; auto).
  assert (EO : entryOK t1 k p []) by (split; [intros ? ? []|split; [constructor|reflexivity]]).
  assert (FIN : valid t1 k p [] -> forall t', t' = withRel t1 (mapPut (otRel t1) k [(p, [])]) -> memoLe t t' /\ (forall c, c <> k -> relAt t' c = relAt t c) /\ relAt t' k = [(p, [])] /\ valid t' k p []).
  { intros V1 u ->. set (u := withRel t1 (mapPut (otRel t1) k [(p, [])])).
    assert (RA : forall j, relAt u j = if (k =? j)%nat then [(p, [])] else relAt t1 j) by (intro j; eapply relAt_put; reflexivity). assert (S2 : same t1 u) by apply same_rel.
    assert (V2 : valid u k p []) by (apply (same_valid f t1); auto).
    split; [|split; [|split; [rewrite RA, Nat.eqb_refl; reflexivity|auto]]].
    - apply (memoLe_trans f t t1 u); [exact ML|]. split; [apply same_asked; auto|]. split; [|split; [intros a b; auto|split]].
      + intros _. eapply (relOK_put t1 k [(p, [])]); [auto|destruct S1 as [_ [_ [-> _]]]; auto|reflexivity|reflexivity|apply same_tle, same_rel|reflexivity|]. intros j s [K|[]]. injection K as <- <-. split; [destruct S1 as [_ [_ [-> _]]]; auto|exact EO].
      + intros c Hc. destruct (Nat.eq_dec c k) as [->|N]; [|eapply okFirst_ext; [| | | |exact Hc]; try reflexivity; rewrite RA; destruct (Nat.eqb_spec k c); [congruence|auto]].
        exists p, []. split; [|auto]. unfold target. rewrite RA, Nat.eqb_refl. cbn [find fst]. change (inP u p) with (inP t1 p). rewrite IPp. reflexivity.
      + apply colOK_tle; [reflexivity|apply same_tle; auto].
    - intros c N. rewrite RA. destruct (Nat.eqb_spec k c); [congruence|auto]. }
  destruct r0 as [|q l].
  - injection E as <- <-. apply FIN; [|reflexivity]. apply (same_valid f t); auto.
  - destruct (equivRows t1 k p []) eqn:Q; injection E as <- <-; [|auto]. apply FIN; [|reflexivity].
    eapply equivRows_valid; eauto; [eapply same_okT; eauto|destruct S1 as [_ [_ [-> _]]]; auto|destruct S1 as [_ [_ [-> _]]]; auto].
Qed.
Lemma saturateLoop_spec : forall l t t' new, NoDup l -> (forall p, In p l -> In p (otP t)) -> okTt t -> relOK t -> saturateLoop place t l = Ok (t', new) ->
  memoLe t t' /\ (forall c, (forall p, In p l -> contAt t p <> Some c) -> relAt t' c = relAt t c) /\ (new = [] -> forall p, In p l -> satOne t' p).
Proof using HO RI.
  induction l as [|p l IH]; intros t t' new ND L H R E; cbn [saturateLoop] in E; [injection E as <- <-; split; [apply memoLe_refl|]; split; [auto|intros _ ? []]|].
  destruct (contAt t p) as [k|] eqn:Ck; [|discriminate]. inversion ND as [|? ? NI ND']; subst. assert (T := s_tree _ _ t (proj1 H)).
  destruct (inP t k) eqn:IP.
  - destruct (IH t t' new ND' (fun q Hq => L q (or_intror Hq)) H R E) as [ML [NB SAT]]. split; [auto|]. split; [intros c Hc; apply NB; intros q Hq; apply Hc; right; auto|].
    intros N q [<-|Hq]; [|auto]. exists k. rewrite (asked_cont t t' p (proj1 ML)). split; [auto|left]. unfold inP in *. destruct ML as [[_ [_ [_ [_ [_ [-> _]]]]]] _]. exact IP.
  - bind_inv E. destruct a as [t1 r]. bind_inv E. destruct a as [t2 nw]. injection E as <- <-. assert (Lk := cont_lt t p k T Ck).
    destruct (saturateOne_spec t p k t1 r H R (L p (or_introl eq_refl)) Lk E0) as [ML1 [NB1 B1]]. assert (S1 := saturateOne_same _ _ _ _ _ _ E0). assert (P1 : otP t1 = otP t) by (destruct S1 as [_ [_ [_ [_ [_ [K _]]]]]]; exact K).
    destruct (IH t1 t2 nw ND') as [ML2 [NB2 SAT2]]; [rewrite P1; intros q Hq; apply L; right; auto|eapply same_okT; eauto|apply ML1; auto|exact E1|].
    assert (NC : forall q, In q l -> contAt t1 q <> Some k).
    { intros q Hq K. rewrite (same_contAt _ _ _ S1) in K. assert (p = q) by (eapply (tr_inj t T); eauto). subst. contradiction. }
    split; [eapply memoLe_trans; eauto|]. split.
    + intros c Hc. rewrite NB2, NB1; [auto|intros ->; apply (Hc p (or_introl eq_refl)); auto|]. intros q Hq. rewrite (same_contAt _ _ _ S1). apply Hc. right; auto.
    + intros N q [<-|Hq].
      * destruct r as [c|]; [discriminate|]. destruct B1 as [B1 B2]. exists k. rewrite (asked_cont t t2 p (proj1 (memoLe_trans _ _ _ _ ML1 ML2))). split; [auto|right]. split; [rewrite (NB2 k NC); auto|]. eapply asked_valid; [apply (proj1 ML2)|auto].
      * apply SAT2; [destruct r; [discriminate|auto]|auto].
Qed.
Lemma timeSaturate_spec fuel t t' b : strt t -> filled t -> relOK t -> colOK t -> allSat (otMem t') -> timeSaturate o ordP place fuel t = Ok (t', b) ->
  relOK t' /\ colOK t' /\ (b = true -> memoLe t t' /\ saturatedT t').
Proof using HO RI HordP.
  intros H F R C A E. assert (C' : colOK t') by (eapply colOK_tle; [eapply timeSaturate_col; exact E|eapply timeSaturate_le; exact E|exact C]).
  assert (A0 := tle_allSat _ _ (timeSaturate_le o ordP place fuel t t' b E) A). assert (OK : okTt t) by (split; [auto|split; auto]).
  unfold timeSaturate in E. bind_inv E. destruct a as [t1 new]. assert (T := s_tree _ _ t H). assert (ND := ordP_nodup ordP HordP t T). assert (N := saturateLoop_nodup _ _ _ _ _ T ND E0). assert (I := saturateLoop_in _ _ _ _ _ E0).
  destruct (saturateLoop_spec (ordP t) t t1 new ND (fun p Hp => proj1 (ordP_in ordP HordP t p) Hp) OK R E0) as [ML [_ SAT]]. assert (S0 := saturateLoop_same _ _ _ _ _ E0). assert (S0' := S0). destruct S0' as [_ [_ [Ep [_ [_ [EP _]]]]]].
  destruct new as [|k new].
  - injection E as <- <-. split; [apply ML; auto|]. split; [auto|]. intros _. split; [auto|]. intros p Hp. apply SAT; [auto|]. apply (ordP_in ordP HordP). rewrite <- EP. exact Hp.
  - bind_inv E. bind_inv E. injection E as <- <-. split; [|split; [auto|discriminate]]. eapply relOK_refresh; [|exact E2]. eapply moveAll_rel; [exact N| |eapply str_same; eauto|apply ML; exact R|exact E1|eapply tle_allSat; [eapply refreshTable_le; exact E2|exact A]].
    intros i Hi. destruct (I i Hi) as [p [_ [Q2 Q3]]]. rewrite Ep, EP. split; [eapply cont_lt; eauto|]. intro K. apply inP_iff in K. congruence.
Qed.

(** ** the invariant of the table between the learner's steps *)
Record tinv (t : tbl) : Prop := { ti_str : strt t; ti_fill : filled t; ti_rel : relOK t; ti_col : colOK t; ti_root : In 0%nat (otP t) }.
Lemma tle_P (t t' : tbl) i : tle t t' -> In i (otP t) -> In i (otP t').
Proof. intros L H. apply inP_iff. eapply tle_inP; eauto. apply inP_iff. auto. Qed.
Lemma newTable_tinv fuel alpha y t : ~ In UNOBSERVABLE alpha -> memOK f Inv y -> newTable o place fuel alpha y = Ok t -> allSat (otMem t) -> tinv t.
Proof using HO RI.
  intros NA M E A. destruct (newTable_str o f Inv place HO RI fuel alpha y t NA M E) as [H [F P]]. constructor; auto.
  - unfold newTable in E. bind_inv E. eapply relOK_refresh; [|exact E]. eapply moveToP_rel; [exact HO|exact RI| | | | |exact E0|].
    + constructor; cbn; auto.
      * constructor; [apply goodPre_default|constructor].
      * eexists; reflexivity.
      * constructor; [apply sufShape_default|constructor].
      * eexists; reflexivity.
      * split; [auto|]. split; [cbn; lia|]. cbn. lia.
      * constructor; cbn; try solve [intros ? []|intros ? ? []|discriminate|lia|constructor].
    + split; [split; [constructor|intros ? ? []]|]. cbn. discriminate.
    + cbn. lia.
    + intros [].
    + eapply tle_allSat; [eapply refreshTable_le; exact E|exact A].
  - unfold newTable in E. bind_inv E. apply moveToP_col in E0. apply refresh_col in E. intros k n b K. rewrite E, E0 in K. destruct K.
Qed.
Lemma close_tinv fuel t t' b : tinv t -> allSat (otMem t') -> close o ordP place fuel t = Ok (t', b) -> tinv t' /\ (b = true -> closedT f t').
Proof using HO RI HordP.
  intros [H F R C P] A E. assert (TL := close_le _ _ _ _ _ _ _ E). destruct (close_str o f Inv ordP place HO RI fuel t t' b H F E) as [H' [F' _]].
  destruct (close_spec o f Inv ordP place HO RI HordP fuel t t' b H F R A E) as [R' B]. split; [|intros ->; exact B]. constructor; auto; [|eapply tle_P; eauto].
  eapply colOK_tle; [unfold close in E; eapply closeLoop_col; exact E|exact TL|exact C].
Qed.
Lemma consistent_tinv t t' b : tinv t -> allSat (otMem t') -> consistent o ordP place t = Ok (t', b) ->
  tinv t' /\ if b then memoLe t t' /\ consistentT f t' else exists i j, In i (otP t) /\ In j (otP t) /\ (j < i)%nat /\ separated f t t' i j.
Proof using HO RI HordP.
  intros [H F R C P] A E. assert (TL : tle t t') by (unfold consistent in E; eapply consistentLoop_le; exact E).
  assert (X := E). unfold consistent in X. apply (consistentLoop_str o f Inv place HO RI) in X; [|auto|auto]. destruct X as [H' [F' _]].
  destruct (consistent_spec o f Inv ordP place HO RI HordP t t' b H F R C A E) as [R' [C' B]]. split; [|exact B]. constructor; auto. eapply tle_P; eauto.
Qed.
Lemma exteriorConsistent_tinv fuel t t' b : tinv t -> allSat (otMem t') -> exteriorConsistent o ordP place fuel t = Ok (t', b) -> tinv t' /\ (b = true -> t' = t /\ exteriorT t').
Proof using HO RI HordP.
  intros [H F R C P] A E. assert (TL := exteriorConsistent_le _ _ _ _ _ _ _ E). destruct (exteriorConsistent_str o f Inv ordP place HO RI HordP fuel t t' b H F E) as [H' [F' _]].
  destruct (exteriorConsistent_spec fuel t t' b H F R C A E) as [R' [C' B]]. split; [|exact B]. constructor; auto. eapply tle_P; eauto.
Qed.
Lemma timeSaturate_tinv fuel t t' b : tinv t -> allSat (otMem t') -> timeSaturate o ordP place fuel t = Ok (t', b) -> tinv t' /\ (b = true -> memoLe t t' /\ saturatedT t').
Proof using HO RI HordP.
  intros [H F R C P] A E. assert (TL := timeSaturate_le _ _ _ _ _ _ _ E). destruct (timeSaturate_str o f Inv ordP place HO RI HordP fuel t t' b H F E) as [H' [F' _]].
  destruct (timeSaturate_spec fuel t t' b H F R C A E) as [R' [C' B]]. split; [|exact B]. constructor; auto. eapply tle_P; eauto.
Qed.
Lemma exteriorT_asked t t' : asked t t' -> exteriorT t -> exteriorT t'.
Proof.
  intros A H p Hp. assert (A' := A). destruct A' as [_ [_ [Ep [_ [_ [EP _]]]]]]. rewrite EP in Hp. destruct (H p Hp) as [k [K1 K2]]. exists k. rewrite (asked_cont t t' p A). split; [auto|]. unfold inP, preAt. rewrite EP, Ep. exact K2.
Qed.
(** the table from which a hypothesis is built *)
Definition settled (t : tbl) : Prop := closedT f t /\ consistentT f t /\ exteriorT t /\ saturatedT t.
Lemma refine_le : forall fuel t t', refine o ordP place fuel t = Ok t' -> tle t t'.
Proof.
  induction fuel as [|n IH]; intros t t' E; cbn [refine] in E; [discriminate|]. bind_inv E. destruct a as [t1 b1]. apply close_le in E0. destruct b1; cbn [negb] in E; [|eapply tle_trans; eauto].
  bind_inv E. destruct a as [t2 b2]. unfold consistent in E1. apply consistentLoop_le in E1. assert (T2 := tle_trans _ _ _ E0 E1). destruct b2; cbn [negb] in E; [|eapply tle_trans; eauto].
  bind_inv E. destruct a as [t3 b3]. apply exteriorConsistent_le in E2. assert (T3 := tle_trans _ _ _ T2 E2). destruct b3; cbn [negb] in E; [|eapply tle_trans; eauto].
  bind_inv E. destruct a as [t4 b4]. apply timeSaturate_le in E3. assert (T4 := tle_trans _ _ _ T3 E3). destruct b4; [injection E as <-; auto|eapply tle_trans; eauto].
Qed.
Lemma refine_spec : forall fuel t t', tinv t -> allSat (otMem t') -> refine o ordP place fuel t = Ok t' -> tinv t' /\ settled t'.
Proof using HO RI HordP.
  induction fuel as [|n IH]; intros t t' H A E; cbn [refine] in E; [discriminate|]. bind_inv E. destruct a as [t1 b1].
  assert (A1 : allSat (otMem t1)).
  { eapply tle_allSat; [|exact A]. destruct b1; cbn [negb] in E; [|eapply refine_le; eauto]. bind_inv E. destruct a as [t2 b2]. unfold consistent in E1. apply consistentLoop_le in E1. eapply tle_trans; [exact E1|]. destruct b2; cbn [negb] in E; [|eapply refine_le; eauto].
    bind_inv E. destruct a as [t3 b3]. apply exteriorConsistent_le in E2. eapply tle_trans; [exact E2|]. destruct b3; cbn [negb] in E; [|eapply refine_le; eauto].
    bind_inv E. destruct a as [t4 b4]. apply timeSaturate_le in E3. eapply tle_trans; [exact E3|]. destruct b4; [injection E as <-; apply tle_refl|eapply refine_le; eauto]. }
  destruct (close_tinv n t t1 b1 H A1 E0) as [H1 B1]. destruct b1; cbn [negb] in E; [|eapply IH; eauto]. specialize (B1 eq_refl).
  bind_inv E. destruct a as [t2 b2].
  assert (A2 : allSat (otMem t2)).
  { eapply tle_allSat; [|exact A]. destruct b2; cbn [negb] in E; [|eapply refine_le; eauto].
    bind_inv E. destruct a as [t3 b3]. apply exteriorConsistent_le in E2. eapply tle_trans; [exact E2|]. destruct b3; cbn [negb] in E; [|eapply refine_le; eauto].
    bind_inv E. destruct a as [t4 b4]. apply timeSaturate_le in E3. eapply tle_trans; [exact E3|]. destruct b4; [injection E as <-; apply tle_refl|eapply refine_le; eauto]. }
  destruct (consistent_tinv t1 t2 b2 H1 A2 E1) as [H2 B2]. destruct b2; cbn [negb] in E; [|eapply IH; eauto]. destruct B2 as [M2 B2].
  bind_inv E. destruct a as [t3 b3].
  assert (A3 : allSat (otMem t3)).
  { eapply tle_allSat; [|exact A]. destruct b3; cbn [negb] in E; [|eapply refine_le; eauto].
    bind_inv E. destruct a as [t4 b4]. apply timeSaturate_le in E3. eapply tle_trans; [exact E3|]. destruct b4; [injection E as <-; apply tle_refl|eapply refine_le; eauto]. }
  destruct (exteriorConsistent_tinv n t2 t3 b3 H2 A3 E2) as [H3 B3]. destruct b3; cbn [negb] in E; [|eapply IH; eauto]. destruct (B3 eq_refl) as [-> B3'].
  bind_inv E. destruct a as [t4 b4].
  assert (A4 : allSat (otMem t4)) by (eapply tle_allSat; [|exact A]; destruct b4; [injection E as <-; apply tle_refl|eapply refine_le; eauto]).
  destruct (timeSaturate_tinv n t2 t4 b4 H2 A4 E3) as [H4 B4]. destruct b4; [|eapply IH; eauto]. injection E as <-. split; [auto|]. destruct (B4 eq_refl) as [M4 B5]. split; [|split; [|split; [|auto]]].
  - eapply closedT_memo; [exact M4|]. eapply closedT_memo; eauto.
  - eapply consistentT_memo; eauto.
  - eapply exteriorT_asked; [apply (proj1 M4)|auto].
Qed.
End Refine.
