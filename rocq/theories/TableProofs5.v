(** The observation table: what close() guarantees. *)
From Coq Require Import QArith ZArith Bool List Arith Lia Permutation.
From Verif Require Import BoundsModel ConstraintModel ZoneModel ZoneSpec AutomatonModel TimedWordModel TimedWordSpec
  TimedConditionModel TimedConditionSpec ElementaryModel ElementarySpec LooseProofs
  RegionalModel RegionalSpec OracleModel SymbolicModel SymbolicSpec CexModel CexSpec RenamingModel RenamingSpec
  TableModel TableProofs ShapeProofs TableProofs2 TableProofs3 TableProofs4.
Import ListNotations.

Section Close.
Context {St : Type} (o : mOracle St) (f : tword -> bool) (Inv : St -> Prop) (ordP : ot St -> list nat) (ordR : ot St -> list nat) (place : ot St -> nat -> nat -> nat).
Notation tbl := (ot St).
Hypothesis HO : forall s x, Inv s -> properTW x -> exists s', o s x = Some (s', f x) /\ Inv s'.
Hypothesis RI : regionInvariant properTW f.
Hypothesis HordP : forall t, Permutation (ordP t) (otP t).
Notation strt := (str f Inv).
Notation okTt := (okT f Inv).
Notation valid := (validRel f).
Notation first := (okFirst f).

Lemma tle_allSat (t t' : tbl) : tle t t' -> allSat (otMem t') -> allSat (otMem t).
Proof. intros [L _]. eapply allSat_le; eauto. Qed.
Lemma same_allSat (t t' : tbl) : same t t' -> allSat (otMem t) -> allSat (otMem t').
Proof. intros [-> _]. auto. Qed.
Lemma equivMemo_rel t i j t' r : okTt t -> relOK t -> (i < length (otPre t))%nat -> (j < length (otPre t))%nat -> equivMemo place t i j = (t', r) -> relOK t'.
Proof using HO RI. intros H R Hi Hj E. exact (proj1 (equivMemo_sem o f Inv place HO RI t i j t' r H R Hi Hj E)). Qed.

(** *** moveToP *)
Lemma relOK_refresh t t' : relOK t -> refreshTable o t = Ok t' -> relOK t'.
Proof. intros R E. destruct (refresh_rest o _ _ E) as [_ [_ [_ [_ [Er [_ [_ [Ed _]]]]]]]]. eapply relOK_tle; [eapply refreshTable_le; eauto|exact Er|exact Ed|exact R]. Qed.
Lemma moveToP_rel : forall fuel t i t', strt t -> relOK t -> (i < length (otPre t))%nat -> ~ In i (otP t) -> moveToP o place fuel t i = Ok t' -> allSat (otMem t') -> relOK t'.
Proof using HO RI.
  induction fuel as [|fuel IH]; intros t i t' H R Hi NP E A; cbn [moveToP] in E; [discriminate|]. rewrite (proj2 (Nat.ltb_lt _ _) Hi) in E. bind_inv E.
  assert (H1 := str_addSuccessors f Inv t i H Hi NP). destruct (str_refresh o f Inv HO RI _ _ H1 E0) as [H2 F2]. destruct (refresh_rest o _ _ E0) as [_ [Rp [Rs [RP [_ [Rc _]]]]]].
  assert (CN : contAt a i = Some (length (otPre t) + length (otAlpha t))%nat) by (unfold contAt; rewrite Rc; apply contAt_new). rewrite CN in E.
  assert (R1 : relOK a) by (eapply relOK_refresh; [|exact E0]; eapply relOK_tle; [apply addSuccessors_le|reflexivity|reflexivity|exact R]).
  assert (La : length (otPre a) = (length (otPre t) + length (otAlpha t) + 1)%nat) by (rewrite Rp; apply addSuccessors_len).
  destruct (equivMemo place a _ i) as [t2 r] eqn:E2. assert (S2 := equivMemo_same _ _ _ _ _ _ E2).
  assert (A2 : allSat (otMem t2)) by (destruct r; [injection E as <-; exact A|eapply tle_allSat; [eapply moveToP_le; exact E|exact A]]).
  assert (OA : okTt a) by (split; [auto|]; split; [auto|]; destruct S2 as [Em _]; rewrite <- Em; exact A2).
  assert (R2 : relOK t2) by (eapply equivMemo_rel; [exact OA|exact R1| | |exact E2]; lia). destruct r as [r|]; [injection E as <-; exact R2|].
  refine (IH t2 (length (otPre t) + length (otAlpha t))%nat t' (str_same f Inv _ _ S2 H2) R2 _ _ E A).
  - destruct S2 as [_ [_ [-> _]]]. lia.
  - destruct S2 as [_ [_ [_ [_ [_ [-> _]]]]]]. rewrite RP. cbn. intro K. apply in_app_or in K. destruct K as [K|[K|[]]]; [apply (tr_lt t (s_tree _ _ t H)) in K|]; lia.
Qed.

(** *** the confirmation of a recorded target *)
Lemma confirm_spec (t : tbl) i : forall l k b, confirm t i l = (k, b) -> (forall e, In e k -> In e l) /\
  if b then exists j r, find (fun e => inP t (fst e)) k = Some (j, r) /\ equivRows t i j r = true /\ In (j, r) l else find (fun e => inP t (fst e)) k = None.
Proof.
  induction l as [|[j r] l IH]; intros k b E; cbn [confirm] in E; [injection E as <- <-; split; [auto|reflexivity]|]. destruct (equivRows t i j r) eqn:Q.
  - destruct (inP t j) eqn:P.
    + injection E as <- <-. split; [auto|]. exists j, r. cbn [find fst]. rewrite P. split; [auto|]. split; [auto|left; auto].
    + destruct (confirm t i l) as [k' b'] eqn:C. injection E as <- <-. destruct (IH k' b' eq_refl) as [I1 I2]. split; [intros e [<-|He]; [left; auto|right; auto]|]. cbn [find fst]. rewrite P.
      destruct b'; [|auto]. destruct I2 as [j1 [r1 [A [B C1]]]]. exists j1, r1. split; [auto|]. split; [auto|right; auto].
  - destruct (IH k b E) as [I1 I2]. split; [intros e He; right; auto|]. destruct b; [|auto]. destruct I2 as [j1 [r1 [A [B C1]]]]. exists j1, r1. split; [auto|]. split; [auto|right; auto].
Qed.
(** the relations of one row were revised *)
Definition revised (i : nat) (t t' : tbl) : Prop := same t t' /\ (relOK t -> relOK t') /\ distLe t t' /\ forall k, k <> i -> relAt t' k = relAt t k.
Lemma revised_refl i t : revised i t t.
Proof. split; [apply same_refl|]. split; [auto|]. split; [intros a b; auto|auto]. Qed.
Lemma revised_trans i a b c : revised i a b -> revised i b c -> revised i a c.
Proof.
  intros [S1 [R1 [D1 N1]]] [S2 [R2 [D2 N2]]]. split; [eapply same_trans; eauto|]. split; [auto|]. split; [intros x y K; auto|]. intros k K. rewrite N2, N1; auto.
Qed.
Lemma same_valid (t t' : tbl) i j r : same t t' -> valid t i j r <-> valid t' i j r.
Proof. intros [_ [_ [E1 [E2 _]]]]. split; apply validRel_ext; congruence. Qed.
Lemma same_target (t t' : tbl) i : same t t' -> relAt t' i = relAt t i -> target t' i = target t i.
Proof. intros [_ [_ [_ [_ [_ [E _]]]]]] R. unfold target, inP. rewrite R, E. reflexivity. Qed.
Lemma same_okT t t' : same t t' -> okTt t -> okTt t'.
Proof. apply okT_same. Qed.
Lemma confirmRel_spec t i t' b : okTt t -> relOK t -> (i < length (otPre t))%nat -> confirmRel t i = (t', b) -> revised i t t' /\ if b then first t' i else target t' i = None.
Proof using HO RI.
  intros H R Hi E. assert (S0 := confirmRel_same _ _ _ _ E). unfold confirmRel in E. destruct (mapAt (otRel t) i) as [m|] eqn:M.
  - destruct (confirm t i m) as [k b0] eqn:C. injection E as <- <-. apply confirm_spec in C. destruct C as [C1 C2].
    assert (RA : forall j, relAt (withRel t (mapPut (otRel t) i k)) j = if (i =? j)%nat then k else relAt t j) by (intro j; eapply relAt_put; reflexivity).
    split.
    + split; [auto|]. split; [|split; [intros x y; auto|intros j Hj; rewrite RA; destruct (Nat.eqb_spec i j); [congruence|auto]]]. intros _.
      eapply (relOK_put t i k); [auto|auto|reflexivity|reflexivity|apply same_tle, same_rel|reflexivity|]. intros j r K. destruct R as [_ R]. destruct (R i m j r M (C1 _ K)) as [_ [A B]]. auto.
    + destruct b0.
      * destruct C2 as [j [r [A [B C]]]]. exists j, r. unfold target. rewrite RA, Nat.eqb_refl. split; [exact A|]. destruct R as [_ R]. destruct (R i m j r M C) as [_ [Lj EO]].
        apply (same_valid t); [auto|]. eapply equivRows_valid; eauto.
      * unfold target. rewrite RA, Nat.eqb_refl. exact C2.
  - injection E as <- <-. split; [apply revised_refl|]. unfold target, relAt. rewrite M. reflexivity.
Qed.
Lemma memo_revised t i j t' r : okTt t -> relOK t -> (i < length (otPre t))%nat -> (j < length (otPre t))%nat -> equivMemo place t i j = (t', r) -> revised i t t'.
Proof using HO RI. intros H R Hi Hj E. destruct (equivMemo_sem o f Inv place HO RI t i j t' r H R Hi Hj E) as [A [B [C _]]]. split; [eapply equivMemo_same; eauto|]. auto. Qed.
(** one attempt to find a target *)
Lemma memo_target t i j t' r : okTt t -> relOK t -> (i < length (otPre t))%nat -> (j < length (otPre t))%nat -> inP t j = true -> target t i = None -> equivMemo place t i j = (t', r) ->
  match r with Some _ => first t' i | None => target t' i = None /\ distinguished t' i j end.
Proof using HO RI.
  intros H R Hi Hj P T E. assert (S0 := equivMemo_same _ _ _ _ _ _ E). destruct (equivMemo_sem o f Inv place HO RI t i j t' r H R Hi Hj E) as [_ [_ [_ D]]]. destruct r as [r0|].
  - destruct D as [V [M [D|[n D]]]].
    + exfalso. rewrite D in M. apply mapAt_in in M. unfold target in T. apply (find_none _ _ T) in M. cbn [fst] in M. congruence.
    + exists j, r0. split; [|apply (same_valid t); auto]. assert (IPe : inP t' = inP t) by (unfold inP; destruct S0 as [_ [_ [_ [_ [_ [-> _]]]]]]; reflexivity).
      destruct (target t' i) as [[j2 r2]|] eqn:T2; unfold target in T2; rewrite D, IPe in T2.
      * apply find_putAt in T2. destruct T2 as [[-> ->]|T2]; [auto|]. unfold target in T. rewrite T in T2. discriminate.
      * exfalso. revert T2. apply find_putAt_some. left. exact P.
  - destruct D as [D1 D2]. split; [|auto]. rewrite (same_target t t' i S0 D1). exact T.
Qed.
Definition inRange (t : tbl) (l : list nat) : Prop := forall j, In j l -> inP t j = true /\ (j < length (otPre t))%nat.
Lemma inRange_same t t' l : same t t' -> inRange t l -> inRange t' l.
Proof. intros S0 H j Hj. destruct (H j Hj) as [A B]. rewrite (same_inP t t' j S0). destruct S0 as [_ [_ [-> _]]]. auto. Qed.
Lemma inRange_ordP t : strt t -> inRange t (ordP t).
Proof using HordP. intros H j Hj. apply (ordP_in ordP HordP) in Hj. split; [apply inP_iff; auto|apply (tr_lt t (s_tree _ _ t H)); auto]. Qed.
Lemma jumpSame_spec i : forall l t t' b, okTt t -> relOK t -> (i < length (otPre t))%nat -> inRange t l -> target t i = None -> jumpSame place t i l = Ok (t', b) ->
  revised i t t' /\ if b then first t' i else target t' i = None.
Proof using HO RI.
  induction l as [|j l IH]; intros t t' b H R Hi IR T E; cbn [jumpSame] in E; [injection E as <- <-; split; [apply revised_refl|exact T]|].
  destruct (contAt t j) as [k|]; [|discriminate]. destruct (IR j (or_introl eq_refl)) as [P Lj]. assert (IR' : inRange t l) by (intros x Hx; apply IR; right; auto).
  destruct (Nat.eqb_spec k i) as [K|K]; [|apply IH; auto]. destruct (equivMemo place t i j) as [t1 r] eqn:E1. assert (RV := memo_revised _ _ _ _ _ H R Hi Lj E1). assert (MT := memo_target _ _ _ _ _ H R Hi Lj P T E1).
  destruct r as [r|]; [injection E as <- <-; auto|]. destruct MT as [T1 _]. assert (S1 := proj1 RV). destruct (IH t1 t' b) as [A B]; auto.
  - eapply same_okT; eauto.
  - apply RV; auto.
  - destruct S1 as [_ [_ [-> _]]]. auto.
  - eapply inRange_same; eauto.
  - split; [eapply revised_trans; eauto|auto].
Qed.
Lemma jumpAny_spec i : forall l t t' b, okTt t -> relOK t -> (i < length (otPre t))%nat -> inRange t l -> target t i = None -> jumpAny place t i l = (t', b) ->
  revised i t t' /\ if b then first t' i else target t' i = None /\ forall j, In j l -> distinguished t' i j.
Proof using HO RI.
  induction l as [|j l IH]; intros t t' b H R Hi IR T E; cbn [jumpAny] in E; [injection E as <- <-; split; [apply revised_refl|split; [exact T|intros ? []]]|].
  destruct (IR j (or_introl eq_refl)) as [P Lj]. assert (IR' : inRange t l) by (intros x Hx; apply IR; right; auto).
  destruct (equivMemo place t i j) as [t1 r] eqn:E1. assert (RV := memo_revised _ _ _ _ _ H R Hi Lj E1). assert (MT := memo_target _ _ _ _ _ H R Hi Lj P T E1).
  destruct r as [r|]; [injection E as <- <-; auto|]. destruct MT as [T1 D1]. assert (S1 := proj1 RV). destruct (IH t1 t' b) as [A B]; auto.
  - eapply same_okT; eauto.
  - apply RV; auto.
  - destruct S1 as [_ [_ [-> _]]]. auto.
  - eapply inRange_same; eauto.
  - split; [eapply revised_trans; eauto|]. destruct b; [auto|]. destruct B as [B1 B2]. split; [auto|]. intros x [<-|Hx]; [|auto]. eapply distinguished_le; [|exact D1]. apply A.
Qed.

(** *** close *)
Lemma closeLoop_spec fuel : forall is t t' b, NoDup is -> (forall i, In i is -> (i < length (otPre t))%nat) -> strt t -> filled t -> relOK t -> allSat (otMem t') ->
  closeLoop o ordP place fuel t is = Ok (t', b) ->
  relOK t' /\ if b then (forall i, In i is -> inP t i = false -> first t' i) /\ (forall k, ~ In k is -> relAt t' k = relAt t k)
              else exists i t3, In i is /\ inP t i = false /\ same t t3 /\ tle t3 t' /\ forall j, In j (otP t) -> distinguished t3 i j.
Proof using HO RI HordP.
  induction is as [|i is IH]; intros t t' b ND L H F R A E; cbn [closeLoop] in E; [injection E as <- <-; split; [auto|]; split; [intros ? []|auto]|]. inversion ND as [|? ? NI ND']; subst.
  assert (TL := closeLoop_le o ordP place fuel (i :: is) t t' b E). assert (A0 := tle_allSat _ _ TL A). assert (H0 : okTt t) by (split; [auto|split; auto]). assert (Hi := L i (or_introl eq_refl)).
  assert (NEXT : forall t1 t' b, revised i t t1 -> (inP t i = false -> first t1 i) -> allSat (otMem t') -> closeLoop o ordP place fuel t1 is = Ok (t', b) ->
    relOK t' /\ if b then (forall k, In k (i :: is) -> inP t k = false -> first t' k) /\ (forall k, ~ In k (i :: is) -> relAt t' k = relAt t k)
              else exists k t3, In k (i :: is) /\ inP t k = false /\ same t t3 /\ tle t3 t' /\ forall j, In j (otP t) -> distinguished t3 k j).
  { intros t1 u c RV FT Au E1. assert (S1 := proj1 RV). assert (S1' := S1). destruct S1' as [_ [_ [Ep [_ [_ [EP _]]]]]]. assert (H1 := str_same f Inv _ _ S1 H). assert (F1 := filled_same _ _ S1 F).
    destruct (closeLoop_str o f Inv ordP place HO RI fuel is t1 u c) as [_ [_ [_ SB]]]; [intros k Hk; rewrite Ep; apply L; right; auto|auto|auto|exact E1|].
    destruct (IH t1 u c) as [R2 B2]; [auto|intros k Hk; rewrite Ep; apply L; right; auto|auto|auto|apply RV; auto|auto|exact E1|]. split; [auto|].
    destruct c.
    - destruct B2 as [B2 B3]. split.
      + intros k [<-|Hk] P; [|apply B2; [auto|rewrite (same_inP _ _ k S1); auto]]. eapply okFirst_ext; [| | |apply B3; exact NI|apply FT; exact P]; destruct SB as [_ [_ [? [? [_ [? _]]]]]]; auto.
      + intros k Hk. rewrite B3 by (intro K; apply Hk; right; auto). apply RV. intros ->. apply Hk. left; auto.
    - destruct B2 as [k [t3 [K1 [K2 [K3 [K4 K5]]]]]]. exists k, t3. split; [right; auto|]. rewrite (same_inP _ _ k S1) in K2. split; [auto|]. split; [eapply same_trans; eauto|]. split; [auto|]. rewrite EP in K5. exact K5. }
  destruct (inP t i) eqn:IP; [apply (NEXT t); [apply revised_refl|discriminate|auto|exact E]|].
  destruct (confirmRel t i) as [t1 b1] eqn:E1. destruct (confirmRel_spec t i t1 b1 H0 R Hi E1) as [RV1 B1]. destruct b1; [eapply NEXT; eauto|]. assert (S1 := proj1 RV1). assert (O1 := same_okT _ _ S1 H0).
  bind_inv E. destruct a as [t2 b2]. destruct (jumpSame_spec i (ordP t1) t1 t2 b2 O1) as [RV2 B2]; [apply RV1; auto|destruct S1 as [_ [_ [-> _]]]; auto|apply inRange_ordP; apply O1|exact B1|exact E0|].
  assert (RV12 := revised_trans _ _ _ _ RV1 RV2). destruct b2; [eapply NEXT; eauto|]. assert (S2 := proj1 RV12). assert (O2 := same_okT _ _ S2 H0).
  destruct (jumpAny place t2 i (ordP t2)) as [t3 b3] eqn:E3. destruct (jumpAny_spec i (ordP t2) t2 t3 b3 O2) as [RV3 B3]; [apply RV12; auto|destruct S2 as [_ [_ [-> _]]]; auto|apply inRange_ordP; apply O2|exact B2|exact E3|].
  assert (RV13 := revised_trans _ _ _ _ RV12 RV3). destruct b3; [eapply NEXT; eauto|]. assert (S3 := proj1 RV13). assert (O3 := same_okT _ _ S3 H0). bind_inv E. bind_inv E. injection E as <- <-.
  assert (LT : tle t3 a0) by (eapply tle_trans; [eapply moveToP_le; eauto|eapply refreshTable_le; eauto]).
  split.
  - eapply relOK_refresh; [|exact E4]. assert (S3' := S3). destruct S3' as [_ [_ [Ep [_ [_ [EP _]]]]]]. eapply moveToP_rel; [apply O3|apply RV13; auto|rewrite Ep; exact Hi| |exact E2|eapply tle_allSat; [eapply refreshTable_le; exact E4|exact A]].
    rewrite EP. intro K. apply inP_iff in K. congruence.
  - exists i, t3. split; [left; auto|]. split; [auto|]. split; [auto|]. split; [auto|]. intros j Hj. apply B3. apply (ordP_in ordP HordP). destruct S2 as [_ [_ [_ [_ [_ [-> _]]]]]]. auto.
Qed.
(** every row outside P has a recorded target in P, the first one is valid *)
Definition closedT (t : tbl) : Prop := forall i, (i < length (otPre t))%nat -> inP t i = false -> first t i.
Lemma close_spec fuel t t' b : strt t -> filled t -> relOK t -> allSat (otMem t') -> close o ordP place fuel t = Ok (t', b) ->
  relOK t' /\ if b then closedT t' else exists i t3, inP t i = false /\ (i < length (otPre t))%nat /\ same t t3 /\ tle t3 t' /\ forall j, In j (otP t) -> distinguished t3 i j.
Proof using HO RI HordP.
  intros H F R A E. assert (E' := E). unfold close in E. apply closeLoop_spec in E; auto; [|apply seq_NoDup|intros i Hi; apply in_seq in Hi; lia]. destruct E as [R2 B]. split; [auto|].
  destruct b.
  - destruct (close_str o f Inv ordP place HO RI fuel t t' true H F E') as [_ [_ [_ S0]]]. intros i Hi P. apply B; [apply in_seq; destruct S0 as [_ [_ [Ep _]]]; rewrite Ep in Hi; lia|]. rewrite <- (same_inP _ _ i S0). exact P.
  - destruct B as [i [t3 [B1 B2]]]. apply in_seq in B1. exists i, t3. destruct B2 as [? [? ?]]. split; [auto|]. split; [lia|auto].
Qed.
End Close.
