(** The observation table: what each operation changes, and the structural
    invariants. *)
From Coq Require Import QArith ZArith Bool List Arith Lia Permutation.
From Verif Require Import BoundsModel BoundsProofs ConstraintModel ZoneModel ZoneSpec ZoneProofs AutomatonModel TimedWordModel TimedWordSpec
  TimedConditionModel TimedConditionSpec ElementaryModel ElementarySpec ElementaryProofs LooseProofs
  RegionalModel RegionalSpec OracleModel SymbolicModel SymbolicSpec SymbolicProofs2 CexModel CexSpec RenamingModel RenamingSpec TableModel TableProofs ShapeProofs ShapeProofs2.
Import ListNotations.

Ltac bind_inv H :=
  unfold bind in H;
  match type of H with
  | match ?m with Ok _ => _ | Stop _ => _ end = _ => let E := fresh "E" in destruct m eqn:E; [|discriminate H]
  end.

(** ** maps *)
Lemma mapAt_put {A} (m : list (nat * A)) i a k : mapAt (mapPut m i a) k = if (i =? k)%nat then Some a else mapAt m k.
Proof.
  unfold mapAt. induction m as [|[x b] m IH]; cbn [mapPut find fst].
  - destruct (i =? k)%nat; reflexivity.
  - destruct (Nat.eqb_spec x i) as [->|N]; cbn [find fst].
    + destruct (i =? k)%nat eqn:E; [reflexivity|]. reflexivity.
    + destruct (Nat.eqb_spec x k) as [->|N2]; [|exact IH]. destruct (Nat.eqb_spec i k) as [->|N3]; [congruence|reflexivity].
Qed.
Lemma mapPut_keys {A} (m : list (nat * A)) i a k : In k (map fst (mapPut m i a)) <-> k = i \/ In k (map fst m).
Proof.
  induction m as [|[x b] m IH]; cbn [mapPut map In fst].
  - firstorder.
  - destruct (Nat.eqb_spec x i) as [->|N]; cbn [map In fst]; [|rewrite IH]; firstorder.
Qed.
Lemma mapPut_nodup {A} (m : list (nat * A)) i a : NoDup (map fst m) -> NoDup (map fst (mapPut m i a)).
Proof.
  induction m as [|[x b] m IH]; cbn [mapPut map fst]; intro H; [constructor; [intros []|constructor]|].
  destruct (Nat.eqb_spec x i) as [->|N]; cbn [map fst]; [exact H|]. inversion H; subst. constructor; [|auto].
  intro K. apply mapPut_keys in K. destruct K; [congruence|auto].
Qed.
Lemma mapAt_in {A} (m : list (nat * A)) i a : mapAt m i = Some a -> In (i, a) m.
Proof.
  unfold mapAt. destruct (find _ m) as [[k b]|] eqn:F; [|discriminate]. cbn. intro E. injection E as ->. apply find_some in F. destruct F as [F1 F2].
  cbn in F2. apply Nat.eqb_eq in F2. subst. exact F1.
Qed.
Lemma mapAt_none {A} (m : list (nat * A)) i : mapAt m i = None <-> ~ In i (map fst m).
Proof.
  unfold mapAt. destruct (find _ m) as [[k b]|] eqn:F.
  - split; [discriminate|]. intro H. exfalso. apply H. apply find_some in F. destruct F as [F1 F2]. cbn in F2. apply Nat.eqb_eq in F2. subst. apply in_map_iff. exists (i, b). auto.
  - split; [|reflexivity]. intros _ H. apply in_map_iff in H. destruct H as [[k b] [<- H]]. apply (find_none _ _ F) in H. cbn in H. rewrite Nat.eqb_refl in H. discriminate.
Qed.
Lemma mapAt_nodup {A} (m : list (nat * A)) i a : NoDup (map fst m) -> In (i, a) m -> mapAt m i = Some a.
Proof.
  intros N H. destruct (mapAt m i) as [b|] eqn:E.
  - apply mapAt_in in E. f_equal. revert N H E. induction m as [|[k c] m IH]; intros N H E; [destruct H|]. cbn in N. inversion N as [|? ? N1 N2]; subst.
    assert (K : forall d, In (i, d) m -> In i (map fst m)) by (intros d Hd; apply in_map_iff; exists (i, d); auto).
    destruct H as [H|H], E as [E|E]; try congruence.
    + injection H as -> ->. exfalso. apply N1. eapply K; eauto.
    + injection E as -> ->. exfalso. apply N1. eapply K; eauto.
    + auto.
  - apply mapAt_none in E. exfalso. apply E. apply in_map_iff. exists (i, a). auto.
Qed.
Lemma mapPutAt_in {A} n (m : list (nat * A)) j r k s : In (k, s) (mapPutAt n m j r) -> (k = j /\ s = r) \/ In (k, s) m.
Proof.
  unfold mapPutAt. destruct (mapAt m j).
  - induction m as [|[x b] m IH]; cbn [mapPut].
    + intros [H|[]]. injection H as -> ->; auto.
    + cbn [fst]. destruct (x =? j)%nat; intros [H|H]; [injection H as -> ->; auto|right; right; auto|right; left; auto|]. destruct (IH H); [auto|right; right; auto].
  - intro H. apply in_app_or in H. rewrite <- (firstn_skipn n m). destruct H as [H|[H|H]]; [right; apply in_or_app; auto|injection H as -> ->; auto|right; apply in_or_app; auto].
Qed.
Lemma mapPut_find {A} (p : nat -> bool) (m : list (nat * A)) j r : In j (map fst m) ->
  find (fun e => p (fst e)) (mapPut m j r) = match find (fun e => p (fst e)) m with Some (k, s) => Some (k, if (k =? j)%nat then r else s) | None => None end.
Proof.
  induction m as [|[x b] m IH]; cbn [mapPut map In fst]; [intros []|]. destruct (Nat.eqb_spec x j) as [->|N]; cbn [find fst].
  - intros _. destruct (p j) eqn:E; [rewrite Nat.eqb_refl; reflexivity|]. destruct (find _ m) as [[k s]|] eqn:F; [|reflexivity].
    apply find_some in F. destruct F as [F1 F2]. cbn in F2. destruct (Nat.eqb_spec k j) as [->|]; [congruence|reflexivity].
  - intros [H|H]; [congruence|]. destruct (p x); [destruct (Nat.eqb_spec x j); [congruence|reflexivity]|]. apply IH. exact H.
Qed.
(** the first entry with the property after an update *)
Lemma find_putAt {A} (p : nat -> bool) n (m : list (nat * A)) j r k s :
  find (fun e => p (fst e)) (mapPutAt n m j r) = Some (k, s) -> (k = j /\ s = r) \/ find (fun e => p (fst e)) m = Some (k, s).
Proof.
  unfold mapPutAt. destruct (mapAt m j) as [b|] eqn:E.
  - assert (K : In j (map fst m)) by (apply mapAt_in in E; apply in_map_iff; exists (j, b); auto). rewrite (mapPut_find p m j r K).
    destruct (find _ m) as [[k' s']|]; [|discriminate]. intro H. injection H as <- <-. destruct (Nat.eqb_spec k' j); auto.
  - set (g := fun e : nat * A => p (fst e)). intro H. assert (Ap : forall l l' : list (nat * A), find g (l ++ l') = match find g l with Some e => Some e | None => find g l' end).
    { induction l as [|e l IH]; intro l'; [reflexivity|]. cbn [app find]. destruct (g e); auto. }
    rewrite Ap in H. rewrite <- (firstn_skipn n m), Ap. destruct (find g (firstn n m)); [auto|]. cbn [find] in H. destruct (g (j, r)); [injection H as <- <-; auto|auto].
Qed.
Lemma find_putAt_some {A} (p : nat -> bool) n (m : list (nat * A)) j r : (p j = true \/ find (fun e => p (fst e)) m <> None) -> find (fun e => p (fst e)) (mapPutAt n m j r) <> None.
Proof.
  intros H K. assert (N := find_none _ _ K).
  assert (I : In (j, r) (mapPutAt n m j r) /\ forall k, In k (map fst m) -> In k (map fst (mapPutAt n m j r))).
  { unfold mapPutAt. destruct (mapAt m j) eqn:E.
    - split; [|intros k Hk; apply mapPut_keys; auto]. apply mapAt_in. rewrite mapAt_put, Nat.eqb_refl. reflexivity.
    - split; [apply in_or_app; right; left; auto|]. intros k Hk. rewrite <- (firstn_skipn n m) in Hk. rewrite map_app in *. cbn [map]. apply in_app_or in Hk. apply in_or_app. destruct Hk; [auto|right; right; auto]. }
  destruct I as [I1 I2]. destruct H as [H|H]; [specialize (N _ I1); cbn in N; congruence|].
  destruct (find _ m) as [[k s]|] eqn:F; [|congruence]. apply find_some in F. destruct F as [F1 F2]. cbn in F2.
  assert (Hk : In k (map fst m)) by (apply in_map_iff; exists (k, s); auto). apply I2 in Hk. apply in_map_iff in Hk. destruct Hk as [[k' s'] [E Hk]]. cbn in E. subst k'.
  specialize (N _ Hk). cbn in N. congruence.
Qed.
Lemma mapPutAt_at {A} n (m : list (nat * A)) j r : mapAt (mapPutAt n m j r) j = Some r.
Proof.
  unfold mapPutAt. destruct (mapAt m j) eqn:E; [rewrite mapAt_put, Nat.eqb_refl; reflexivity|]. unfold mapAt in *.
  destruct (find (fun p => (fst p =? j)%nat) m) eqn:F; [discriminate|].
  assert (Ap : forall (g : nat * A -> bool) (l l' : list (nat * A)), find g (l ++ l') = match find g l with Some e => Some e | None => find g l' end).
  { induction l as [|e l IH]; intro l'; [reflexivity|]. cbn [app find]. destruct (g e); auto. }
  rewrite <- (firstn_skipn n m), Ap in F. rewrite Ap. destruct (find _ (firstn n m)); [discriminate|]. cbn [find fst]. rewrite Nat.eqb_refl. reflexivity.
Qed.

(** ** operations on the table *)
Section Ops.
Context {St : Type} (o : mOracle St) (ordP : ot St -> list nat) (ordR : ot St -> list nat) (place : ot St -> nat -> nat -> nat).
Notation tbl := (ot St).

(** nothing but the memoised relations changes *)
Definition same (t t' : tbl) : Prop :=
  otMem t' = otMem t /\ otAlpha t' = otAlpha t /\ otPre t' = otPre t /\ otSuf t' = otSuf t /\ otCon t' = otCon t /\ otP t' = otP t /\ otTab t' = otTab t /\
  otCont t' = otCont t /\ otDisc t' = otDisc t.
Lemma same_refl t : same t t.
Proof. unfold same. auto 10. Qed.
Lemma same_trans a b c : same a b -> same b c -> same a c.
Proof. unfold same. intros H K. decompose [and] H. decompose [and] K. repeat split; congruence. Qed.
Lemma same_rel t r : same t (withRel t r).
Proof. unfold same. cbn. auto 10. Qed.
Lemma same_dist t d : same t (withDist t d).
Proof. unfold same. cbn. auto 10. Qed.
Lemma same_col t c : same t (withCol t c).
Proof. unfold same. cbn. auto 10. Qed.
(** the oracle may also have been asked *)
Definition asked (t t' : tbl) : Prop :=
  cacheLe (otMem t) (otMem t') /\ otAlpha t' = otAlpha t /\ otPre t' = otPre t /\ otSuf t' = otSuf t /\ otCon t' = otCon t /\ otP t' = otP t /\ otTab t' = otTab t /\
  otCont t' = otCont t /\ otDisc t' = otDisc t.
Lemma same_asked t t' : same t t' -> asked t t'.
Proof. unfold same, asked. intro H. decompose [and] H. rewrite H0. split; [apply cacheLe_refl|]. auto 10. Qed.
Lemma asked_trans a b c : asked a b -> asked b c -> asked a c.
Proof. unfold asked. intros H K. decompose [and] H. decompose [and] K. split; [eapply cacheLe_trans; eauto|]. repeat split; congruence. Qed.
(** rows, suffixes and elements of P are only added *)
Definition tle (t t' : tbl) : Prop :=
  cacheLe (otMem t) (otMem t') /\ otAlpha t' = otAlpha t /\ (exists l, otPre t' = otPre t ++ l) /\ (exists l, otSuf t' = otSuf t ++ l) /\ (exists l, otP t' = otP t ++ l).
Lemma tle_refl t : tle t t.
Proof. split; [apply cacheLe_refl|]. split; [auto|]. repeat split; exists []; rewrite app_nil_r; auto. Qed.
Lemma tle_trans a b c : tle a b -> tle b c -> tle a c.
Proof.
  intros [A1 [A2 [[p A3] [[s A4] [q A5]]]]] [B1 [B2 [[p' B3] [[s' B4] [q' B5]]]]]. split; [eapply cacheLe_trans; eauto|]. split; [congruence|].
  split; [exists (p ++ p'); rewrite B3, A3, app_assoc; auto|]. split; [exists (s ++ s'); rewrite B4, A4, app_assoc; auto|exists (q ++ q'); rewrite B5, A5, app_assoc; auto].
Qed.
Lemma asked_tle t t' : asked t t' -> tle t t'.
Proof. unfold asked, tle. intro H. decompose [and] H. split; [auto|]. split; [auto|]. split; [|split]; exists []; rewrite app_nil_r; auto. Qed.
Lemma same_tle t t' : same t t' -> tle t t'.
Proof. intro. apply asked_tle, same_asked; auto. Qed.

Lemma tle_inP t t' i : tle t t' -> inP t i = true -> inP t' i = true.
Proof. intros [_ [_ [_ [_ [l E]]]]] H. unfold inP in *. rewrite E, existsb_app, H. reflexivity. Qed.
Lemma inP_iff (t : tbl) i : inP t i = true <-> In i (otP t).
Proof. unfold inP. rewrite existsb_exists. split; [intros [x [H E]]; apply Nat.eqb_eq in E; congruence|intro H; exists i; split; [auto|apply Nat.eqb_refl]]. Qed.
Lemma tle_pre t t' i : tle t t' -> (i < length (otPre t))%nat -> preAt t' i = preAt t i /\ (i < length (otPre t'))%nat.
Proof. intros [_ [_ [[l E] _]]] H. unfold preAt. rewrite E, app_nth1, app_length by auto. split; [auto|lia]. Qed.
Lemma same_preAt t t' i : same t t' -> preAt t' i = preAt t i.
Proof. intros H. unfold preAt. destruct H as [_ [_ [-> _]]]. auto. Qed.

(** filling *)
Lemma fillCells_spec : forall sufs y x y' css ccs, fillCells o y x sufs = Ok (y', css, ccs) ->
  cacheLe y y' /\ ccs = map (fun s => ec (elConcat (fel x) (fel s))) sufs /\
  Forall2 (fun s cs => findEL (smCache y') (elConcat (fel x) (fel s)) = Some cs) sufs css.
Proof.
  induction sufs as [|s sufs IH]; intros y x y' css ccs H; cbn [fillCells] in H; [injection H as <- <- <-; split; [apply cacheLe_refl|split; [auto|constructor]]|].
  cbv zeta in H. destruct (symQuery o y (elConcat (fel x) (fel s))) as [[y1 cs]|] eqn:E; [|discriminate]. bind_inv H. destruct a as [[y2 css0] ccs0]. injection H as <- <- <-.
  destruct (symQuery_cache o y _ y1 cs E) as [L F]. destruct (IH _ _ _ _ _ E0) as [L2 [-> F2]]. split; [eapply cacheLe_trans; eauto|]. split; [reflexivity|].
  constructor; [apply L2; exact F|exact F2].
Qed.
(** one row as far as it is filled *)
Definition rowOK (y : symOracle St) (x : frel) (sufs : list frel) (row : list (list tcond)) (con : list tcond) : Prop :=
  exists s1 s2, sufs = s1 ++ s2 /\ con = map (fun s => ec (elConcat (fel x) (fel s))) s1 /\
    Forall2 (fun s cs => findEL (smCache y) (elConcat (fel x) (fel s)) = Some cs) s1 row.
Lemma Forall2_len {A B} (R : A -> B -> Prop) l k : Forall2 R l k -> length l = length k.
Proof. induction 1; cbn; auto. Qed.
Lemma Forall2_impl {A B} (R S : A -> B -> Prop) l k : (forall a b, R a b -> S a b) -> Forall2 R l k -> Forall2 S l k.
Proof. intros H. induction 1; constructor; auto. Qed.
Lemma rowOK_le y y' x sufs row con : cacheLe y y' -> rowOK y x sufs row con -> rowOK y' x sufs row con.
Proof. intros [L _] [s1 [s2 [A [B C]]]]. exists s1, s2. split; [auto|]. split; [auto|]. eapply Forall2_impl; [|exact C]. intros; apply L; auto. Qed.
Lemma rowOK_suf y x sufs l row con : rowOK y x sufs row con -> rowOK y x (sufs ++ l) row con.
Proof. intros [s1 [s2 [-> [B C]]]]. exists s1, (s2 ++ l). rewrite app_assoc. auto. Qed.
Definition cells (y : symOracle St) (pre sufs : list frel) (tab : list (list (list tcond))) (con : list (list tcond)) : Prop :=
  length tab = length con /\ (length tab <= length pre)%nat /\
  forall i, (i < length tab)%nat -> rowOK y (nth i pre frDefault) sufs (nth i tab []) (nth i con []).
Definition full (pre sufs : list frel) (tab : list (list (list tcond))) : Prop :=
  length tab = length pre /\ forall i, (i < length pre)%nat -> length (nth i tab []) = length sufs.
Lemma cells_tl y x pre sufs tab con : cells y (x :: pre) sufs tab con -> rowOK y x sufs (hd [] tab) (hd [] con) /\ cells y pre sufs (tl tab) (tl con).
Proof.
  intros [A [B C]]. destruct tab as [|r tab], con as [|c con]; try discriminate; cbn [hd tl].
  - split; [exists [], sufs; split; [auto|split; [auto|constructor]]|]. split; [auto|]. split; [cbn; lia|]. intros i Hi. cbn in Hi. lia.
  - split; [apply (C 0%nat); cbn; lia|]. cbn in A, B. split; [lia|]. split; [lia|]. intros i Hi. apply (C (S i)). cbn. lia.
Qed.
Lemma cells_le y y' pre sufs tab con : cacheLe y y' -> cells y pre sufs tab con -> cells y' pre sufs tab con.
Proof. intros L [A [B C]]. split; [auto|]. split; [auto|]. intros i Hi. eapply rowOK_le; eauto. Qed.
Lemma cells_grow y pre sufs lp ls tab con : cells y pre sufs tab con -> cells y (pre ++ lp) (sufs ++ ls) tab con.
Proof.
  intros [A [B C]]. split; [auto|]. rewrite app_length. split; [lia|]. intros i Hi. rewrite app_nth1 by lia. apply rowOK_suf. auto.
Qed.
Lemma fillRows_spec : forall pre y tab con sufs y' tab' con', fillRows o y pre tab con sufs = Ok (y', tab', con') -> cells y pre sufs tab con ->
  cacheLe y y' /\ cells y' pre sufs tab' con' /\ full pre sufs tab' /\
  (forall i, (i < length tab)%nat -> exists l l', nth i tab' [] = nth i tab [] ++ l /\ nth i con' [] = nth i con [] ++ l').
Proof.
  induction pre as [|x pre IH]; intros y tab con sufs y' tab' con' H C; cbn [fillRows] in H.
  - injection H as <- <- <-. split; [apply cacheLe_refl|]. split; [split; [auto|split; [cbn; lia|cbn; lia]]|]. split; [split; [auto|cbn; lia]|].
    intros i Hi. destruct C as [_ [C _]]. cbn in C. lia.
  - cbv zeta in H. bind_inv H. destruct a as [[y1 css] ccs]. bind_inv H. destruct a as [[y2 tb] cn]. injection H as <- <- <-.
    destruct (cells_tl _ _ _ _ _ _ C) as [R C'].
    destruct (fillCells_spec _ _ _ _ _ _ E) as [L1 [Ec F]]. destruct (IH _ _ _ _ _ _ _ E0 (cells_le _ _ _ _ _ _ L1 C')) as [L2 [C2 [[FL FR] X]]].
    assert (R2 : rowOK y2 x sufs (hd [] tab ++ css) (hd [] con ++ ccs) /\ length (hd [] tab ++ css) = length sufs).
    { destruct R as [s1 [s2 [Es [Rc Rf]]]]. assert (Ls := Forall2_len _ _ _ Rf). subst sufs. rewrite <- Ls in *. rewrite skipn_app, skipn_all, Nat.sub_diag in Ec, F. cbn [app skipn] in Ec, F.
      split; [|rewrite !app_length; rewrite <- (Forall2_len _ _ _ F); lia].
      exists (s1 ++ s2), []. rewrite app_nil_r. split; [auto|]. split; [rewrite map_app; congruence|]. apply Forall2_app; (eapply Forall2_impl; [|eassumption]); intros a b K; apply L2; [apply L1; exact K|exact K]. }
    destruct R2 as [R2 LR]. split; [eapply cacheLe_trans; eauto|]. split; [|split].
    + destruct C2 as [C21 [C22 C23]]. split; [cbn; lia|]. split; [cbn; lia|]. intros [|i] Hi; [exact R2|]. cbn in Hi. cbn [nth]. apply C23. lia.
    + split; [cbn; lia|]. intros [|i] Hi; [exact LR|]. cbn in Hi. cbn [nth]. apply FR. lia.
    + intros i Hi. destruct tab as [|r tab]; [cbn in Hi; lia|]. destruct con as [|c con]; [destruct C; discriminate|]. cbn [hd tl] in *. destruct i as [|i]; [cbn [nth]; eauto|]. cbn in Hi. cbn [nth]. apply X. lia.
Qed.
Lemma fillRows_le : forall pre y tab con sufs y' tab' con', fillRows o y pre tab con sufs = Ok (y', tab', con') -> cacheLe y y'.
Proof.
  induction pre as [|x pre IH]; intros y tab con sufs y' tab' con' H; cbn [fillRows] in H; [injection H as <- <- <-; apply cacheLe_refl|].
  cbv zeta in H. bind_inv H. destruct a as [[y1 css] ccs]. bind_inv H. destruct a as [[y2 tb] cn]. injection H as <- <- <-.
  destruct (fillCells_spec _ _ _ _ _ _ E) as [L1 _]. eapply cacheLe_trans; [exact L1|eapply IH; eauto].
Qed.
Lemma refreshTable_le t t' : refreshTable o t = Ok t' -> tle t t'.
Proof.
  unfold refreshTable. intro H. bind_inv H. destruct a as [[y tb] cn]. injection H as <-. apply fillRows_le in E. split; [exact E|]. split; [reflexivity|]. cbn. repeat split; exists []; rewrite app_nil_r; auto.
Qed.

(** memoised comparisons *)
Lemma equivalentRows_same t i j t' r : equivalentRows place t i j = (t', r) -> same t t'.
Proof. unfold equivalentRows. destruct (findRows t i j); intro H; injection H as <- <-; [apply same_rel|apply same_dist]. Qed.
Lemma equivMemo_same t i j t' r : equivMemo place t i j = (t', r) -> same t t'.
Proof.
  unfold equivMemo. destruct (inDist t i j || inDist t j i); [intro H; injection H as <- <-; apply same_refl|].
  destruct (mapAt (relAt t i) j); [destruct (equivRows t i j r0); [intro H; injection H as <- <-; apply same_refl|]|]; apply equivalentRows_same.
Qed.
Lemma confirmRel_same t i t' b : confirmRel t i = (t', b) -> same t t'.
Proof. unfold confirmRel. destruct (mapAt (otRel t) i); [destruct (confirm t i l)|]; intro H; injection H as <- <-; [apply same_rel|apply same_refl]. Qed.
Lemma jumpSame_same i : forall l t t' b, jumpSame place t i l = Ok (t', b) -> same t t'.
Proof.
  induction l as [|j l IH]; intros t t' b H; cbn [jumpSame] in H; [injection H as <- <-; apply same_refl|].
  destruct (contAt t j); [|discriminate]. destruct (n =? i)%nat; [|eauto]. destruct (equivMemo place t i j) as [t1 r] eqn:E. apply equivMemo_same in E.
  destruct r; [injection H as <- <-; auto|]. eapply same_trans; eauto.
Qed.
Lemma jumpAny_same i : forall l t t' b, jumpAny place t i l = (t', b) -> same t t'.
Proof.
  induction l as [|j l IH]; intros t t' b H; cbn [jumpAny] in H; [injection H as <- <-; apply same_refl|].
  destruct (equivMemo place t i j) as [t1 r] eqn:E. apply equivMemo_same in E. destruct r; [injection H as <- <-; auto|]. eapply same_trans; eauto.
Qed.
Lemma addSuccessors_le t i : tle t (addSuccessors t i).
Proof.
  split; [apply cacheLe_refl|]. split; [reflexivity|]. unfold addSuccessors. cbn. split; [eexists; reflexivity|]. split; [exists []; rewrite app_nil_r; auto|eexists; reflexivity].
Qed.
Lemma moveToP_le : forall fuel t i t', moveToP o place fuel t i = Ok t' -> tle t t'.
Proof.
  induction fuel as [|fuel IH]; intros t i t' H; cbn [moveToP] in H; [discriminate|]. destruct (i <? length (otPre t))%nat; [|discriminate]. bind_inv H.
  apply refreshTable_le in E. destruct (contAt a i) as [k|]; [|discriminate]. destruct (equivMemo place a k i) as [t2 r] eqn:E2. apply equivMemo_same, same_tle in E2.
  assert (L : tle t t2) by (eapply tle_trans; [apply addSuccessors_le|eapply tle_trans; eauto]).
  destruct r; [injection H as <-; auto|]. eapply tle_trans; [exact L|eauto].
Qed.
Lemma closeLoop_le fuel : forall is t t' b, closeLoop o ordP place fuel t is = Ok (t', b) -> tle t t'.
Proof.
  induction is as [|i is IH]; intros t t' b H; cbn [closeLoop] in H; [injection H as <- <-; apply tle_refl|]. destruct (inP t i); [eauto|].
  destruct (confirmRel t i) as [t1 b1] eqn:E1. apply confirmRel_same, same_tle in E1. destruct b1; [eapply tle_trans; eauto|]. bind_inv H. destruct a as [t2 b2].
  apply jumpSame_same, same_tle in E. assert (L := tle_trans _ _ _ E1 E). destruct b2; [eapply tle_trans; eauto|].
  destruct (jumpAny place t2 i (ordP t2)) as [t3 b3] eqn:E3. apply jumpAny_same, same_tle in E3. assert (L3 := tle_trans _ _ _ L E3). destruct b3; [eapply tle_trans; eauto|].
  bind_inv H. bind_inv H. injection H as <- <-. apply moveToP_le in E0. apply refreshTable_le in E2. eapply tle_trans; [exact L3|eapply tle_trans; eauto].
Qed.
Lemma extRow_asked t i s t' row con : extRow o t i s = Ok (t', row, con) -> asked t t'.
Proof.
  unfold extRow. cbv zeta. destruct (symQuery o (otMem t) _) as [[y cs]|] eqn:E; [|discriminate]. intro H. injection H as <- _ _. apply symQuery_cache in E. destruct E as [L _].
  unfold asked. cbn. auto 10.
Qed.
Lemma equivNewFind_asked t i j s t' b : equivNewFind o t i j s = Ok (t', b) -> asked t t'.
Proof.
  unfold equivNewFind. intro H. bind_inv H. destruct a as [[t1 lr] lc]. bind_inv H. destruct a as [[t2 rr] rc]. injection H as <- <-. apply extRow_asked in E, E0.
  eapply asked_trans; [eapply asked_trans; eauto|]. apply same_asked, same_col.
Qed.
Lemma equivNewWith_asked t i j s ren t' b : equivNewWith o t i j s ren = Ok (t', b) -> asked t t'.
Proof.
  unfold equivNewWith. intro H. bind_inv H. destruct a as [[t1 lr] lc]. bind_inv H. destruct a as [[t2 rr] rc]. injection H as <- <-. apply extRow_asked in E, E0. eapply asked_trans; eauto.
Qed.
Lemma equivNew_asked t i j s t' b : equivNew o t i j s = Ok (t', b) -> asked t t'.
Proof.
  unfold equivNew. cbv zeta.
  assert (G : forall t' b, match mapAt (relAt t i) j with
    | Some r => do (t1, b) <- equivNewWith o t i j s r; if (b : bool) then Ok (colPut t1 (i, j, s) true, true) else equivNewFind o t1 i j s
    | None => equivNewFind o t i j s end = Ok (t', b) -> asked t t').
  { clear t' b. intros t' b H. destruct (mapAt (relAt t i) j); [|eapply equivNewFind_asked; eauto]. bind_inv H. destruct a as [t1 b1]. apply equivNewWith_asked in E.
    destruct b1; [injection H as <- <-; eapply asked_trans; [exact E|apply same_asked, same_col]|]. apply equivNewFind_asked in H. eapply asked_trans; eauto. }
  destruct (colAt t (i, j, s)) as [[n c]|]; [|apply G]. destruct (length (otSuf t) =? n)%nat; [|apply G]. intro H. injection H as <- <-. apply same_asked, same_refl.
Qed.
Lemma findBreaking_asked i j p : forall l t t' r, findBreaking o t i j p l = Ok (t', r) -> asked t t'.
Proof.
  induction l as [|s l IH]; intros t t' r H; cbn [findBreaking] in H; [injection H as <- <-; apply same_asked, same_refl|]. bind_inv H. destruct a as [t1 b]. apply equivNew_asked in E.
  destruct b; [|injection H as <- <-; auto]. eapply asked_trans; eauto.
Qed.
Lemma addSuffix_le t s t' : addSuffix o t s = Ok t' -> tle t t'.
Proof.
  unfold addSuffix. intro H. apply refreshTable_le in H. eapply tle_trans; [|exact H]. split; [apply cacheLe_refl|]. split; [reflexivity|]. cbn. split; [exists []; rewrite app_nil_r; auto|].
  split; [eexists; reflexivity|exists []; rewrite app_nil_r; auto].
Qed.
Lemma resolveDiscrete_le t i j a t' : resolveDiscrete o t i j a = Ok t' -> tle t t'.
Proof.
  unfold resolveDiscrete. intro H. bind_inv H. destruct a0 as [t1 r]. apply findBreaking_asked, asked_tle in E. destruct r; [|discriminate]. apply addSuffix_le in H. eapply tle_trans; eauto.
Qed.
Lemma resolveContinuous_le t i j t' b : resolveContinuous o t i j = Ok (t', b) -> tle t t'.
Proof.
  unfold resolveContinuous. intro H. bind_inv H. destruct a as [t1 r]. apply findBreaking_asked, asked_tle in E. destruct r; [|injection H as <- <-; auto].
  bind_inv H. injection H as <- <-. apply addSuffix_le in E0. eapply tle_trans; eauto.
Qed.
Lemma discreteConsistent_le i j : forall l t t' b, discreteConsistent o place t i j l = Ok (t', b) -> tle t t'.
Proof.
  induction l as [|a l IH]; intros t t' b H; cbn [discreteConsistent] in H; [injection H as <- <-; apply tle_refl|].
  destruct (discAt t i a); [|discriminate]. destruct (discAt t j a); [|discriminate]. destruct (equivMemo place t n n0) as [t1 r] eqn:E. apply equivMemo_same, same_tle in E.
  destruct r; [eapply tle_trans; eauto|]. bind_inv H. injection H as <- <-. apply resolveDiscrete_le in E0. eapply tle_trans; eauto.
Qed.
Lemma pairConsistent_le t i j t' b : pairConsistent o place t i j = Ok (t', b) -> tle t t'.
Proof.
  unfold pairConsistent. destruct (equivMemo place t i j) as [t1 r] eqn:E. apply equivMemo_same, same_tle in E. destruct r; [|intro H; injection H as <- <-; auto].
  intro H. bind_inv H. destruct a as [t2 b2]. apply discreteConsistent_le in E0. assert (L := tle_trans _ _ _ E E0). destruct b2; cbn [negb] in H; [|injection H as <- <-; auto].
  destruct (contAt t2 i); [|discriminate]. destruct (contAt t2 j); [|discriminate]. destruct (equivMemo place t2 n n0) as [t3 r3] eqn:E3. apply equivMemo_same, same_tle in E3.
  assert (L3 := tle_trans _ _ _ L E3). destruct r3; [injection H as <- <-; auto|]. bind_inv H. destruct a as [t4 b4]. injection H as <- <-. apply resolveContinuous_le in E1. eapply tle_trans; eauto.
Qed.
Lemma consistentLoop_le : forall ps t t' b, consistentLoop o place t ps = Ok (t', b) -> tle t t'.
Proof.
  induction ps as [|[i j] ps IH]; intros t t' b H; cbn [consistentLoop] in H; [injection H as <- <-; apply tle_refl|]. destruct (i <=? j)%nat; [eauto|].
  bind_inv H. destruct a as [t1 b1]. apply pairConsistent_le in E. destruct b1; [eapply tle_trans; eauto|injection H as <- <-; auto].
Qed.
Lemma moveAll_le fuel : forall l t t', moveAll o place fuel t l = Ok t' -> tle t t'.
Proof. induction l as [|i l IH]; intros t t' H; cbn [moveAll] in H; [injection H as <-; apply tle_refl|]. bind_inv H. apply moveToP_le in E. eapply tle_trans; eauto. Qed.
Lemma exteriorConsistent_le fuel t t' b : exteriorConsistent o ordP place fuel t = Ok (t', b) -> tle t t'.
Proof.
  unfold exteriorConsistent. intro H. bind_inv H. destruct a as [|k new]; [injection H as <- <-; apply tle_refl|]. bind_inv H. bind_inv H. injection H as <- <-.
  apply moveAll_le in E0. apply refreshTable_le in E1. eapply tle_trans; eauto.
Qed.
Lemma saturateOne_same t p k t' r : saturateOne place t p k = Ok (t', r) -> same t t'.
Proof.
  unfold saturateOne. destruct (equivMemo place t k p) as [t1 r1] eqn:E. apply equivMemo_same in E. destruct r1; [|intro H; injection H as <- <-; auto].
  destruct (mapAt (relAt t1 k) p) as [[|q l]|]; [|destruct (equivRows t1 k p [])|discriminate]; intro H; injection H as <- <-; auto; (eapply same_trans; [exact E|apply same_rel]).
Qed.
Lemma saturateLoop_same : forall l t t' new, saturateLoop place t l = Ok (t', new) -> same t t'.
Proof.
  induction l as [|p l IH]; intros t t' new H; cbn [saturateLoop] in H; [injection H as <- <-; apply same_refl|]. destruct (contAt t p); [|discriminate]. destruct (inP t n); [eauto|].
  bind_inv H. destruct a as [t1 r]. bind_inv H. destruct a as [t2 nw]. injection H as <- <-. apply saturateOne_same in E. eapply same_trans; eauto.
Qed.
Lemma timeSaturate_le fuel t t' b : timeSaturate o ordP place fuel t = Ok (t', b) -> tle t t'.
Proof.
  unfold timeSaturate. intro H. bind_inv H. destruct a as [t1 new]. apply saturateLoop_same, same_tle in E. destruct new as [|k new]; [injection H as <- <-; auto|]. bind_inv H. bind_inv H. injection H as <- <-.
  apply moveAll_le in E0. apply refreshTable_le in E1. eapply tle_trans; [exact E|eapply tle_trans; eauto].
Qed.
Lemma pickTarget_same i : forall js t t' r, pickTarget place t i js = (t', r) -> same t t'.
Proof.
  induction js as [|j js IH]; intros t t' r H; cbn [pickTarget] in H; [injection H as <- <-; apply same_refl|]. cbv zeta in H. destruct (inP t j).
  - destruct (equivMemo place t i j) as [t1 r1] eqn:E. apply equivMemo_same in E. destruct r1; [injection H as <- _; auto|]. apply IH in H. eapply same_trans; [exact E|]. eapply same_trans; [apply same_rel|exact H].
  - apply IH in H. eapply same_trans; [apply same_rel|exact H].
Qed.
Lemma morphLoop_same : forall is t t' ms, morphLoop place t is = (t', ms) -> same t t'.
Proof.
  induction is as [|i is IH]; intros t t' ms H; cbn [morphLoop] in H; [injection H as <- <-; apply same_refl|]. destruct (inP t i); [eauto|].
  destruct (pickTarget place t i (map fst (relAt t i))) as [t1 r] eqn:E. destruct (morphLoop place t1 is) as [t2 ms2] eqn:E2. injection H as <- _. apply pickTarget_same in E. eapply same_trans; eauto.
Qed.
Lemma toRecognizable_same t t' h : toRecognizable ordR place t = (t', h) -> same t t'.
Proof. unfold toRecognizable. cbv zeta. destruct (morphLoop place t (ordR t)) as [t1 ms] eqn:E. intro H. injection H as <- _. eapply morphLoop_same; eauto. Qed.
Lemma close_le fuel t t' b : close o ordP place fuel t = Ok (t', b) -> tle t t'.
Proof. apply closeLoop_le. Qed.
Lemma addPrefixes_le fuel : forall l t u t', addPrefixes o ordP place fuel t u l = Ok t' -> tle t t'.
Proof.
  induction l as [|x l IH]; intros t u t' H; cbn [addPrefixes] in H; [destruct u; [injection H as <-; apply tle_refl|discriminate]|].
  destruct (findPrefix t x); [|discriminate]. destruct (inP t n); [eauto|]. bind_inv H. bind_inv H. destruct a0 as [t2 b]. apply moveToP_le in E. apply close_le in E0. assert (L := tle_trans _ _ _ E E0).
  destruct b; [eapply tle_trans; eauto|injection H as <-; auto].
Qed.
Lemma cexEval_cache b (y : symOracle St) w y' c : cexEval (symAnswer o) b y w = Some (y', c) -> smCache y' = smCache y.
Proof. unfold cexEval, symAnswer. intro H. destruct (o (smOracle y) w) as [[s c']|]; [|discriminate]. injection H as <- _. reflexivity. Qed.
Lemma cexSearch_cache cur b : forall ts (y : symOracle St) w y' r, cexSearch (symAnswer o) cur b y w ts = Some (y', r) -> smCache y' = smCache y.
Proof.
  induction ts as [|t ts IH]; intros y w y' r H; cbn [cexSearch] in H; [injection H as <- _; reflexivity|].
  destruct (cexEval (symAnswer o) b y w) as [[y1 c1]|] eqn:E1; [|discriminate]. destruct (cexEval (symAnswer o) b y1 (splitApply t)) as [[y2 c2]|] eqn:E2; [|discriminate].
  apply cexEval_cache in E1, E2. destruct (negb (Bool.eqb c1 c2) && _); [injection H as <- _; congruence|]. apply IH in H. congruence.
Qed.
Lemma analyzeCEX_cache fuel h cur (y : symOracle St) w y' r : analyzeCEX fuel h cur (symAnswer o) y w = Some (y', r) -> smCache y' = smCache y.
Proof.
  unfold analyzeCEX. destruct (cexSplits fuel h w); [|discriminate]. destruct (rContains fuel h (lastMapped w l)); [|discriminate].
  destruct (cexEval (symAnswer o) b y w) as [[y1 c1]|] eqn:E1; [|discriminate]. apply cexEval_cache in E1. destruct c1; [intro H; injection H as <- _; auto|].
  intro H. apply cexSearch_cache in H. congruence.
Qed.
Lemma cacheLe_eq (y y' : symOracle St) : smCache y' = smCache y -> cacheLe y y'.
Proof. intro E. unfold cacheLe. rewrite E. auto. Qed.
Lemma withMem_asked (t : tbl) y : cacheLe (otMem t) y -> asked t (withMem t y).
Proof. unfold asked. cbn. auto 10. Qed.
Lemma handleCEX_le fuel t w t' : handleCEX o ordP ordR place fuel t w = Ok t' -> tle t t'.
Proof.
  unfold handleCEX. destruct (toRecognizable ordR place t) as [t1 h] eqn:E. apply toRecognizable_same, same_tle in E.
  destruct (analyzeCEX fuel h (sufEL t1) (symAnswer o) (otMem t1) w) as [[y c]|] eqn:E2; [|discriminate]. apply analyzeCEX_cache in E2.
  assert (L := tle_trans _ _ _ E (asked_tle _ _ (withMem_asked t1 y (cacheLe_eq _ _ E2)))).
  destruct c; intro H; [apply addSuffix_le in H|apply addPrefixes_le in H|discriminate]; eapply tle_trans; eauto.
Qed.
Lemma newTable_le fuel alpha y t : newTable o place fuel alpha y = Ok t -> tle (mkOT y alpha [frDefault] [brDefault] [] [] [] [] [] [] [] []) t.
Proof. unfold newTable. intro H. bind_inv H. apply moveToP_le in E. apply refreshTable_le in H. eapply tle_trans; eauto. Qed.
End Ops.
