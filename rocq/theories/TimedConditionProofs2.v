From Coq Require Import QArith ZArith Bool List Lia Lqa Qround Arith.
From Verif Require Import BoundsModel BoundsProofs ConstraintModel ZoneModel ZoneSpec ZoneProofs ZoneProofs2
  TimedConditionModel TimedConditionSpec TimedConditionProofs.
Import ListNotations.
Open Scope Q_scope.

(** * integer bounds *)
Lemma intB_min a b : intB a -> intB b -> intB (bmin a b).
Proof. intros. apply (bmin_case a b intB); auto. Qed.
Lemma intB_add a b : intB a -> intB b -> intB (badd a b).
Proof.
  destruct a as [c s|], b as [e t|]; cbn [badd intB]; auto. intros [z Hz] [y Hy]. exists (z + y)%Z.
  rewrite Qred_correct. rewrite inject_Z_plus. rewrite Hz, Hy. reflexivity.
Qed.
Lemma intCond_set1 m x y b : intCond m -> intB b -> intCond (set1 m x y b).
Proof.
  intros H B i j Hi Hj. rewrite dim_set1 in *. rewrite get_set1 by auto.
  destruct ((i =? x)%nat && (j =? y)%nat); auto.
Qed.
Lemma intCond_closeRow x m i : (x < dim m)%nat -> (i < dim m)%nat -> intCond m -> intCond (closeRow x m i).
Proof.
  intros Hx Hi H a j Ha Hj. rewrite dim_closeRow in *. unfold closeRow. rewrite get_mk by auto.
  destruct (a =? i)%nat; auto. apply intB_min; [auto|]. apply intB_add; auto.
Qed.
Lemma intCond_fold_closeRow x l : forall m, (x < dim m)%nat -> (forall i, In i l -> (i < dim m)%nat) ->
  intCond m -> intCond (fold_left (closeRow x) l m).
Proof.
  induction l as [|i l IH]; intros m Hx Hl H; cbn [fold_left]; auto.
  apply IH; [rewrite dim_closeRow; auto|intros k Hk; rewrite dim_closeRow; apply Hl; right; auto|].
  apply intCond_closeRow; auto. apply Hl; left; auto.
Qed.
Lemma intCond_close1 m x : (x < dim m)%nat -> intCond m -> intCond (close1 m x).
Proof. intros Hx H. apply intCond_fold_closeRow; auto. intros i Hi; apply in_seq in Hi; lia. Qed.
Lemma intCond_fold_close1 l : forall m, (forall i, In i l -> (i < dim m)%nat) ->
  intCond m -> intCond (fold_left close1 l m).
Proof.
  induction l as [|i l IH]; intros m Hl H; cbn [fold_left]; auto.
  apply IH; [intros k Hk; rewrite dim_close1; apply Hl; right; auto|].
  apply intCond_close1; auto. apply Hl; left; auto.
Qed.
Lemma intCond_canonize m : intCond m -> intCond (canonize m).
Proof. intro H. apply intCond_fold_close1; auto. intros i Hi; apply in_seq in Hi; lia. Qed.
Lemma intCond_restrictUpper m i j b f : (2 <= dim m)%nat -> (i < tcSize m)%nat -> (j < tcSize m)%nat ->
  intCond m -> intB b -> intCond (restrictUpperBound m i j b f).
Proof.
  intros D Hi Hj H B. apply intCond_canonize. apply intCond_set1; auto.
  destruct f; auto. apply intB_min; auto. apply H; [unfold tcSize in *; lia|apply colOf_lt; auto].
Qed.
Lemma intCond_restrictLower m i j b f : (2 <= dim m)%nat -> (i < tcSize m)%nat -> (j < tcSize m)%nat ->
  intCond m -> intB b -> intCond (restrictLowerBound m i j b f).
Proof.
  intros D Hi Hj H B. apply intCond_canonize. apply intCond_set1; auto.
  destruct f; auto. apply intB_min; auto. apply H; [apply colOf_lt; auto|unfold tcSize in *; lia].
Qed.

(** * the unit of a number *)
Definition ruB (q : Q) : bound := if Qeq_bool (qfloor q) q then Fin q true else Fin (qfloor q + 1) false.
Definition rlB (q : Q) : bound := if Qeq_bool (qfloor q) q then Fin (- q) true else Fin (- qfloor q) false.

Lemma qfloor_le q : qfloor q <= q. Proof. apply Qfloor_le. Qed.
Lemma qfloor_lt q : q < qfloor q + 1.
Proof. unfold qfloor. assert (H := Qlt_floor q). rewrite inject_Z_plus in H. exact H. Qed.
Lemma Qeq_bool_false p q : Qeq_bool p q = false -> ~ p == q.
Proof. intros H E. apply Qeq_bool_iff in E. congruence. Qed.

Lemma int_le_lt (a b : Z) : (a < b)%Z -> inject_Z a + 1 <= inject_Z b.
Proof. intro H. change 1 with (inject_Z 1). rewrite <- inject_Z_plus. rewrite <- Zle_Qle. lia. Qed.

Lemma floor_unique z q : inject_Z z <= q -> q < inject_Z z + 1 -> Qfloor q = z.
Proof.
  intros H1 H2. assert (A := Qfloor_le q). assert (B := Qlt_floor q). rewrite inject_Z_plus in B.
  destruct (Z.lt_trichotomy (Qfloor q) z) as [C|[C|C]]; auto; exfalso; apply int_le_lt in C; change (inject_Z 1) with 1 in *; lra.
Qed.

Lemma sameUnit_sat p q : sameUnit p q <-> bsat (ruB p) q /\ bsat (rlB p) (- q).
Proof.
  unfold sameUnit, ruB, rlB. assert (Hp := qfloor_le p). assert (Hp2 := qfloor_lt p).
  assert (Hq := qfloor_le q). assert (Hq2 := qfloor_lt q). unfold qfloor in *.
  destruct (Qeq_bool (inject_Z (Qfloor p)) p) eqn:E; cbn [bsat].
  - apply Qeq_bool_eq in E. split.
    + intros [F G]. assert (G' := proj1 G ltac:(lra)). rewrite <- F in G'. lra.
    + intros [A B]. assert (P : p == q) by lra. split.
      * apply Qfloor_comp; auto.
      * split; intro H.
        -- rewrite <- (Qfloor_comp p q P). lra.
        -- lra.
  - apply Qeq_bool_false in E. split.
    + intros [F G]. rewrite F in *. split; [lra|].
      assert (~ q == inject_Z (Qfloor q)) by (intro K; apply E; symmetry; apply G; auto). lra.
    + intros [A B]. assert (F : Qfloor q = Qfloor p) by (apply floor_unique; lra).
      split; [auto|]. rewrite F. split; intro H; lra.
Qed.

Lemma ruB_self q : bsat (ruB q) q.
Proof.
  unfold ruB. destruct (Qeq_bool (qfloor q) q) eqn:E; cbn [bsat]; [lra|]. apply qfloor_lt.
Qed.
Lemma rlB_self q : bsat (rlB q) (- q).
Proof.
  unfold rlB. destruct (Qeq_bool (qfloor q) q) eqn:E; cbn [bsat]; [lra|].
  apply Qeq_bool_false in E. assert (H := qfloor_le q). lra.
Qed.
Lemma ruB_int q : intB (ruB q).
Proof.
  unfold ruB. destruct (Qeq_bool (qfloor q) q) eqn:E; cbn [intB].
  - apply Qeq_bool_eq in E. exists (Qfloor q). symmetry; exact E.
  - exists (Qfloor q + 1)%Z. rewrite inject_Z_plus. reflexivity.
Qed.
Lemma rlB_int q : intB (rlB q).
Proof.
  unfold rlB. destruct (Qeq_bool (qfloor q) q) eqn:E; cbn [intB].
  - apply Qeq_bool_eq in E. exists (- Qfloor q)%Z. rewrite inject_Z_opp. rewrite <- E at 1. reflexivity.
  - exists (- Qfloor q)%Z. rewrite inject_Z_opp. reflexivity.
Qed.
(** an integer bound that admits q admits the whole unit of q *)
Lemma ruB_least b q : intB b -> bsat b q -> ble (ruB q) b = true.
Proof.
  intros I H. apply ble_spec. intros p Hp. unfold ruB in Hp.
  destruct b as [c s|]; [|cbn; auto]. destruct I as [z Hz].
  destruct (Qeq_bool (qfloor q) q) eqn:E.
  - cbn [bsat] in Hp. destruct s; cbn [bsat] in *; lra.
  - cbn [bsat] in Hp. apply Qeq_bool_false in E. assert (K := qfloor_le q). unfold qfloor in *.
    assert (inject_Z (Qfloor q) < inject_Z z) by (destruct s; cbn [bsat] in *; lra).
    rewrite <- Zlt_Qlt in H0. apply int_le_lt in H0. destruct s; cbn [bsat] in *; lra.
Qed.
Lemma rlB_least b q : intB b -> bsat b (- q) -> ble (rlB q) b = true.
Proof.
  intros I H. apply ble_spec. intros p Hp. unfold rlB in Hp.
  destruct b as [c s|]; [|cbn; auto]. destruct I as [z Hz].
  destruct (Qeq_bool (qfloor q) q) eqn:E.
  - cbn [bsat] in Hp. destruct s; cbn [bsat] in *; lra.
  - cbn [bsat] in Hp. apply Qeq_bool_false in E. assert (K := qfloor_lt q). unfold qfloor in *.
    assert (inject_Z (- z) < inject_Z (Qfloor q + 1)).
    { rewrite inject_Z_opp, inject_Z_plus. change (inject_Z 1) with 1. destruct s; cbn [bsat] in *; lra. }
    rewrite <- Zlt_Qlt in H0. apply int_le_lt in H0. rewrite inject_Z_opp, inject_Z_plus in H0. change (inject_Z 1) with 1 in H0.
    destruct s; cbn [bsat] in *; lra.
Qed.

(** * the constructor from accumulated durations *)
Definition accDiff (acc : list Q) (i j : nat) : Q :=
  nth i acc 0 - (if (j + 1 <? length acc)%nat then nth (j + 1) acc 0 else 0).
(** the step with any pair of bounds satisfied by the concrete value *)
Definition forceStep (f g : Q -> bound) (acc : list Q) (m : tcond) (p : nat * nat) : tcond :=
  let q := accDiff acc (fst p) (snd p) in
  restrictLowerBound (restrictUpperBound m (fst p) (snd p) (f q) true) (fst p) (snd p) (g q) true.

Lemma regionStep_force acc i m j : regionStep acc i m j = forceStep ruB rlB acc m (i, j).
Proof.
  unfold regionStep, forceStep, accDiff, ruB, rlB. cbn [fst snd].
  match goal with |- context [Qeq_bool ?a ?b] => destruct (Qeq_bool a b) end; reflexivity.
Qed.

Lemma in_ijPairs n i j : In (i, j) (ijPairs n) <-> (i <= j)%nat /\ (j < n)%nat.
Proof.
  unfold ijPairs. rewrite in_flat_map. split.
  - intros [x [Hx H]]. apply in_map_iff in H. destruct H as [y [E Hy]]. inversion E; subst.
    apply in_seq in Hx. apply in_seq in Hy. lia.
  - intros [H1 H2]. exists i. split; [apply in_seq; lia|]. apply in_map_iff. exists j. split; [reflexivity|].
    apply in_seq. lia.
Qed.

Definition sem (f g : Q -> bound) (acc : list Q) (n : nat) (ps : list (nat * nat)) (u : nat -> Q) : Prop :=
  forall i j, In (i, j) ps ->
    let c := if (j =? n - 1)%nat then 0%nat else (j + 2)%nat in
    bsat (f (accDiff acc i j)) (u (i + 1)%nat - u c) /\ bsat (g (accDiff acc i j)) (u c - u (i + 1)%nat).

(** the concrete values *)
Definition uacc (acc : list Q) (k : nat) : Q := ext (fun i => nth i acc 0) k.

Lemma uacc_diff acc i j : (i <= j)%nat -> (j < length acc)%nat ->
  uacc acc (i + 1) - uacc acc (if (j =? length acc - 1)%nat then 0%nat else (j + 2)%nat) == accDiff acc i j.
Proof.
  intros Hij Hj. unfold uacc, accDiff. replace (i + 1)%nat with (S i) by lia. cbn [ext].
  destruct (Nat.eqb_spec j (length acc - 1)) as [E|E]; destruct (Nat.ltb_spec (j + 1) (length acc)); try lia.
  - cbn [ext]. reflexivity.
  - replace (j + 2)%nat with (S (j + 1)) by lia. cbn [ext]. reflexivity.
Qed.

Lemma sem_app f g acc n p q u : sem f g acc n (p ++ q) u <-> sem f g acc n p u /\ sem f g acc n q u.
Proof.
  unfold sem. split.
  - intro H. split; intros i j Hi; apply H; apply in_or_app; auto.
  - intros [A B] i j Hi. apply in_app_or in Hi. destruct Hi; auto.
Qed.

Lemma force_inv f g acc (F : forall q, bsat (f q) q) (G : forall q, bsat (g q) (- q))
  (P : matrix -> Prop)
  (HP : forall m i j, (2 <= dim m)%nat -> (i <= j)%nat -> (j < tcSize m)%nat -> P m ->
        Z_ m (uacc acc) -> dim m = S (length acc) ->
        ble (f (accDiff acc i j)) (get m (i + 1) (colOf m j)) = true /\
        P (restrictUpperBound m i j (f (accDiff acc i j)) true) /\
        forall m', m' = restrictUpperBound m i j (f (accDiff acc i j)) true -> Z_ m' (uacc acc) ->
        ble (g (accDiff acc i j)) (get m' (colOf m j) (i + 1)) = true /\
        P (restrictLowerBound m' i j (g (accDiff acc i j)) true)) :
  (forall q q', q == q' -> forall p, bsat (f q) p -> bsat (f q') p) ->
  forall ps done m, (1 <= length acc)%nat -> (forall i j, In (i, j) ps -> (i <= j)%nat /\ (j < length acc)%nat) ->
  dim m = S (length acc) -> P m -> Z_ m (uacc acc) ->
  (forall u, Z_ m u <-> sem f g acc (length acc) done u) ->
  let r := fold_left (forceStep f g acc) ps m in
  dim r = S (length acc) /\ P r /\ Z_ r (uacc acc) /\ (forall u, Z_ r u <-> sem f g acc (length acc) (done ++ ps) u).
Proof.
  intros FE. induction ps as [|[i j] ps IH]; intros done m L1 Hps D Pm Zm HZ; cbn [fold_left].
  - rewrite app_nil_r. auto.
  - destruct (Hps i j ltac:(left; auto)) as [Hij Hj].
    assert (S1 : tcSize m = length acc) by (unfold tcSize; rewrite D; reflexivity).
    assert (D2 : (2 <= dim m)%nat) by lia.
    assert (Hj' : (j < tcSize m)%nat) by lia.
    assert (Ec : colOf m j = (if (j =? length acc - 1)%nat then 0%nat else (j + 2)%nat)) by (unfold colOf; rewrite S1; reflexivity).
    assert (Hc := colOf_lt m j D2 Hj').
    assert (Hi1 : (i + 1 < dim m)%nat) by lia.
    assert (DV := uacc_diff acc i j Hij Hj). rewrite <- Ec in DV.
    destruct (HP m i j D2 Hij Hj' Pm Zm D) as [B1 [P1 HP2]].
    set (q := accDiff acc i j) in *.
    set (m1 := restrictUpperBound m i j (f q) true) in *.
    assert (D1 : dim m1 = dim m) by (apply dim_restrictUpper).
    assert (Z1 : forall u, Z_ m1 u <-> Z_ m u /\ bsat (f q) (u (i + 1)%nat - u (colOf m j))).
    { intro u. unfold m1, restrictUpperBound. rewrite canonize_Z. apply set1_force_Z; auto. }
    assert (Z1u : Z_ m1 (uacc acc)).
    { apply Z1. split; [auto|]. eapply bsat_ext; [symmetry; exact DV|]. apply F. }
    destruct (HP2 m1 eq_refl Z1u) as [B2 P2].
    set (m2 := restrictLowerBound m1 i j (g q) true) in *.
    assert (C1 : colOf m1 j = colOf m j) by (unfold colOf, tcSize; rewrite D1; reflexivity).
    assert (Z2 : forall u, Z_ m2 u <-> Z_ m1 u /\ bsat (g q) (u (colOf m j) - u (i + 1)%nat)).
    { intro u. unfold m2, restrictLowerBound. rewrite canonize_Z, C1. apply set1_force_Z; rewrite ?D1; auto. }
    assert (Z2u : Z_ m2 (uacc acc)).
    { apply Z2. split; [auto|]. eapply bsat_ext; [|apply G]. rewrite <- DV. ring. }
    assert (D2' : dim m2 = S (length acc)) by (unfold m2; rewrite dim_restrictLower; lia).
    assert (IH' := IH (done ++ [(i, j)]) m2 L1 ltac:(intros; apply Hps; right; auto) D2' P2 Z2u).
    assert (K : forall u, Z_ m2 u <-> sem f g acc (length acc) (done ++ [(i, j)]) u).
    { intro u. rewrite sem_app, Z2, Z1, HZ, Ec. unfold sem at 3. cbn [In]. split.
      - intros [[A B] C]. split; [auto|]. intros i' j' [E|[]]. inversion E; subst i' j'. cbv zeta. fold q. auto.
      - intros [A B]. destruct (B i j ltac:(auto)) as [B1' B2']. cbv zeta in *. fold q in B1', B2'. auto. }
    specialize (IH' K). cbv zeta in IH'. rewrite <- app_assoc in IH'. exact IH'.
Qed.

Lemma ztop_Z n u : Z_ (ztop n) u.
Proof. intros i j Hi Hj. unfold ztop in *. rewrite dim_mk in *. rewrite get_mk by auto. cbn. auto. Qed.

Lemma ruB_ext q q' : q == q' -> forall p, bsat (ruB q) p -> bsat (ruB q') p.
Proof.
  intros E p. unfold ruB. assert (F : qfloor q == qfloor q') by (unfold qfloor; rewrite (Qfloor_comp q q' E); reflexivity).
  destruct (Qeq_bool (qfloor q) q) eqn:A; destruct (Qeq_bool (qfloor q') q') eqn:B; cbn [bsat]; intro H.
  - lra.
  - apply Qeq_bool_eq in A. apply Qeq_bool_false in B. lra.
  - apply Qeq_bool_false in A. apply Qeq_bool_eq in B. lra.
  - lra.
Qed.

Lemma tcOf_fold acc : tcOf acc = fold_left (forceStep ruB rlB acc) (ijPairs (length acc)) (ztop (length acc + 1)).
Proof.
  unfold tcOf. generalize (ztop (length acc + 1)). induction (ijPairs (length acc)) as [|[i j] ps IH]; intro m; cbn [fold_left]; auto.
  rewrite IH. cbn [fst snd]. rewrite regionStep_force. reflexivity.
Qed.

Lemma intCond_ztop n : intCond (ztop n).
Proof. intros i j Hi Hj. unfold ztop in *. rewrite dim_mk in *. rewrite get_mk by auto. exact I. Qed.

Lemma tcOf_sem acc : (1 <= length acc)%nat ->
  dim (tcOf acc) = S (length acc) /\ intCond (tcOf acc) /\ Z_ (tcOf acc) (uacc acc) /\
  (forall u, Z_ (tcOf acc) u <-> sem ruB rlB acc (length acc) (ijPairs (length acc)) u).
Proof.
  intro L. rewrite tcOf_fold.
  assert (H := force_inv ruB rlB acc ruB_self rlB_self intCond).
  assert (HP : forall m i j, (2 <= dim m)%nat -> (i <= j)%nat -> (j < tcSize m)%nat -> intCond m ->
        Z_ m (uacc acc) -> dim m = S (length acc) ->
        ble (ruB (accDiff acc i j)) (get m (i + 1) (colOf m j)) = true /\
        intCond (restrictUpperBound m i j (ruB (accDiff acc i j)) true) /\
        forall m', m' = restrictUpperBound m i j (ruB (accDiff acc i j)) true -> Z_ m' (uacc acc) ->
        ble (rlB (accDiff acc i j)) (get m' (colOf m j) (i + 1)) = true /\
        intCond (restrictLowerBound m' i j (rlB (accDiff acc i j)) true)).
  { intros m i j D Hij Hj Im Zm Dm.
    assert (Hc := colOf_lt m j D Hj). assert (Hi : (i + 1 < dim m)%nat) by (unfold tcSize in *; lia).
    assert (DV := uacc_diff acc i j Hij ltac:(unfold tcSize in *; lia)).
    assert (Ec : colOf m j = (if (j =? length acc - 1)%nat then 0%nat else (j + 2)%nat)) by (unfold colOf, tcSize; rewrite Dm; reflexivity).
    rewrite <- Ec in DV.
    assert (I1 : intCond (restrictUpperBound m i j (ruB (accDiff acc i j)) true)).
    { apply intCond_restrictUpper; auto; [lia|apply ruB_int]. }
    split; [|split; [exact I1|]].
    - apply ruB_least; [apply Im; auto|]. eapply bsat_ext; [exact DV|]. apply Zm; auto.
    - intros m' -> Z'. assert (D' := dim_restrictUpper m i j (ruB (accDiff acc i j)) true). split.
      + apply rlB_least; [apply I1; rewrite D'; auto|]. eapply bsat_ext; [|apply Z'; rewrite D'; auto]. rewrite <- DV. ring.
      + apply intCond_restrictLower; rewrite ?tcSize_restrictUpper, ?D'; auto; [lia|apply rlB_int]. }
  specialize (H HP ruB_ext (ijPairs (length acc)) [] (ztop (length acc + 1)) L).
  cbv zeta in H. apply H.
  - intros i j Hi. apply in_ijPairs in Hi. exact Hi.
  - unfold ztop. rewrite dim_mk. lia.
  - apply intCond_ztop.
  - apply ztop_Z.
  - intro u. split; [intros _ i j []|intros _; apply ztop_Z].
Qed.

(** the exact condition *)
Lemma makeExact_fold acc : makeExact acc = fold_left (forceStep (fun q => Fin q true) (fun q => Fin (- q) true) acc) (ijPairs (length acc)) (ztop (length acc + 1)).
Proof.
  unfold makeExact. generalize (ztop (length acc + 1)). induction (ijPairs (length acc)) as [|[i j] ps IH]; intro m; cbn [fold_left]; auto.
Qed.

Lemma point_least b q : bsat b q -> ble (Fin q true) b = true.
Proof. intro H. apply ble_spec. intros p Hp. destruct b as [c [|]|]; cbn [bsat] in *; auto; lra. Qed.

Lemma makeExact_sem acc : (1 <= length acc)%nat ->
  dim (makeExact acc) = S (length acc) /\ Z_ (makeExact acc) (uacc acc) /\
  (forall u, Z_ (makeExact acc) u <-> sem (fun q => Fin q true) (fun q => Fin (- q) true) acc (length acc) (ijPairs (length acc)) u).
Proof.
  intro L. rewrite makeExact_fold.
  assert (H := force_inv (fun q => Fin q true) (fun q => Fin (- q) true) acc ltac:(intro q; cbn; lra) ltac:(intro q; cbn; lra) (fun _ => True)).
  assert (HP : forall m i j, (2 <= dim m)%nat -> (i <= j)%nat -> (j < tcSize m)%nat -> True ->
        Z_ m (uacc acc) -> dim m = S (length acc) ->
        ble (Fin (accDiff acc i j) true) (get m (i + 1) (colOf m j)) = true /\ True /\
        forall m', m' = restrictUpperBound m i j (Fin (accDiff acc i j) true) true -> Z_ m' (uacc acc) ->
        ble (Fin (- accDiff acc i j) true) (get m' (colOf m j) (i + 1)) = true /\ True).
  { intros m i j D Hij Hj _ Zm Dm.
    assert (Hc := colOf_lt m j D Hj). assert (Hi : (i + 1 < dim m)%nat) by (unfold tcSize in *; lia).
    assert (DV := uacc_diff acc i j Hij ltac:(unfold tcSize in *; lia)).
    assert (Ec : colOf m j = (if (j =? length acc - 1)%nat then 0%nat else (j + 2)%nat)) by (unfold colOf, tcSize; rewrite Dm; reflexivity).
    rewrite <- Ec in DV. split; [|split; [exact I|]].
    - apply point_least. eapply bsat_ext; [exact DV|]. apply Zm; auto.
    - intros m' -> Z'. assert (D' := dim_restrictUpper m i j (Fin (accDiff acc i j) true) true). split; [|auto].
      apply point_least. eapply bsat_ext; [|apply Z'; rewrite D'; auto]. rewrite <- DV. ring. }
  assert (FE : forall q q' : Q, q == q' -> forall p, bsat (Fin q true) p -> bsat (Fin q' true) p) by (intros q q' E p; cbn; lra).
  specialize (H HP FE (ijPairs (length acc)) [] (ztop (length acc + 1)) L).
  cbv zeta in H. assert (K : forall (A B C D0 : Prop), (A /\ B /\ C /\ D0) -> A /\ C /\ D0) by tauto. apply K in H; auto.
  - intros i j Hi. apply in_ijPairs in Hi. exact Hi.
  - unfold ztop. rewrite dim_mk. lia.
  - apply ztop_Z.
  - intro u. split; [intros _ i j []|intros _; apply ztop_Z].
Qed.
