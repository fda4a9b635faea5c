From Coq Require Import QArith ZArith Bool List Lia Lqa Qround Arith Sorted Permutation.
From Verif Require Import BoundsModel BoundsProofs ConstraintModel ZoneModel ZoneSpec ZoneProofs
  AutomatonModel TimedWordModel TimedWordSpec TimedConditionModel TimedConditionSpec TimedConditionProofs TimedConditionProofs2
  TimedConditionProofs3 TimedConditionProofs4 ElementaryModel ElementarySpec ElementaryProofs ElementaryProofs2 RegionalModel RegionalSpec RegionalProofs RegionalProofs2 RegionalProofs3.
Import ListNotations.
Open Scope Q_scope.

(** * the order depends on the region only *)
Lemma frac_lt_floor p q : frac p < frac q <-> Qfloor (p - q) = (Qfloor p - Qfloor q - 1)%Z.
Proof.
  assert (A := frac_bounds p). assert (B := frac_bounds q). unfold frac, qfloor in *.
  set (a := Qfloor p) in *. set (b := Qfloor q) in *.
  split; intro H.
  - apply floor_unique; unfold Z.sub; rewrite !inject_Z_plus, !inject_Z_opp; change (inject_Z 1) with 1; lra.
  - assert (C := Qfloor_le (p - q)). assert (D := qfloor_lt (p - q)). unfold qfloor in D. rewrite H in C, D.
    unfold Z.sub in C, D. rewrite !inject_Z_plus, !inject_Z_opp in C, D. change (inject_Z 1) with 1 in *. lra.
Qed.
Lemma sameUnit_opp p q : sameUnit p q -> sameUnit (- p) (- q).
Proof.
  intro H. destruct (unit_cases p) as [z [E|[A B]]].
  - apply (sameUnit_point p z E) in H. apply (sameUnit_point (- p) (- z)); rewrite inject_Z_opp; lra.
  - apply (sameUnit_open p z A B) in H. assert (X : inject_Z (- z - 1) == - inject_Z z - 1) by (unfold Z.sub; rewrite inject_Z_plus, !inject_Z_opp; reflexivity).
    apply (sameUnit_open (- p) (- z - 1)); rewrite X; lra.
Qed.
Lemma frac_lt_same p q p' q' : sameUnit p p' -> sameUnit q q' -> sameUnit (p - q) (p' - q') -> (frac p < frac q <-> frac p' < frac q').
Proof. intros [A _] [B _] [C _]. rewrite !frac_lt_floor. rewrite A, B, C. tauto. Qed.
Lemma frac_zero p : frac p == 0 <-> p == inject_Z (Qfloor p).
Proof. unfold frac, qfloor. split; intro; lra. Qed.
Lemma frac_zero_same p p' : sameUnit p p' -> (frac p == 0 <-> frac p' == 0).
Proof. intros [A B]. rewrite !frac_zero. exact B. Qed.
(** an order of fractional parts of values whose differences are in the same units *)
Lemma order_same o n v v' : (forall i, (i < n)%nat -> sameUnit (v i) (v' i)) ->
  (forall i j, (i < j)%nat -> (j < n)%nat -> sameUnit (v i - v j) (v' i - v' j)) ->
  orderOf o n (fun i => frac (v i)) -> orderOf o n (fun i => frac (v' i)).
Proof.
  intros U D H. apply orderOf_transfer with (fun i => frac (v i)); auto.
  - intros. apply frac_bounds.
  - intros i Hi. apply frac_zero_same. auto.
  - intros i j Hi Hj. destruct (Nat.lt_trichotomy i j) as [K|[K|K]].
    + apply frac_lt_same; auto.
    + subst. split; intro X; exfalso; lra.
    + apply frac_lt_same; auto. assert (S := sameUnit_opp _ _ (D j i K Hi)). eapply sameUnit_ext; [| |exact S]; lra.
Qed.
Lemma T_since d i j : (i < j)%nat -> (j < length d)%nat -> since d i - since d j == T d i (j - 1).
Proof. intros A B. unfold since. rewrite !T_acc by lia. replace (S (j - 1)) with j by lia. lra. Qed.
Lemma T_upto d i j : (i < j)%nat -> (j < length d)%nat -> upto d j - upto d i == T d (S i) j.
Proof. intros A B. unfold upto. rewrite !T_acc by lia. lra. Qed.
Lemma since_same d d' i : sameRegion d d' -> (i < length d)%nat -> sameUnit (since d i) (since d' i).
Proof. intros [L H] K. unfold since. rewrite <- L. apply H; lia. Qed.
Lemma upto_same d d' i : sameRegion d d' -> (i < length d)%nat -> sameUnit (upto d i) (upto d' i).
Proof. intros [L H] K. unfold upto. apply H; lia. Qed.
Lemma since_order_same o d d' : sameRegion d d' -> orderOf o (length d) (fun i => frac (since d i)) -> orderOf o (length d') (fun i => frac (since d' i)).
Proof.
  intros R H. assert (L : length d = length d') by apply R. rewrite <- L. revert H. apply order_same.
  - intros i Hi. apply since_same; auto.
  - intros i j Hij Hj. eapply sameUnit_ext; [symmetry; apply T_since; auto|symmetry; apply T_since; [auto|lia]|]. apply R; lia.
Qed.
Lemma uptoneg_order_same o d d' : sameRegion d d' -> orderOf o (length d) (fun i => frac (- upto d i)) -> orderOf o (length d') (fun i => frac (- upto d' i)).
Proof.
  intros R H. assert (L : length d = length d') by apply R. rewrite <- L. revert H. apply order_same with (v := fun i => - upto d i) (v' := fun i => - upto d' i).
  - intros i Hi. apply sameUnit_opp. apply upto_same; auto.
  - intros i j Hij Hj. assert (E : - upto d i - - upto d j == T d (S i) j) by (rewrite <- (T_upto d i j) by auto; lra).
    assert (E' : - upto d' i - - upto d' j == T d' (S i) j) by (rewrite <- (T_upto d' i j) by (auto; lia); lra).
    eapply sameUnit_ext; [symmetry; exact E|symmetry; exact E'|]. apply R; lia.
Qed.
Lemma upto_order_same o d d' : sameRegion d d' -> orderOf o (length d) (fun i => frac (upto d i)) -> orderOf o (length d') (fun i => frac (upto d' i)).
Proof.
  intros R H. assert (L : length d = length d') by apply R. rewrite <- L. revert H. apply order_same.
  - intros i Hi. apply upto_same; auto.
  - intros i j Hij Hj. eapply sameUnit_ext; [| |apply sameUnit_opp; apply R; [|exact Hj]]; [rewrite <- (T_upto d i j) by auto; lra|rewrite <- (T_upto d' i j) by (auto; lia); lra|lia].
Qed.

Lemma T_ext : forall d d' i j, sameDurs d d' -> T d i j == T d' i j.
Proof.
  intros d d' i j S. unfold T. generalize (Datatypes.S j - i)%nat. intro n.
  assert (K : sameDurs (skipn i d) (skipn i d')).
  { revert i. induction S as [|x y l l' E F IH]; intros [|i]; cbn; try constructor; auto. }
  revert n. induction K as [|x y l l' E F IH]; intros [|n]; cbn; try reflexivity. rewrite E, IH. reflexivity.
Qed.
Lemma Forall2_len {A B} (R : A -> B -> Prop) l l' : Forall2 R l l' -> length l = length l'.
Proof. induction 1; cbn; congruence. Qed.
Lemma sameDurs_region d d' : sameDurs d d' -> sameRegion d d'.
Proof.
  intro S. split; [apply (Forall2_len _ _ _ S)|]. intros i j _ _. eapply sameUnit_ext; [reflexivity|apply T_ext; exact S|apply sameUnit_refl].
Qed.

(** * forward regional languages *)
Lemma regionalF_same x w w' : regionalF x w -> tw w' = tw w -> sameRegion (td w) (td w') -> regionalF x w'.
Proof.
  intros [A [B [C D]]] E R. assert (L : length (td w) = length (td w')) by apply R. split; [congruence|]. split.
  - unfold wfTW in *. rewrite E. congruence.
  - split; [eapply regionCond_same; eauto|]. apply since_order_same with (td w); auto.
Qed.
Lemma regionalF_members x w w' : regionalF x w -> (inElem (fel x) w' <-> tw w' = tw w /\ sameRegion (td w) (td w')).
Proof.
  intros [A [B [C D]]]. unfold inElem. rewrite <- A. rewrite (regionCond_exact _ _ C). reflexivity.
Qed.
Lemma wfTW_pos w : wfTW w -> (0 < length (td w))%nat.
Proof. unfold wfTW. lia. Qed.

Lemma frFromTimedWord_regional w : wfTW w -> regionalF (frFromTimedWord w) w.
Proof.
  intro W. assert (P := wfTW_pos w W). assert (N : td w <> []) by (destruct (td w); [cbn in P; lia|discriminate]).
  split; [reflexivity|]. split; [auto|]. split; [apply tcOf_regionCond; auto|]. cbn [frFromTimedWord fo].
  assert (O := foOf_order (map frac (accum (td w)))). rewrite map_length, accum_length in O.
  apply orderOf_ext with (fun i => nth i (map frac (accum (td w))) 0).
  - apply O. intros q Hq. apply in_map_iff in Hq. destruct Hq as [y [<- _]]. apply frac_bounds.
  - intros i Hi. rewrite (nth_indep _ 0 (frac 0)) by (rewrite map_length, accum_length; auto). rewrite map_nth. apply frac_ext.
    rewrite accum_nth. unfold since. rewrite T_acc by lia.
    replace (S (length (td w) - 1)) with (length (td w)) by lia. assert (Z1 : accd (td w) (length (td w)) == 0) by (unfold accd; rewrite skipn_all; reflexivity). rewrite Z1. lra.
  - intros i Hi. rewrite (nth_indep _ 0 (frac 0)) by (rewrite map_length, accum_length; auto). rewrite map_nth. apply frac_bounds.
Qed.

Lemma succVars_block o n f : (0 < n)%nat -> orderOf o n f -> NoDup (foSuccVars o).
Proof.
  intros Hn H. assert (ND := orderOf_nodup _ _ _ H). unfold foSuccVars. destruct (blocks o) as [|[|z0 z] r] eqn:E; [constructor| |].
  - apply (nodup_block ([] :: r)); auto. destruct (exists_last (l := [] :: r)) as [p [b Ep]]; [discriminate|]. rewrite Ep. rewrite last_last. apply in_app_iff. cbn. auto.
  - apply (nodup_block ((z0 :: z) :: r)); cbn; auto.
Qed.
Lemma predVars_block o n f : orderOf o n f -> NoDup (foPredVars o).
Proof.
  intros H. assert (ND := orderOf_nodup _ _ _ H). unfold foPredVars. destruct (blocks o) as [|[|z0 z] r] eqn:E; [constructor| |].
  - destruct r as [|b r]; [constructor|]. apply (nodup_block ([] :: b :: r)); cbn; auto.
  - apply (nodup_block ((z0 :: z) :: r)); cbn; auto.
Qed.

Lemma addBack_same_region d e e' : (0 < length d)%nat -> (forall i, (i < length d)%nat -> sameUnit (since d i + e) (since d i + e')) -> sameRegion (addBack d e) (addBack d e').
Proof.
  intros P H. split; [rewrite !addBack_length; auto|]. rewrite addBack_length. intros i j Hij Hj.
  eapply sameUnit_ext; [symmetry; apply T_addBack; auto|symmetry; apply T_addBack; auto|].
  destruct (j =? length d - 1)%nat eqn:E; [|apply sameUnit_refl]. apply Nat.eqb_eq in E. subst j. apply H. lia.
Qed.
Lemma addBack_zero d : sameDurs d (addBack d 0).
Proof. induction d as [|x [|y r] IH]; [constructor| |]. { constructor; [lra|constructor]. } cbn [addBack]. constructor; [reflexivity|]. exact IH. Qed.
Lemma addBack_add d a b : sameDurs (addBack (addBack d a) b) (addBack d (a + b)).
Proof.
  induction d as [|x [|y r] IH]; [constructor| |]. { constructor; [lra|constructor]. }
  cbn [addBack]. cbn [addBack] in IH. destruct r as [|z r]; cbn [addBack] in *; constructor; auto; reflexivity.
Qed.
Lemma addBack_ext d a b : a == b -> sameDurs (addBack d a) (addBack d b).
Proof. intro E. induction d as [|x [|y r] IH]; [constructor| |]. { constructor; [lra|constructor]. } cbn [addBack]. constructor; [reflexivity|]. exact IH. Qed.

Lemma frSucc_regional x w : regionalF x w ->
  exists q, nextRegion delayed (td w) q /\ regionalF (frSucc x) (mkTW (tw w) (delayed (td w) q)).
Proof.
  intros [A [B [C D]]]. assert (P := wfTW_pos w B).
  destruct (order_succ _ _ _ D P) as [q [Q0 [Q1 [Q2 Q3]]]]. exists q. unfold delayed.
  destruct (Q1 (since (addBack (td w) q))) as [M O]; [intros; apply since_addBack; auto|]. split; [split; [auto|split]|].
  - intro R. destruct (foSuccVars (fo x)) as [|k l] eqn:Ek; [congruence|]. destruct M as [M _]. destruct (M k (or_introl eq_refl)) as [K U].
    apply (unitUp_not _ _ U). apply since_same; auto.
  - intros e E0 E1. destruct (Q3 e E0 E1) as [K|K].
    + left. eapply sameRegion_trans; [apply sameDurs_region; apply addBack_zero|]. apply addBack_same_region; auto.
      intros i Hi. eapply sameUnit_ext; [| |apply (K i Hi)]; lra.
    + right. apply addBack_same_region; auto.
  - split; [auto|]. split; [unfold wfTW in *; cbn; rewrite addBack_length; auto|]. cbn [frSucc fel fo ec td]. rewrite addBack_length. split; [|exact O].
    apply regionCond_succ with (td w); auto.
    + apply addBack_length.
    + eapply succVars_block; eauto.
    + intros i j Hij Hj. rewrite T_addBack by lia. destruct (j =? length (td w) - 1)%nat eqn:E; [apply Nat.eqb_eq in E; lia|]. lra.
Qed.

(** ** discrete successors *)
Lemma T_snoc_lt d t i j : (i <= j)%nat -> (j < length d)%nat -> T (d ++ [t]) i j == T d i j.
Proof. intros A B. rewrite !T_acc by auto. rewrite !accd_snoc by lia. lra. Qed.
Lemma T_snoc_last d t i : (i <= length d)%nat -> T (d ++ [t]) i (length d) == (if (i <? length d)%nat then T d i (length d - 1) else 0) + t.
Proof.
  intro H. rewrite T_acc by auto. rewrite accd_snoc by auto.
  assert (Z1 : accd (d ++ [t]) (S (length d)) == 0) by (unfold accd; rewrite skipn_all2 by (rewrite app_length; cbn; lia); reflexivity).
  assert (Z2 : accd d (length d) == 0) by (unfold accd; rewrite skipn_all; reflexivity).
  rewrite Z1. destruct (i <? length d)%nat eqn:E.
  - apply Nat.ltb_lt in E. rewrite T_acc by lia. replace (S (length d - 1)) with (length d) by lia. rewrite Z2. lra.
  - apply Nat.ltb_ge in E. replace i with (length d) by lia. rewrite Z2. lra.
Qed.
Lemma unit_zero q : q == 0 -> unitBounds bz bz q.
Proof. intro E. exists 0%Z, 0, 0. left. change (inject_Z 0) with 0. unfold bz. repeat (split; [first [reflexivity|lra]|]). lra. Qed.
Lemma extendN_region m d : regionCond m d -> regionCond (extendN m) (d ++ [0]).
Proof.
  intros [L [[D DG] H]]. assert (DE : dim (extendN m) = S (dim m)) by (unfold extendN; rewrite dim_mk; auto).
  assert (SZ : tcSize (extendN m) = S (tcSize m)) by (unfold tcSize; rewrite DE; cbn; lia).
  split; [rewrite app_length, SZ; cbn; lia|]. split.
  { split; [lia|]. rewrite DE. intros k Hk. unfold extendN. rewrite get_mk by auto.
    destruct (Nat.eq_dec k (dim m)) as [->|K].
    - rewrite Nat.eqb_refl. replace ((dim m =? 0)%nat) with false by (symmetry; apply Nat.eqb_neq; lia). cbn [andb].
      replace ((0 =? dim m)%nat) with false by (symmetry; apply Nat.eqb_neq; lia). apply DG. lia.
    - apply Nat.eqb_neq in K. rewrite K. rewrite andb_false_r. cbn [andb]. apply DG. apply Nat.eqb_neq in K. lia. }
  rewrite SZ. intros i j Hij Hj.
  assert (CE : colOf (extendN m) j = if (j =? tcSize m)%nat then 0%nat else (j + 2)%nat).
  { unfold colOf. rewrite SZ. replace (S (tcSize m) - 1)%nat with (tcSize m) by lia. reflexivity. }
  unfold getUpperBound, getLowerBound. rewrite CE.
  assert (Ds : dim m = S (tcSize m)) by (unfold tcSize; lia).
  unfold extendN. rewrite Ds.
  destruct (j =? tcSize m)%nat eqn:E.
  - apply Nat.eqb_eq in E. subst j. rewrite !get_mk by lia. 
    replace (T (d ++ [0]) i (tcSize m)) with (T (d ++ [0]) i (length d)) by (rewrite L; auto).
    destruct (Nat.eq_dec i (tcSize m)) as [->|K].
    + replace ((tcSize m + 1 =? S (tcSize m))%nat) with true by (symmetry; apply Nat.eqb_eq; lia). cbn [andb Nat.eqb].
      apply unit_zero. rewrite T_snoc_last by lia. replace ((tcSize m <? length d)%nat) with false by (symmetry; apply Nat.ltb_ge; lia). lra.
    + replace ((i + 1 =? S (tcSize m))%nat) with false by (symmetry; apply Nat.eqb_neq; lia). cbn [andb Nat.eqb].
      replace ((i + 1 =? 0)%nat) with false by (symmetry; apply Nat.eqb_neq; lia). cbn [andb].
      assert (UB := H i (tcSize m - 1)%nat ltac:(lia) ltac:(lia)). unfold getUpperBound, getLowerBound, colOf in UB. rewrite Nat.eqb_refl in UB.
      eapply unitBounds_ext; [|exact UB]. rewrite T_snoc_last by lia. replace ((i <? length d)%nat) with true by (symmetry; apply Nat.ltb_lt; lia). rewrite L. lra.
  - apply Nat.eqb_neq in E. rewrite !get_mk by lia.
    assert (UB := H i j ltac:(lia) ltac:(lia)). unfold getUpperBound, getLowerBound, colOf in UB.
    replace ((i + 1 =? S (tcSize m))%nat) with false by (symmetry; apply Nat.eqb_neq; lia).
    replace ((i + 1 =? 0)%nat) with false by (symmetry; apply Nat.eqb_neq; lia).
    replace ((j + 2 =? 0)%nat) with false by (symmetry; apply Nat.eqb_neq; lia).
    cbn [andb]. eapply unitBounds_ext; [symmetry; apply T_snoc_lt; lia|].
    destruct (j =? tcSize m - 1)%nat eqn:E2.
    + apply Nat.eqb_eq in E2. replace ((j + 2 =? S (tcSize m))%nat) with true by (symmetry; apply Nat.eqb_eq; lia). cbn [andb]. exact UB.
    + apply Nat.eqb_neq in E2. replace ((j + 2 =? S (tcSize m))%nat) with false by (symmetry; apply Nat.eqb_neq; lia). cbn [andb]. exact UB.
Qed.
Lemma frSuccAct_regional x w a : regionalF x w -> regionalF (frSuccAct x a) (concatChar w a).
Proof.
  intros [A [B [C D]]]. assert (P := wfTW_pos w B). split; [cbn; congruence|]. split; [unfold wfTW in *; cbn; rewrite !app_length; cbn; lia|].
  cbn [frSuccAct concatChar fel fo ec td]. split; [apply extendN_region; auto|]. rewrite app_length. cbn [length]. rewrite Nat.add_1_r.
  apply foExtendN_order with (fun i => frac (since (td w) i)); auto.
  - apply (frac_of 0); [lra|lra|]. unfold since. rewrite app_length. cbn [length]. replace (length (td w) + 1 - 1)%nat with (length (td w)) by lia.
    rewrite T_snoc_last by lia. rewrite Nat.ltb_irrefl. change (inject_Z 0) with 0. lra.
  - intros i Hi. apply frac_ext. unfold since. rewrite app_length. cbn [length]. replace (length (td w) + 1 - 1)%nat with (length (td w)) by lia.
    rewrite T_snoc_last by lia. replace ((i <? length (td w))%nat) with true by (symmetry; apply Nat.ltb_lt; lia). lra.
Qed.

(** ** immediate prefixes *)
Lemma beqb_bz b : beqb b bz = true <-> exists c, b = Fin c true /\ c == 0.
Proof.
  unfold beqb, bz. rewrite andb_true_iff, !ble_spec. split.
  - intros [H1 H2]. destruct b as [c s|]; [|exfalso; assert (K := H1 1 I); cbn in K; lra].
    exists c. assert (K := H2 0 ltac:(cbn; lra)). destruct s; cbn in K; [split; [auto|]|exfalso].
    + assert (K2 := H1 c ltac:(cbn; lra)). cbn in K2. lra.
    + assert (K2 := H1 (c * (1 # 2)) ltac:(cbn; lra)). cbn in K2. lra.
  - intros [c [-> E]]. split; intros v H; cbn in *; lra.
Qed.
Lemma hasPrefix_region m d : regionCond m d -> (hasPrefix m = false <-> since d (length d - 1) == 0).
Proof.
  intros [L [[D DG] H]]. assert (N : (1 <= tcSize m)%nat) by (unfold tcSize; lia).
  assert (U := H (tcSize m - 1)%nat (tcSize m - 1)%nat ltac:(lia) ltac:(lia)). unfold since. rewrite L. unfold hasPrefix.
  rewrite negb_false_iff, andb_true_iff, !beqb_bz. split.
  - intros [[c [E1 C]] [e [E2 Ee]]]. destruct U as [z [c' [e' [[U1 [U2 [U3 [U4 U5]]]]|[U1 _]]]]]; [|congruence].
    rewrite E1 in U1. injection U1 as <-. lra.
  - intro E. destruct U as [z [c [e [[-> [-> [U3 [U4 U5]]]]|[-> [-> [U3 [U4 [U5 U6]]]]]]]]].
    + split; [exists c|exists e]; split; auto; lra.
    + exfalso. rewrite E in U5, U6. change 0 with (inject_Z 0) in U5, U6. rewrite <- Zlt_Qlt in U5.
      assert (K : inject_Z 0 < inject_Z (z + 1)) by (rewrite inject_Z_plus; exact U6). rewrite <- Zlt_Qlt in K. lia.
Qed.
Lemma removeN_region m d t : t == 0 -> d <> [] -> regionCond m (d ++ [t]) -> regionCond (removeN m) d.
Proof.
  intros E0 N0 [L [[D DG] H]]. rewrite app_length in L. cbn [length] in L.
  assert (LD : (1 <= length d)%nat) by (destruct d; [congruence|cbn; lia]).
  assert (DE : dim (removeN m) = (dim m - 1)%nat) by (unfold removeN; rewrite dim_mk; auto).
  assert (SZ : tcSize (removeN m) = length d) by (unfold tcSize in *; rewrite DE; lia).
  assert (Ds : dim m = S (S (length d))) by (unfold tcSize in L; lia).
  split; [auto|]. split; [split; [lia|]; intros k Hk; rewrite DE in Hk; unfold removeN; rewrite get_mk by lia; apply DG; lia|]. rewrite SZ. intros i j Hij Hj.
  unfold getUpperBound, getLowerBound, removeN. 
  assert (CE : colOf (mk (dim m - 1) (get m)) j = if (j =? length d - 1)%nat then 0%nat else (j + 2)%nat).
  { unfold colOf. fold (removeN m). rewrite SZ. reflexivity. }
  rewrite CE. destruct (j =? length d - 1)%nat eqn:E.
  - apply Nat.eqb_eq in E. subst j. rewrite !get_mk by lia.
    assert (UB := H i (length d) ltac:(lia) ltac:(lia)). unfold getUpperBound, getLowerBound, colOf in UB. rewrite <- L in UB.
    replace ((length d =? length d + 1 - 1)%nat) with true in UB by (symmetry; apply Nat.eqb_eq; lia).
    eapply unitBounds_ext; [|exact UB]. rewrite T_snoc_last by lia. replace ((i <? length d)%nat) with true by (symmetry; apply Nat.ltb_lt; lia). lra.
  - apply Nat.eqb_neq in E. rewrite !get_mk by lia.
    assert (UB := H i j ltac:(lia) ltac:(lia)). unfold getUpperBound, getLowerBound, colOf in UB. rewrite <- L in UB.
    replace ((j =? length d + 1 - 1)%nat) with false in UB by (symmetry; apply Nat.eqb_neq; lia).
    eapply unitBounds_ext; [|exact UB]. apply T_snoc_lt; lia.
Qed.
Lemma frPrefix_regional x w : regionalF x w -> 0 <= since (td w) (length (td w) - 1) ->
  match frImmediatePrefix x with
  | None => tw w = [] /\ since (td w) (length (td w) - 1) == 0
  | Some y =>
      (since (td w) (length (td w) - 1) == 0 /\ exists w0 a, wfTW w0 /\ sameTW w (concatChar w0 a) /\ regionalF y w0) \/
      (exists q, nextRegion (fun d e => delayed d (- e)) (td w) q /\ q <= since (td w) (length (td w) - 1) /\
                 regionalF y (mkTW (tw w) (delayed (td w) (- q))))
  end.
Proof.
  intros [A [B [C D]]] Nn. assert (P := wfTW_pos w B). unfold frImmediatePrefix. destruct (hasPrefix (ec (fel x))) eqn:E.
  - right. destruct (order_pred _ _ _ D P) as [q [Q0 [Q1 [Q2 [Q3 Q4]]]]]. exists q. unfold delayed.
    assert (Pos : 0 < since (td w) (length (td w) - 1)).
    { apply Qle_lteq in Nn. destruct Nn as [|K]; [auto|]. symmetry in K. apply (hasPrefix_region _ _ C) in K. congruence. }
    destruct (Q1 (since (addBack (td w) (- q)))) as [M O]; [intros; rewrite since_addBack by auto; lra|].
    split; [split; [auto|split]|split].
    + intro R. destruct (foPredVars (fo x)) as [|k l] eqn:Ek; [congruence|]. destruct M as [M _]. destruct (M k (or_introl eq_refl)) as [K U].
      apply (unitUp_not _ _ U). apply sameUnit_sym. apply since_same; auto.
    + intros e E0 E1. destruct (Q3 e E0 E1) as [K|K].
      * left. eapply sameRegion_trans; [apply sameDurs_region; apply addBack_zero|]. apply addBack_same_region; auto.
        intros i Hi. eapply sameUnit_ext; [| |apply (K i Hi)]; lra.
      * right. apply addBack_same_region; auto.
    + apply Q4; auto. lia.
    + split; [auto|]. split; [unfold wfTW in *; cbn; rewrite addBack_length; auto|]. cbn [fel fo ec td]. rewrite addBack_length. split; [|exact O].
      apply regionCond_prefix with (td w); auto.
      * apply addBack_length.
      * eapply predVars_block; eauto.
      * intros i j Hij Hj. rewrite T_addBack by lia. destruct (j =? length (td w) - 1)%nat eqn:E'; [apply Nat.eqb_eq in E'; lia|]. lra.
  - apply (hasPrefix_region _ _ C) in E. destruct (ew (fel x)) as [|a l] eqn:Ew; [split; [congruence|auto]|]. rewrite <- Ew in *.
    left. split; [auto|].
    destruct (exists_last (l := tw w)) as [l0 [b El]]; [rewrite A, Ew; discriminate|].
    destruct (exists_last (l := td w)) as [d0 [t Ed]]; [intro K; rewrite K in P; cbn in P; lia|].
    assert (B' := B). unfold wfTW in B'. rewrite El, Ed, !app_length in B'. cbn [length] in B'.
    assert (E' : t == 0).
    { rewrite Ed in E. unfold since in E. rewrite app_length in E. cbn [length] in E. replace (length d0 + 1 - 1)%nat with (length d0) in E by lia.
      rewrite T_snoc_last in E by lia. rewrite Nat.ltb_irrefl in E. lra. }
    assert (N0 : d0 <> []) by (intro K; subst d0; cbn in B'; lia).
    exists (mkTW l0 d0), b. split; [unfold wfTW; cbn; lia|]. split.
    + split; [exact El|]. cbn [concatChar td]. rewrite Ed. apply Forall2_app; [|constructor; [auto|constructor]]. clear. induction d0; constructor; auto. reflexivity.
    + split; [cbn; rewrite <- A, El, removelast_last; reflexivity|]. split; [unfold wfTW; cbn; lia|]. cbn [fel fo ec td]. split.
      * apply removeN_region with t; auto. rewrite <- Ed. exact C.
      * rewrite Ed, app_length in D. cbn [length] in D. rewrite Nat.add_1_r in D. apply foRemoveN_order in D.
        -- apply orderOf_ext with (fun i => frac (since (d0 ++ [t]) i)); [exact D| |intros; apply frac_bounds].
           intros i Hi. apply frac_ext. unfold since. rewrite app_length. cbn [length]. replace (length d0 + 1 - 1)%nat with (length d0) by lia.
           rewrite T_snoc_last by lia. replace ((i <? length d0)%nat) with true by (symmetry; apply Nat.ltb_lt; lia). lra.
        -- apply (frac_of 0); [lra|lra|]. unfold since. rewrite app_length. cbn [length]. replace (length d0 + 1 - 1)%nat with (length d0) by lia.
           rewrite T_snoc_last by lia. rewrite Nat.ltb_irrefl. change (inject_Z 0) with 0. lra.
Qed.
