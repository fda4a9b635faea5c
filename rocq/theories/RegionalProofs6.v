From Coq Require Import QArith ZArith Bool List Lia Lqa Qround Arith Sorted Permutation.
From Verif Require Import BoundsModel BoundsProofs ConstraintModel ZoneModel ZoneSpec ZoneProofs
  AutomatonModel TimedWordModel TimedWordSpec TimedWordProofs TimedConditionModel TimedConditionSpec TimedConditionProofs TimedConditionProofs2
  TimedConditionProofs3 TimedConditionProofs4 ElementaryModel ElementarySpec ElementaryProofs ElementaryProofs2 RegionalModel RegionalSpec RegionalProofs RegionalProofs2 RegionalProofs3 RegionalProofs4 RegionalProofs5.
Import ListNotations.
Open Scope Q_scope.

Lemma regionalBack_same x w w' : regionalBack x w -> tw w' = tw w -> sameRegion (td w) (td w') -> regionalBack x w'.
Proof.
  intros [A [B [C D]]] E R. assert (L : length (td w) = length (td w')) by apply R. split; [congruence|]. split.
  - unfold wfTW in *. rewrite E. congruence.
  - split; [eapply regionCond_same; eauto|]. apply uptoneg_order_same with (td w); auto.
Qed.
Lemma regionalB_same x w w' : regionalB x w -> tw w' = tw w -> sameRegion (td w) (td w') -> regionalB x w'.
Proof.
  intros [A [B [C D]]] E R. assert (L : length (td w) = length (td w')) by apply R. split; [congruence|]. split.
  - unfold wfTW in *. rewrite E. congruence.
  - split; [eapply regionCond_same; eauto|]. apply upto_order_same with (td w); auto.
Qed.
Lemma tcEmpty_region : regionCond tcEmpty [0].
Proof.
  split; [reflexivity|]. split; [split; [cbn; lia|]|].
  - intros k Hk. assert (k = 0 \/ k = 1)%nat by (cbn in Hk; lia). destruct H as [-> | ->]; cbn; lra.
  - intros i j Hij Hj. assert (i = 0%nat) by (cbn in Hj; lia). assert (j = 0%nat) by (cbn in Hj; lia). subst.
    change (getUpperBound tcEmpty 0 0) with bz. change (getLowerBound tcEmpty 0 0) with bz. apply unit_zero. unfold T. cbn. lra.
Qed.
Lemma foDefault_order f : f 0%nat == 0 -> orderOf foDefault 1 f.
Proof.
  intro H. split; [reflexivity|]. split; [apply Permutation_refl|]. split; [repeat constructor|]. cbn. split; [|auto]. intros i [<-|[]]. auto.
Qed.
Lemma brDefault_regional : regionalBack brDefault emptyTW /\ regionalB brDefault emptyTW.
Proof.
  split; (split; [reflexivity|split; [reflexivity|split; [apply tcEmpty_region|]]]); apply foDefault_order; vm_compute; reflexivity.
Qed.
Lemma frDefault_regional : regionalF frDefault emptyTW.
Proof. split; [reflexivity|split; [reflexivity|split; [apply tcEmpty_region|]]]; apply foDefault_order; vm_compute; reflexivity. Qed.

Lemma unitUp_opp p q : unitUp (- q) (- p) -> unitUp p q.
Proof.
  intros [z [[A [B C]]|[A [B C]]]]; exists (- z - 1)%Z; assert (X : inject_Z (- z - 1) == - inject_Z z - 1) by (unfold Z.sub; rewrite inject_Z_plus, !inject_Z_opp; reflexivity);
    [right|left]; rewrite !X; lra.
Qed.
Lemma upto_predelayed d q i : (i < length d)%nat -> upto (predelayed d q) i == upto d i + q.
Proof. intro H. unfold upto. rewrite T_predelayed by lia. reflexivity. Qed.
Lemma predelayed_same_region d e e' : (forall i, (i < length d)%nat -> sameUnit (upto d i + e) (upto d i + e')) -> sameRegion (predelayed d e) (predelayed d e').
Proof.
  intro H. split; [rewrite !predelayed_length; auto|]. rewrite predelayed_length. intros i j Hij Hj.
  eapply sameUnit_ext; [symmetry; apply T_predelayed; auto|symmetry; apply T_predelayed; auto|].
  destruct i as [|i]; cbn [Nat.eqb]; [apply H; auto|apply sameUnit_refl].
Qed.
Lemma predelayed_zero d : sameDurs d (predelayed d 0).
Proof. destruct d; [constructor|]. cbn. constructor; [lra|apply F2Q_refl]. Qed.

Lemma brPred_regional x w : regionalBack x w ->
  exists q, nextRegion predelayed (td w) q /\ regionalBack (brPred x) (mkTW (tw w) (predelayed (td w) q)).
Proof.
  intros [A [B [C D]]]. assert (P := wfTW_pos w B).
  destruct (order_pred _ _ _ D P) as [q [Q0 [Q1 [Q2 [Q3 _]]]]]. exists q.
  destruct (Q1 (fun i => - upto (predelayed (td w) q) i)) as [M O]; [intros; rewrite upto_predelayed by auto; lra|].
  assert (M' : moveUp (length (td w)) (upto (td w)) (upto (predelayed (td w) q)) (foPredVars (fo x))).
  { destruct M as [M1 M2]. split.
    - intros i Hi. destruct (M1 i Hi) as [K U]. split; [auto|]. apply unitUp_opp. exact U.
    - intros i Hi Ni. assert (S := sameUnit_opp _ _ (M2 i Hi Ni)). apply sameUnit_sym. eapply sameUnit_ext; [| |exact S]; lra. }
  split; [split; [auto|split]|].
  - intro R. destruct (foPredVars (fo x)) as [|k l] eqn:Ek; [congruence|]. destruct M' as [M1 _]. destruct (M1 k (or_introl eq_refl)) as [K U].
    apply (unitUp_not _ _ U). apply upto_same; auto.
  - intros e E0 E1. destruct (Q3 e E0 E1) as [K|K].
    + left. eapply sameRegion_trans; [apply sameDurs_region; apply predelayed_zero|]. apply predelayed_same_region; auto.
      intros i Hi. assert (S := sameUnit_opp _ _ (K i Hi)). eapply sameUnit_ext; [| |exact S]; lra.
    + right. apply predelayed_same_region; auto. intros i Hi. assert (S := sameUnit_opp _ _ (K i Hi)). eapply sameUnit_ext; [| |exact S]; lra.
  - split; [auto|]. split; [unfold wfTW in *; cbn; rewrite predelayed_length; auto|]. cbn [brPred fel fo ec td]. rewrite predelayed_length. split; [|exact O].
    apply regionCond_pred with (td w); auto.
    + apply predelayed_length.
    + eapply predVars_block; eauto.
    + intros i j Hi Hij Hj. rewrite T_predelayed by lia. destruct i; [lia|]. cbn [Nat.eqb]. lra.
Qed.

(** ** discrete predecessor *)
Lemma T_cons_S q d i j : (1 <= i)%nat -> T (q :: d) i j = T d (i - 1) (j - 1) \/ (j < i)%nat.
Proof. intro H. destruct i as [|i]; [lia|]. destruct j as [|j]; [right; lia|]. left. unfold T. cbn [skipn]. replace (Datatypes.S (Datatypes.S j) - Datatypes.S i)%nat with (Datatypes.S (Datatypes.S j - 1) - (Datatypes.S i - 1))%nat by lia. cbn. rewrite !Nat.sub_0_r. reflexivity. Qed.
Lemma T_cons_0 q d j : (1 <= j)%nat -> T (q :: d) 0 j == q + T d 0 (j - 1).
Proof. intro H. unfold T. destruct j as [|j]; [lia|]. cbn [Nat.sub]. rewrite !Nat.sub_0_r. cbn [skipn firstn sumQ]. reflexivity. Qed.
Lemma extendZero_region m d : regionCond m d -> regionCond (extendZero m) (0 :: d).
Proof.
  intros [L [[D DG] H]]. assert (DE : dim (extendZero m) = S (dim m)) by (unfold extendZero; rewrite dim_mk; auto).
  assert (SZ : tcSize (extendZero m) = S (tcSize m)) by (unfold tcSize; rewrite DE; cbn; lia).
  assert (Ds : dim m = S (tcSize m)) by (unfold tcSize; lia). assert (N : (1 <= tcSize m)%nat) by lia.
  assert (G : forall a b, (a < S (dim m))%nat -> (b < S (dim m))%nat -> get (extendZero m) a b =
    if (a =? 1)%nat && (b =? 2)%nat then bz else if (a =? 2)%nat && (b =? 1)%nat then bz
    else get (extendZero m) a b) by (intros a b Ha Hb; unfold extendZero; rewrite get_mk by auto; destruct ((a =? 1)%nat && (b =? 2)%nat); [auto|]; destruct ((a =? 2)%nat && (b =? 1)%nat); auto).
  assert (G12 : get (extendZero m) 1 2 = bz) by (rewrite G by lia; reflexivity).
  assert (G21 : get (extendZero m) 2 1 = bz) by (rewrite G by lia; reflexivity). clear G.
  assert (G1b : forall b, (3 <= b)%nat -> (b < S (dim m))%nat -> get (extendZero m) 1 b = get m 1 (b - 1) /\ get (extendZero m) b 1 = get m (b - 1) 1).
  { intros b Hb Hb'. unfold extendZero. rewrite !get_mk by lia. destruct b as [|[|[|b]]]; try lia. cbn. rewrite ?Nat.sub_0_r. auto. }
  assert (G10 : get (extendZero m) 1 0 = get m 1 0 /\ get (extendZero m) 0 1 = get m 0 1).
  { unfold extendZero. rewrite !get_mk by lia. cbn. auto. }
  assert (Gab : forall a b, (2 <= a)%nat -> (2 <= b)%nat -> (a < S (dim m))%nat -> (b < S (dim m))%nat -> get (extendZero m) a b = get m (a - 1) (b - 1)).
  { intros a b Ha Hb Ha' Hb'. unfold extendZero. rewrite !get_mk by lia. destruct a as [|[|a]]; try lia. destruct b as [|[|b]]; try lia. cbn. destruct a, b; reflexivity. }
  assert (Ga0 : forall a, (2 <= a)%nat -> (a < S (dim m))%nat -> get (extendZero m) a 0 = get m (a - 1) 0 /\ get (extendZero m) 0 a = get m 0 (a - 1)).
  { intros a Ha Ha'. unfold extendZero. rewrite !get_mk by lia. destruct a as [|[|a]]; try lia. cbn. destruct a; auto. }
  split; [cbn [length]; rewrite SZ; lia|]. split.
  { split; [lia|]. rewrite DE. intros k Hk. destruct k as [|[|k]].
    - unfold extendZero. rewrite get_mk by lia. cbn. auto.
    - unfold extendZero. rewrite get_mk by lia. cbn. apply DG. lia.
    - rewrite Gab by lia. apply DG. lia. }
  rewrite SZ. intros i j Hij Hj.
  assert (CE : colOf (extendZero m) j = if (j =? tcSize m)%nat then 0%nat else (j + 2)%nat).
  { unfold colOf. rewrite SZ. replace (S (tcSize m) - 1)%nat with (tcSize m) by lia. reflexivity. }
  unfold getUpperBound, getLowerBound. rewrite CE. 
  destruct i as [|i].
  - destruct (Nat.eq_dec j 0) as [->|Hj0].
    + replace ((0 =? tcSize m)%nat) with false by (symmetry; apply Nat.eqb_neq; lia). cbn [Nat.add]. rewrite G12, G21. apply unit_zero. unfold T. cbn. lra.
    + assert (UB := H 0%nat (j - 1)%nat ltac:(lia) ltac:(lia)). unfold getUpperBound, getLowerBound, colOf in UB. cbn [Nat.add] in *.
      eapply unitBounds_ext; [symmetry; rewrite T_cons_0 by lia; rewrite Qplus_0_l; reflexivity|].
      destruct (j =? tcSize m)%nat eqn:E.
      * apply Nat.eqb_eq in E. replace ((j - 1 =? tcSize m - 1)%nat) with true in UB by (symmetry; apply Nat.eqb_eq; lia). destruct G10 as [-> ->]. exact UB.
      * apply Nat.eqb_neq in E. replace ((j - 1 =? tcSize m - 1)%nat) with false in UB by (symmetry; apply Nat.eqb_neq; lia).
        destruct (G1b (j + 2)%nat) as [-> ->]; [lia|lia|]. replace (j + 2 - 1)%nat with (j - 1 + 2)%nat by lia. exact UB.
  - assert (UB := H i (j - 1)%nat ltac:(lia) ltac:(lia)). unfold getUpperBound, getLowerBound, colOf in UB.
    destruct (T_cons_S 0 d (Datatypes.S i) j ltac:(lia)) as [E0|E0]; [|lia]. rewrite E0. replace (Datatypes.S i - 1)%nat with i by lia.
    destruct (j =? tcSize m)%nat eqn:E.
    + apply Nat.eqb_eq in E. replace ((j - 1 =? tcSize m - 1)%nat) with true in UB by (symmetry; apply Nat.eqb_eq; lia).
      destruct (Ga0 (Datatypes.S i + 1)%nat) as [-> ->]; [lia|lia|]. replace (Datatypes.S i + 1 - 1)%nat with (i + 1)%nat by lia. exact UB.
    + apply Nat.eqb_neq in E. replace ((j - 1 =? tcSize m - 1)%nat) with false in UB by (symmetry; apply Nat.eqb_neq; lia).
      rewrite !Gab by lia. replace (Datatypes.S i + 1 - 1)%nat with (i + 1)%nat by lia. replace (j + 2 - 1)%nat with (j - 1 + 2)%nat by lia. exact UB.
Qed.
Lemma upto_cons q d i : (i < length d)%nat -> upto (q :: d) (S i) == q + upto d i.
Proof. intro H. unfold upto. rewrite T_cons_0 by lia. replace (S i - 1)%nat with i by lia. reflexivity. Qed.
Lemma upto_zero d : upto (0 :: d) 0 == 0.
Proof. unfold upto, T. cbn [Nat.sub firstn skipn sumQ]. lra. Qed.
Lemma brPredAct_regional x w a : regionalBack x w -> regionalBack (brPredAct x a) (mkTW (a :: tw w) (0 :: td w)).
Proof.
  intros [A [B [C D]]]. split; [cbn; congruence|]. split; [unfold wfTW in *; cbn; lia|]. cbn [brPredAct fel fo ec td]. split; [apply extendZero_region; auto|].
  cbn [length]. apply foExtendZero_order with (fun i => frac (- upto (td w) i)); auto.
  - apply (frac_of 0); [lra|lra|]. rewrite upto_zero. change (inject_Z 0) with 0. lra.
  - intros i Hi. apply frac_ext. rewrite upto_cons by auto. lra.
Qed.
Lemma brPredAct_regionalB x w a : regionalB x w -> regionalB (brPredAct x a) (mkTW (a :: tw w) (0 :: td w)).
Proof.
  intros [A [B [C D]]]. split; [cbn; congruence|]. split; [unfold wfTW in *; cbn; lia|]. cbn [brPredAct fel fo ec td]. split; [apply extendZero_region; auto|].
  cbn [length]. apply foExtendZero_order with (fun i => frac (upto (td w) i)); auto.
  - apply (frac_of 0); [lra|lra|]. rewrite upto_zero. change (inject_Z 0) with 0. lra.
  - intros i Hi. apply frac_ext. rewrite upto_cons by auto. lra.
Qed.

Lemma accumFront_length : forall l s, length (accumFront s l) = length l.
Proof. induction l; intro s; cbn; auto. Qed.
Lemma accumFront_nth : forall l s i, (i < length l)%nat -> nth i (accumFront s l) 0 == s + T l 0 i.
Proof.
  induction l as [|x l IH]; intros s i H; [cbn in H; lia|]. destruct i as [|i]; cbn [accumFront nth].
  - unfold T. cbn. lra.
  - rewrite IH by (cbn in H; lia). rewrite (T_cons_0 x l (S i)) by lia. replace (S i - 1)%nat with i by lia. lra.
Qed.
Lemma brFromTimedWord_regional w : wfTW w -> regionalB (brFromTimedWord w) w.
Proof.
  intro W. assert (P := wfTW_pos w W). assert (N : td w <> []) by (destruct (td w); [cbn in P; lia|discriminate]).
  split; [reflexivity|]. split; [auto|]. split; [apply tcOf_regionCond; auto|]. cbn [brFromTimedWord fo].
  assert (O := foOf_order (map frac (accumFront 0 (td w)))). rewrite map_length, accumFront_length in O.
  apply orderOf_ext with (fun i => nth i (map frac (accumFront 0 (td w))) 0).
  - apply O. intros q Hq. apply in_map_iff in Hq. destruct Hq as [y [<- _]]. apply frac_bounds.
  - intros i Hi. rewrite (nth_indep _ 0 (frac 0)) by (rewrite map_length, accumFront_length; auto). rewrite map_nth. apply frac_ext.
    rewrite accumFront_nth by auto. unfold upto. lra.
  - intros i Hi. rewrite (nth_indep _ 0 (frac 0)) by (rewrite map_length, accumFront_length; auto). rewrite map_nth. apply frac_bounds.
Qed.
(** the continuous suffix follows the documented order *)
Lemma hasSuffix_region m d : regionCond m d -> (hasSuffix m = false <-> upto d 0 == 0).
Proof.
  intros [L [[D DG] H]]. assert (N : (1 <= tcSize m)%nat) by (unfold tcSize; lia).
  assert (U := H 0%nat 0%nat ltac:(lia) ltac:(lia)). unfold upto. unfold hasSuffix.
  rewrite negb_false_iff, andb_true_iff, !beqb_bz. split.
  - intros [[c [E1 C]] [e [E2 Ee]]]. destruct U as [z [c' [e' [[U1 [U2 [U3 [U4 U5]]]]|[U1 _]]]]]; [|congruence].
    rewrite E1 in U1. injection U1 as <-. lra.
  - intro E. destruct U as [z [c [e [[-> [-> [U3 [U4 U5]]]]|[-> [-> [U3 [U4 [U5 U6]]]]]]]]].
    + split; [exists c|exists e]; split; auto; lra.
    + exfalso. rewrite E in U5, U6. change 0 with (inject_Z 0) in U5, U6. rewrite <- Zlt_Qlt in U5.
      assert (K : inject_Z 0 < inject_Z (z + 1)) by (rewrite inject_Z_plus; exact U6). rewrite <- Zlt_Qlt in K. lia.
Qed.
Lemma brSuffixC_regional x w : regionalB x w -> 0 < upto (td w) 0 ->
  hasSuffix (ec (fel x)) = true /\
  exists q, nextRegion (fun d e => predelayed d (- e)) (td w) q /\ q <= upto (td w) 0 /\
            regionalB (brImmediateSuffixC x) (mkTW (tw w) (predelayed (td w) (- q))).
Proof.
  intros [A [B [C D]]] Pos. assert (P := wfTW_pos w B). split.
  { destruct (hasSuffix (ec (fel x))) eqn:E; [auto|]. apply (hasSuffix_region _ _ C) in E. lra. }
  destruct (order_pred _ _ _ D P) as [q [Q0 [Q1 [Q2 [Q3 Q4]]]]]. exists q.
  destruct (Q1 (upto (predelayed (td w) (- q)))) as [M O]; [intros; rewrite upto_predelayed by auto; lra|].
  split; [split; [auto|split]|split].
  - intro R. destruct (foPredVars (fo x)) as [|k l] eqn:Ek; [congruence|]. destruct M as [M _]. destruct (M k (or_introl eq_refl)) as [K U].
    apply (unitUp_not _ _ U). apply sameUnit_sym. apply upto_same; auto.
  - intros e E0 E1. destruct (Q3 e E0 E1) as [K|K].
    + left. eapply sameRegion_trans; [apply sameDurs_region; apply predelayed_zero|]. apply predelayed_same_region; auto.
      intros i Hi. eapply sameUnit_ext; [| |apply (K i Hi)]; lra.
    + right. apply predelayed_same_region; auto.
  - apply Q4; auto.
  - split; [auto|]. split; [unfold wfTW in *; cbn; rewrite predelayed_length; auto|]. cbn [brImmediateSuffixC fel fo ec td]. rewrite predelayed_length. split; [|exact O].
    apply regionCond_suffix with (td w); auto.
    + apply predelayed_length.
    + eapply predVars_block; eauto.
    + intros i j Hi Hij Hj. rewrite T_predelayed by lia. destruct i; [lia|]. cbn [Nat.eqb]. lra.
Qed.
