(** The prefixes and suffixes of the observation table: the bounds of all
    T_{i,j} are points or open unit intervals; if satisfiable, such a condition
    is a region and canonical off the diagonal. *)
From Coq Require Import QArith ZArith Bool List Arith Lia Lqa Qround.
From Verif Require Import BoundsModel BoundsProofs ConstraintModel ZoneModel ZoneSpec ZoneProofs ZoneProofs2 AutomatonModel TimedWordModel TimedWordSpec TimedWordProofs
  TimedConditionModel TimedConditionSpec TimedConditionProofs TimedConditionProofs2 TimedConditionProofs3 TimedConditionProofs4 ElementaryModel ElementarySpec ElementaryProofs
  LooseProofs RegionalModel RegionalSpec RegionalProofs RegionalProofs2 RegionalProofs3 RegionalProofs4 RegionalProofs5 RegionalProofs6 OracleModel SymbolicModel SymbolicSpec
  CexModel CexSpec CexProofs RenamingModel RenamingProofs5 QueryableProofs.
Import ListNotations.
Open Scope Q_scope.

(** ** one unit *)
Lemma inj_lt a b : inject_Z a < inject_Z b -> (a < b)%Z.
Proof. rewrite <- Zlt_Qlt. auto. Qed.
Lemma inj_lt1 a b q : inject_Z a < q -> q < inject_Z b + 1 -> (a <= b)%Z.
Proof. intros A B. assert (K : inject_Z a < inject_Z (b + 1)) by (rewrite inject_Z_plus; change (inject_Z 1) with 1; lra). apply inj_lt in K. lia. Qed.
Definition unitUB (b : bound) (q : Q) : Prop :=
  exists z c, (b = Fin c true /\ c == inject_Z z /\ q == inject_Z z) \/ (b = Fin c false /\ c == inject_Z z + 1 /\ inject_Z z < q /\ q < inject_Z z + 1).
Lemma unitUB_tri a b c p q r : unitUB a p -> unitUB b q -> unitUB c r -> r == p + q -> ble c (badd a b) = true.
Proof.
  intros [za [ca [[-> [A1 A2]]|[-> [A1 [A2 A3]]]]]] [zb [cb [[-> [B1 B2]]|[-> [B1 [B2 B3]]]]]] [zc [cc [[-> [C1 C2]]|[-> [C1 [C2 C3]]]]]] E; cbn [badd andb ble]; set (sm := Qred (ca + cb)); assert (ESM : sm == ca + cb) by apply Qred_correct; clearbody sm.
  - replace (Qltb cc sm) with false by (symmetry; apply Qltb_false; lra). replace (Qeq_bool cc sm) with true by (symmetry; apply Qeq_bool_iff; lra). reflexivity.
  - exfalso. assert (K : inject_Z zc < inject_Z (za + zb)) by (rewrite inject_Z_plus; lra). apply inj_lt in K.
    assert (K2 : inject_Z (za + zb) < inject_Z zc + 1) by (rewrite inject_Z_plus; lra). assert (X := inj_lt1 (za + zb - 1)%Z (zc - 1)%Z).
    assert (K3 : inject_Z (za + zb) < inject_Z (zc + 1)) by (rewrite (inject_Z_plus zc); change (inject_Z 1) with 1; lra). apply inj_lt in K3. lia.
  - assert (K : Qltb cc sm = true).
    { apply Qltb_true. assert (J : (zc <= za + zb)%Z) by (apply (inj_lt1 _ _ (inject_Z zc + (1#2) * (inject_Z za + inject_Z zb + 1 - inject_Z zc))); rewrite ?inject_Z_plus; lra).
      rewrite Zle_Qle, inject_Z_plus in J. lra. }
    rewrite K. reflexivity.
  - assert (J : (zc <= za + zb)%Z) by (apply (inj_lt1 _ _ r); rewrite ?inject_Z_plus; lra). rewrite Zle_Qle, inject_Z_plus in J.
    destruct (Qltb cc sm) eqn:K; [reflexivity|]. apply Qltb_false in K. replace (Qeq_bool cc sm) with true by (symmetry; apply Qeq_bool_iff; lra). reflexivity.
  - assert (K : Qltb cc sm = true) by (apply Qltb_true; lra). rewrite K. reflexivity.
  - assert (J : (zc <= za + zb)%Z) by (apply (inj_lt1 _ _ r); rewrite ?inject_Z_plus; lra). rewrite Zle_Qle, inject_Z_plus in J.
    destruct (Qltb cc sm) eqn:K; [reflexivity|]. apply Qltb_false in K. replace (Qeq_bool cc sm) with true by (symmetry; apply Qeq_bool_iff; lra). reflexivity.
  - assert (K : Qltb cc sm = true) by (apply Qltb_true; lra). rewrite K. reflexivity.
  - assert (J : (zc <= za + zb + 1)%Z) by (apply (inj_lt1 _ _ r); rewrite ?inject_Z_plus; change (inject_Z 1) with 1; lra). rewrite Zle_Qle, !inject_Z_plus in J. change (inject_Z 1) with 1 in J.
    destruct (Qltb cc sm) eqn:K; [reflexivity|]. apply Qltb_false in K. replace (Qeq_bool cc sm) with true by (symmetry; apply Qeq_bool_iff; lra). reflexivity.
Qed.
Lemma unitBounds_ub u l q : unitBounds u l q -> unitUB u q /\ unitUB l (- q).
Proof.
  intros [z [c [e [[-> [-> [C [E H]]]]|[-> [-> [C [E [H H']]]]]]]]]; split.
  - exists z, c. left. auto.
  - exists (- z)%Z, e. left. rewrite inject_Z_opp. split; [auto|]. split; lra.
  - exists z, c. right. auto.
  - exists (- z - 1)%Z, e. right. replace (- z - 1)%Z with (- z + - 1)%Z by lia. rewrite inject_Z_plus, inject_Z_opp. change (inject_Z (- 1)) with (- (1)). split; [auto|]. split; [lra|]. split; lra.
Qed.
Lemma unitUB_fi b q : unitUB b q -> fiB b.
Proof.
  intros [z [c [[-> [A B]]|[-> [A [B C]]]]]]; (split; [|discriminate]); cbn; [exists z; auto|]. exists (z + 1)%Z. rewrite inject_Z_plus. exact A.
Qed.
Lemma unitUB_ext b p q : p == q -> unitUB b p -> unitUB b q.
Proof. intros E [z [c [[-> [A B]]|[-> [A [B C]]]]]]; exists z, c; [left|right]; (split; [auto|]); (split; [auto|]); [lra|split; lra]. Qed.
Lemma region_entry m d a b : regionCond m d -> (a < dim m)%nat -> (b < dim m)%nat -> a <> b -> unitUB (get m a b) (ext (accd d) a - ext (accd d) b).
Proof.
  intros [L [_ H]] Ha Hb N. destruct (pair_cases (dim m) a b Ha Hb N) as [i [j [Hij [Hj C]]]].
  fold (tcSize m) in *. fold (colOf m j) in C. assert (E := ext_col m d i j L Hij Hj). destruct (unitBounds_ub _ _ _ (H i j Hij Hj)) as [U W].
  unfold getUpperBound, getLowerBound in *. destruct C as [[-> ->]|[-> ->]].
  - eapply unitUB_ext; [|exact U]. rewrite E. reflexivity.
  - eapply unitUB_ext; [|exact W]. rewrite <- E. ring.
Qed.
Lemma region_closedOff m d : regionCond m d -> closedOff m.
Proof.
  intros R i j k Hi Hj Hk N. assert (G : diagOK m) by (destruct R as [_ [[_ G] _]]; exact G).
  destruct (Nat.eq_dec i k) as [->|N1]; [apply badd_zero_le_l; apply bzero_le_sat; apply G; auto|].
  destruct (Nat.eq_dec k j) as [->|N2]; [apply badd_zero_le; apply bzero_le_sat; apply G; auto|].
  apply (unitUB_tri _ _ _ _ _ _ (region_entry m d i k R Hi Hk N1) (region_entry m d k j R Hk Hj N2) (region_entry m d i j R Hi Hj N)). ring.
Qed.
Lemma region_loose m d : regionCond m d -> looseCond m.
Proof.
  intro R. split; [apply R|]. split; [eapply region_closedOff; eauto|]. split; [destruct R as [_ [[_ G] _]]; exact G|].
  exists d. apply (regionCond_exact m d R). apply sameRegion_refl.
Qed.
Lemma region_off_fi m d a b : regionCond m d -> (a < dim m)%nat -> (b < dim m)%nat -> a <> b -> fiB (get m a b).
Proof. intros R Ha Hb N. eapply unitUB_fi, region_entry; eauto. Qed.

(** ** prefixes *)
Definition diagZ (m : tcond) : Prop := forall k, (k < dim m)%nat -> get m k k = bz.
(** a region of words that can occur, with the bounds 0 on the diagonal *)
Definition goodPre (x : frel) : Prop := (exists w, properTW w /\ regionalF x w) /\ diagZ (ec (fel x)).
Lemma diagZ_upd g m p : (fst p < dim m)%nat -> (snd p < dim m)%nat -> fst p <> snd p -> diagZ m -> diagZ (updPair g m p).
Proof.
  intros A B N D k Hk. rewrite dim_updPair in Hk. unfold updPair. cbv zeta. rewrite get_set1 by (rewrite dim_set1; auto). rewrite get_set1 by auto.
  destruct ((k =? snd p)%nat && (k =? fst p)%nat) eqn:E; [apply andb_true_iff in E; destruct E as [E1 E2]; apply Nat.eqb_eq in E1, E2; congruence|].
  destruct ((k =? fst p)%nat && (k =? snd p)%nat) eqn:E'; [apply andb_true_iff in E'; destruct E' as [E1 E2]; apply Nat.eqb_eq in E1, E2; congruence|]. auto.
Qed.
Lemma diagZ_succ vars : forall m, (2 <= dim m)%nat -> (forall i, In i vars -> (i < tcSize m)%nat) -> diagZ m -> diagZ (tcSuccessor m vars).
Proof.
  induction vars as [|i vars IH]; intros m D V H; [auto|]. cbn. assert (Hi := V i (or_introl eq_refl)). unfold tcSize in Hi.
  apply IH; rewrite ?succ1_upd.
  - rewrite dim_updPair. auto.
  - intros k Hk. unfold tcSize. rewrite dim_updPair. apply V. right; auto.
  - apply diagZ_upd; cbn [fst snd]; auto; lia.
Qed.
Lemma diagZ_extendN m : (2 <= dim m)%nat -> diagZ m -> diagZ (extendN m).
Proof.
  intros D H k Hk. unfold extendN in *. rewrite dim_mk in Hk. rewrite get_mk by auto. destruct (Nat.eq_dec k (dim m)) as [->|K].
  - rewrite Nat.eqb_refl. replace ((dim m =? 0)%nat) with false by (symmetry; apply Nat.eqb_neq; lia). cbn [andb].
    replace ((0 =? dim m)%nat) with false by (symmetry; apply Nat.eqb_neq; lia). apply H. lia.
  - apply Nat.eqb_neq in K. rewrite K. rewrite andb_false_r. cbn [andb]. apply H. apply Nat.eqb_neq in K. lia.
Qed.
Lemma goodPre_default : goodPre frDefault.
Proof.
  split; [exists emptyTW; split; [|apply frDefault_regional]|].
  - split; [split; [reflexivity|repeat constructor; cbn; lra]|intros []].
  - intros k Hk. cbn in Hk. destruct k as [|[|k]]; [reflexivity|reflexivity|lia].
Qed.
Lemma succVars_lt o n f : (0 < n)%nat -> orderOf o n f -> forall i, In i (foSuccVars o) -> (i < n)%nat.
Proof.
  intros N O i Hi. apply (orderOf_in o n f O). unfold foSuccVars in Hi. apply in_concat. destruct (blocks o) as [|[|z0 z] r] eqn:E; [destruct Hi| |].
  - exists (last ([] :: r) []). split; [|exact Hi]. destruct (@exists_last _ ([] :: r) ltac:(discriminate)) as [l [b Eb]]. rewrite Eb. rewrite last_last. apply in_or_app. right. left. auto.
  - exists (z0 :: z). split; [left; auto|exact Hi].
Qed.
Lemma goodPre_succ x : goodPre x -> goodPre (frSucc x).
Proof.
  intros [[w [P R]] D]. split.
  - destruct (frSucc_regional x w R) as [q [[Q1 _] Q2]]. eexists. split; [|exact Q2].
    destruct P as [[P1 P2] P3]. split; [|exact P3]. split; [apply Q2|]. cbn [td]. apply addBack_nonneg; [auto|]. lra.
  - cbn [frSucc fel ec]. destruct R as [_ [W [RC O]]]. apply diagZ_succ; [apply RC| |auto].
    assert (L := proj1 RC). rewrite <- L. intros i Hi. eapply succVars_lt; [|exact O|exact Hi]. apply wfTW_pos; auto.
Qed.
Lemma goodPre_act x a : a <> UNOBSERVABLE -> goodPre x -> goodPre (frSuccAct x a).
Proof.
  intros A [[w [P R]] D]. split.
  - exists (concatChar w a). split; [|apply frSuccAct_regional; auto]. destruct P as [[P1 P2] P3]. split; [split|].
    + apply (frSuccAct_regional x w a R).
    + cbn. apply Forall_app. split; [auto|]. constructor; [lra|constructor].
    + cbn. intro H. apply in_app_or in H. destruct H as [H|[H|[]]]; [contradiction|congruence].
  - cbn [frSuccAct fel ec]. apply diagZ_extendN; [apply R|auto].
Qed.

Lemma goodPre_ok x : goodPre x -> okCond (ec (fel x)).
Proof.
  intros [[w [P R]] D]. destruct R as [_ [_ [RC _]]]. assert (Lo := region_loose _ _ RC). assert (O := okCond_fix _ Lo).
  assert (G : forall i j, (i < dim (ec (fel x)))%nat -> (j < dim (ec (fel x)))%nat -> get (fixDiag (ec (fel x))) i j = get (ec (fel x)) i j).
  { intros i j Hi Hj. rewrite get_fix by auto. destruct (i =? j)%nat eqn:E; [|auto]. apply Nat.eqb_eq in E. subst. symmetry. auto. }
  destruct O as [D0 [C N]]. rewrite dim_fix in D0. split; [auto|]. split; [|apply loose_nonempty; auto].
  intros i j k Hi Hj Hk. specialize (C i j k). rewrite dim_fix in C. rewrite !G in C by auto. auto.
Qed.
Lemma goodPre_fi x : goodPre x -> fiCond (ec (fel x)).
Proof.
  intros H i j Hi Hj. destruct (Nat.eq_dec i j) as [->|N].
  - destruct H as [_ D]. rewrite D by auto. split; [exists 0%Z; reflexivity|discriminate].
  - destruct H as [[w [_ R]] _]. eapply region_off_fi; eauto. apply R.
Qed.
Lemma region_member_nonneg m d d' : regionCond m d -> Forall (fun q => 0 <= q) d -> inCond m d' -> Forall (fun q => 0 <= q) d'.
Proof.
  intros R F I. apply (regionCond_exact m d R) in I. destruct I as [L I]. apply Forall_forall. intros q Hq. apply (In_nth _ _ 0) in Hq. destruct Hq as [i [Hi <-]].
  specialize (I i i (le_n i) ltac:(lia)). rewrite <- T_diag by auto.
  assert (P : 0 <= T d i i) by (rewrite T_diag by lia; rewrite Forall_forall in F; apply F; apply nth_In; lia).
  destruct I as [I _]. assert (X := Qfloor_le (T d' i i)). rewrite <- I in X. assert (Y := Qfloor_resp_le 0 _ P). change (Qfloor 0) with 0%Z in Y.
  rewrite Zle_Qle in Y. change (inject_Z 0) with 0 in Y. lra.
Qed.
Lemma goodPre_proper x : goodPre x -> properEL (fel x) /\ isSimple (ec (fel x)) = true /\ intCond (ec (fel x)) /\ queryable (fel x).
Proof.
  intro G. assert (O := goodPre_ok x G). assert (F := goodPre_fi x G). destruct (fiCond_queryable _ (proj1 O) F) as [I B]. destruct G as [[w [P R]] D].
  assert (R' := R). destruct R as [E [W [RC _]]]. assert (V : visible (fel x)).
  { unfold visible. rewrite <- E. apply Forall_forall. intros a Ha Ea. subst. apply P. auto. }
  assert (WE : wfElem (fel x)).
  { split; [auto|]. assert (L := proj1 RC). unfold wfTW in W. rewrite <- E. congruence. }
  split; [split; [auto|split; [auto|]]; intros w' [_ Hw]; eapply region_member_nonneg; eauto; apply P|]. split; [eapply regionCond_simple; eauto|]. split; [auto|].
  split; [auto|]. split; [auto|]. split; auto.
Qed.

(** ** suffixes *)
(** the bounds of every T_{i,j} are those of one unit of nonnegative numbers *)
Definition unitShape (m : tcond) : Prop :=
  (2 <= dim m)%nat /\ diagOK m /\ (forall k, (1 <= k)%nat -> (k < dim m)%nat -> fiB (get m k k)) /\
  forall i j, (i <= j)%nat -> (j < tcSize m)%nat -> exists q, 0 <= q /\ unitBounds (getUpperBound m i j) (getLowerBound m i j) q.
Definition sufShape (x : frel) : Prop :=
  unitShape (ec (fel x)) /\ tcSize (ec (fel x)) = S (length (ew (fel x))) /\ visible (fel x) /\
  forall i, In i (concat (blocks (fo x))) -> (i < tcSize (ec (fel x)))%nat.
Lemma unitUp_exists q : 0 <= q -> exists q', 0 <= q' /\ unitUp q q'.
Proof.
  intro H. destruct (unit_cases q) as [z [E|[A B]]].
  - exists (inject_Z z + (1 # 2)). split; [lra|]. exists z. left. split; [auto|]. split; lra.
  - exists (inject_Z z + 1). split; [lra|]. exists z. right. split; [auto|]. split; [auto|reflexivity].
Qed.
Lemma upd_get g m a b p q : (p < dim m)%nat -> (q < dim m)%nat -> (a < dim m)%nat -> (b < dim m)%nat -> a <> b ->
  get (updPair g m (a, b)) p q = if ((p =? b) && (q =? a))%nat then snd (g (get m a b) (get m b a)) else if ((p =? a) && (q =? b))%nat then fst (g (get m a b) (get m b a)) else get m p q.
Proof. intros Hp Hq Ha Hb N. unfold updPair. cbv zeta. cbn [fst snd]. rewrite get_set1 by (rewrite dim_set1; auto). rewrite get_set1 by auto. reflexivity. Qed.
Lemma unitShape_pred1 m i : unitShape m -> (i < tcSize m)%nat -> unitShape (pred1 m i).
Proof.
  intros [D [G [F U]]] Hi. rewrite pred1_upd.
  assert (Ec : ((i + 2) mod dim m)%nat = colOf m i).
  { unfold colOf, tcSize in *. destruct (i =? Nat.pred (dim m) - 1)%nat eqn:K.
    - apply Nat.eqb_eq in K. replace (i + 2)%nat with (dim m) by lia. apply Nat.mod_same. lia.
    - apply Nat.eqb_neq in K. apply Nat.mod_small. lia. }
  rewrite Ec. set (k := colOf m i). assert (Hk : (k < dim m)%nat) by (apply TimedConditionProofs.colOf_lt; auto).
  assert (Nk : 1%nat <> k) by (unfold k, colOf; destruct (i =? _)%nat; lia).
  assert (DG : forall a, (a < dim m)%nat -> get (updPair predG m (1%nat, k)) a a = get m a a).
  { intros a Ha. rewrite upd_get by (auto; lia). destruct (Nat.eqb_spec a k), (Nat.eqb_spec a 1); cbn [andb]; auto; congruence. }
  split; [rewrite dim_updPair; auto|]. split; [intros a Ha; rewrite dim_updPair in Ha; rewrite DG by auto; auto|].
  split; [intros a H1 Ha; rewrite dim_updPair in Ha; rewrite DG by auto; auto|].
  assert (SZ : tcSize (updPair predG m (1%nat, k)) = tcSize m) by (unfold tcSize; rewrite dim_updPair; auto). rewrite SZ. intros a b Hab Hb.
  assert (CE : colOf (updPair predG m (1%nat, k)) b = colOf m b) by (unfold colOf; rewrite SZ; reflexivity).
  unfold getUpperBound, getLowerBound. rewrite CE. assert (Hc := TimedConditionProofs.colOf_lt m b D Hb). assert (Ha : (a + 1 < dim m)%nat) by (unfold tcSize in *; lia).
  assert (Nc := colOf_neq m a b Hab Hb). rewrite !upd_get by (auto; lia).
  destruct (U a b Hab Hb) as [q [Hq Uq]]. unfold getUpperBound, getLowerBound in Uq.
  destruct (Nat.eq_dec a 0) as [->|Na].
  - cbn [Nat.add]. destruct (Nat.eq_dec (colOf m b) k) as [Ek|Nk2].
    + rewrite Ek. assert (Nk' : k <> 1%nat) by auto. apply Nat.eqb_neq in Nk'. assert (Nk2 := Nk). apply Nat.eqb_neq in Nk2. rewrite Nk', Nk2, !Nat.eqb_refl. cbn [andb].
      destruct (unitUp_exists q Hq) as [q' [Hq' M]]. exists q'. split; [auto|]. rewrite Ek in Uq. exact (predG_unit _ _ _ _ Uq M).
    + assert (C1 : colOf m b <> 1%nat) by (unfold colOf; destruct (b =? _)%nat; lia). apply Nat.eqb_neq in C1, Nk2. rewrite C1, Nk2. rewrite ?andb_false_r. cbn [andb]. exists q. auto.
  - assert (N1 : (a + 1)%nat <> 1%nat) by lia. assert (C1 : colOf m b <> 1%nat) by (unfold colOf; destruct (b =? _)%nat; lia).
    rewrite (proj2 (Nat.eqb_neq _ _) N1), (proj2 (Nat.eqb_neq _ _) C1). rewrite !andb_false_r. cbn [andb]. exists q. auto.
Qed.
Lemma unitShape_pred vars : forall m, (forall i, In i vars -> (i < tcSize m)%nat) -> unitShape m -> unitShape (tcPredecessor m vars) /\ tcSize (tcPredecessor m vars) = tcSize m.
Proof.
  induction vars as [|i vars IH]; intros m V H; [auto|]. cbn. assert (SZ : tcSize (pred1 m i) = tcSize m) by (rewrite pred1_upd; unfold tcSize; rewrite dim_updPair; auto).
  destruct (IH (pred1 m i)) as [A B].
  - intros k Hk. rewrite SZ. apply V. right; auto.
  - apply unitShape_pred1; auto. apply V. left; auto.
  - split; [auto|]. unfold tcPredecessor in B. rewrite B. exact SZ.
Qed.
Lemma predVars_in o i : In i (foPredVars o) -> In i (concat (blocks o)).
Proof.
  unfold foPredVars. destruct (blocks o) as [|[|z0 z] r] eqn:E; [intros []| |].
  - destruct r as [|b r]; [intros []|]. cbn [hd]. intro H. cbn. apply in_or_app. left. auto.
  - intro H. cbn [concat]. apply in_or_app. left. auto.
Qed.
Lemma foPred_in o i : In i (concat (blocks (foPred o))) -> In i (concat (blocks o)).
Proof.
  unfold foPred. cbn [blocks]. destruct (blocks o) as [|[|z0 z] r] eqn:E; [intros []|auto|].
  cbn [concat]. rewrite concat_app. cbn [concat]. rewrite app_nil_r. intro H. apply in_app_or in H. destruct H as [[]|H]. apply in_app_or in H. apply in_or_app. tauto.
Qed.
Lemma sufShape_pred x : sufShape x -> sufShape (brPred x).
Proof.
  intros [U [Z [V B]]]. cbn [brPred]. destruct (unitShape_pred (foPredVars (fo x)) (ec (fel x))) as [A C]; [intros i Hi; apply B, predVars_in, Hi|auto|].
  split; [exact A|]. split; [exact (eq_trans C Z)|]. split; [exact V|]. intros i Hi. refine (eq_ind_r (fun k => (i < k)%nat) _ C). apply B, foPred_in, Hi.
Qed.
Lemma unitShape_extendZero m : unitShape m -> unitShape (extendZero m) /\ tcSize (extendZero m) = S (tcSize m).
Proof.
  intros [D [DG [F H]]]. assert (DE : dim (extendZero m) = S (dim m)) by (unfold extendZero; rewrite dim_mk; auto).
  assert (SZ : tcSize (extendZero m) = S (tcSize m)) by (unfold tcSize; rewrite DE; cbn; lia). split; [|auto].
  assert (Ds : dim m = S (tcSize m)) by (unfold tcSize; lia). assert (N : (1 <= tcSize m)%nat) by lia.
  assert (G12 : get (extendZero m) 1 2 = bz /\ get (extendZero m) 2 1 = bz) by (unfold extendZero; rewrite !get_mk by lia; split; reflexivity). destruct G12 as [G12 G21].
  assert (G1b : forall b, (3 <= b)%nat -> (b < S (dim m))%nat -> get (extendZero m) 1 b = get m 1 (b - 1) /\ get (extendZero m) b 1 = get m (b - 1) 1).
  { intros b Hb Hb'. unfold extendZero. rewrite !get_mk by lia. destruct b as [|[|[|b]]]; try lia. cbn. rewrite ?Nat.sub_0_r. auto. }
  assert (G10 : get (extendZero m) 1 0 = get m 1 0 /\ get (extendZero m) 0 1 = get m 0 1).
  { unfold extendZero. rewrite !get_mk by lia. cbn. auto. }
  assert (Gab : forall a b, (2 <= a)%nat -> (2 <= b)%nat -> (a < S (dim m))%nat -> (b < S (dim m))%nat -> get (extendZero m) a b = get m (a - 1) (b - 1)).
  { intros a b Ha Hb Ha' Hb'. unfold extendZero. rewrite !get_mk by lia. destruct a as [|[|a]]; try lia. destruct b as [|[|b]]; try lia. cbn. destruct a, b; reflexivity. }
  assert (Ga0 : forall a, (2 <= a)%nat -> (a < S (dim m))%nat -> get (extendZero m) a 0 = get m (a - 1) 0 /\ get (extendZero m) 0 a = get m 0 (a - 1)).
  { intros a Ha Ha'. unfold extendZero. rewrite !get_mk by lia. destruct a as [|[|a]]; try lia. cbn. destruct a; auto. }
  assert (G11 : get (extendZero m) 1 1 = get m 1 1) by (unfold extendZero; rewrite get_mk by lia; reflexivity).
  split; [lia|]. split.
  { intros k Hk. rewrite DE in Hk. destruct k as [|[|k]].
    - unfold extendZero. rewrite get_mk by lia. cbn. auto.
    - rewrite G11. apply DG. lia.
    - rewrite Gab by lia. apply DG. lia. }
  split. { rewrite DE. intros k H1 Hk. destruct k as [|[|k]]; [lia|rewrite G11; apply F; lia|]. rewrite Gab by lia. apply F; lia. }
  rewrite SZ. intros i j Hij Hj.
  assert (CE : colOf (extendZero m) j = if (j =? tcSize m)%nat then 0%nat else (j + 2)%nat).
  { unfold colOf. rewrite SZ. replace (S (tcSize m) - 1)%nat with (tcSize m) by lia. reflexivity. }
  unfold getUpperBound, getLowerBound. rewrite CE. 
  destruct i as [|i].
  - destruct (Nat.eq_dec j 0) as [->|Hj0].
    + replace ((0 =? tcSize m)%nat) with false by (symmetry; apply Nat.eqb_neq; lia). cbn [Nat.add]. rewrite G12, G21. exists 0. split; [lra|]. apply unit_zero. reflexivity.
    + assert (UB := H 0%nat (j - 1)%nat ltac:(lia) ltac:(lia)). unfold getUpperBound, getLowerBound, colOf in UB. cbn [Nat.add] in *.
      destruct (j =? tcSize m)%nat eqn:E.
      * apply Nat.eqb_eq in E. replace ((j - 1 =? tcSize m - 1)%nat) with true in UB by (symmetry; apply Nat.eqb_eq; lia). destruct G10 as [-> ->]. exact UB.
      * apply Nat.eqb_neq in E. replace ((j - 1 =? tcSize m - 1)%nat) with false in UB by (symmetry; apply Nat.eqb_neq; lia).
        destruct (G1b (j + 2)%nat) as [-> ->]; [lia|lia|]. replace (j + 2 - 1)%nat with (j - 1 + 2)%nat by lia. exact UB.
  - assert (UB := H i (j - 1)%nat ltac:(lia) ltac:(lia)). unfold getUpperBound, getLowerBound, colOf in UB.
    destruct (j =? tcSize m)%nat eqn:E.
    + apply Nat.eqb_eq in E. replace ((j - 1 =? tcSize m - 1)%nat) with true in UB by (symmetry; apply Nat.eqb_eq; lia).
      destruct (Ga0 (Datatypes.S i + 1)%nat) as [-> ->]; [lia|lia|]. replace (Datatypes.S i + 1 - 1)%nat with (i + 1)%nat by lia. exact UB.
    + apply Nat.eqb_neq in E. replace ((j - 1 =? tcSize m - 1)%nat) with false in UB by (symmetry; apply Nat.eqb_neq; lia).
      rewrite !Gab by lia. replace (Datatypes.S i + 1 - 1)%nat with (i + 1)%nat by lia. replace (j + 2 - 1)%nat with (j - 1 + 2)%nat by lia. exact UB.
Qed.
Lemma concat_map_S bs i : In i (concat (map (map S) bs)) -> exists k, i = S k /\ In k (concat bs).
Proof.
  intro H. apply in_concat in H. destruct H as [l [H1 H2]]. apply in_map_iff in H1. destruct H1 as [l' [<- H1]]. apply in_map_iff in H2. destruct H2 as [k [<- H2]].
  exists k. split; [auto|]. apply in_concat. exists l'. auto.
Qed.
Lemma sufShape_act x a : a <> UNOBSERVABLE -> sufShape x -> sufShape (brPredAct x a).
Proof.
  intros A [U [Z [V B]]]. destruct (unitShape_extendZero _ U) as [E SZ]. cbn [brPredAct]. split; [exact E|]. split; [exact (eq_trans SZ (f_equal S Z))|].
  split; [constructor; auto|]. intros i Hi. refine (eq_ind_r (fun k => (i < k)%nat) _ SZ). change (In i (concat (match map (map S) (blocks (fo x)) with [] => [] | z :: r => (0%nat :: z) :: r end))) in Hi.
  assert (K : i = 0%nat \/ In i (concat (map (map S) (blocks (fo x))))).
  { destruct (map (map S) (blocks (fo x))); [destruct Hi|]. cbn [concat app In] in Hi |- *. destruct Hi as [Hi|Hi]; [left; auto|right; exact Hi]. }
  destruct K as [->|K]; [lia|]. apply concat_map_S in K. destruct K as [k [-> K]]. specialize (B k K). lia.
Qed.
Lemma region_unitShape m d : regionCond m d -> Forall (fun q => 0 <= q) d -> (forall k, (1 <= k)%nat -> (k < dim m)%nat -> fiB (get m k k)) -> unitShape m.
Proof.
  intros R F K. destruct R as [L [[D G] U]]. split; [auto|]. split; [exact G|]. split; [auto|]. intros i j Hij Hj. exists (T d i j). split; [|auto].
  unfold T. clear - F. assert (X : forall l, Forall (fun q => 0 <= q) l -> 0 <= sumQ l) by (induction l as [|a l IH]; intro Fl; cbn [sumQ]; [lra|inversion Fl; subst; specialize (IH H2); lra]).
  apply X. apply Forall_forall. intros q Hq. rewrite Forall_forall in F. apply F. 
  assert (Y : forall n (l : list Q) q, In q (firstn n l) -> In q l) by (induction n as [|n IH]; intros [|a l] q0 H; cbn in *; tauto || (destruct H; [auto|right; auto])).
  assert (Y2 : forall n (l : list Q) q, In q (skipn n l) -> In q l) by (induction n as [|n IH]; intros [|a l] q0 H; cbn in *; auto).
  eapply Y2, Y, Hq.
Qed.
Lemma sufShape_default : sufShape brDefault.
Proof.
  split; [|split; [reflexivity|split; [constructor|]]].
  - apply (region_unitShape _ [0]); [apply tcEmpty_region|repeat constructor; lra|]. intros k H1 Hk. cbn in Hk. assert (k = 1%nat) by lia. subst. split; [exists 0%Z; reflexivity|discriminate].
  - cbn. intros i [<-|[]]. lia.
Qed.
Lemma sufShape_word w : properTW w -> sufShape (brFromTimedWord w).
Proof.
  intros [[W F] V]. assert (N : td w <> []) by (unfold wfTW in W; destruct (td w); [discriminate|congruence]).
  assert (R := brFromTimedWord_regional w W). destruct R as [E [_ [RC O]]]. assert (OK := tcOf_ok (td w) N).
  split; [|split; [|split]].
  - apply (region_unitShape _ (td w)); [exact RC|auto|]. intros k H1 Hk. cbn [brFromTimedWord fel ec] in *.
    apply queryable_fiCond; auto; [apply tcOf_int; auto|]. apply simple_allBounded; [apply OK|]. apply tcOf_simple; auto.
  - cbn [brFromTimedWord fel ec ew]. rewrite tcOf_size by auto. exact W.
  - unfold visible. cbn. apply Forall_forall. intros a Ha Ea. subst. contradiction.
  - intros i Hi. apply (orderOf_in _ _ _ O) in Hi. assert (L := proj1 RC). rewrite L in Hi. exact Hi.
Qed.
