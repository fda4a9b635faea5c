(** applyResets(resets, targetClockSize) on regional languages. *)
From Coq Require Import QArith Qround ZArith Bool List Arith Lia Lqa.
From Verif Require Import BoundsModel BoundsProofs ConstraintModel GuardSpec ZoneModel ZoneSpec ZoneProofs ZoneProofs2 ZoneProofs3 AutomatonSpec AutomatonProofs TimedConditionModel TimedConditionSpec TimedConditionProofs
  TimedConditionProofs2 TimedConditionProofs3 TimedWordModel TimedWordSpec ElementaryModel ElementarySpec ElementaryProofs ElementaryProofs2 RegionalModel RegionalSpec RegionalProofs RegionalProofs4 CexProofs CexProofs2 QueryableProofs RegionInvariance
  RenamingProofs5 RenamingProofs6 ResetSpec TargetResetModel TargetResetSpec TargetResetProofs.
Import ListNotations.
Open Scope Q_scope.

(** ** integer bounds *)
Lemma intB_floor q : intB (Fin q true) <-> exists z, q == inject_Z z. Proof. reflexivity. Qed.
Lemma intCond_forceUnit m i j q : intCond m -> intCond (forceUnit m i j q).
Proof.
  intro H. unfold forceUnit, restrictUpperBound, restrictLowerBound. destruct (Qeq_bool q (qfloor q)) eqn:E; repeat (apply intCond_canonize; apply intCond_set1); try exact H.
  - apply Qeq_bool_eq in E. unfold qfloor in E. exists (- Qfloor q)%Z. rewrite inject_Z_opp. rewrite E at 1. reflexivity.
  - apply Qeq_bool_eq in E. unfold qfloor in E. exists (Qfloor q). exact E.
  - exists (- Qfloor q)%Z. rewrite inject_Z_opp. reflexivity.
  - exists (Qceiling q). reflexivity.
Qed.
Lemma intCond_resetConds rs N : intCond (resetConds rs N).
Proof.
  unfold resetConds. assert (G : forall l m, intCond m -> intCond (fold_left (forceReset rs N) l m)); [|apply G, intCond_ztop].
  induction l as [|[x r] l IH]; intros m H; [exact H|]. cbn [fold_left]. apply IH. cbn [forceReset]. destruct r as [q|y]; [|exact H]. destruct (x <? N)%nat; [|exact H].
  assert (G2 : forall l' m', intCond m' -> intCond (fold_left (forceDiff x q) l' m')); [|apply G2, intCond_forceUnit, H].
  induction l' as [|[y r] l' IH']; intros m' H'; [exact H'|]. cbn [fold_left]. apply IH'. cbn [forceDiff]. destruct r as [p|z]; [|exact H']. destruct (y <? x)%nat; [apply intCond_forceUnit|]; exact H'.
Qed.
Lemma intCond_getRight ls rs m : dim m = (ls + rs + 1)%nat -> intCond m -> intCond (getRight ls rs m).
Proof.
  intros D I. unfold getRight. apply intCond_canonize. intros i j Hi Hj. rewrite dim_mk in *. rewrite get_mk by auto. destruct i as [|i], j as [|j]; [exact Logic.I|apply I; lia..].
Qed.
Lemma tcApplyResetsTo_int m rs N : (2 <= dim m)%nat -> (1 <= N)%nat -> resetsInto (tcSize m) rs N -> intCond m -> intCond (tcApplyResetsTo m rs N).
Proof.
  intros D HN RI I. assert (ND : NoDup (map fst rs)) by apply RI. assert (DR := proj1 (resetConds_exact rs N (fun _ => 0) ND)).
  assert (RO : renOk (pred (dim m)) (dim (jux m (resetConds rs N))) (resetRenaming rs N)).
  { intros [y x] Hp. rewrite dim_jux, DR. apply renaming_in in Hp. cbn [fst snd]. destruct Hp as [L [H|[-> H]]].
    - assert (X := proj1 (proj2 RI) x y H L). unfold tcSize in X. lia.
    - assert (X := proj2 (proj2 RI) y L H). unfold tcSize in X. lia. }
  unfold tcApplyResetsTo. apply intCond_getRight; unfold tcSize.
  - rewrite dim_addRenaming by exact RO. rewrite dim_jux, DR. lia.
  - apply intCond_addRenaming; [exact RO|]. apply intCond_jux; [lia|lia|exact I|apply intCond_resetConds].
Qed.
(** a condition with integer bounds is a union of regions *)
Lemma intCond_regions m d d' : okCond m -> intCond m -> inCond m d -> sameRegion d d' -> inCond m d'.
Proof.
  intros [D _] I [L H] [L' R]. split; [congruence|]. intros i j Hij Hj. destruct (H i j Hij Hj) as [H1 H2]. assert (U := R i j Hij ltac:(lia)). apply sameUnit_sat in U. destruct U as [U1 U2].
  assert (Hc := colOf_lt m j D Hj). assert (Hi : (i + 1 < dim m)%nat) by (unfold tcSize in *; lia). split.
  - eapply ble_sat_1; [apply (ruB_least _ _ (I (i + 1)%nat (colOf m j) Hi Hc) H1)|exact U1].
  - eapply ble_sat_1; [apply (rlB_least _ _ (I (colOf m j) (i + 1)%nat Hc Hi) H2)|exact U2].
Qed.
(** ** bounded values *)
Definition boxed (n : nat) (B : Q) (v : nat -> Q) : Prop := forall k, (k < n)%nat -> - B <= v k /\ v k <= B.
Lemma boxed_more n B B' v : B <= B' -> boxed n B v -> boxed n B' v.
Proof. intros L H k Hk. destruct (H k Hk). split; lra. Qed.
Lemma boxed_bounded m B : okCond m -> (forall v, inZone m v -> boxed (tcSize m) B v) -> boundedCond m.
Proof.
  intros [D [C NE]] H. assert (TI := closed_tight m C (nonempty_nonneg2 _ NE)).
  assert (F : forall a b, (a < dim m)%nat -> (b < dim m)%nat -> a <> b -> get m a b <> Inf).
  { intros a b Ha Hb N. assert (X : ble (get m a b) (Fin (B + B) true) = true).
    { apply TI; [exact Ha|exact Hb|exact N|]. intros w Hw. assert (Hx := H w Hw). cbn [bsat]. unfold boxed, tcSize in Hx.
      destruct a as [|a], b as [|b]; cbn [ext].
      - lia.
      - destruct (Hx b ltac:(lia)). lra.
      - destruct (Hx a ltac:(lia)). lra.
      - destruct (Hx a ltac:(lia)). destruct (Hx b ltac:(lia)). lra. }
    destruct (ble_fin _ _ _ X) as [d [t ->]]. discriminate. }
  intros i j Hij Hj. assert (Hc := colOf_lt m j D Hj). assert (Hi : (i + 1 < dim m)%nat) by (unfold tcSize in *; lia). assert (Hn := colOf_neq m i j Hij Hj).
  split; apply F; auto; lia.
Qed.
Lemma finite_box (n : nat) (P : nat -> Q -> Prop) : (forall k B B', B <= B' -> P k B -> P k B') -> (forall k, (k < n)%nat -> exists B, P k B) -> exists B, forall k, (k < n)%nat -> P k B.
Proof.
  intro M. induction n as [|n IH]; intro H.
  - exists 0. intros k Hk. lia.
  - destruct IH as [B1 H1]; [intros k Hk; apply H; lia|]. destruct (H n ltac:(lia)) as [B2 H2]. destruct (Qlt_le_dec B1 B2) as [L|L].
    + exists B2. intros k Hk. destruct (Nat.eq_dec k n) as [->|E]; [exact H2|apply (M k B1); [lra|apply H1; lia]].
    + exists B1. intros k Hk. destruct (Nat.eq_dec k n) as [->|E]; [apply (M n B2); [lra|exact H2]|apply H1; lia].
Qed.
Lemma sameUnit_close p q : sameUnit p q -> q - 1 <= p /\ p <= q + 1.
Proof.
  intros [A B]. assert (X1 := Qfloor_le p). assert (X2 := Qlt_floor p). assert (Y1 := Qfloor_le q). assert (Y2 := Qlt_floor q). rewrite inject_Z_plus in X2, Y2. change (inject_Z 1) with 1 in X2, Y2. rewrite A in *. lra.
Qed.
Lemma bounded_boxed m : (2 <= dim m)%nat -> boundedCond m -> exists B, forall v, inZone m v -> boxed (tcSize m) B v.
Proof.
  intros D BC. destruct (finite_box (tcSize m) (fun k B => forall v, inZone m v -> - B <= v k /\ v k <= B)) as [B H].
  - intros k B B' L H v Hv. destruct (H v Hv). split; lra.
  - intros k Hk. destruct (BC k (tcSize m - 1)%nat ltac:(lia) ltac:(lia)) as [B1 B2]. rewrite lastUp in B1. rewrite lastLo in B2.
    destruct (get m (k + 1) 0) as [u us|] eqn:Eu; [|congruence]. destruct (get m 0 (k + 1)) as [l ls|] eqn:El; [|congruence].
    assert (K : forall v, inZone m v -> v k <= u /\ - l <= v k).
    { intros v Hv. apply inZone_Z in Hv. assert (X1 := Hv (k + 1)%nat 0%nat ltac:(unfold tcSize in Hk; lia) ltac:(lia)). assert (X2 := Hv 0%nat (k + 1)%nat ltac:(lia) ltac:(unfold tcSize in Hk; lia)). rewrite Eu in X1. rewrite El in X2.
      rewrite Nat.add_1_r in X1, X2. cbn [ext] in X1, X2. cbn [bsat] in X1, X2. destruct us, ls; split; lra. }
    destruct (Qlt_le_dec u l) as [L|L]; [exists l|exists u]; intros v Hv; destruct (K v Hv); split; lra.
  - exists B. intros v Hv k Hk. apply H; auto.
Qed.
Lemma tcApplyResetsTo_bounded m rs N : (2 <= dim m)%nat -> nonemptyZ m -> (1 <= N)%nat -> resetsInto (tcSize m) rs N -> boundedCond m -> boundedCond (tcApplyResetsTo m rs N).
Proof.
  intros D NE HN RI BC. destruct (tcApplyResetsTo_exact m rs N D NE HN RI) as (O1 & T1 & E). destruct (bounded_boxed m D BC) as [B HB].
  destruct (finite_box N (fun k B' => forall w, inZone (tcApplyResetsTo m rs N) w -> - B' <= w k /\ w k <= B')) as [B' H'].
  - intros k C C' L H w Hw. destruct (H w Hw). split; lra.
  - intros k Hk. assert (ND : NoDup (map fst rs)) by apply RI. destruct (in_dec Nat.eq_dec k (map fst rs)) as [I|I].
    + apply in_map_iff in I. destruct I as [[x r] [Ex I]]. cbn [fst] in Ex. subst x. destruct r as [q|y].
      * exists (if Qlt_le_dec q 0 then 1 - q else q + 1). intros w Hw. apply E in Hw. destruct Hw as [v [z [_ [R (_ & H2 & _)]]]]. assert (S := sameUnit_close _ _ (H2 k Hk (ex_intro _ q I))). rewrite (reset_val rs v z k _ ND R I) in S. destruct (Qlt_le_dec q 0); split; lra.
      * exists B. intros w Hw. apply E in Hw. destruct Hw as [v [z [Hv [R (H1 & _)]]]]. assert (NC : ~ constAt rs k) by (intros [q Hq]; assert (X := nodup_one rs k _ _ ND I Hq); discriminate).
        rewrite (H1 k Hk NC), (reset_val rs v z k _ ND R I). apply (HB v Hv). exact (proj1 (proj2 RI) k y I Hk).
    + exists B. intros w Hw. apply E in Hw. destruct Hw as [v [z [Hv [R (H1 & _)]]]]. assert (NC : ~ constAt rs k) by (intros [q Hq]; apply I; apply in_map_iff; exists (k, RConst q); auto).
      rewrite (H1 k Hk NC), (proj1 (R k) I). apply (HB v Hv). exact (proj2 (proj2 RI) k Hk I).
  - apply (boxed_bounded _ B' O1). rewrite T1. intros w Hw k Hk. apply H'; auto.
Qed.
(** ** all clocks of the target are assigned constants *)
Lemma isSimpleB_equiv u u' l l' : bequiv u u' -> bequiv l l' -> isSimpleB u l = true -> isSimpleB u' l' = true.
Proof.
  intros [U1 U2] [L1 L2]. assert (SU : match u, u' with Fin c s, Fin c' s' => c == c' /\ s = s' | Inf, Inf => True | _, _ => False end).
  { destruct u as [c s|], u' as [c' s'|]; auto.
    - rewrite ble_spec in U1, U2. assert (EQ : c == c'). { apply Qle_antisym; apply Qnot_lt_le; intro K; [assert (X := U1 ((c + c') * (1#2)))|assert (X := U2 ((c + c') * (1#2)))]; cbn [bsat] in X; destruct s, s'; assert (X' := X ltac:(lra)); lra. }
      split; [exact EQ|]. destruct s, s'; auto; exfalso; [assert (X := U1 c)|assert (X := U2 c')]; cbn [bsat] in X; assert (X' := X ltac:(lra)); lra.
    - destruct (ble_fin _ _ _ U2) as [? [? K]]. discriminate.
    - destruct (ble_fin _ _ _ U1) as [? [? K]]. discriminate. }
  assert (SL : match l, l' with Fin c s, Fin c' s' => c == c' /\ s = s' | Inf, Inf => True | _, _ => False end).
  { destruct l as [c s|], l' as [c' s'|]; auto.
    - rewrite ble_spec in L1, L2. assert (EQ : c == c'). { apply Qle_antisym; apply Qnot_lt_le; intro K; [assert (X := L1 ((c + c') * (1#2)))|assert (X := L2 ((c + c') * (1#2)))]; cbn [bsat] in X; destruct s, s'; assert (X' := X ltac:(lra)); lra. }
      split; [exact EQ|]. destruct s, s'; auto; exfalso; [assert (X := L1 c)|assert (X := L2 c')]; cbn [bsat] in X; assert (X' := X ltac:(lra)); lra.
    - destruct (ble_fin _ _ _ L2) as [? [? K]]. discriminate.
    - destruct (ble_fin _ _ _ L1) as [? [? K]]. discriminate. }
  destruct u as [c s|], u' as [c' s'|], l as [e t|], l' as [e' t'|]; try contradiction; auto. destruct SU as [EC <-], SL as [EE <-]. unfold isSimpleB, isPoint, isUnitOpen. rewrite !orb_true_iff, !andb_true_iff, !Qeq_bool_iff. rewrite EC, EE. auto.
Qed.
Lemma simple_transport a b : okCond a -> okCond b -> (forall d, inCond a d <-> inCond b d) -> isSimple a = true -> isSimple b = true.
Proof.
  intros Oa Ob E S. assert (X := proj2 (tcEqb_exact a b Oa Ob) E). unfold tcEqb in X. apply andb_true_iff in X. destruct X as [X1 X2]. apply Nat.eqb_eq in X1.
  assert (Z := proj1 (zstrictEqual_spec a b) X2). destruct Oa as [Da _], Ob as [Db _]. apply isSimple_spec; [exact Db|]. intros i j Hij Hj. rewrite <- X1 in Hj. assert (K := proj1 (isSimple_spec a Da) S i j Hij Hj).
  assert (Hc := colOf_lt a j Da Hj). assert (Hi : (i + 1 < dim a)%nat) by (unfold tcSize in *; lia). assert (Hn := colOf_neq a i j Hij Hj). assert (EC : colOf b j = colOf a j) by (unfold colOf; rewrite X1; reflexivity).
  unfold getUpperBound, getLowerBound in *. rewrite EC. eapply isSimpleB_equiv; [| |exact K]; apply Z; auto; lia.
Qed.
Lemma durs_since n w k : (k < n)%nat -> since (durs n w) k == w k.
Proof. intro H. rewrite since_acc by (rewrite durs_length; lia). apply durs_acc. exact H. Qed.
Lemma since_region d d' : length d = length d' -> (forall k, (k < length d)%nat -> sameUnit (since d k) (since d' k)) -> (forall j k, (j < k)%nat -> (k < length d)%nat -> sameUnit (since d j - since d k) (since d' j - since d' k)) -> sameRegion d d'.
Proof.
  intros L H1 H2. split; [exact L|]. intros i j Hij Hj. destruct (Nat.eq_dec j (length d - 1)) as [->|NE].
  - assert (X := H1 i ltac:(lia)). unfold since in X. rewrite <- L in X. exact X.
  - eapply TimedConditionProofs3.sameUnit_ext; [| |exact (H2 i (S j) ltac:(lia) ltac:(lia))]; rewrite T_since by lia; replace (S j - 1)%nat with j by lia; reflexivity.
Qed.
Lemma constants_region m rs N z : (2 <= dim m)%nat -> nonemptyZ m -> (1 <= N)%nat -> NoDup (map fst rs) -> (forall k, (k < N)%nat -> constAt rs k) -> (forall k q, In (k, RConst q) rs -> z k == q) -> forall d,
  inCond (tcApplyResetsTo m rs N) d <-> sameRegion (durs N z) d.
Proof.
  intros D NE HN ND CA Z d. assert (RI : resetsInto (tcSize m) rs N).
  { split; [exact ND|]. split.
    - intros x y H L. destruct (CA x L) as [q Hq]. assert (X := nodup_one rs x _ _ ND H Hq). discriminate.
    - intros k L H. exfalso. destruct (CA k L) as [q Hq]. apply H. apply in_map_iff. exists (k, RConst q). auto. }
  rewrite (tcApplyResetsTo_durations m rs N D NE HN RI). assert (DL := durs_length N z).
  assert (EZ : forall d0 z', isReset rs (since d0) z' -> forall k, (k < N)%nat -> z' k == since (durs N z) k).
  { intros d0 z' R k L. destruct (CA k L) as [q Hq]. rewrite (reset_val rs _ z' k _ ND R Hq), durs_since by exact L. symmetry. apply Z. exact Hq. }
  split.
  - intros [L [d0 [z' [_ [R (_ & H2 & H3)]]]]]. assert (E := EZ d0 z' R). apply since_region; [lia| |].
    + intros k Hk. rewrite DL in Hk. eapply TimedConditionProofs3.sameUnit_ext; [apply E; exact Hk|reflexivity|apply H2; auto].
    + intros j k Hjk Hk. rewrite DL in Hk. eapply TimedConditionProofs3.sameUnit_ext; [|reflexivity|apply (H3 j k Hjk Hk); apply CA; lia]. rewrite (E j), (E k) by lia. reflexivity.
  - intros R. assert (L : length d = N) by (destruct R as [L _]; lia). split; [exact L|]. destruct NE as [v Hv]. assert (Hd := inZone_durs m v D Hv).
    exists (durs (tcSize m) v), (applyReset (since (durs (tcSize m) v)) rs). split; [exact Hd|]. split; [apply applyReset_isReset|]. assert (E := EZ _ _ (applyReset_isReset rs (since (durs (tcSize m) v)))). split; [|split].
    + intros k Hk NC. exfalso. exact (NC (CA k Hk)).
    + intros k Hk _. eapply TimedConditionProofs3.sameUnit_ext; [symmetry; apply E; exact Hk|reflexivity|]. apply (since_same (durs N z) d k R). lia.
    + intros j k Hjk Hk _ _. destruct R as [LR R]. assert (X := R j (k - 1)%nat ltac:(lia) ltac:(lia)). eapply TimedConditionProofs3.sameUnit_ext; [| |exact X].
      * rewrite <- T_since by lia. rewrite (E j), (E k) by lia. reflexivity.
      * rewrite <- T_since by lia. reflexivity.
Qed.
Lemma constants_simple m rs N : (2 <= dim m)%nat -> nonemptyZ m -> (1 <= N)%nat -> NoDup (map fst rs) -> (forall k, (k < N)%nat -> constAt rs k) -> isSimple (tcApplyResetsTo m rs N) = true.
Proof.
  intros D NE HN ND CA. set (z := applyReset (fun _ => 0) rs). assert (Z : forall k q, In (k, RConst q) rs -> z k == q) by (intros k q Hq; exact (reset_val rs _ z k _ ND (applyReset_isReset rs (fun _ => 0)) Hq)).
  assert (E := constants_region m rs N z D NE HN ND CA Z). assert (NN : durs N z <> []) by (intro K; assert (X := durs_length N z); rewrite K in X; cbn in X; lia).
  assert (RI : resetsInto (tcSize m) rs N).
  { split; [exact ND|]. split.
    - intros x y H L. destruct (CA x L) as [q Hq]. assert (X := nodup_one rs x _ _ ND H Hq). discriminate.
    - intros k L H. exfalso. destruct (CA k L) as [q Hq]. apply H. apply in_map_iff. exists (k, RConst q). auto. }
  assert (RC := tcOf_regionCond (durs N z) NN). apply (simple_transport (tcOf (accum (durs N z)))).
  - apply tcOf_ok; auto.
  - apply (tcApplyResetsTo_exact m rs N D NE HN RI).
  - intro d. rewrite E. apply (regionCond_exact _ _ RC).
  - exact (regionCond_simple _ _ RC).
Qed.
