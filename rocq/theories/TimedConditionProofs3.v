From Coq Require Import QArith ZArith Bool List Lia Lqa Qround Arith.
From Verif Require Import BoundsModel BoundsProofs ConstraintModel ZoneModel ZoneSpec ZoneProofs ZoneProofs2
  AutomatonModel TimedWordModel TimedConditionModel TimedConditionSpec TimedConditionProofs TimedConditionProofs2.
Import ListNotations.
Open Scope Q_scope.

(** * the constructors, over durations *)
Lemma accum_length l : length (accum l) = length l.
Proof.
  induction l as [|x [|y l] IH]; auto. change (accum (x :: y :: l)) with
    (match accum (y :: l) with [] => [x] | z :: s => (z + x) :: z :: s end).
  destruct (accum (y :: l)) as [|z s] eqn:E; cbn [length] in *; lia.
Qed.
Lemma accum_nth l : forall k, nth k (accum l) 0 == accd l k.
Proof.
  induction l as [|x l IH]; intro k.
  - destruct k; reflexivity.
  - destruct l as [|y l].
    + destruct k as [|[|k]]; cbn; try reflexivity. ring.
    + change (accum (x :: y :: l)) with (match accum (y :: l) with [] => [x] | z :: s => (z + x) :: z :: s end).
      assert (L := accum_length (y :: l)).
      destruct (accum (y :: l)) as [|z s] eqn:E; [cbn in L; lia|].
      destruct k as [|k].
      * cbn [nth]. assert (H0 := IH 0%nat). cbn [nth] in H0. rewrite H0. unfold accd. cbn [skipn sumQ]. ring.
      * change (nth (S k) (z + x :: z :: s) 0) with (nth k (z :: s) 0). rewrite IH. reflexivity.
Qed.

Lemma accDiff_T d i j : (i <= j)%nat -> (j < length d)%nat -> accDiff (accum d) i j == T d i j.
Proof.
  intros Hij Hj. rewrite T_acc by auto. unfold accDiff. rewrite accum_length, accum_nth.
  destruct (Nat.ltb_spec (j + 1) (length d)).
  - rewrite accum_nth. replace (j + 1)%nat with (S j) by lia. reflexivity.
  - rewrite (accd_end d (S j)) by lia. reflexivity.
Qed.

Lemma uacc_accd d k : uacc (accum d) k == ext (accd d) k.
Proof. unfold uacc. destruct k; cbn [ext]; [reflexivity|]. apply accum_nth. Qed.

Lemma rlB_ext q q' : q == q' -> forall p, bsat (rlB q) p -> bsat (rlB q') p.
Proof.
  intros E p. unfold rlB. assert (F : qfloor q == qfloor q') by (unfold qfloor; rewrite (Qfloor_comp q q' E); reflexivity).
  destruct (Qeq_bool (qfloor q) q) eqn:A; destruct (Qeq_bool (qfloor q') q') eqn:B; cbn [bsat]; intro H.
  - lra.
  - apply Qeq_bool_eq in A. apply Qeq_bool_false in B. lra.
  - apply Qeq_bool_false in A. apply Qeq_bool_eq in B. lra.
  - lra.
Qed.

Lemma fold_last_canonize (f g : Q -> bound) acc ps m :
  ps <> [] -> exists m', fold_left (forceStep f g acc) ps m = canonize m' /\ dim m' = dim m.
Proof.
  intro N. destruct (exists_last N) as [l [p ->]]. rewrite fold_left_app. cbn [fold_left].
  unfold forceStep at 1. cbv zeta. unfold restrictLowerBound at 1. eexists. split; [reflexivity|].
  rewrite dim_set1, dim_restrictUpper. clear N. revert m. induction l as [|q l IH]; intro m; cbn [fold_left]; auto.
  rewrite IH. unfold forceStep. rewrite dim_restrictLower, dim_restrictUpper. reflexivity.
Qed.

Lemma ijPairs_nonempty n : (1 <= n)%nat -> ijPairs n <> [].
Proof. intros H E. assert (K : In (0, 0)%nat (ijPairs n)) by (apply in_ijPairs; lia). rewrite E in K. destruct K. Qed.

Lemma tcOf_ok d : d <> [] -> okCond (tcOf (accum d)).
Proof.
  intro N. assert (L : (1 <= length (accum d))%nat) by (rewrite accum_length; destruct d; [congruence|cbn; lia]).
  destruct (tcOf_sem _ L) as [D [_ [Z _]]].
  assert (NE : nonemptyZ (tcOf (accum d))).
  { exists (accd d). apply inZone_Z. eapply Z_ext; [|exact Z]. intros i _. apply uacc_accd. }
  split; [lia|]. split; [|exact NE].
  rewrite tcOf_fold in *. destruct (fold_last_canonize ruB rlB (accum d) (ijPairs (length (accum d))) (ztop (length (accum d) + 1)) (ijPairs_nonempty _ L)) as [m' [E _]].
  rewrite E in *. apply canonize_closed_sat. destruct NE as [w H]. exists w. apply canonize_inZone. exact H.
Qed.
Lemma makeExact_ok d : d <> [] -> okCond (makeExact (accum d)).
Proof.
  intro N. assert (L : (1 <= length (accum d))%nat) by (rewrite accum_length; destruct d; [congruence|cbn; lia]).
  destruct (makeExact_sem _ L) as [D [Z _]].
  assert (NE : nonemptyZ (makeExact (accum d))).
  { exists (accd d). apply inZone_Z. eapply Z_ext; [|exact Z]. intros i _. apply uacc_accd. }
  split; [lia|]. split; [|exact NE].
  rewrite makeExact_fold in *.
  destruct (fold_last_canonize (fun q => Fin q true) (fun q => Fin (- q) true) (accum d) (ijPairs (length (accum d))) (ztop (length (accum d) + 1)) (ijPairs_nonempty _ L)) as [m' [E _]].
  rewrite E in *. apply canonize_closed_sat. destruct NE as [w H]. exists w. apply canonize_inZone. exact H.
Qed.

Lemma tcOf_int d : d <> [] -> intCond (tcOf (accum d)).
Proof. intro N. apply tcOf_sem. rewrite accum_length. destruct d; [congruence|cbn; lia]. Qed.

Lemma tcOf_size d : d <> [] -> tcSize (tcOf (accum d)) = length d.
Proof.
  intro N. assert (L : (1 <= length (accum d))%nat) by (rewrite accum_length; destruct d; [congruence|cbn; lia]).
  destruct (tcOf_sem _ L) as [D _]. unfold tcSize. rewrite D, accum_length. reflexivity.
Qed.
Lemma makeExact_size d : d <> [] -> tcSize (makeExact (accum d)) = length d.
Proof.
  intro N. assert (L : (1 <= length (accum d))%nat) by (rewrite accum_length; destruct d; [congruence|cbn; lia]).
  destruct (makeExact_sem _ L) as [D _]. unfold tcSize. rewrite D, accum_length. reflexivity.
Qed.

Lemma tcOf_exact d d' : d <> [] -> (inCond (tcOf (accum d)) d' <-> sameRegion d d').
Proof.
  intro N. assert (L : (1 <= length (accum d))%nat) by (rewrite accum_length; destruct d; [congruence|cbn; lia]).
  rewrite inCond_iff by (apply tcOf_ok; auto). rewrite tcOf_size by auto. rewrite inZone_Z.
  destruct (tcOf_sem _ L) as [D [_ [_ Z]]]. rewrite Z. unfold sem, sameRegion. rewrite accum_length.
  assert (S1 := tcOf_size d N).
  assert (Ec : forall j, (if (j =? length d - 1)%nat then 0%nat else (j + 2)%nat) = colOf (tcOf (accum d)) j)
    by (intro; unfold colOf; rewrite S1; reflexivity).
  split.
  - intros [LE H]. split; [auto|]. intros i j Hij Hj.
    destruct (H i j ltac:(apply in_ijPairs; lia)) as [A B]. cbv zeta in A, B. rewrite Ec in A, B.
    assert (X := ext_col (tcOf (accum d)) d' i j ltac:(congruence) Hij ltac:(lia)).
    apply sameUnit_sat. split.
    + eapply ruB_ext; [apply accDiff_T; auto|]. eapply bsat_ext; [exact X|exact A].
    + eapply rlB_ext; [apply accDiff_T; auto|]. eapply bsat_ext; [|exact B]. rewrite <- X. ring.
  - intros [LE H]. split; [auto|]. intros i j Hi. apply in_ijPairs in Hi. destruct Hi as [Hij Hj]. cbv zeta. rewrite Ec.
    assert (X := ext_col (tcOf (accum d)) d' i j ltac:(congruence) Hij ltac:(lia)).
    assert (K := H i j Hij Hj). apply sameUnit_sat in K. destruct K as [A B]. split.
    + eapply ruB_ext; [symmetry; apply accDiff_T; auto|]. eapply bsat_ext; [symmetry; exact X|exact A].
    + eapply rlB_ext; [symmetry; apply accDiff_T; auto|]. eapply bsat_ext; [|exact B]. rewrite <- X. ring.
Qed.

Lemma makeExact_exact d d' : d <> [] -> (inCond (makeExact (accum d)) d' <-> sameDurs d d').
Proof.
  intro N. assert (L : (1 <= length (accum d))%nat) by (rewrite accum_length; destruct d; [congruence|cbn; lia]).
  rewrite inCond_iff by (apply makeExact_ok; auto). rewrite makeExact_size by auto. rewrite inZone_Z.
  destruct (makeExact_sem _ L) as [D [Zu Z]]. split.
  - intros [LE H]. apply durs_same; [auto|]. intros k Hk.
    apply Z in H. unfold sem in H. rewrite accum_length in H.
    destruct (H k (length d - 1)%nat ltac:(apply in_ijPairs; lia)) as [A B]. rewrite Nat.eqb_refl in A, B.
    cbv zeta in A, B. replace (k + 1)%nat with (S k) in A, B by lia. cbn [ext bsat] in A, B.
    assert (X := accDiff_T d k (length d - 1) ltac:(lia) ltac:(lia)). rewrite T_acc in X by lia.
    rewrite (accd_end d (S (length d - 1))) in X by lia. lra.
  - intro E. split; [symmetry; apply sameDurs_length; auto|].
    eapply Z_ext; [|exact Zu]. intros i _. rewrite uacc_accd. destruct i; cbn [ext]; [reflexivity|]. apply accd_ext; auto.
Qed.

(** * isSimple *)
Lemma isSimpleB_sym a b : isSimpleB a b = isSimpleB b a.
Proof.
  unfold isSimpleB, isPoint, isUnitOpen. destruct a as [c s|], b as [e t|]; auto.
  assert (A : Qeq_bool (- e) c = Qeq_bool (- c) e).
  { destruct (Qeq_bool (- e) c) eqn:X; destruct (Qeq_bool (- c) e) eqn:Y; auto.
    - apply Qeq_bool_eq in X. apply Qeq_bool_false in Y. exfalso; lra.
    - apply Qeq_bool_eq in Y. apply Qeq_bool_false in X. exfalso; lra. }
  assert (B : Qeq_bool (- e + 1) c = Qeq_bool (- c + 1) e).
  { destruct (Qeq_bool (- e + 1) c) eqn:X; destruct (Qeq_bool (- c + 1) e) eqn:Y; auto.
    - apply Qeq_bool_eq in X. apply Qeq_bool_false in Y. exfalso; lra.
    - apply Qeq_bool_eq in Y. apply Qeq_bool_false in X. exfalso; lra. }
  rewrite A, B. destruct s, t, (Qeq_bool (- c) e), (Qeq_bool (- c + 1) e); reflexivity.
Qed.

Lemma isSimple_spec m : (2 <= dim m)%nat ->
  (isSimple m = true <-> forall i j, (i <= j)%nat -> (j < tcSize m)%nat ->
     isSimpleB (getUpperBound m i j) (getLowerBound m i j) = true).
Proof.
  intro D. unfold isSimple. rewrite forallb_forall. split.
  - intros H i j Hij Hj. unfold getUpperBound, getLowerBound.
    assert (Hc := colOf_lt m j D Hj). assert (Hi : (i + 1 < dim m)%nat) by (unfold tcSize in *; lia).
    assert (Hn := colOf_neq m i j Hij Hj).
    destruct (Nat.lt_ge_cases (i + 1) (colOf m j)).
    + specialize (H (i + 1)%nat). rewrite forallb_forall in H. apply H; apply in_seq; lia.
    + rewrite isSimpleB_sym. specialize (H (colOf m j)). rewrite forallb_forall in H. apply H; apply in_seq; lia.
  - intros H a Ha. apply forallb_forall. intros b Hb. apply in_seq in Ha. apply in_seq in Hb.
    destruct (pair_cases (dim m) a b ltac:(lia) ltac:(lia) ltac:(lia)) as [i [j [Hij [Hj C]]]].
    specialize (H i j Hij Hj). unfold getUpperBound, getLowerBound, colOf, tcSize in H.
    destruct C as [[-> ->]|[-> ->]]; auto. rewrite isSimpleB_sym. exact H.
Qed.

(** the set of values between two bounds *)
Lemma isSimpleB_cases u l : isSimpleB u l = true ->
  (exists c, (forall q, bsat u q /\ bsat l (- q) <-> q == c) /\ isPoint u l = true /\ u = Fin c true) \/
  (exists c, (forall q, bsat u q /\ bsat l (- q) <-> c < q /\ q < c + 1) /\ isUnitOpen u l = true /\ exists e, l = Fin e false /\ - e == c).
Proof.
  unfold isSimpleB. intro H. apply orb_true_iff in H. destruct H as [H|H].
  - left. unfold isPoint in *. destruct u as [c s|], l as [e t|]; try discriminate.
    apply andb_true_iff in H. destruct H as [H T2]. apply andb_true_iff in H. destruct H as [H T1]. subst.
    exists c. rewrite H. split; [|auto]. apply Qeq_bool_eq in H. intro q. cbn [bsat]. split; [intros [A B]; lra|intro; lra].
  - right. unfold isUnitOpen in *. destruct u as [c s|], l as [e t|]; try discriminate.
    apply andb_true_iff in H. destruct H as [H T2]. apply andb_true_iff in H. destruct H as [H T1].
    apply negb_true_iff in T1. apply negb_true_iff in T2. subst.
    exists (- e). rewrite H. split; [|split; [auto|exists e; split; [auto|reflexivity]]].
    apply Qeq_bool_eq in H. intro q. cbn [bsat]. split; [intros [A B]; lra|intros; lra].
Qed.

Lemma isSimple_simpleCond m : (2 <= dim m)%nat -> intCond m -> isSimple m = true -> simpleCond m.
Proof.
  intros D I H i j Hij Hj. rewrite isSimple_spec in H by auto. specialize (H i j Hij Hj).
  assert (Hc := colOf_lt m j D Hj). assert (Hi : (i + 1 < dim m)%nat) by (unfold tcSize in *; lia).
  destruct (isSimpleB_cases _ _ H) as [[c [X [_ E]]]|[c [X [_ [e [E E']]]]]].
  - assert (IB : intB (getUpperBound m i j)) by (apply I; auto). rewrite E in IB. destruct IB as [z Hz].
    exists z. left. intro q. rewrite X, Hz. reflexivity.
  - assert (IB : intB (getLowerBound m i j)) by (apply I; auto). rewrite E in IB. destruct IB as [z Hz].
    exists (- z)%Z. right. intro q. rewrite X. rewrite inject_Z_opp. split; intros; lra.
Qed.

(** canonical simple conditions: recognised by isSimple *)
Lemma simple_entries m i j q : (2 <= dim m)%nat -> closed m -> nonemptyZ m -> intCond m -> (i <= j)%nat -> (j < tcSize m)%nat ->
  (forall w, inZone m w -> sameUnit q (ext w (i + 1) - ext w (colOf m j))) ->
  isSimpleB (getUpperBound m i j) (getLowerBound m i j) = true.
Proof.
  intros D C N I Hij Hj H.
  assert (Hc := colOf_lt m j D Hj). assert (Hi : (i + 1 < dim m)%nat) by (unfold tcSize in *; lia).
  assert (Hn := colOf_neq m i j Hij Hj).
  assert (TG := closed_tight m C (nonempty_nonneg2 m N)).
  assert (U : ble (get m (i + 1) (colOf m j)) (ruB q) = true).
  { apply TG; auto. intros w Hw. apply sameUnit_sat. auto. }
  assert (L : ble (get m (colOf m j) (i + 1)) (rlB q) = true).
  { apply TG; auto. intros w Hw. specialize (H w Hw). apply sameUnit_sat in H. eapply bsat_ext; [|apply H]. ring. }
  destruct N as [w Hw]. assert (K := H w Hw). apply sameUnit_sat in K. destruct K as [K1 K2].
  assert (K : sameUnit q (ext w (i + 1) - ext w (colOf m j))) by auto.
  assert (U' : ble (ruB q) (get m (i + 1) (colOf m j)) = true).
  { eapply ble_trans; [|apply (ruB_least _ (ext w (i + 1) - ext w (colOf m j)))]; [|apply I; auto|apply Hw; auto].
    apply ble_spec. intros p Hp. 
    unfold sameUnit in K. destruct K as [K3 K4]. unfold ruB in *. unfold qfloor in *.
    rewrite <- K3. set (v := ext w (i + 1) - ext w (colOf m j)) in *.
    destruct (Qeq_bool (inject_Z (Qfloor q)) q) eqn:E.
    - apply Qeq_bool_eq in E. destruct (Qeq_bool (inject_Z (Qfloor q)) v) eqn:E2; cbn [bsat] in *.
      + apply Qeq_bool_eq in E2. lra.
      + apply Qeq_bool_false in E2. exfalso. apply E2. rewrite K3. symmetry. apply K4. symmetry; auto.
    - apply Qeq_bool_false in E. destruct (Qeq_bool (inject_Z (Qfloor q)) v) eqn:E2; cbn [bsat] in *; [|lra].
      apply Qeq_bool_eq in E2. exfalso. apply E. symmetry. apply K4. rewrite <- K3. symmetry; auto. }
  assert (L' : ble (rlB q) (get m (colOf m j) (i + 1)) = true).
  { eapply ble_trans; [|apply (rlB_least _ (ext w (i + 1) - ext w (colOf m j)))]; [|apply I; auto|].
    2:{ eapply bsat_ext; [|apply Hw; auto]. ring. }
    apply ble_spec. intros p Hp.
    unfold sameUnit in K. destruct K as [K3 K4]. unfold rlB in *. unfold qfloor in *.
    rewrite <- K3. set (v := ext w (i + 1) - ext w (colOf m j)) in *.
    destruct (Qeq_bool (inject_Z (Qfloor q)) q) eqn:E.
    - apply Qeq_bool_eq in E. destruct (Qeq_bool (inject_Z (Qfloor q)) v) eqn:E2; cbn [bsat] in *.
      + apply Qeq_bool_eq in E2. lra.
      + apply Qeq_bool_false in E2. exfalso. apply E2. rewrite K3. symmetry. apply K4. symmetry; auto.
    - apply Qeq_bool_false in E. destruct (Qeq_bool (inject_Z (Qfloor q)) v) eqn:E2; cbn [bsat] in *; [|lra].
      apply Qeq_bool_eq in E2. exfalso. apply E. symmetry. apply K4. rewrite <- K3. symmetry; auto. }
  unfold getUpperBound, getLowerBound.
  assert (EU : bequiv (get m (i + 1) (colOf m j)) (ruB q)) by (split; auto).
  assert (EL : bequiv (get m (colOf m j) (i + 1)) (rlB q)) by (split; auto).
  clear - EU EL. unfold ruB, rlB in *.
  destruct (Qeq_bool (qfloor q) q) eqn:E.
  - destruct (get m (i + 1) (colOf m j)) as [c s|]; [|destruct EU; discriminate].
    destruct (get m (colOf m j) (i + 1)) as [e t|]; [|destruct EL; discriminate].
    destruct EU as [U1 U2], EL as [L1 L2]. rewrite ble_spec in U1, U2, L1, L2.
    assert (s = true) as -> by (destruct s; auto; specialize (U2 q ltac:(cbn; lra)); specialize (U1 ((q + c) * (1#2))); cbn [bsat] in *; lra).
    assert (t = true) as -> by (destruct t; auto; specialize (L2 (- q) ltac:(cbn; lra)); specialize (L1 ((- q + e) * (1#2))); cbn [bsat] in *; lra).
    specialize (U1 c ltac:(cbn; lra)). specialize (U2 q ltac:(cbn; lra)). specialize (L1 e ltac:(cbn; lra)). specialize (L2 (- q) ltac:(cbn; lra)).
    cbn [bsat] in *. unfold isSimpleB, isPoint. assert (X : Qeq_bool (- e) c = true) by (apply Qeq_bool_iff; lra). rewrite X. reflexivity.
  - destruct (get m (i + 1) (colOf m j)) as [c s|]; [|destruct EU; discriminate].
    destruct (get m (colOf m j) (i + 1)) as [e t|]; [|destruct EL; discriminate].
    destruct EU as [U1 U2], EL as [L1 L2]. rewrite ble_spec in U1, U2, L1, L2.
    set (f := qfloor q) in *.
    assert (s = false) as -> by (destruct s; auto; specialize (U1 c ltac:(cbn; lra)); specialize (U2 ((f + 1 + c) * (1#2))); cbn [bsat] in *; lra).
    assert (t = false) as -> by (destruct t; auto; specialize (L1 e ltac:(cbn; lra)); specialize (L2 ((- f + e) * (1#2))); cbn [bsat] in *; lra).
    assert (c == f + 1).
    { destruct (Qlt_le_dec c (f + 1)) as [A|A]; [specialize (U2 ((c + (f + 1)) * (1#2))); cbn [bsat] in *; exfalso; lra|].
      destruct (Qlt_le_dec (f + 1) c) as [B|B]; [specialize (U1 ((c + (f + 1)) * (1#2))); cbn [bsat] in *; exfalso; lra|lra]. }
    assert (e == - f).
    { destruct (Qlt_le_dec e (- f)) as [A|A]; [specialize (L2 ((e + (- f)) * (1#2))); cbn [bsat] in *; exfalso; lra|].
      destruct (Qlt_le_dec (- f) e) as [B|B]; [specialize (L1 ((e + (- f)) * (1#2))); cbn [bsat] in *; exfalso; lra|lra]. }
    unfold isSimpleB, isPoint, isUnitOpen. assert (X : Qeq_bool (- e + 1) c = true) by (apply Qeq_bool_iff; lra). rewrite X.
    cbn. rewrite andb_false_r. reflexivity.
Qed.

Lemma sameUnit_ext p p' q q' : p == p' -> q == q' -> sameUnit p q -> sameUnit p' q'.
Proof.
  intros E F [A B]. assert (EF := Qfloor_comp _ _ E). assert (FF := Qfloor_comp _ _ F). unfold sameUnit.
  rewrite <- EF, <- FF. split; [auto|]. split; intro H.
  - transitivity q; [symmetry; exact F|]. apply B. transitivity p'; [exact E|exact H].
  - transitivity p; [symmetry; exact E|]. apply B. transitivity q'; [exact F|exact H].
Qed.

Lemma tcOf_simple d : d <> [] -> isSimple (tcOf (accum d)) = true.
Proof.
  intro N. destruct (tcOf_ok d N) as [D [C NE]]. rewrite isSimple_spec by auto. intros i j Hij Hj.
  apply (simple_entries _ i j (T d i j)); auto; [apply tcOf_int; auto|].
  intros w Hw. rewrite tcOf_size in Hj by auto.
  assert (K : inCond (tcOf (accum d)) (durs (length d) w)).
  { rewrite <- (tcOf_size d N). apply inZone_durs; auto. }
  apply tcOf_exact in K; auto. destruct K as [_ K]. specialize (K i j Hij Hj).
  assert (E : T (durs (length d) w) i j == ext w (i + 1) - ext w (colOf (tcOf (accum d)) j)).
  { rewrite <- (ext_col (tcOf (accum d)) (durs (length d) w) i j); [|rewrite durs_length, tcOf_size by auto; auto|auto|rewrite tcOf_size; auto].
    assert (A : agree (length d) (accd (durs (length d) w)) w) by (intros x Hx; apply durs_acc; auto).
    rewrite (ext_agree (length d) (accd (durs (length d) w)) w (i + 1) A) by lia.
    rewrite (ext_agree (length d) (accd (durs (length d) w)) w (colOf (tcOf (accum d)) j) A).
    - reflexivity.
    - assert (X := colOf_lt (tcOf (accum d)) j D ltac:(rewrite tcOf_size; auto)). assert (Y := tcOf_size d N). unfold tcSize in Y. lia. }
  eapply sameUnit_ext; [reflexivity|exact E|exact K].
Qed.
