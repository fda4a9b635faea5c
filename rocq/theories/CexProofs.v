(** Morphisms between elementary languages, and splitting a word along them. *)
From Coq Require Import QArith ZArith Bool List Lia Lqa Qround Arith.
From Verif Require Import BoundsModel BoundsProofs ConstraintModel ZoneModel ZoneSpec ZoneProofs ZoneProofs2 ZoneProofs3 ZoneProofs5 TimedConditionProofs5
  AutomatonModel TimedWordModel TimedWordSpec TimedWordProofs TimedConditionModel TimedConditionSpec TimedConditionProofs TimedConditionProofs2
  TimedConditionProofs3 TimedConditionProofs4 ElementaryModel ElementarySpec ElementaryProofs ElementaryProofs2 RegionalModel RegionalSpec
  RegionalProofs RegionalProofs2 RegionalProofs3 RegionalProofs4 RegionalProofs5 OracleModel CexModel CexSpec.
Import ListNotations.
Open Scope Q_scope.

Lemma since_acc d i : (i < length d)%nat -> since d i == accd d i.
Proof. intro H. unfold since. rewrite T_acc by lia. rewrite (accd_end d (S (length d - 1))) by lia. ring. Qed.
Lemma accd_nonneg d k : Forall (fun q => 0 <= q) d -> 0 <= accd d k.
Proof.
  intro F. destruct (le_lt_dec (length d) k) as [H|H]; [rewrite accd_end by auto; lra|]. rewrite <- since_acc by auto. apply since_nonneg. auto.
Qed.
Lemma dursFrom_map w : forall n k,
  dursFrom w k (S n) = map (fun i => if (i =? n)%nat then w (k + n)%nat else w (k + i)%nat - w (S (k + i))) (seq 0 (S n)).
Proof.
  induction n as [|n IH]; intro k.
  - cbn. rewrite Nat.add_0_r. reflexivity.
  - change (dursFrom w k (S (S n))) with ((w k - w (S k)) :: dursFrom w (S k) (S n)). rewrite IH.
    change (seq 0 (S (S n))) with (0%nat :: seq 1 (S n)). rewrite <- seq_shift. cbn [map]. rewrite map_map. f_equal.
    + cbn [Nat.eqb]. rewrite Nat.add_0_r. reflexivity.
    + apply map_ext. intro i. cbn [Nat.eqb]. rewrite !Nat.add_succ_r, !Nat.add_succ_l. reflexivity.
Qed.

Lemma exists_last' {A} (l : list A) : l = [] \/ exists r a, l = r ++ [a].
Proof. destruct l as [|x l]; [auto|]. right. destruct (exists_last (l := x :: l)) as [r [a E]]; [discriminate|]. eauto. Qed.
Lemma last_nth_Q (l : list Q) : last l 0 = nth (length l - 1) l 0.
Proof. destruct (exists_last' l) as [->|[r [a ->]]]; [reflexivity|]. rewrite last_last, app_length, app_nth2 by (cbn; lia). cbn [length]. replace (length r + 1 - 1 - length r)%nat with 0%nat by lia. reflexivity. Qed.
Lemma isSimpleB_incl_u c l : isSimpleB (Fin c true) l = true -> exists e, l = Fin e true /\ e == - c.
Proof.
  unfold isSimpleB, isPoint, isUnitOpen. destruct l as [e [|]|]; cbn; rewrite ?andb_false_r, ?andb_true_r, ?orb_false_r; try discriminate.
  intro H. apply Qeq_bool_eq in H. exists e. split; [auto|lra].
Qed.
Lemma isSimple_relOpen m : (2 <= dim m)%nat -> isSimple m = true -> relOpen (inZone m).
Proof.
  intros D S. apply relOpen_zone. intros a b c Ha Hb N E.
  destruct (pair_cases (dim m) a b Ha Hb N) as [i [j [Hij [Hj C]]]]. fold (tcSize m) in *. fold (colOf m j) in C.
  assert (K := proj1 (isSimple_spec m D) S i j Hij Hj). unfold getUpperBound, getLowerBound in K.
  assert (K2 := K). rewrite isSimpleB_sym in K2.
  destruct C as [[-> ->]|[-> ->]].
  - rewrite E in K. destruct (isSimpleB_incl_u _ _ K) as [e [E1 E2]]. exists e. split; [auto|]. rewrite E1. apply ble_refl.
  - rewrite E in K2. destruct (isSimpleB_incl_u _ _ K2) as [e [E1 E2]]. exists e. split; [auto|]. rewrite E1. apply ble_refl.
Qed.

(** * the morphism *)
Section Maps.
  Variables (m : morph) (w : tword).
  Hypothesis P : properMorph m.
  Hypothesis Iw : inElem (mdom m) w.
  Let l := makeExact (accum (td w)).
  Let c := ec (mcod m).
  Let N := length (td w).
  Let M := S (length (ew (mcod m))).
  Lemma maps_N : N = S (length (ew (mdom m))).
  Proof. destruct P as [[[_ S] _] _]. unfold N. destruct Iw as [_ [L _]]. congruence. Qed.
  Lemma maps_ne : td w <> [].
  Proof. assert (K := maps_N). unfold N in K. destruct (td w); [discriminate|congruence]. Qed.
  Lemma maps_l : okCond l /\ tcSize l = N /\ dim l = S N.
  Proof.
    assert (O := makeExact_ok (td w) maps_ne). assert (E := makeExact_size (td w) maps_ne). fold l in O, E. fold N in E.
    split; [auto|]. split; [auto|]. destruct O as [D _]. unfold tcSize in E. lia.
  Qed.
  Lemma maps_c : okCond c /\ tcSize c = M /\ dim c = S M.
  Proof.
    destruct P as [_ [[[O S] _] _]]. fold c in O, S. split; [auto|]. split; [auto|]. destruct O as [D _]. unfold tcSize in S. unfold M. lia.
  Qed.
  Definition mapsSem (v : valuation) : Prop :=
    (forall i, (i < N)%nat -> v i == accd (td w) i) /\ inZone c (rightPart N v) /\
    (forall p, In p (mren m) -> v (fst p) == v (N + snd p)%nat).
  Lemma inZone_l v : inZone l v <-> forall i, (i < N)%nat -> v i == accd (td w) i.
  Proof.
    destruct maps_l as [O [S D]]. split.
    - intros H i Hi. apply inZone_durs in H; [|apply O]. rewrite S in H. apply (makeExact_exact (td w) _ maps_ne) in H.
      rewrite <- (durs_acc N v i Hi). symmetry. apply accd_ext. auto.
    - intro H. assert (K : inCond l (td w)) by (apply makeExact_exact; [exact maps_ne|apply F2Q_refl]).
      apply inCond_iff in K; auto. destruct K as [_ K]. eapply inZone_ext; [|exact K]. intros x Hx. rewrite D in Hx. cbn [pred] in Hx. symmetry. apply H. lia.
  Qed.
  Lemma maps_dim : dim (mapsZone m w) = S (N + M).
  Proof.
    destruct maps_l as [O [S D]]. destruct maps_c as [O' [S' D']]. unfold mapsZone. cbv zeta. fold l. fold c. rewrite dim_canonize.
    assert (RO : renOk N (dim (jux l c)) (mren m)).
    { intros [i j] Hp. destruct P as [_ [_ [_ [Q _]]]]. destruct (Q i j Hp) as [Q1 Q2]. cbn [fst snd]. rewrite dim_jux, D, D'. unfold M. rewrite maps_N. lia. }
    rewrite S. rewrite dim_addRenaming by exact RO. rewrite dim_jux, D, D'. lia.
  Qed.
  Lemma mapsZone_exact v : inZone (mapsZone m w) v <-> mapsSem v.
  Proof.
    destruct maps_l as [O [S D]]. destruct maps_c as [O' [S' D']]. unfold mapsZone. cbv zeta. fold l. fold c. rewrite canonize_inZone.
    assert (RO : renOk N (dim (jux l c)) (mren m)).
    { intros [i j] Hp. destruct P as [_ [_ [_ [Q _]]]]. destruct (Q i j Hp) as [Q1 Q2]. cbn [fst snd]. rewrite dim_jux, D, D'. unfold M. rewrite maps_N. lia. }
    rewrite S. rewrite addRenaming_exact by exact RO. rewrite jux_exact; [|lia|lia|].
    - rewrite D. cbn [pred]. rewrite inZone_l. unfold mapsSem. tauto.
    - destruct O' as [_ [_ [u Hu]]]. eapply bsat_ext; [|apply (Hu 0%nat 0%nat); lia]. ring.
  Qed.
  Lemma right_in v : mapsSem v -> inElem (mcod m) (mkTW (ew (mcod m)) (durs M (rightPart N v))) .
  Proof.
    intros [_ [H _]]. destruct maps_c as [O' [S' D']]. split; [reflexivity|]. cbn [td]. fold c. rewrite <- S'. apply inZone_durs; [apply O'|auto].
  Qed.
  Lemma mapsSem_nonneg v : mapsSem v -> forall x, (x < N + M)%nat -> 0 <= v x.
  Proof.
    intros H x Hx. destruct (le_lt_dec N x) as [L|L].
    - assert (K := right_in v H). destruct P as [_ [[_ [_ NN]] _]]. apply NN in K. cbn [td] in K.
      replace x with (N + (x - N))%nat by lia. change (0 <= rightPart N v (x - N)%nat). rewrite <- (durs_acc M (rightPart N v) (x - N)%nat) by lia. apply accd_nonneg. auto.
    - destruct H as [H _]. rewrite H by auto. apply accd_nonneg. destruct P as [[_ [_ NN]] _]. apply NN. auto.
  Qed.
  Lemma mapsSem_open : relOpen mapsSem.
  Proof.
    unfold mapsSem. apply relOpen_and; [|apply relOpen_and].
    - intros v0 v1 H0 H1. exists 1. split; [lra|]. intros t _ _ i Hi. rewrite (H0 i Hi), (H1 i Hi). ring.
    - destruct maps_c as [O' [S' D']]. destruct P as [_ [_ [Si _]]]. assert (R := isSimple_relOpen c ltac:(apply O') Si).
      intros v0 v1 H0 H1. destruct (R _ _ H0 H1) as [e [E1 E2]]. exists e. split; [auto|]. intros t T0 T1. exact (E2 t T0 T1).
    - intros v0 v1 H0 H1. exists 1. split; [lra|]. intros t _ _ p Hp. rewrite (H0 p Hp), (H1 p Hp). ring.
  Qed.
  Lemma mapsSem_nonempty : exists v, mapsSem v.
  Proof.
    destruct P as [_ [_ [_ [Q1 Q2]]]]. destruct (Q2 w Iw) as [w' [A B]]. destruct maps_c as [O' [S' D']].
    exists (fun k => if (k <? N)%nat then accd (td w) k else accd (td w') (k - N)%nat). split; [|split].
    - intros i Hi. apply Nat.ltb_lt in Hi. rewrite Hi. reflexivity.
    - destruct A as [_ A]. fold c in A. apply inCond_iff in A; auto. destruct A as [_ A]. eapply inZone_ext; [|exact A].
      intros x Hx. unfold rightPart. assert (E : (N + x <? N)%nat = false) by (apply Nat.ltb_ge; lia). rewrite E. replace (N + x - N)%nat with x by lia. reflexivity.
    - intros [i j] Hp. destruct (Q1 i j Hp) as [I1 I2]. cbn [fst snd]. rewrite <- Nat.lt_succ_r, <- maps_N in I1.
      assert (E : (N + j <? N)%nat = false) by (apply Nat.ltb_ge; lia). apply Nat.ltb_lt in I1 as E'. rewrite E, E'. replace (N + j - N)%nat with j by lia.
      assert (L' : length (td w') = M) by (destruct A as [_ [A _]]; fold c in A; congruence).
      rewrite <- !since_acc by (rewrite ?L'; unfold N, M in *; lia). apply B. auto.
  Qed.
  Lemma mMaps_spec : inElem (mcod m) (mMaps m w) /\ related (mren m) w (mMaps m w) /\ properTW (mMaps m w).
  Proof.
    assert (DM := maps_dim). set (z := mapsZone m w) in *. destruct (zsample_relOpen z) as [L Z].
    - lia.
    - destruct mapsSem_nonempty as [v Hv]. exists v. apply mapsZone_exact. auto.
    - apply (relOpen_iff mapsSem); [intro v; symmetry; apply mapsZone_exact|apply mapsSem_open].
    - intros v Hv x Hx. apply mapsZone_exact in Hv. apply (mapsSem_nonneg v Hv). lia.
    - set (vs := zsample z) in *. rewrite DM in L. cbn [pred] in L. apply mapsZone_exact in Z. set (v := fun k => nth k vs 0) in *.
      assert (E : mapsDurs m vs = durs M (rightPart N v)).
      { unfold durs, M. rewrite dursFrom_map. unfold mapsDurs. rewrite Nat.add_1_r. apply map_ext_in. intros i Hi. apply in_seq in Hi.
        destruct (i =? length (ew (mcod m)))%nat eqn:Ei.
        - rewrite last_nth_Q. unfold rightPart, v. f_equal. rewrite L. unfold M. lia.
        - unfold rightPart, v. rewrite maps_N.
          replace (i + 1 + length (ew (mdom m)))%nat with (S (length (ew (mdom m))) + (0 + i))%nat by lia.
          replace (i + 2 + length (ew (mdom m)))%nat with (S (length (ew (mdom m))) + S (0 + i))%nat by lia. reflexivity. }
      assert (V : ~ In UNOBSERVABLE (ew (mcod m))).
      { destruct P as [_ [[_ [V _]] _]]. unfold visible in V. rewrite Forall_forall in V. intro K. apply V in K. congruence. }
      assert (EM : mMaps m w = mkTW (ew (mcod m)) (durs M (rightPart N v))).
      { unfold mMaps. fold z. fold vs. rewrite E. assert (Ld : length (durs M (rightPart N v)) = M) by apply durs_length.
        destruct (durs M (rightPart N v)) as [|q r]; [discriminate|]. cbn [mkTimedWord]. apply absorb_id; auto. }
      rewrite EM. assert (I := right_in v Z). split; [auto|]. split.
      + intros i j Hp. destruct P as [_ [_ [_ [Q1 _]]]]. destruct (Q1 i j Hp) as [I1 I2]. cbn [td].
        assert (I3 : (i < N)%nat) by (rewrite maps_N; lia). rewrite since_acc by exact I3. rewrite since_acc by (rewrite durs_length; unfold M; lia).
        rewrite durs_acc by (unfold M; lia). destruct Z as [Z1 [_ Z3]]. rewrite <- (Z1 i I3). exact (Z3 (i, j) Hp).
      + split; [|auto]. split; [unfold wfTW; cbn [td tw]; rewrite durs_length; reflexivity|]. destruct P as [_ [[_ [_ NN]] _]]. apply (NN _ I).
  Qed.
End Maps.

(** * splitting *)
Lemma elEqb_cond a b : tcEqb a b = true -> (2 <= dim a)%nat -> (2 <= dim b)%nat ->
  tcSize a = tcSize b /\ forall i j, (i <= j)%nat -> (j < tcSize a)%nat ->
    bequiv (getUpperBound a i j) (getUpperBound b i j) /\ bequiv (getLowerBound a i j) (getLowerBound b i j).
Proof.
  intros E Da Db. unfold tcEqb in E. apply andb_true_iff in E. destruct E as [E1 E2]. apply Nat.eqb_eq in E1. split; [auto|].
  intros i j Hij Hj. assert (Z := proj1 (zstrictEqual_spec a b) E2). assert (Hc := colOf_lt a j Da Hj). assert (Hn := colOf_neq a i j Hij Hj).
  assert (Ec : colOf b j = colOf a j) by (unfold colOf; rewrite E1; reflexivity).
  unfold getUpperBound, getLowerBound. rewrite Ec. split; apply Z; auto; unfold tcSize in *; lia.
Qed.
Lemma elEqb_same a b : elEqb a b = true -> (2 <= dim (ec a))%nat -> (2 <= dim (ec b))%nat ->
  ew a = ew b /\ (forall w, inElem a w <-> inElem b w) /\ (boundedCond (ec b) -> boundedCond (ec a)).
Proof.
  intros E Da Db. unfold elEqb in E. apply andb_true_iff in E. destruct E as [E1 E2]. apply eqLetters_iff in E1. split; [auto|].
  destruct (elEqb_cond _ _ E2 Da Db) as [S K]. split.
  - intro w. unfold inElem, inCond. rewrite E1, S. split; intros [A [B C]]; (split; [auto|]; split; [auto|]); intros i j Hij Hj;
    specialize (C i j Hij Hj); rewrite <- S in Hj; destruct (K i j Hij Hj) as [[U1 U2] [L1 L2]]; split; eapply ble_sat_1; try apply C; auto.
  - intros B i j Hij Hj. destruct (K i j Hij Hj) as [[U1 U2] [L1 L2]]. rewrite S in Hj. destruct (B i j Hij Hj) as [B1 B2].
    split; intro X; [rewrite X in U1; destruct (getUpperBound (ec b) i j); [discriminate|congruence]|rewrite X in L1; destruct (getLowerBound (ec b) i j); [discriminate|congruence]].
Qed.
Lemma regionCond_bounded m d : regionCond m d -> boundedCond m.
Proof.
  intros [_ [_ H]] i j Hij Hj. destruct (H i j Hij Hj) as [z [c [e [[-> [-> _]]|[-> [-> _]]]]]]; split; discriminate.
Qed.

Lemma restrictEq_fixes : fixes restrictEq.
Proof. intros m i q. apply restrictEq_spec. Qed.

Lemma nth_firstn_lt (l : list Q) : forall n i, (i < n)%nat -> nth i (firstn n l) 0 = nth i l 0.
Proof. induction l as [|a l IH]; intros [|n] [|i] H; try lia; cbn; auto. apply IH. lia. Qed.
Lemma Forall2_nth_Q : forall a b : list Q, length a = length b -> (forall i, (i < length a)%nat -> nth i a 0 == nth i b 0) -> Forall2 Qeq a b.
Proof.
  induction a as [|x a IH]; intros [|y b] L H; try discriminate; constructor.
  - apply (H 0%nat). cbn. lia.
  - apply IH; [cbn in L; lia|]. intros i Hi. apply (H (S i)). cbn. lia.
Qed.
Section SplitLast.
  Variables (x : elem) (w : tword) (t : Q).
  Let n := length (ew x).
  Hypothesis WF : wfElem x.
  Hypothesis BC : boundedCond (ec x).
  Hypothesis VX : visible x.
  Hypothesis LW : (n < length (td w))%nat.
  Hypothesis I0 : inCond (ec x) (firstn n (td w) ++ [t]).
  Hypothesis LE : t <= nth n (td w) 0.
  Let r := splitCond x w.
  Lemma sl_size : tcSize (ec x) = S n. Proof. apply WF. Qed.
  Lemma sl_r d : inCond r d <-> inCond (ec x) d /\ forall i, (i < n)%nat -> nth i d 0 == nth i (td w) 0.
  Proof.
    unfold r, splitCond. rewrite (fix_fold_inCond restrictEq restrictEq_fixes (fun i => nth i (td w) 0) _ (ec x) d); [|apply WF|].
    - split; intros [A B]; (split; [auto|]); intros i Hi; apply B; [apply in_seq; fold n; lia|apply in_seq in Hi; fold n in Hi; lia].
    - intros i Hi. apply in_seq in Hi. rewrite sl_size. unfold n. lia.
  Qed.
  Lemma sl_dim : dim r = S (S n).
  Proof.
    destruct WF as [[D [C N]] S]. destruct (fix_fold restrictEq restrictEq_fixes (fun i => nth i (td w) 0) (seq 0 n) (ec x) D) as [A _].
    - intros i Hi. apply in_seq in Hi. rewrite S. unfold n in *. lia.
    - unfold r, splitCond. fold n. cbv zeta in A. rewrite A. unfold tcSize in S. unfold n. lia.
  Qed.
  Lemma firstn_len : length (firstn n (td w)) = n. Proof. rewrite firstn_length. lia. Qed.
  Lemma sl_I0 : inCond r (firstn n (td w) ++ [t]).
  Proof.
    apply sl_r. split; [auto|]. intros i Hi. rewrite app_nth1 by (rewrite firstn_len; auto). rewrite nth_firstn_lt by auto. reflexivity.
  Qed.
  Lemma sl_ok : okCond r.
  Proof.
    assert (D := sl_dim). assert (I := sl_I0).
    assert (K : r = ec x \/ exists m, r = canonize m /\ (2 <= dim m)%nat).
    { unfold r, splitCond. fold n. destruct n as [|k] eqn:E; [left; reflexivity|]. right. rewrite seq_S, fold_left_app. cbn [fold_left plus].
      eexists. split; [unfold restrictEq at 1, restrictLowerBound; reflexivity|]. rewrite <- dim_canonize.
      match goal with |- (2 <= dim ?z)%nat => assert (Z : z = r) end.
      { unfold r, splitCond. change (length (ew x)) with n. rewrite E, seq_S, fold_left_app. reflexivity. }
      rewrite Z, D. lia. }
    destruct K as [->|[m [K Dm]]]; [apply WF|].
    assert (NR : nonemptyZ r).
    { exists (accd (firstn n (td w) ++ [t])). apply inCond_inZone; [lia| |auto]. intros k Hk.
      destruct WF as [[D' [C N]] S]. destruct (fix_fold restrictEq restrictEq_fixes (fun i => nth i (td w) 0) (seq 0 n) (ec x) D') as [A [B [_ Z]]].
      - intros i Hi. apply in_seq in Hi. rewrite S. unfold n in *. lia.
      - assert (IZ : inZone r (accd (firstn n (td w) ++ [t]))).
        { apply inZone_Z. apply Z. split; [apply inZone_Z; apply inCond_iff; [split; auto|auto]|].
          intros i Hi. apply in_seq in Hi. assert (Li : length (firstn n (td w) ++ [t]) = tcSize (ec x)) by (rewrite app_length, firstn_len, S; cbn; fold n; lia).
          rewrite (ext_col (ec x) _ i i Li (le_n i)) by (rewrite S; fold n; lia). rewrite T_diag by (rewrite Li, S; fold n; lia).
          rewrite app_nth1 by (rewrite firstn_len; lia). rewrite nth_firstn_lt by lia. reflexivity. }
        eapply bsat_ext; [|apply (IZ k k Hk Hk)]. ring. }
    rewrite K in *. apply okCond_canonize; [auto|]. destruct NR as [v Hv]. exists v. apply canonize_inZone. auto.
  Qed.
  Lemma sl_bounded : boundedCond r.
  Proof.
    destruct WF as [[D' [C N]] S]. destruct (fix_fold restrictEq restrictEq_fixes (fun i => nth i (td w) 0) (seq 0 n) (ec x) D') as [A [B _]].
    { intros i Hi. apply in_seq in Hi. rewrite S. unfold n in *. lia. }
    fold r in A, B. change (fold_left _ (seq 0 n) (ec x)) with r in B. intros i j Hij Hj.
    assert (SR : tcSize r = tcSize (ec x)) by (unfold tcSize; rewrite sl_dim; unfold tcSize in S; unfold n; lia).
    rewrite SR in Hj. destruct (getBounds_mle (ec x) r i j D' B Hij Hj) as [G1 G2]. destruct (BC i j Hij Hj) as [B1 B2].
    split; intro X; [rewrite X in G1; destruct (getUpperBound (ec x) i j); [discriminate|congruence]|rewrite X in G2; destruct (getLowerBound (ec x) i j); [discriminate|congruence]].
  Qed.
  Lemma sl_entries : getUpperBound r n n = get r (S n) 0 /\ getLowerBound r n n = get r 0 (S n).
  Proof.
    assert (D := sl_dim). unfold getUpperBound, getLowerBound, colOf, tcSize. rewrite D. cbn [pred]. replace (n =? S n - 1)%nat with true by (symmetry; apply Nat.eqb_eq; lia).
    rewrite Nat.add_1_r. auto.
  Qed.
  Lemma sl_member d : inCond r d -> sameDurs d (firstn n (td w) ++ [nth n d 0]).
  Proof.
    intro H. assert (K := proj1 (sl_r d) H). destruct K as [K1 K2]. assert (L : length d = S n) by (rewrite <- sl_size; apply K1).
    apply Forall2_nth_Q; [rewrite app_length, firstn_len; cbn; lia|]. intros i Hi. rewrite L in Hi. destruct (Nat.eq_dec i n) as [->|Ne].
    - rewrite app_nth2 by (rewrite firstn_len; lia). rewrite firstn_len, Nat.sub_diag. reflexivity.
    - rewrite app_nth1 by (rewrite firstn_len; lia). rewrite nth_firstn_lt by lia. apply K2. lia.
  Qed.
  Lemma sl_realise q : bsat (getUpperBound r n n) q -> t <= q -> inCond r (firstn n (td w) ++ [q]).
  Proof.
    intros U L. destruct sl_entries as [E1 E2]. assert (O := sl_ok). assert (D := sl_dim).
    assert (I := sl_I0). destruct (proj2 I n n (le_n n)) as [_ Lt]; [unfold tcSize; rewrite D; cbn; lia|].
    rewrite T_diag in Lt by (rewrite app_length, firstn_len; cbn; lia). rewrite app_nth2 in Lt by (rewrite firstn_len; lia). rewrite firstn_len, Nat.sub_diag in Lt. cbn [nth] in Lt.
    destruct (realise r (S n) 0 q) as [v [V1 V2]]; try apply O; try lia.
    - apply nonempty_nonneg2. apply O.
    - rewrite <- E1. auto.
    - rewrite <- E2. eapply bsat_down; [|exact Lt]. lra.
    - assert (K := inZone_durs r v ltac:(lia) V1). assert (SR : tcSize r = S n) by (unfold tcSize; rewrite D; reflexivity). rewrite SR in K.
      assert (M := sl_member _ K). eapply inCond_same; [|exact K]. eapply F2Q_trans; [exact M|]. apply F2Q_app; [apply F2Q_refl|]. constructor; [|constructor].
      rewrite <- (T_diag (durs (S n) v) n) by (rewrite durs_length; lia). rewrite T_acc by lia. rewrite (accd_end (durs (S n) v) (S n)) by (rewrite durs_length; lia).
      rewrite durs_acc by lia. cbn [ext] in V2. lra.
  Qed.
  Lemma splitLast_spec : inElem x (mkTW (ew x) (firstn n (td w) ++ [splitLast x w])) /\ splitLast x w <= nth n (td w) 0.
  Proof.
    assert (D := sl_dim). assert (SR : tcSize r = S n) by (unfold tcSize; rewrite D; reflexivity).
    assert (G : forall q, inCond r (firstn n (td w) ++ [q]) -> inElem x (mkTW (ew x) (firstn n (td w) ++ [q]))).
    { intros q H. apply sl_r in H. split; [reflexivity|apply H]. }
    assert (It := sl_I0). destruct (proj2 It n n (le_n n)) as [Ut _]; [lia|].
    rewrite T_diag in Ut by (rewrite app_length, firstn_len; cbn; lia). rewrite app_nth2 in Ut by (rewrite firstn_len; lia). rewrite firstn_len, Nat.sub_diag in Ut. cbn [nth] in Ut.
    unfold splitLast. cbv zeta. fold n. fold r.
    destruct (ble (Fin (nth n (td w) 0) true) (getUpperBound r n n)) eqn:EB.
    - split; [|lra]. apply G. apply sl_realise; [|auto]. eapply ble_sat_1; [exact EB|]. cbn. lra.
    - destruct (getUpperBound r n n) as [c s|] eqn:EU; [|discriminate].
      assert (CQ : c <= nth n (td w) 0 /\ (s = true -> c < nth n (td w) 0)).
      { cbn [ble] in EB. destruct (Qltb (nth n (td w) 0) c) eqn:E1; [discriminate|]. apply Qltb_false in E1. split; [auto|]. intros ->.
        destruct (Qeq_bool (nth n (td w) 0) c) eqn:E2; [discriminate|]. apply Qeq_bool_neq in E2. destruct (Qlt_le_dec c (nth n (td w) 0)); [auto|]. exfalso. apply E2. lra. }
      cbn [bincl bval]. destruct s.
      + split; [|lra]. apply G. apply sl_realise; [rewrite EU; cbn; lra|]. cbn [bsat] in Ut. auto.
      + assert (W2 : wfElem (mkEL (ew x) r)) by (split; [apply sl_ok|cbn [ec ew]; exact SR]).
        destruct (elSample_in _ W2 sl_bounded VX) as [[_ SI] SW]. cbn [ec] in SI. set (sm := td (elSample (mkEL (ew x) r))) in *.
        assert (Ls : length sm = S n) by (rewrite <- SR; apply SI). rewrite last_nth_Q, Ls. replace (S n - 1)%nat with n by lia. split.
        * apply G. eapply inCond_same; [|exact SI]. apply sl_member. auto.
        * destruct (proj2 SI n n (le_n n)) as [Us _]; [lia|]. rewrite T_diag in Us by lia. rewrite EU in Us. cbn [bsat] in Us. lra.
  Qed.
End SplitLast.
