(** Properties of timed conditions and elementary languages
    (include/timed_condition.hh, include/elementary_language.hh):
    C20, C21, C22, C41, C42. *)
From Coq Require Import QArith ZArith Bool List Arith Lia Lqa Qround.
From Verif Require Import BoundsModel BoundsProofs ConstraintModel GuardSpec ZoneModel ZoneSpec ZoneProofs AutomatonModel TimedWordModel TimedWordSpec
  TimedConditionModel TimedConditionSpec TimedConditionProofs TimedConditionProofs2 TimedConditionProofs3 TimedConditionProofs4 TimedConditionProofs5
  ElementaryModel ElementarySpec ElementaryProofs ElementaryProofs2.
Import ListNotations.
Open Scope Q_scope.

(** *** C20: what the constructors denote.  [accum d] are the accumulated
    durations (C17_accumulated), the argument of the constructors. *)
Theorem C20_constructor_region :
  forall d : list Q, d <> [] ->
    okCond (tcOf (accum d)) /\ inCond (tcOf (accum d)) d /\
    (forall d', inCond (tcOf (accum d)) d' <-> sameRegion d d') /\
    isSimple (tcOf (accum d)) = true /\ simpleCond (tcOf (accum d)).
Proof.
  intros d N. assert (O := tcOf_ok d N). split; [auto|]. split; [|split; [|split]].
  - apply tcOf_exact; auto. split; [auto|]. intros i j _ _. split; [reflexivity|tauto].
  - intro d'. apply tcOf_exact; auto.
  - apply tcOf_simple; auto.
  - apply isSimple_simpleCond; [apply O|apply tcOf_int; auto|apply tcOf_simple; auto].
Qed.
Print Assumptions C20_constructor_region.

Theorem C20_makeExact :
  forall d : list Q, d <> [] -> okCond (makeExact (accum d)) /\
    forall d', inCond (makeExact (accum d)) d' <-> sameDurs d d'.
Proof. intros d N. split; [apply makeExact_ok; auto|]. intro d'. apply makeExact_exact; auto. Qed.
Print Assumptions C20_makeExact.

(** isSimple holds exactly of the integer conditions that are one region *)
Theorem C20_isSimple_exact :
  forall m : tcond, okCond m -> intCond m ->
    (isSimple m = true <-> forall d d', inCond m d -> (inCond m d' <-> sameRegion d d')).
Proof.
  intros m O I. destruct (O) as [D [C N]]. split.
  - intros S d d' H. assert (S' := isSimple_simpleCond m D I S). split.
    + intro H'. split; [destruct H as [-> _], H' as [-> _]; auto|]. intros i j Hij Hj.
      destruct H as [L H], H' as [L' H']. rewrite L in Hj. specialize (H i j Hij Hj). specialize (H' i j Hij Hj).
      destruct (S' i j Hij Hj) as [z [K|K]].
      * apply K in H. apply K in H'. unfold sameUnit. rewrite (Qfloor_comp _ _ H), (Qfloor_comp _ _ H'). rewrite !Qfloor_Z.
        split; [auto|]. tauto.
      * apply K in H. apply K in H'.
        assert (F1 : Qfloor (T d i j) = z) by (apply floor_unique; lra).
        assert (F2 : Qfloor (T d' i j) = z) by (apply floor_unique; lra).
        unfold sameUnit. rewrite F1, F2. split; [auto|]. split; intro; lra.
    + intros [L R]. split; [destruct H as [<- _]; auto|]. intros i j Hij Hj.
      destruct H as [L0 H]. specialize (H i j Hij Hj). rewrite L0 in R. specialize (R i j Hij Hj).
      destruct (S' i j Hij Hj) as [z [K|K]]; apply K; apply K in H.
      * destruct R as [R1 R2]. rewrite (Qfloor_comp _ _ H), Qfloor_Z in R1, R2. rewrite <- R1 in R2. apply R2. auto.
      * assert (F1 : Qfloor (T d i j) = z) by (apply floor_unique; lra).
        destruct R as [R1 R2]. rewrite F1 in R1, R2. rewrite <- R1 in R2.
        assert (A := Qfloor_le (T d' i j)). assert (B := Qlt_floor (T d' i j)). rewrite <- R1 in A, B. rewrite inject_Z_plus in B.
        change (inject_Z 1) with 1 in B. split; [|lra].
        destruct (Qlt_le_dec (inject_Z z) (T d' i j)) as [Z|Z]; [auto|]. exfalso.
        assert (X : T d i j == inject_Z z) by (apply R2; lra). lra.
  - intro H. destruct (okCond_inhabited m O) as [d Hd].
    apply isSimple_spec; [auto|]. intros i j Hij Hj. apply (simple_entries m i j (T d i j)); auto.
    intros w Hw. assert (K := inZone_durs m w D Hw). apply (H d _ Hd) in K. destruct K as [L K].
    assert (Ld : length d = tcSize m) by apply Hd. rewrite Ld in K. specialize (K i j Hij Hj).
    eapply sameUnit_ext; [reflexivity| |exact K].
    rewrite <- (ext_col m _ i j (durs_length _ _) Hij Hj).
    assert (E : forall k, (k < dim m)%nat -> ext (accd (durs (tcSize m) w)) k == ext w k).
    { intros [|k] Hk; cbn [ext]; [reflexivity|]. apply durs_acc. unfold tcSize. lia. }
    rewrite (E (i + 1)%nat), (E (colOf m j)); [reflexivity|apply colOf_lt; auto|unfold tcSize in *; lia].
Qed.
Print Assumptions C20_isSimple_exact.

(** restricting a bound keeps exactly the durations that respect it *)
Theorem C20_restrict :
  forall (m : tcond) (i j : nat) (b : bound) (d : list Q), okCond m -> (i <= j)%nat -> (j < tcSize m)%nat ->
    (inCond (restrictUpperBound m i j b false) d <-> inCond m d /\ bsat b (T d i j)) /\
    (inCond (restrictLowerBound m i j b false) d <-> inCond m d /\ bsat b (- T d i j)).
Proof.
  intros m i j b d O Hij Hj. destruct (O) as [D _]. split.
  - split.
    + intro H. split; [eapply inCond_mle; [exact D|apply (restrictUpper_mle m i j b); auto|exact H]|].
      destruct H as [_ H]. specialize (H i j Hij). rewrite tcSize_restrictUpper in H. destruct (H Hj) as [H1 _].
      eapply ble_sat_1; [|exact H1]. apply restrictUpper_le; auto.
    + intro H. apply (restrictUpper_exact m i j b d O Hij Hj) in H. destruct H as [L H].
      apply inZone_inCond; [rewrite dim_restrictUpper; auto|rewrite tcSize_restrictUpper; auto|auto].
  - split.
    + intro H. split; [eapply inCond_mle; [exact D|apply (restrictLower_mle m i j b); auto|exact H]|].
      destruct H as [_ H]. specialize (H i j Hij). rewrite tcSize_restrictLower in H. destruct (H Hj) as [_ H1].
      eapply ble_sat_1; [|exact H1]. apply restrictLower_le; auto.
    + intro H. apply (restrictLower_exact m i j b d O Hij Hj) in H. destruct H as [L H].
      apply inZone_inCond; [rewrite dim_restrictLower; auto|rewrite tcSize_restrictLower; auto|auto].
Qed.
Print Assumptions C20_restrict.

(** the empty condition is the single duration zero *)
Theorem C20_empty : okCond tcEmpty /\ forall d, inCond tcEmpty d <-> sameDurs d [0].
Proof.
  split.
  - split; [cbn; lia|]. split.
    + intros i j k Hi Hj Hk. unfold tcEmpty, zzero in *. rewrite dim_mk in *. rewrite !get_mk by auto. reflexivity.
    + exists (fun _ => 0). intros i j Hi Hj. unfold tcEmpty, zzero in *. rewrite dim_mk in *. rewrite get_mk by auto. cbn [bsat bz].
      destruct i, j; cbn; lra.
  - intro d. unfold inCond. change (tcSize tcEmpty) with 1%nat. split.
    + intros [L H]. destruct d as [|x [|y d]]; try discriminate. destruct (H 0%nat 0%nat ltac:(lia) ltac:(lia)) as [A B].
      unfold T in A, B. cbn in A, B. constructor; [|constructor]. lra.
    + intro H. inversion H as [|x y l l' E F]; subst. inversion F; subst. split; [reflexivity|].
      intros i j Hij Hj. assert (i = 0%nat) by lia. assert (j = 0%nat) by lia. subst. unfold T. cbn. lra.
Qed.
Print Assumptions C20_empty.

(** *** C42: set operations on conditions *)
Theorem C42_equality_exact :
  forall a b : tcond, okCond a -> okCond b -> (tcEqb a b = true <-> forall d, inCond a d <-> inCond b d).
Proof. exact tcEqb_exact. Qed.
Print Assumptions C42_equality_exact.

Theorem C42_intersection :
  forall a b : tcond, okCond a -> okCond b -> tcSize a = tcSize b ->
    (forall d, inCond (tcAnd a b) d <-> inCond a d /\ inCond b d) /\
    (isSatNoCanon (tcAnd a b) = true <-> exists d, inCond a d /\ inCond b d).
Proof. intros a b Oa Ob E. split; [intro d; apply tcAnd_exact; auto|apply tcAnd_sat; auto]. Qed.
Print Assumptions C42_intersection.

Theorem C42_includes_sound :
  forall a b : tcond, okCond a -> okCond b -> tcSize a = tcSize b -> tcIncludes a b = true ->
    forall d, inCond b d -> inCond a d.
Proof. exact tcIncludes_sound. Qed.
Print Assumptions C42_includes_sound.

(** convexHull of elementary languages over one word: the smallest elementary
    language with a canonical condition that contains them all *)
Theorem C42_convexHull :
  forall (x : elem) (l : list elem), (forall y, In y (x :: l) -> wfElem y /\ ew y = ew x) ->
    let h := elHull (x :: l) in
    wfElem h /\ (forall y w, In y (x :: l) -> inElem y w -> inElem h w) /\
    (forall z, wfElem z -> (forall y w, In y (x :: l) -> inElem y w -> inElem z w) -> forall w, inElem h w -> inElem z w).
Proof.
  intros x l H h. destruct (H x (or_introl eq_refl)) as [Wx _].
  destruct (elHullFrom_spec (x :: l) x Wx H) as [A [B [C [E F]]]]. change (elHullFrom x (x :: l)) with h in *.
  split; [auto|]. split; [exact E|]. intros z Wz Hz. apply F; auto.
  - destruct (okCond_inhabited (ec x) ltac:(apply Wx)) as [d Hd].
    destruct (Hz x (mkTW (ew x) d) (or_introl eq_refl)) as [K _]; [split; auto|]. cbn in K. congruence.
  - intros w. apply Hz. left; auto.
Qed.
Print Assumptions C42_convexHull.

(** removeUpperBound lets any further time pass at the end *)
Theorem C42_removeUpperBound :
  forall (m : tcond) (d : list Q), okCond m ->
    (inCond (removeUpperBound m) d <-> exists d' q, 0 <= q /\ inCond m d' /\ sameDurs d (addBack d' q)).
Proof. exact removeUpperBound_exact. Qed.
Print Assumptions C42_removeUpperBound.

(** toGuard: clock i is the time since the start of duration i *)
Theorem C42_toGuard :
  forall (m : tcond) (d : list Q), okCond m -> intCond m -> inCond m d -> (forall i, 0 <= nth i d 0) ->
    gsat (toGuard m) (fun i => T d i (length d - 1)).
Proof.
  intros m d O I H P. assert (L : length d = tcSize m) by apply H.
  apply toGuard_sat; [apply O|auto| |].
  - intro i. unfold T. assert (P' : forall x, In x (firstn (S (length d - 1) - i) (skipn i d)) -> 0 <= x).
    { intros x Hx. assert (Hx' : In x (skipn i d)) by (rewrite <- (firstn_skipn (S (length d - 1) - i)); apply in_or_app; auto).
      assert (Hx'' : In x d) by (rewrite <- (firstn_skipn i d); apply in_or_app; auto). clear Hx Hx'. rename Hx'' into Hx. destruct (In_nth _ _ 0 Hx) as [k [_ <-]]. apply P. }
    revert P'. generalize (firstn (S (length d - 1) - i) (skipn i d)). induction l as [|x l IH]; intro P'; cbn [sumQ]; [lra|].
    assert (0 <= x) by (apply P'; left; auto). assert (0 <= sumQ l) by (apply IH; intros; apply P'; right; auto). lra.
  - intros i Hi. rewrite L. apply H; unfold tcSize in *; lia.
Qed.
Print Assumptions C42_toGuard.

(** the guard says exactly what the bounds of the T_{i,n} say *)
Theorem C42_toGuard_exact :
  forall (m : tcond) (v : valuation), okCond m -> intCond m -> nonneg v ->
    (gsat (toGuard m) v <-> forall i, (i < tcSize m)%nat ->
       bsat (getUpperBound m i (tcSize m - 1)) (v i) /\ bsat (getLowerBound m i (tcSize m - 1)) (- v i)).
Proof. intros m v O I P. apply toGuard_sat; auto. apply O. Qed.
Print Assumptions C42_toGuard_exact.

(** *** C21 *)
Theorem C21_condition_concat :
  forall (a b : tcond) (d : list Q), okCond a -> okCond b ->
    (inCond (tcConcat a b) d <-> exists d1 d2, inCond a d1 /\ inCond b d2 /\ joined d1 d2 d).
Proof. exact tcConcat_exact. Qed.
Print Assumptions C21_condition_concat.

Theorem C21_concat_exact :
  forall (x y : elem) (w : tword), wfElem x -> wfElem y ->
    (inElem (elConcat x y) w <-> exists w1 w2, inElem x w1 /\ inElem y w2 /\ sameTW w (concatTW w1 w2)).
Proof. exact elConcat_exact. Qed.
Print Assumptions C21_concat_exact.

Theorem C21_concat_wellformed : forall x y : elem, wfElem x -> wfElem y -> wfElem (elConcat x y).
Proof. exact wfElem_concat. Qed.
Print Assumptions C21_concat_wellformed.

Theorem C21_contains_exact :
  forall (x : elem) (w : tword), wfElem x -> wfTW w -> (elContains x w = true <-> inElem x w).
Proof. exact elContains_exact. Qed.
Print Assumptions C21_contains_exact.

(** the two together, in terms of the API only *)
Theorem C21_contains_concat :
  forall (x y : elem) (w : tword), wfElem x -> wfElem y -> wfTW w ->
    (elContains (elConcat x y) w = true <->
     exists w1 w2, wfTW w1 /\ wfTW w2 /\ elContains x w1 = true /\ elContains y w2 = true /\ sameTW w (concatTW w1 w2)).
Proof.
  intros x y w Wx Wy W. rewrite elContains_exact by (auto using wfElem_concat). rewrite elConcat_exact by auto.
  assert (WF : forall z u, wfElem z -> inElem z u -> wfTW u).
  { intros z u [_ Z] [E [L _]]. unfold wfTW. rewrite E, L. exact Z. }
  split; intros [w1 [w2 H]]; exists w1, w2.
  - destruct H as [A [B C]]. assert (W1 := WF x w1 Wx A). assert (W2 := WF y w2 Wy B). rewrite !elContains_exact by auto. auto.
  - destruct H as [W1 [W2 H]]. rewrite !elContains_exact in H by auto. exact H.
Qed.
Print Assumptions C21_contains_concat.

Theorem C21_constrain_exact :
  forall (x : elem) (p w : tword), wfElem x -> (wordSize p <= tcSize (ec x))%nat ->
    (inElem (elConstrain x p) w <-> inElem x w /\ forall i, (i < wordSize p)%nat -> nth i (td w) 0 == nth i (td p) 0).
Proof. exact elConstrain_exact. Qed.
Print Assumptions C21_constrain_exact.

(** *** C41: the sample of an elementary language belongs to it *)
Theorem C41_sample_contained :
  forall x : elem, wfElem x -> boundedCond (ec x) -> visible x ->
    inElem x (elSample x) /\ elContains x (elSample x) = true.
Proof.
  intros x W B V. destruct (elSample_in x W B V) as [A C]. split; [auto|]. apply elContains_exact; auto.
Qed.
Print Assumptions C41_sample_contained.

(** for a simple language the sample stands for the whole language: every
    member has its T_{i,j} in the same units *)
Theorem C41_sample_represents :
  forall x : elem, wfElem x -> intCond (ec x) -> elIsSimple x = true -> visible x ->
    inElem x (elSample x) /\ forall w, inElem x w <-> tw w = ew x /\ sameRegion (td (elSample x)) (td w).
Proof.
  intros x W I S V. assert (B : boundedCond (ec x)).
  { intros i j Hij Hj. assert (K := isSimple_simpleCond (ec x) ltac:(apply W) I S i j Hij Hj).
    destruct K as [z [K|K]]; split; intro E; rewrite E in K; cbn [bsat] in K.
    - assert (K1 := proj1 (K (inject_Z z)) ltac:(split; [auto|apply K; reflexivity])).
      destruct (getLowerBound (ec x) i j) as [c s|]; cbn [bsat] in K.
      + assert (X := proj1 (K (- c + (if Qle_bool (- c) (inject_Z z) then inject_Z z + c + 1 else 1)))).
        assert (Y := proj2 (K (inject_Z z)) ltac:(reflexivity)).
        assert (Z := proj1 (K (inject_Z z + 1))). destruct s; lra.
      + assert (Z := proj1 (K (inject_Z z + 1)) ltac:(auto)). lra.
    - destruct (getUpperBound (ec x) i j) as [c s|]; cbn [bsat] in K.
      + assert (Y := proj2 (K (inject_Z z)) ltac:(reflexivity)).
        assert (Z := proj1 (K (inject_Z z - 1))). destruct s; lra.
      + assert (Z := proj1 (K (inject_Z z + 1)) ltac:(auto)). lra.
    - destruct (getLowerBound (ec x) i j) as [c s|]; cbn [bsat] in K.
      + assert (Y := proj2 (K (inject_Z z + (1#2))) ltac:(lra)).
        assert (Z := proj1 (K (inject_Z z + 1))). destruct s; lra.
      + assert (Z := proj1 (K (inject_Z z + 1)) ltac:(auto)). lra.
    - destruct (getUpperBound (ec x) i j) as [c s|]; cbn [bsat] in K.
      + assert (Y := proj2 (K (inject_Z z + (1#2))) ltac:(lra)).
        assert (Z := proj1 (K (inject_Z z))). destruct s; lra.
      + assert (Z := proj1 (K (inject_Z z + 1)) ltac:(auto)). lra. }
  destruct (elSample_in x W B V) as [A _]. split; [auto|]. intro w. destruct A as [_ A].
  unfold inElem. rewrite (proj1 (C20_isSimple_exact (ec x) ltac:(apply W) I) S _ (td w) A). tauto.
Qed.
Print Assumptions C41_sample_represents.

(** *** C22 *)
Theorem C22_enumerate_conditions :
  forall m : tcond, okCond m -> intCond m -> boundedCond m ->
    (forall c, In c (enumerate m) -> okCond c /\ intCond c /\ tcSize c = tcSize m /\ isSimple c = true) /\
    (forall d, inCond m d <-> exists c, In c (enumerate m) /\ inCond c d) /\
    (forall i j d, (i < length (enumerate m))%nat -> (j < length (enumerate m))%nat ->
       inCond (nth i (enumerate m) []) d -> inCond (nth j (enumerate m) []) d -> i = j).
Proof.
  intros m O I B. destruct (enumerate_spec m O I B) as [A C]. split; [|split].
  - intros c Hc. destruct (A c Hc) as [[G1 [G2 [G3 G4]]] S]. auto.
  - intro d. rewrite <- cnt_exists, C. rewrite <- inCondb_ok. destruct (inCondb m d); cbn; split; intro; auto; try lia; discriminate.
  - intros i j d Hi Hj H1 H2. eapply cnt_unique; eauto. rewrite C. destruct (inCondb m d); cbn; lia.
Qed.
Print Assumptions C22_enumerate_conditions.

Theorem C22_enumerate_partition :
  forall x : elem, wfElem x -> intCond (ec x) -> boundedCond (ec x) ->
    (forall y, In y (elEnumerate x) -> wfElem y /\ elIsSimple y = true) /\
    (forall w, inElem x w <-> exists y, In y (elEnumerate x) /\ inElem y w) /\
    (forall i j w, (i < length (elEnumerate x))%nat -> (j < length (elEnumerate x))%nat ->
       inElem (nth i (elEnumerate x) elEmpty) w -> inElem (nth j (elEnumerate x) elEmpty) w -> i = j).
Proof.
  intros x [O S] I B. destruct (C22_enumerate_conditions (ec x) O I B) as [A [C E]].
  unfold elEnumerate. destruct (elIsSimple x) eqn:SI.
  - split; [|split].
    + intros y [<-|[]]. split; [split; auto|auto].
    + intro w. split; [intro H; exists x; split; [left; auto|auto]|]. intros [y [[<-|[]] H]]. exact H.
    + intros i j w Hi Hj _ _. cbn in *. lia.
  - split; [|split].
    + intros y Hy. apply in_map_iff in Hy. destruct Hy as [c [<- Hc]]. destruct (A c Hc) as [A1 [A2 [A3 A4]]].
      split; [split; cbn [ew ec]; auto; congruence|exact A4].
    + intro w. unfold inElem. rewrite C. split.
      * intros [E1 [c [Hc H]]]. exists (mkEL (ew x) c). split; [apply in_map_iff; exists c; auto|]. split; auto.
      * intros [y [Hy [E1 H]]]. apply in_map_iff in Hy. destruct Hy as [c [<- Hc]]. split; [auto|]. exists c. auto.
    + intros i j w Hi Hj H1 H2. rewrite map_length in *.
      assert (NT : forall k, (k < length (enumerate (ec x)))%nat -> nth k (map (fun c => mkEL (ew x) c) (enumerate (ec x))) elEmpty = mkEL (ew x) (nth k (enumerate (ec x)) [])).
      { intros k Hk. rewrite (nth_indep _ elEmpty (mkEL (ew x) [])) by (rewrite map_length; auto). exact (map_nth (fun c => mkEL (ew x) c) _ [] k). }
      rewrite NT in H1, H2 by auto. apply (E i j (td w)); auto; [apply H1|apply H2].
Qed.
Print Assumptions C22_enumerate_partition.

(** ** concrete instances *)
(** one action; 0 < tau_0 < 2 and tau_0 + tau_1 = 2: a language of three regions *)
Definition exCond : tcond :=
  restrictLowerBound (restrictUpperBound (restrictLowerBound (restrictUpperBound (restrictLowerBound (ztop 3)
    0 0 (Fin 0 false) false) 0 0 (Fin 2 false) false) 0 1 (Fin (- (2)) true) false) 0 1 (Fin 2 true) false) 1 1 (Fin 0 true) false.
Definition exElem : elem := mkEL [1%nat] exCond.

Lemma exCond_ok : okCond exCond /\ intCond exCond /\ boundedCond exCond.
Proof.
  assert (D : dim exCond = 3%nat) by (vm_compute; reflexivity). split; [|split].
  - split; [lia|]. split.
    + intros i j k Hi Hj Hk. rewrite D in *.
      destruct i as [|[|[|i]]]; try lia; destruct j as [|[|[|j]]]; try lia; destruct k as [|[|[|k]]]; try lia; vm_compute; reflexivity.
    + exists (fun k => match k with O => 2 | _ => 1 end). intros i j Hi Hj. rewrite D in *.
      destruct i as [|[|[|i]]]; try lia; destruct j as [|[|[|j]]]; try lia; vm_compute; auto; discriminate.
  - intros i j Hi Hj. rewrite D in *.
    assert (K : forall b, match b with Fin c _ => Qeq_bool c (inject_Z (Qfloor c)) | Inf => true end = true -> intB b).
    { intros [c s|] H; [|exact Logic.I]. apply Qeq_bool_iff in H. exists (Qfloor c). exact H. }
    apply K. destruct i as [|[|[|i]]]; try lia; destruct j as [|[|[|j]]]; try lia; vm_compute; reflexivity.
  - intros i j Hij Hj. unfold tcSize in Hj. rewrite D in Hj. cbn [pred] in Hj.
    destruct i as [|[|i]]; try lia; destruct j as [|[|j]]; try lia; split; vm_compute; discriminate.
Qed.
Lemma exElem_wf : wfElem exElem.
Proof. split; [exact (proj1 exCond_ok)|vm_compute; reflexivity]. Qed.
Lemma exConcat_in : inCondb (tcConcat exCond exCond) [(1#2); (5#2); 1] = true.
Proof. vm_compute. reflexivity. Qed.
Lemma exConcat_out : inCondb (tcConcat exCond exCond) [(1#2); (5#2); (1#2)] = false.
Proof. vm_compute. reflexivity. Qed.
Lemma concat_instance (c : tcond) (d : list Q) :
  wfElem (mkEL [1%nat] c) -> length d = 3%nat ->
  (elContains (elConcat (mkEL [1%nat] c) (mkEL [1%nat] c)) (mkTW [1; 1]%nat d) = true <-> inCondb (tcConcat c c) d = true).
Proof.
  intros W L. assert (WC := wfElem_concat _ _ W W). rewrite elContains_exact; [|exact WC|exact L].
  rewrite inCondb_ok. unfold inElem. cbn [elConcat ew ec tw td app]. tauto.
Qed.
Example C21_nonvacuous : wfElem exElem /\ wfElem (elConcat exElem exElem) /\
  elContains (elConcat exElem exElem) (mkTW [1; 1]%nat [(1#2); (5#2); 1]) = true /\
  elContains (elConcat exElem exElem) (mkTW [1; 1]%nat [(1#2); (5#2); (1#2)]) = false.
Proof.
  split; [exact exElem_wf|]. split; [exact (wfElem_concat _ _ exElem_wf exElem_wf)|]. split.
  - exact (proj2 (concat_instance exCond [(1#2); (5#2); 1] exElem_wf eq_refl) exConcat_in).
  - apply not_true_iff_false. intro H. apply (proj1 (concat_instance exCond [(1#2); (5#2); (1#2)] exElem_wf eq_refl)) in H.
    rewrite exConcat_out in H. discriminate.
Qed.
Example C22_nonvacuous : wfElem exElem /\ intCond (ec exElem) /\ boundedCond (ec exElem) /\ visible exElem /\
  elIsSimple exElem = false /\ length (elEnumerate exElem) = 3%nat /\
  elSample exElem = mkTW [1%nat] (sampleDurs exCond 2) /\ elContains exElem (elSample exElem) = true.
Proof.
  split; [exact exElem_wf|]. split; [exact (proj1 (proj2 exCond_ok))|]. split; [exact (proj2 (proj2 exCond_ok))|].
  split; [constructor; [discriminate|constructor]|]. split; [vm_compute; reflexivity|]. split; [vm_compute; reflexivity|].
  split; [vm_compute; reflexivity|]. apply (C41_sample_contained exElem exElem_wf (proj2 (proj2 exCond_ok))).
  constructor; [discriminate|constructor].
Qed.
Lemma exRegion : sameRegion [(1#2); 1; (3#4)] [(1#3); 1; (3#4)] /\ ~ sameRegion [(1#2); 1; (3#4)] [(1#5); 1; (3#4)].
Proof.
  split.
  - split; [reflexivity|]. intros i j Hij Hj. cbn [length] in Hj.
    destruct i as [|[|[|i]]]; try lia; destruct j as [|[|[|j]]]; try lia;
      (split; [vm_compute; reflexivity|split; intro H; vm_compute in H |- *; (reflexivity || discriminate)]).
  - intros [_ H]. destruct (H 0%nat 2%nat ltac:(lia) ltac:(cbn; lia)) as [K _]. vm_compute in K. discriminate.
Qed.
Example C20_nonvacuous :
  inCond (tcOf (accum [(1#2); 1; (3#4)])) [(1#3); 1; (3#4)] /\ ~ inCond (tcOf (accum [(1#2); 1; (3#4)])) [(1#5); 1; (3#4)].
Proof.
  assert (N : [(1#2); 1; (3#4)] <> []) by discriminate.
  destruct (C20_constructor_region _ N) as [_ [_ [E _]]]. split.
  - exact (proj2 (E _) (proj1 exRegion)).
  - intro H. exact (proj2 exRegion (proj1 (E _) H)).
Qed.
Example C42_nonvacuous : okCond exCond /\ tcEqb (tcAnd exCond (removeUpperBound exCond)) exCond = true /\
  toGuard exCond = [mkC 0 Oge 2; mkC 0 Ole 2; mkC 1 Ogt 0; mkC 1 Olt 2].
Proof. split; [exact (proj1 exCond_ok)|]. split; vm_compute; reflexivity. Qed.
