From Coq Require Import QArith ZArith Bool List Lia Lqa Qround Arith.
From Verif Require Import BoundsModel BoundsProofs ConstraintModel GuardSpec ZoneModel ZoneSpec ZoneProofs ZoneProofs2
  AutomatonModel TimedWordModel TimedWordSpec TimedWordProofs TimedConditionModel TimedConditionSpec TimedConditionProofs TimedConditionProofs2
  TimedConditionProofs3 TimedConditionProofs4 TimedConditionProofs5 ElementaryModel ElementarySpec ElementaryProofs.
Import ListNotations.
Open Scope Q_scope.

(** * the set of durations determines the zone *)
Lemma inCond_zone_incl a b : okCond a -> okCond b -> tcSize a = tcSize b ->
  ((forall d, inCond a d -> inCond b d) <-> (forall w, inZone a w -> inZone b w)).
Proof.
  intros Oa Ob E. assert (Db : dim a = dim b) by (destruct Oa as [A _], Ob as [B _]; unfold tcSize in E; lia). split.
  - intros H w Hw. assert (K := inZone_durs a w ltac:(apply Oa) Hw). apply H in K. apply inCond_iff in K; auto.
    destruct K as [_ K]. eapply inZone_ext; [|exact K]. intros x Hx. rewrite E. apply durs_acc. unfold tcSize. exact Hx.
  - intros H d Hd. apply inCond_iff; auto. apply inCond_iff in Hd; auto. destruct Hd as [L Hd]. split; [congruence|auto].
Qed.
Lemma tcEqb_exact a b : okCond a -> okCond b -> (tcEqb a b = true <-> forall d, inCond a d <-> inCond b d).
Proof.
  intros Oa Ob. unfold tcEqb. rewrite andb_true_iff, Nat.eqb_eq.
  assert (Na := nonempty_nonneg2 a ltac:(apply Oa)). assert (Nb := nonempty_nonneg2 b ltac:(apply Ob)).
  assert (DIM : tcSize a = tcSize b -> dim a = dim b).
  { intro E. destruct Oa as [A _], Ob as [B _]; unfold tcSize in E; lia. }
  split.
  - intros [E H]. rewrite (zstrictEqual_exact a b (DIM E)) in H; try apply Oa; try apply Ob; auto.
    intro d. split; apply inCond_zone_incl; auto; intros w; apply H.
  - intro H. assert (E : tcSize a = tcSize b).
    { destruct (okCond_inhabited a Oa) as [d Hd]. assert (Hd' := Hd). apply H in Hd'. destruct Hd as [<- _], Hd' as [<- _]. reflexivity. }
    split; [auto|]. apply (zstrictEqual_exact a b (DIM E)); try apply Oa; try apply Ob; auto.
    intro w. split; apply inCond_zone_incl; auto; intros d; apply H.
Qed.
Lemma tcIncludes_sound a b : okCond a -> okCond b -> tcSize a = tcSize b -> tcIncludes a b = true -> forall d, inCond b d -> inCond a d.
Proof.
  intros Oa Ob E H. apply inCond_zone_incl; auto. intros w. apply zincludes_sound; auto.
  destruct Oa as [A _], Ob as [B _]; unfold tcSize in E; lia.
Qed.

(** intersection *)
Lemma dim_zand a b : dim (zand a b) = dim a. Proof. unfold zand. rewrite dim_canonize. apply dim_mk. Qed.
Lemma zand_mle a b : dim a = dim b -> mle (zand a b) a /\ mle (zand a b) b.
Proof.
  intro E. unfold zand. split; (eapply mle_trans; [apply canonize_mle|]); (split; [rewrite dim_mk; auto|]);
    rewrite dim_mk; intros i j Hi Hj; rewrite get_mk by auto; [apply bmin_le_l|apply bmin_le_r].
Qed.
Lemma tcAnd_exact a b d : okCond a -> okCond b -> tcSize a = tcSize b -> (inCond (tcAnd a b) d <-> inCond a d /\ inCond b d).
Proof.
  intros Oa Ob E. assert (D : dim a = dim b) by (destruct Oa as [A _], Ob as [B _]; unfold tcSize in E; lia).
  destruct (zand_mle a b D) as [M1 M2]. unfold tcAnd. split.
  - intro H. split; (eapply inCond_mle; [|eassumption|exact H]); [apply Oa|apply Ob].
  - intros [Ha Hb]. apply inCond_iff in Ha; auto. apply inCond_iff in Hb; auto. destruct Ha as [L Ha], Hb as [_ Hb].
    apply inZone_inCond; [rewrite dim_zand; apply Oa|unfold tcSize in *; rewrite dim_zand; auto|]. apply zand_exact; auto.
Qed.
Lemma tcAnd_sat a b : okCond a -> okCond b -> tcSize a = tcSize b ->
  (isSatNoCanon (tcAnd a b) = true <-> exists d, inCond a d /\ inCond b d).
Proof.
  intros Oa Ob E. assert (D : dim a = dim b) by (destruct Oa as [A _], Ob as [B _]; unfold tcSize in E; lia). split.
  - intro H. assert (K : isSatisfiable (mk (dim a) (fun i j => bmin (get a i j) (get b i j))) = true) by exact H.
    apply isSatisfiable_exact in K. destruct K as [w Hw].
    assert (Hz : inZone (zand a b) w) by (unfold zand; apply canonize_inZone; exact Hw).
    apply (zand_exact a b w D) in Hz. destruct Hz as [Ha Hb].
    exists (durs (tcSize a) w). split; [apply inZone_durs; [apply Oa|auto]|]. rewrite E. apply inZone_durs; [apply Ob|auto].
  - intros [d [Ha Hb]]. apply inCond_iff in Ha; auto. apply inCond_iff in Hb; auto.
    assert (K : isSatisfiable (mk (dim a) (fun i j => bmin (get a i j) (get b i j))) = true); [|exact K].
    apply isSatisfiable_exact. exists (accd d). apply canonize_inZone. apply zand_exact; auto. tauto.
Qed.

(** * hull *)
Lemma okCond_hull a b : okCond a -> okCond b -> tcSize a = tcSize b -> okCond (tcHull a b).
Proof.
  intros [Da [Ca [w Hw]]] [Db [Cb _]] E. assert (D : dim a = dim b) by (unfold tcSize in E; lia).
  split; [rewrite dim_tcHull; auto|]. split.
  - intros i j k Hi Hj Hk. rewrite dim_tcHull in *. rewrite !get_tcHull by auto. apply ble_spec. intros q Hq.
    apply bsat_bmax in Hq. destruct Hq as [Hq|Hq].
    + eapply ble_sat_1; [|eapply ble_sat_1; [apply (Ca i j k); auto|exact Hq]]. apply badd_mono; apply bmax_ge_l.
    + rewrite D in *. eapply ble_sat_1; [|eapply ble_sat_1; [apply (Cb i j k); auto|exact Hq]]. apply badd_mono; apply bmax_ge_r.
  - exists w. apply inZone_Z. eapply mle_Z; [apply tcHull_mle|]. apply inZone_Z. exact Hw.
Qed.
Lemma tcHull_contains a b d : okCond a -> okCond b -> tcSize a = tcSize b -> inCond a d \/ inCond b d -> inCond (tcHull a b) d.
Proof.
  intros Oa Ob E H. assert (D : dim a = dim b) by (destruct Oa as [A _], Ob as [B _]; unfold tcSize in E; lia).
  assert (Dh : (2 <= dim (tcHull a b))%nat) by (rewrite dim_tcHull; apply Oa).
  destruct H as [H|H]; (eapply inCond_mle; [exact Dh| |exact H]); [apply tcHull_mle|apply tcHull_mle_r; auto].
Qed.
Lemma tcHull_least a b h : okCond a -> okCond b -> okCond h -> tcSize a = tcSize b -> tcSize h = tcSize a ->
  (forall d, inCond a d -> inCond h d) -> (forall d, inCond b d -> inCond h d) ->
  forall d, inCond (tcHull a b) d -> inCond h d.
Proof.
  intros Oa Ob Oh E Eh Ha Hb d Hd.
  assert (Za := proj1 (inCond_zone_incl a h Oa Oh (eq_sym Eh)) Ha).
  assert (Zb := proj1 (inCond_zone_incl b h Ob Oh ltac:(congruence)) Hb).
  assert (D : dim a = dim b) by (destruct Oa as [A _], Ob as [B _]; unfold tcSize in E; lia).
  assert (D' : dim h = dim a) by (destruct Oa as [A _], Oh as [B _]; unfold tcSize in Eh; lia).
  assert (Na := nonempty_nonneg2 a ltac:(apply Oa)). assert (Nb := nonempty_nonneg2 b ltac:(apply Ob)).
  assert (TA := closed_tight a ltac:(apply Oa) Na). assert (TB := closed_tight b ltac:(apply Ob) Nb).
  destruct Hd as [L H]. assert (SH : tcSize (tcHull a b) = tcSize h) by (unfold tcSize; rewrite dim_tcHull, D'; reflexivity).
  assert (G : forall i j, (i < dim a)%nat -> (j < dim a)%nat -> i <> j -> ble (get (tcHull a b) i j) (get h i j) = true).
  { intros i j Hi Hj Hij. rewrite get_tcHull by auto. apply ble_spec. intros q Hq. apply bsat_bmax in Hq. destruct Hq as [Hq|Hq].
    - eapply ble_sat_1; [|exact Hq]. apply TA; auto. intros w Hw. apply Za; rewrite ?D'; auto.
    - eapply ble_sat_1; [|exact Hq]. apply TB; rewrite <- ?D; auto. intros w Hw. apply Zb; rewrite ?D'; auto. }
  split; [congruence|]. intros i j Hij Hj. rewrite SH in H. destruct (H i j Hij Hj) as [H1 H2].
  assert (Ec : colOf (tcHull a b) j = colOf h j) by (unfold colOf; rewrite SH; reflexivity).
  unfold getUpperBound, getLowerBound in *. rewrite Ec in *.
  assert (Hc := colOf_lt h j ltac:(apply Oh) Hj). assert (Nc := colOf_neq h i j Hij Hj).
  split; (eapply ble_sat_1; [|eassumption]); apply G; rewrite <- ?D'; auto; unfold tcSize in *; lia.
Qed.

(** the convex hull of a list of elementary languages with the same word *)
Definition elHullFrom (x : elem) (l : list elem) : elem := fold_left (fun r y => mkEL (ew r) (tcHull (ec r) (ec y))) l x.
Lemma elHullFrom_spec : forall l x, wfElem x -> (forall y, In y l -> wfElem y /\ ew y = ew x) ->
  let h := elHullFrom x l in
  wfElem h /\ ew h = ew x /\
  (forall w, inElem x w -> inElem h w) /\ (forall y w, In y l -> inElem y w -> inElem h w) /\
  (forall z, wfElem z -> ew z = ew x -> (forall w, inElem x w -> inElem z w) -> (forall y w, In y l -> inElem y w -> inElem z w) ->
     forall w, inElem h w -> inElem z w).
Proof.
  unfold elHullFrom. induction l as [|y l IH]; intros x Wx H; cbn [fold_left]; cbv zeta.
  - split; [auto|]. split; [auto|]. split; [auto|]. split; [intros y w []|]. intros z Wz Ez H1 _. exact H1.
  - destruct (H y (or_introl eq_refl)) as [Wy Ey].
    assert (SZ : tcSize (ec x) = tcSize (ec y)) by (destruct Wx as [_ ->], Wy as [_ ->]; rewrite Ey; reflexivity).
    set (x' := mkEL (ew x) (tcHull (ec x) (ec y))).
    assert (Wx' : wfElem x').
    { split; [apply okCond_hull; [apply Wx|apply Wy|auto]|]. cbn [x' ec ew]. unfold tcSize. rewrite dim_tcHull. apply Wx. }
    assert (Hc : forall w, inElem x w \/ inElem y w -> inElem x' w).
    { intros w [[A B]|[A B]]; (split; [cbn [x' ew]; congruence|]); apply tcHull_contains; auto; try apply Wx; try apply Wy. }
    destruct (IH x' Wx') as [A [B [C [E F]]]].
    { intros z Hz. destruct (H z (or_intror Hz)) as [Wz Ez]. split; auto. }
    split; [exact A|]. split; [exact B|]. split; [intros w Hw; apply C, Hc; auto|]. split.
    + intros z w [<-|Hz] Hw; [apply C, Hc; auto|]. apply (E z w Hz Hw).
    + intros z Wz Ez H1 H2. apply (F z Wz Ez).
      * intros w [K1 K2]. cbn [x' ew ec] in *. split; [congruence|]. revert K2. apply (tcHull_least _ _ (ec z)); try apply Wx; try apply Wy; try apply Wz; auto.
        -- destruct Wx as [_ ->], Wz as [_ ->]. rewrite Ez. reflexivity.
        -- intros d Hd. destruct (H1 (mkTW (ew x) d)) as [_ K]; [split; auto|exact K].
        -- intros d Hd. destruct (H2 y (mkTW (ew y) d) (or_introl eq_refl)) as [_ K]; [split; auto|exact K].
      * intros y' w Hy'. apply H2. right; auto.
Qed.

(** * removing upper bounds: letting time pass *)
Lemma removeUpper_Z m u : (0 < dim m)%nat -> bsat (get m 0 0) 0 -> (Z_ (removeUpperBound m) u <-> Z_ (elapse m) u).
Proof.
  intros D G. unfold removeUpperBound, elapse. split; intros H i j Hi Hj; rewrite dim_mk in Hi, Hj; assert (H' := H i j);
    rewrite dim_mk in H'; specialize (H' Hi Hj); rewrite get_mk in H' |- * by auto; clear H; rename H' into H.
  - destruct (Nat.eqb_spec j 0) as [->|N]; [cbn; auto|]. rewrite andb_false_r in H. exact H.
  - destruct (Nat.eqb_spec j 0) as [->|N]; [|rewrite andb_false_r; exact H]. rewrite andb_true_r.
    destruct i; cbn [Nat.leb]; [|cbn; auto]. eapply bsat_ext; [|exact G]. ring.
Qed.
Lemma accd_addBack d q : d <> [] -> forall k, (k < length d)%nat -> accd (addBack d q) k == accd d k + q.
Proof.
  intros N k Hk. destruct (exists_last N) as [p [a E]]. subst d. rewrite addBack_snoc. rewrite app_length in Hk. cbn in Hk.
  rewrite !accd_snoc by lia. ring.
Qed.
Lemma addBack_length d q : length (addBack d q) = length d.
Proof. induction d as [|x d IH]; auto. cbn [addBack]. destruct d; auto. cbn [length] in *. f_equal. exact IH. Qed.
Lemma removeUpperBound_exact m d : okCond m ->
  (inCond (removeUpperBound m) d <-> exists d' q, 0 <= q /\ inCond m d' /\ sameDurs d (addBack d' q)).
Proof.
  intro O. destruct (O) as [D [C N]]. assert (NN := nonempty_nonneg2 m N). assert (G := nonempty_diag m N).
  assert (G0 : bsat (get m 0 0) 0) by (apply G; lia).
  assert (DR : dim (removeUpperBound m) = dim m) by apply dim_mk.
  assert (SR : tcSize (removeUpperBound m) = tcSize m) by (unfold tcSize; rewrite DR; reflexivity).
  assert (GR : diagOK (removeUpperBound m)).
  { intros i Hi. rewrite DR in Hi. unfold removeUpperBound. rewrite get_mk by auto.
    destruct i; cbn [Nat.leb Nat.eqb andb]; [exact G0|]. apply G; auto. }
  split.
  - intro H. assert (L : length d = tcSize m) by (destruct H as [-> _]; auto).
    apply inCond_inZone in H; auto; [|rewrite DR; auto]. apply inZone_Z in H. apply removeUpper_Z in H; auto; [|lia]. apply inZone_Z in H.
    destruct (elapse_complete m (accd d) ltac:(lia) C NN H) as [w [q [Hq [Hw E]]]].
    exists (durs (tcSize m) w), q. split; [auto|]. split; [apply inZone_durs; auto|].
    apply durs_same; [rewrite addBack_length, durs_length; auto|]. intros k Hk.
    assert (NE : durs (tcSize m) w <> []) by (intro K; assert (Z := durs_length (tcSize m) w); rewrite K in Z; cbn in Z; lia).
    rewrite (accd_addBack _ q NE) by (rewrite durs_length; lia). rewrite durs_acc by lia. apply E.
  - intros [d' [q [Hq [H E]]]]. eapply inCond_same; [apply sameDurs_sym; exact E|].
    assert (L : length d' = tcSize m) by apply H.
    apply inCond_iff in H; auto. destruct H as [_ H].
    apply inZone_inCond; [rewrite DR; auto|rewrite addBack_length; congruence|].
    apply inZone_Z. apply removeUpper_Z; [lia|auto|]. apply inZone_Z.
    eapply inZone_ext; [|apply (elapse_sound m (accd d') q Hq H)].
    intros k Hk. unfold delay. symmetry. apply accd_addBack; rewrite ?L; [|unfold elapse in Hk; rewrite dim_mk in Hk; unfold tcSize; lia].
    intro K; rewrite K in L; cbn in L. unfold tcSize in L. lia.
Qed.

(** * guards *)
Lemma toInt_int q z : q == inject_Z z -> inject_Z (toInt q) == q.
Proof.
  intro E. unfold toInt. destruct (Qle_bool 0 q).
  - rewrite (Qfloor_comp q (inject_Z z) E), Qfloor_Z. symmetry; auto.
  - rewrite (Qceiling_comp q (inject_Z z) E), Qceiling_Z. symmetry; auto.
Qed.
Lemma toGuard1_sat m i v : intB (getLowerBound m i (tcSize m - 1)) -> intB (getUpperBound m i (tcSize m - 1)) -> 0 <= v i ->
  (gsat (toGuard1 m i) v <-> bsat (getUpperBound m i (tcSize m - 1)) (v i) /\ bsat (getLowerBound m i (tcSize m - 1)) (- v i)).
Proof.
  intros IL IU P. unfold toGuard1, gsat.
  assert (SPL : forall (a b : guard), (forall k, In k (a ++ b) -> holds k (v (cx k))) <-> (forall k, In k a -> holds k (v (cx k))) /\ (forall k, In k b -> holds k (v (cx k)))).
  { intros a b. split; [intro H; split; intros; apply H; apply in_or_app; auto|]. intros [H1 H2] k Hk. apply in_app_or in Hk. destruct Hk; auto. }
  rewrite SPL.
  assert (A : (forall k, In k (match getLowerBound m i (tcSize m - 1) with
     | Fin l s => if Qeq_bool l 0 && s then [] else [mkC i (if s then Oge else Ogt) (- toInt l)] | Inf => [] end) -> holds k (v (cx k)))
     <-> bsat (getLowerBound m i (tcSize m - 1)) (- v i)).
  { destruct (getLowerBound m i (tcSize m - 1)) as [l s|]; [|cbn; tauto]. destruct IL as [z Hz].
    assert (E := toInt_int l z Hz).
    destruct (Qeq_bool l 0 && s) eqn:K.
    - apply andb_true_iff in K. destruct K as [K ->]. apply Qeq_bool_iff in K. cbn [bsat]. split; [intros; lra|intros _ k []].
    - split.
      + intro H. specialize (H _ (or_introl eq_refl)). unfold holds in H. destruct s; cbn [cx codr cc bsat] in *; rewrite inject_Z_opp in H; lra.
      + intros H k [<-|[]]. unfold holds. destruct s; cbn [cx codr cc bsat] in *; rewrite inject_Z_opp; lra. }
  rewrite A.
  assert (B : (forall k, In k (match getUpperBound m i (tcSize m - 1) with
     | Fin u s => [mkC i (if s then Ole else Olt) (toInt u)] | Inf => [] end) -> holds k (v (cx k)))
     <-> bsat (getUpperBound m i (tcSize m - 1)) (v i)).
  { destruct (getUpperBound m i (tcSize m - 1)) as [u s|]; [|cbn; tauto]. destruct IU as [z Hz].
    assert (E := toInt_int u z Hz). split.
    - intro H. specialize (H _ (or_introl eq_refl)). unfold holds in H. destruct s; cbn [cx codr cc bsat] in *; lra.
    - intros H k [<-|[]]. unfold holds. destruct s; cbn [cx codr cc bsat] in *; lra. }
  rewrite B. tauto.
Qed.
Lemma toGuard_sat m v : (2 <= dim m)%nat -> intCond m -> nonneg v ->
  (gsat (toGuard m) v <-> forall i, (i < tcSize m)%nat ->
     bsat (getUpperBound m i (tcSize m - 1)) (v i) /\ bsat (getLowerBound m i (tcSize m - 1)) (- v i)).
Proof.
  intros D I P. unfold toGuard.
  assert (IB : forall i, (i < tcSize m)%nat -> intB (getLowerBound m i (tcSize m - 1)) /\ intB (getUpperBound m i (tcSize m - 1))).
  { intros i Hi. assert (Hc := colOf_lt m (tcSize m - 1) D ltac:(lia)). split; apply I; unfold tcSize in *; lia. }
  split.
  - intros H i Hi. destruct (IB i Hi). apply toGuard1_sat; auto. intros k Hk. apply H. apply in_flat_map. exists i. split; [apply in_seq; lia|auto].
  - intros H k Hk. apply in_flat_map in Hk. destruct Hk as [i [Hi Hk]]. apply in_seq in Hi. destruct (IB i ltac:(lia)).
    apply (proj2 (toGuard1_sat m i v ltac:(auto) ltac:(auto) (P i)) (H i ltac:(lia))). exact Hk.
Qed.
