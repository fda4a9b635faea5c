(** applyResets(resets) with constants and removeEqualityUpperBoundAssign on
    timed conditions. *)
From Coq Require Import QArith Qround ZArith Bool List Arith Lia Lqa.
From Verif Require Import BoundsModel BoundsProofs ConstraintModel GuardSpec ZoneModel ZoneSpec ZoneProofs ZoneProofs2 TimedConditionModel TimedConditionSpec TimedConditionProofs
  TimedWordModel RegionalModel RegionalSpec RegionalProofs CexProofs ResetSpec.
Import ListNotations.
Open Scope Q_scope.

(** a value in the same point or open unit interval as q *)
Lemma region_bounds q p : sameUnit q p <->
  (if Qeq_bool q (qfloor q) then bsat (Fin (- q) true) (0 - p) /\ bsat (Fin q true) (p - 0)
   else bsat (Fin (- qfloor q) false) (0 - p) /\ bsat (Fin (inject_Z (Qceiling q)) false) (p - 0)).
Proof.
  destruct (Qeq_bool q (qfloor q)) eqn:E.
  - apply Qeq_bool_eq in E. unfold qfloor in E. rewrite (sameUnit_point q (Qfloor q) E p). cbn [bsat]. split; [intro H; split; lra|intros [A B]; lra].
  - assert (NE : ~ q == inject_Z (Qfloor q)) by (intro K; apply Qeq_eq_bool in K; unfold qfloor in E; congruence). cbn [bsat]. unfold qfloor.
    assert (F1 := Qfloor_le q). assert (F2 := Qlt_floor q). assert (C1 := Qle_ceiling q).
    assert (CE : Qceiling q = (Qfloor q + 1)%Z).
    { assert (G1 : (Qfloor q < Qceiling q)%Z). { rewrite Zlt_Qlt. lra. }
      assert (G2 : (Qceiling q < Qfloor q + 1 + 1)%Z). { rewrite Zlt_Qlt. assert (X := Qceiling_lt q). rewrite !inject_Z_plus. change (inject_Z 1) with 1. replace (Qceiling q - 1)%Z with (Qceiling q + -1)%Z in X by lia. rewrite inject_Z_plus in X, F2. change (inject_Z (-1)) with (-1) in X. change (inject_Z 1) with 1 in F2. lra. }
      lia. }
    rewrite CE. rewrite inject_Z_plus in *. change (inject_Z 1) with 1 in *. unfold sameUnit. split.
    + intros [A B]. assert (P1 := Qfloor_le p). assert (P2 := Qlt_floor p). rewrite inject_Z_plus in P2. change (inject_Z 1) with 1 in P2. rewrite A in *. split; [|lra].
      apply Qle_lteq in P1. destruct P1 as [P1|P1]; [lra|]. exfalso. apply NE. apply B. symmetry. exact P1.
    + intros [A B]. assert (FE : Qfloor p = Qfloor q).
      { assert (G1 : (Qfloor q <= Qfloor p)%Z). { rewrite <- (Qfloor_Z (Qfloor q)). apply Qfloor_resp_le. lra. }
        assert (G2 : (Qfloor p < Qfloor q + 1)%Z). { rewrite Zlt_Qlt. rewrite inject_Z_plus. change (inject_Z 1) with 1. assert (X := Qfloor_le p). lra. } lia. }
      split; [auto|]. rewrite FE. split; intro K; exfalso; [apply NE; exact K|lra].
Qed.

Lemma colOf_last m : colOf m (tcSize m - 1) = 0%nat.
Proof. unfold colOf. rewrite Nat.eqb_refl. reflexivity. Qed.
(** one reset of clock x < N *)
Lemma setRegion_exact m x q w : okCond m -> (x < tcSize m)%nat ->
  (inZone (setRegion (unconstrain m x) x q) w <-> (exists r, inZone m (upd w x r)) /\ sameUnit q (w x)).
Proof.
  intros [D [C N]] Hx. assert (DU := dim_unconstrain m x). assert (TU : tcSize (unconstrain m x) = tcSize m) by (unfold tcSize; rewrite DU; auto).
  assert (Sx : (S x < dim m)%nat) by (unfold tcSize in Hx; lia). assert (N2 : nonneg2 m) by (apply nonempty_nonneg2; auto).
  assert (UN : forall v, inZone (unconstrain m x) v <-> exists r, inZone m (upd v x r)).
  { intro v. split; [apply unconstrain_complete; auto|]. intros [r Hr]. apply (unconstrain_sound m x _ (v x)) in Hr. eapply inZone_ext; [|exact Hr]. intros k Hk. unfold upd. destruct (Nat.eqb_spec k x) as [->|]; reflexivity. }
  (* both bounds are put on the last accumulation of x, where there was none *)
  assert (G : forall l s u s', inZone (restrictUpperBound (restrictLowerBound (unconstrain m x) x (tcSize (unconstrain m x) - 1) (Fin l s) true) x (tcSize (unconstrain m x) - 1) (Fin u s') true) w <->
     inZone (unconstrain m x) w /\ bsat (Fin l s) (0 - w x) /\ bsat (Fin u s') (w x - 0)).
  { intros l s u s'. unfold restrictUpperBound, restrictLowerBound. rewrite colOf_last. replace (x + 1)%nat with (S x) by lia. set (z1 := canonize (set1 (unconstrain m x) 0 (S x) (Fin l s))). assert (D1 : dim z1 = dim m) by (unfold z1; rewrite dim_canonize, dim_set1; apply dim_unconstrain).
    assert (CO : colOf z1 (tcSize (unconstrain m x) - 1) = 0%nat) by (rewrite TU; replace (tcSize m) with (tcSize z1) by (unfold tcSize; rewrite D1; auto); apply colOf_last). rewrite CO.
    assert (Z1 : forall v, inZone z1 v <-> inZone (unconstrain m x) v /\ bsat (Fin l s) (0 - v x)).
    { intro v. unfold z1. rewrite canonize_inZone, inZone_Z, set1_Z_unc, <- inZone_Z; [reflexivity| | |apply unc_get_col; lia]; rewrite DU; lia. }
    assert (I : get z1 (S x) 0 = Inf).
    { destruct (get z1 (S x) 0) as [c b|] eqn:Eg; [exfalso|reflexivity]. destruct N as [v0 H0]. assert (EK : exists K, c <= K /\ - l <= K) by (destruct (Qlt_le_dec c (- l)); [exists (- l)|exists c]; split; lra). destruct EK as [K [K1 K2]]. set (v := upd v0 x (K + 1)).
      assert (Iv : inZone z1 v). { apply Z1. split; [apply unconstrain_sound; auto|]. unfold v, upd. rewrite Nat.eqb_refl. cbn [bsat]. destruct s; lra. }
      specialize (Iv (S x) 0%nat ltac:(lia) ltac:(lia)). rewrite Eg in Iv. cbn [ext] in Iv. unfold v, upd in Iv. rewrite Nat.eqb_refl in Iv. cbn [bsat] in Iv. destruct b; lra. }
    rewrite canonize_inZone, inZone_Z, set1_Z_unc, <- inZone_Z, Z1; [cbn [ext]; tauto|lia|lia|exact I]. }
  unfold setRegion. rewrite region_bounds. destruct (Qeq_bool q (qfloor q)); rewrite G, UN; tauto.
Qed.

Lemma assigned_snoc rs r k : assigned (rs ++ [r]) k = if (fst r =? k)%nat then Some (snd r) else assigned rs k.
Proof. destruct r as [x v]. unfold assigned. rewrite rev_app_distr. cbn [rev app find fst snd]. destruct (x =? k)%nat; reflexivity. Qed.
Lemma tcReset1_ok m x q : okCond m -> (x < tcSize m)%nat -> okCond (tcReset1 m (x, RConst q)) /\ tcSize (tcReset1 m (x, RConst q)) = tcSize m.
Proof.
  intros O Hx. assert (O' := O). destruct O' as [D [C [w0 H0]]]. cbn [tcReset1].
  assert (DM : dim (setRegion (unconstrain m x) x q) = dim m) by (unfold setRegion, restrictUpperBound, restrictLowerBound; destruct (Qeq_bool q (qfloor q)); rewrite !dim_canonize, !dim_set1, !dim_canonize, !dim_set1, dim_unconstrain; auto).
  assert (NE : nonemptyZ (setRegion (unconstrain m x) x q)).
  { exists (upd w0 x q). apply setRegion_exact; auto. split; [exists (w0 x)|unfold upd; rewrite Nat.eqb_refl; split; [auto|tauto]]. eapply inZone_ext; [|exact H0]. intros k Hk. unfold upd. destruct (Nat.eqb_spec k x) as [->|]; reflexivity. }
  split; [|unfold tcSize; rewrite DM; auto]. split; [rewrite DM; auto|]. split; [|exact NE].
  revert NE. unfold setRegion, restrictUpperBound. destruct (Qeq_bool q (qfloor q)); intros [v Hv]; apply canonize_closed_sat; exists v; apply canonize_inZone; exact Hv.
Qed.
Lemma tcApplyResets_exact m : okCond m -> forall rs, constResets (tcSize m) rs ->
  okCond (tcApplyResets m rs) /\ tcSize (tcApplyResets m rs) = tcSize m /\
  forall w, inZone (tcApplyResets m rs) w <-> exists w', inZone m w' /\ forall k, (k < tcSize m)%nat ->
    match assigned rs k with Some (RConst q) => sameUnit q (w k) | _ => w k == w' k end.
Proof.
  intros O. induction rs as [|[x v] rs IH] using rev_ind; intro CR.
  - split; [exact O|]. split; [reflexivity|]. intro w. split; [intro H; exists w; split; [exact H|reflexivity]|]. intros [w' [H K]]. eapply inZone_ext; [|exact H]. intros k Hk. symmetry. apply K. exact Hk.
  - destruct IH as [O1 [T1 E1]]; [intros a b H; apply CR, in_or_app; auto|]. destruct (CR x v) as [Hx [q ->]]; [apply in_or_app; right; left; auto|].
    assert (EF : tcApplyResets m (rs ++ [(x, RConst q)]) = tcReset1 (tcApplyResets m rs) (x, RConst q)) by (unfold tcApplyResets; rewrite fold_left_app; reflexivity). rewrite EF. clear EF.
    assert (Hx1 : (x < tcSize (tcApplyResets m rs))%nat) by (rewrite T1; exact Hx). destruct (tcReset1_ok (tcApplyResets m rs) x q O1 Hx1) as [O2 T2]. split; [exact O2|]. split; [exact (eq_trans T2 T1)|].
    intro w. cbn [tcReset1]. rewrite setRegion_exact by auto. split.
    + intros [[r Hr] U]. apply E1 in Hr. destruct Hr as [w' [H' K]]. exists w'. split; [exact H'|]. intros k Hk. specialize (K k Hk). rewrite assigned_snoc. cbn [fst snd]. unfold upd in K. destruct (Nat.eqb_spec x k) as [->|NE]; [exact U|].
      destruct (Nat.eqb_spec k x); [congruence|exact K].
    + intros [w' [H' K]]. split.
      * destruct (assigned rs x) as [[q0|y]|] eqn:A.
        -- exists q0. apply E1. exists w'. split; [exact H'|]. intros k Hk. specialize (K k Hk). rewrite assigned_snoc in K. cbn [fst snd] in K. unfold upd. destruct (Nat.eqb_spec x k) as [->|NE]; [rewrite A, Nat.eqb_refl; split; [auto|tauto]|]. destruct (Nat.eqb_spec k x); [congruence|exact K].
        -- exists (w' x). apply E1. exists w'. split; [exact H'|]. intros k Hk. specialize (K k Hk). rewrite assigned_snoc in K. cbn [fst snd] in K. unfold upd. destruct (Nat.eqb_spec x k) as [->|NE]; [rewrite A, Nat.eqb_refl; reflexivity|]. destruct (Nat.eqb_spec k x); [congruence|exact K].
        -- exists (w' x). apply E1. exists w'. split; [exact H'|]. intros k Hk. specialize (K k Hk). rewrite assigned_snoc in K. cbn [fst snd] in K. unfold upd. destruct (Nat.eqb_spec x k) as [->|NE]; [rewrite A, Nat.eqb_refl; reflexivity|]. destruct (Nat.eqb_spec k x); [congruence|exact K].
      * specialize (K x Hx). rewrite assigned_snoc in K. cbn [fst snd] in K. rewrite Nat.eqb_refl in K. exact K.
Qed.
Lemma sameUnit_ext q p p' : p == p' -> sameUnit q p -> sameUnit q p'.
Proof. intros E [A B]. unfold sameUnit. rewrite <- (Qfloor_comp _ _ E). split; [exact A|]. rewrite B. split; intro H; lra. Qed.
(** the same in terms of durations *)
Lemma tcApplyResets_durations m rs : okCond m -> constResets (tcSize m) rs -> forall d,
  inCond (tcApplyResets m rs) d <-> length d = tcSize m /\ exists d', inCond m d' /\ forall k, (k < tcSize m)%nat ->
    match assigned rs k with Some (RConst q) => sameUnit q (since d k) | _ => since d k == since d' k end.
Proof.
  intros O CR d. destruct (tcApplyResets_exact m O rs CR) as [O1 [T1 E]]. rewrite inCond_iff by auto. rewrite T1, E. split.
  - intros [L [w' [H K]]]. split; [auto|]. exists (durs (tcSize m) w'). split; [apply inZone_durs; [apply O|auto]|]. intros k Hk. specialize (K k Hk).
    assert (E1 := since_acc d k ltac:(lia)). assert (E2 := since_acc (durs (tcSize m) w') k ltac:(rewrite durs_length; lia)). assert (E3 := durs_acc (tcSize m) w' k Hk).
    destruct (assigned rs k) as [[q|y]|]; [eapply sameUnit_ext; [symmetry; exact E1|exact K]|lra|lra].
  - intros [L [d' [H K]]]. split; [auto|]. apply inCond_iff in H; [|auto]. destruct H as [L' H]. exists (accd d'). split; [auto|]. intros k Hk. specialize (K k Hk).
    assert (E1 := since_acc d k ltac:(lia)). assert (E2 := since_acc d' k ltac:(lia)). destruct (assigned rs k) as [[q|y]|]; [eapply sameUnit_ext; [exact E1|exact K]|lra|lra].
Qed.

(** removeEqualityUpperBound: the inclusive upper bounds of the sums that end
    with the last duration are dropped, all others are kept *)
Lemma removeEqualityUpperBound_exact m d : okCond m ->
  (inCond (removeEqualityUpperBound m) d <-> length d = tcSize m /\ forall i j, (i <= j)%nat -> (j < tcSize m)%nat ->
     bsat (getLowerBound m i j) (- T d i j) /\ ((j = (tcSize m - 1)%nat /\ bSnd (getUpperBound m i j) = true) \/ bsat (getUpperBound m i j) (T d i j))).
Proof.
  intros [D _]. assert (DR : dim (removeEqualityUpperBound m) = dim m) by apply dim_mk. assert (SR : tcSize (removeEqualityUpperBound m) = tcSize m) by (unfold tcSize; rewrite DR; reflexivity).
  assert (GU : forall i j, (i <= j)%nat -> (j < tcSize m)%nat -> getUpperBound (removeEqualityUpperBound m) i j = if (j =? tcSize m - 1)%nat && bSnd (getUpperBound m i j) then Inf else getUpperBound m i j).
  { intros i j Hij Hj. unfold getUpperBound, colOf. rewrite SR. unfold removeEqualityUpperBound. unfold tcSize in Hj. destruct (Nat.eqb_spec j (tcSize m - 1)) as [->|NE].
    - rewrite get_mk by lia. replace (1 <=? i + 1)%nat with true by (symmetry; apply Nat.leb_le; lia). reflexivity.
    - unfold tcSize in NE. rewrite get_mk by lia. replace (j + 2 =? 0)%nat with false by (symmetry; apply Nat.eqb_neq; lia). rewrite andb_false_r. reflexivity. }
  assert (GL : forall i j, (i <= j)%nat -> (j < tcSize m)%nat -> getLowerBound (removeEqualityUpperBound m) i j = getLowerBound m i j).
  { intros i j Hij Hj. unfold getLowerBound, colOf. rewrite SR. unfold removeEqualityUpperBound. unfold tcSize in Hj. destruct (Nat.eqb_spec j (tcSize m - 1)) as [->|NE]; [|unfold tcSize in NE]; rewrite get_mk by lia.
    - reflexivity.
    - replace (i + 1 =? 0)%nat with false by (symmetry; apply Nat.eqb_neq; lia). rewrite andb_false_r. reflexivity. }
  unfold inCond. rewrite SR. split; intros [L H]; (split; [auto|]); intros i j Hij Hj; specialize (H i j Hij Hj).
  - rewrite GU, GL in H by auto. destruct H as [A B]. split; [exact B|]. destruct (Nat.eqb_spec j (tcSize m - 1)) as [EJ|NE]; cbn [andb] in A; [|right; exact A]. destruct (bSnd (getUpperBound m i j)); [left; auto|right; exact A].
  - rewrite GU, GL by auto. destruct H as [B A]. split; [|exact B]. destruct (Nat.eqb_spec j (tcSize m - 1)) as [EJ|NE]; cbn [andb].
    + destruct (bSnd (getUpperBound m i j)); [exact I|]. destruct A as [[_ A]|A]; [discriminate|exact A].
    + destruct A as [[A _]|A]; [congruence|exact A].
Qed.
