(** Proofs about neighbour conditions: the neighbours made, and letting time pass. *)
From Coq Require Import QArith ZArith Bool List Arith Lia Lqa Qround Permutation.
From Verif Require Import BoundsModel BoundsProofs ConstraintModel GuardSpec ConstraintProofs ZoneModel ZoneSpec ZoneProofs ZoneProofs3 AutomatonModel AutomatonSpec AutomatonProofs TimedWordModel TimedWordSpec TimedWordProofs TimedConditionModel TimedConditionSpec
  TimedConditionProofs TimedConditionProofs2 TimedConditionProofs3 TimedConditionProofs5 ElementaryModel ElementarySpec ElementaryProofs ElementaryProofs2 RegionalModel RegionalSpec RegionalProofs RegionalProofs3 RegionalProofs4 RegionalProofs5
  QueryableProofs PropertiesConditions CexProofs CexProofs2 ReconstructProofs TableModel NeighborModel NeighborSpec NeighborProofs.
Import ListNotations.
Open Scope Q_scope.

(** ** makeNeighbors *)
Lemma relaxed_inCond x w P u : regionalF x w -> tw u = tw w -> (inCond (relaxedCond (ec (fel x)) P) (td u) <-> relaxedLike P w u).
Proof.
  intros (Ew & W & R & _) Eu. destruct (relaxedCond_fine (ec (fel x)) P (td w) R) as [_ X]. rewrite X. assert (L : length (td w) = tcSize (ec (fel x))) by apply R. rewrite <- L. unfold relaxedLike. unfold wfTW in *. split.
  - intros [Lu H]. split; [auto|]. split; [rewrite Lu, Eu; auto|]. split.
    + intros i Hi. destruct (H i Hi) as [A _]. unfold since. rewrite Lu. exact A.
    + intros i j Hij Hj K. destruct (H i ltac:(lia)) as [_ B]. specialize (B j Hij Hj K). eapply sameUnit_ext; [| |exact B].
      * symmetry. apply T_since; auto.
      * symmetry. apply T_since; lia.
  - intros (_ & Wu & A & B). assert (Lu : length (td u) = length (td w)) by (rewrite Wu, W, Eu; auto). split; [auto|]. intros i Hi. split.
    + specialize (A i Hi). unfold since in A. rewrite Lu in A. exact A.
    + intros j Hij Hj K. specialize (B i j Hij Hj K). eapply sameUnit_ext; [| |exact B]; apply T_since; lia.
Qed.
Lemma makeNeighbors_spec x w P : regionalF x w -> visible (fel x) ->
  regions (makeNeighbors x P) /\ (forall u, covers (makeNeighbors x P) u <-> relaxedLike P w u).
Proof.
  intros R V. destruct R as (Ew & W & RC & O). assert (R : regionalF x w) by (split; auto).
  destruct (relaxedCond_fine (ec (fel x)) P (td w) RC) as [(OK & IC & Sz & _) _]. assert (BC := relaxedCond_bounded (ec (fel x)) P (td w) RC).
  destruct (C22_enumerate_conditions _ OK IC BC) as (E1 & E2 & _). assert (L : length (td w) = tcSize (ec (fel x))) by apply RC.
  assert (G : forall c, In c (enumerate (relaxedCond (ec (fel x)) P)) -> let s := elSample (mkEL (ew (fel x)) c) in
    regionalF (frFromTimedWord s) s /\ forall u, inElem (fel (frFromTimedWord s)) u <-> tw u = tw w /\ inCond c (td u)).
  { intros c Hc s. destruct (E1 c Hc) as (O1 & I1 & S1 & Si). destruct (elSample_in (mkEL (ew (fel x)) c)) as [A B].
    - split; [exact O1|]. cbn [ec ew]. rewrite S1, Sz, <- L, <- Ew. exact W.
    - cbn [ec]. apply simple_allBounded; [apply O1|exact Si].
    - exact V.
    - fold s in A, B. assert (RF := frFromTimedWord_regional s B). split; [exact RF|]. intro u. rewrite (regionalF_members _ s u RF). destruct A as [A1 A2]. cbn [ew ec] in A1, A2.
      assert (RC' : regionCond c (td s)) by (destruct O1 as (D & _ & N); apply simple_regionCond; auto). rewrite (regionCond_exact c (td s) RC'). rewrite A1, Ew. tauto. }
  split.
  - intros n Hn. unfold makeNeighbors in Hn. apply in_map_iff in Hn. destruct Hn as (c & <- & Hc). destruct (G c Hc) as [A _]. eauto.
  - intro u. split.
    + intros (n & Hn & Hu). unfold makeNeighbors in Hn. apply in_map_iff in Hn. destruct Hn as (c & <- & Hc). destruct (G c Hc) as [_ A]. apply A in Hu. destruct Hu as [U1 U2]. apply (relaxed_inCond x w P u R U1). apply E2. eauto.
    + intro H. assert (U1 : tw u = tw w) by apply H. apply (relaxed_inCond x w P u R U1) in H. apply E2 in H. destruct H as (c & Hc & Hu). destruct (G c Hc) as [_ A].
      exists (frFromTimedWord (elSample (mkEL (ew (fel x)) c))). split; [unfold makeNeighbors; apply in_map_iff; eauto|]. apply A. auto.
Qed.

(** ** bounds of single clocks and units *)
Lemma regionalF_unit x w k : regionalF x w -> (k < length (td w))%nat -> unitBounds (upAt x k) (loAt x k) (since (td w) k).
Proof. intros (_ & _ & (L & _ & R) & _) H. unfold upAt, loAt, since. rewrite L in *. apply R; lia. Qed.
Lemma ble_int a s b t y z : a == inject_Z y -> b == inject_Z z -> (ble (Fin a s) (Fin b t) = true <-> (y < z)%Z \/ (y = z /\ implb s t = true)).
Proof.
  intros A B. cbn [ble]. destruct (Qltb a b) eqn:E1; [apply Qltb_true in E1|apply Qltb_false in E1].
  - split; [intros _; left|auto]. rewrite Zlt_Qlt. lra.
  - assert (N : ~ (y < z)%Z) by (rewrite Zlt_Qlt; lra). destruct (Qeq_bool a b) eqn:E2; [apply Qeqb_true in E2|apply Qeqb_false in E2].
    + assert (y = z) by (apply inject_Z_injective; lra). tauto.
    + split; [discriminate|]. intros [?|[-> _]]; [tauto|]. exfalso. apply E2. lra.
Qed.
Lemma uidx_point q z : q == inject_Z z -> uidx q = (2 * z)%Z.
Proof. intros E. rewrite (uidx_ext q (inject_Z z) E). unfold uidx, qfloor. rewrite Qfloor_Z. replace (Qeq_bool (inject_Z z) (inject_Z z)) with true by (symmetry; apply Qeq_bool_iff; reflexivity). lia. Qed.
Lemma uidx_open p y : inject_Z y < p -> p < inject_Z y + 1 -> uidx p = (2 * y + 1)%Z.
Proof.
  intros A B. assert (F : Qfloor p = y).
  { assert (F1 := Qfloor_le p). assert (F2 := Qlt_floor p). rewrite inject_Z_plus in F2. change (inject_Z 1) with 1 in F2.
    assert (y < Qfloor p + 1)%Z by (rewrite Zlt_Qlt, inject_Z_plus; change (inject_Z 1) with 1; lra). assert (Qfloor p < y + 1)%Z by (rewrite Zlt_Qlt, inject_Z_plus; change (inject_Z 1) with 1; lra). lia. }
  unfold uidx, qfloor. rewrite F. destruct (Qeq_bool p (inject_Z y)) eqn:E; [apply Qeq_bool_eq in E; lra|lia].
Qed.
Lemma unitBounds_ble u l q u' l' q' : unitBounds u l q -> unitBounds u' l' q' ->
  (ble u' u = true <-> (uidx q' <= uidx q)%Z) /\ (ble l' l = true <-> (uidx q <= uidx q')%Z).
Proof.
  intros (z & c & e & H) (z' & c' & e' & H'). assert (I1 : forall a, inject_Z a + 1 == inject_Z (a + 1)) by (intro; rewrite inject_Z_plus; reflexivity).
  assert (I2 : forall a, - inject_Z a == inject_Z (- a)) by (intro; rewrite inject_Z_opp; reflexivity).
  assert (K : exists y s, u = Fin c s /\ l = Fin e s /\ c == inject_Z y /\ e == inject_Z (- z) /\ ((y = z /\ s = true /\ uidx q = (2 * z)%Z) \/ (y = (z + 1)%Z /\ s = false /\ uidx q = (2 * z + 1)%Z))).
  { destruct H as [(-> & -> & C & D & Q0)|(-> & -> & C & D & Q0 & Q1)].
    - exists z, true. rewrite <- I2. repeat split; auto. left. auto using uidx_point.
    - exists (z + 1)%Z, false. rewrite <- I2, <- I1. repeat split; auto. right. auto using uidx_open. }
  assert (K' : exists y s, u' = Fin c' s /\ l' = Fin e' s /\ c' == inject_Z y /\ e' == inject_Z (- z') /\ ((y = z' /\ s = true /\ uidx q' = (2 * z')%Z) \/ (y = (z' + 1)%Z /\ s = false /\ uidx q' = (2 * z' + 1)%Z))).
  { destruct H' as [(-> & -> & C & D & Q0)|(-> & -> & C & D & Q0 & Q1)].
    - exists z', true. rewrite <- I2. repeat split; auto. left. auto using uidx_point.
    - exists (z' + 1)%Z, false. rewrite <- I2, <- I1. repeat split; auto. right. auto using uidx_open. }
  destruct K as (y & s & -> & -> & C & D & K), K' as (y' & s' & -> & -> & C' & D' & K').
  rewrite (ble_int c' s' c s y' y C' C), (ble_int e' s' e s (- z') (- z) D' D).
  destruct K as [(-> & -> & ->)|(-> & -> & ->)], K' as [(-> & -> & ->)|(-> & -> & ->)]; cbn [implb]; (split; split; [intros [?|[? ?]]; try discriminate; lia| |intros [?|[? ?]]; try discriminate; lia|]); intro K.
  all: match goal with |- (?a < ?b)%Z \/ _ => destruct (Z_lt_ge_dec a b) as [G|G]; [left; exact G|right; split; [lia|reflexivity || lia]] end.
Qed.
Lemma notPassed_iff P x w n u : regionalF x w -> regionalF n u -> length (td u) = length (td w) -> (forall k, In k P -> (k < length (td w))%nat) ->
  (notPassed P x n = true <-> forall k, In k P -> (uidx (since (td u) k) <= uidx (since (td w) k))%Z).
Proof.
  intros R Rn L B. unfold notPassed. rewrite forallb_forall. split; intros H k Hk; specialize (H k Hk); specialize (B k Hk);
    apply (unitBounds_ble _ _ _ _ _ _ (regionalF_unit x w k R B) (regionalF_unit n u k Rn ltac:(lia))); exact H.
Qed.
Lemma sameBounds_iff P x w n u : regionalF x w -> regionalF n u -> length (td u) = length (td w) -> (forall k, In k P -> (k < length (td w))%nat) ->
  (sameBounds P x n = true <-> agreeOn P w u).
Proof.
  intros R Rn L B. unfold sameBounds, agreeOn. rewrite forallb_forall. split; intros H k Hk; specialize (H k Hk); specialize (B k Hk);
    destruct (unitBounds_ble _ _ _ _ _ _ (regionalF_unit x w k R B) (regionalF_unit n u k Rn ltac:(lia))) as [X1 X2];
    destruct (unitBounds_ble _ _ _ _ _ _ (regionalF_unit n u k Rn ltac:(lia)) (regionalF_unit x w k R B)) as [X3 X4].
  - unfold beqb in H. rewrite !andb_true_iff in H. apply uidx_same. destruct H as [[H1 H2] [H3 H4]]. apply X1 in H3. apply X3 in H4. lia.
  - apply uidx_same in H. unfold beqb. rewrite !andb_true_iff. split; split; [apply X2|apply X4|apply X1|apply X3]; lia.
Qed.

(** ** letting time pass *)
Lemma advance_shape : forall f P x n l, advance f P x n = Some l -> exists K, notPassed P x (frSuccs K n) = false /\ (forall j, (j < K)%nat -> notPassed P x (frSuccs j n) = true) /\
  forall r, In r l <-> exists j, (j < K)%nat /\ r = frSuccs j n /\ sameBounds P x r = true.
Proof.
  induction f as [|f IH]; intros P x n l H; [discriminate|]. cbn [advance] in H. destruct (notPassed P x n) eqn:N.
  - destruct (advance f P x (frSucc n)) as [l'|] eqn:A; [|discriminate]. injection H as <-. destruct (IH _ _ _ _ A) as (K & K1 & K2 & K3). exists (S K). split; [exact K1|]. split.
    + intros [|j] Hj; [exact N|]. apply K2. lia.
    + intro r. assert (X : In r l' <-> exists j, (0 < j < S K)%nat /\ r = frSuccs j n /\ sameBounds P x r = true).
      { rewrite K3. split; [intros (j & J1 & J2 & J3); exists (S j); split; [lia|auto]|intros (j & J1 & J2 & J3); exists (pred j); split; [lia|split; [|auto]]]. destruct j; [lia|exact J2]. }
      destruct (sameBounds P x n) eqn:B.
      * cbn [In]. rewrite X. split.
        -- intros [<-|(j & J1 & J2)]; [exists 0%nat; split; [lia|auto]|exists j; split; [lia|auto]].
        -- intros ([|j] & J1 & J2 & J3); [left; auto|right; exists (S j); split; [lia|auto]].
      * rewrite X. split; [intros (j & J1 & J2); exists j; split; [lia|auto]|]. intros ([|j] & J1 & J2 & J3); [cbn in J2; congruence|exists (S j); split; [lia|auto]].
  - injection H as <-. exists 0%nat. split; [exact N|]. split; [intros; lia|]. intro r. split; [intros []|intros (j & J & _); lia].
Qed.
Lemma advance_total : forall K P x n f, notPassed P x (frSuccs K n) = false -> (K < f)%nat -> exists l, advance f P x n = Some l.
Proof.
  induction K as [|K IH]; intros P x n [|f] H Hf; try lia; cbn [advance].
  - cbn in H. rewrite H. eauto.
  - destruct (notPassed P x n); [|eauto]. cbn [frSuccs] in H. destruct (IH P x (frSucc n) f H ltac:(lia)) as [l ->]. eauto.
Qed.
Lemma frSuccs_S k n : frSuccs (S k) n = frSucc (frSuccs k n).
Proof. revert n. induction k as [|k IH]; intro n; [reflexivity|]. change (frSuccs (S (S k)) n) with (frSuccs (S k) (frSucc n)). rewrite IH. reflexivity. Qed.
Section Advance.
Variables (P : list nat) (x : frel) (w : tword).
Hypothesis R : regionalF x w.
Hypothesis B : forall k, In k P -> (k < length (td w))%nat.
Lemma passed_step n u : regionalF n u -> length (td u) = length (td w) -> notPassed P x (frSucc n) = true -> notPassed P x n = true.
Proof using R B.
  intros Rn L H. destruct (frSucc_regional n u Rn) as (q & (Q0 & _) & Rs). assert (L2 : length (td (mkTW (tw u) (delayed (td u) q))) = length (td w)) by (cbn [td]; unfold delayed; rewrite addBack_length; exact L).
  rewrite (notPassed_iff P x w _ _ R Rs L2 B) in H. apply (notPassed_iff P x w n u R Rn L B). intros k Hk. specialize (H k Hk). cbn [td] in H. specialize (B k Hk).
  assert (M : (uidx (since (td u) k) <= uidx (since (delayed (td u) q) k))%Z). { apply uidx_mono. unfold delayed. rewrite since_addBack by lia. lra. } lia.
Qed.
Lemma passed_mono k : forall n u j, regionalF n u -> length (td u) = length (td w) -> notPassed P x (frSuccs k n) = true -> (j <= k)%nat -> notPassed P x (frSuccs j n) = true.
Proof using R B.
  intros n u j Rn L H Hj. induction k as [|k IH]; [replace j with 0%nat by lia; exact H|]. destruct (Nat.eq_dec j (S k)) as [->|N]; [exact H|]. apply IH; [|lia].
  rewrite frSuccs_S in H. destruct (frSuccs_exists k n u Rn) as (t & _ & Rk). eapply passed_step; [exact Rk| |exact H]. cbn [td]. unfold delayed. rewrite addBack_length. exact L.
Qed.
Lemma same_notPassed n u : regionalF n u -> length (td u) = length (td w) -> sameBounds P x n = true -> notPassed P x n = true.
Proof using R B.
  intros Rn L H. apply (sameBounds_iff P x w n u R Rn L B) in H. apply (notPassed_iff P x w n u R Rn L B). intros k Hk. specialize (H k Hk). apply uidx_same in H. lia.
Qed.
Lemma advance_end n u : P <> [] -> regionalF n u -> length (td u) = length (td w) -> exists K, notPassed P x (frSuccs K n) = false.
Proof using R B.
  intros NP Rn L. destruct P as [|k P'] eqn:EP; [congruence|]. rewrite <- EP in *. assert (Hk : In k P) by (rewrite EP; left; auto). assert (Bk := B k Hk).
  assert (ET : exists t, 0 <= t /\ since (td w) k + 1 - since (td u) k <= t) by (destruct (Qlt_le_dec 0 (since (td w) k + 1 - since (td u) k)); [eexists; split; [apply Qlt_le_weak; eassumption|lra]|exists 0; split; lra]).
  destruct ET as (t & T0 & T1).
  destruct (frSuccs_reach (Z.to_nat (vol (addBack (td u) t) - vol (td u))) n u t Rn T0) as [K RK]; [assert (V := vol_delay (td u) t T0); lia|]. exists K.
  destruct (notPassed P x (frSuccs K n)) eqn:N; [|reflexivity]. exfalso. rewrite (notPassed_iff P x w _ _ R RK) in N; [|cbn [td]; unfold delayed; rewrite addBack_length; exact L|exact B]. specialize (N k Hk). cbn [td] in N.
  assert (M : (uidx (since (td w) k + 1) <= uidx (since (delayed (td u) t) k))%Z). { apply uidx_mono. unfold delayed. rewrite since_addBack by lia. lra. }
  assert (X : (uidx (since (td w) k) < uidx (since (td w) k + 1))%Z); [|lia]. assert (M2 := uidx_mono (since (td w) k) (since (td w) k + 1) ltac:(lra)).
  destruct (Z.eq_dec (uidx (since (td w) k)) (uidx (since (td w) k + 1))) as [E|E]; [|lia]. apply uidx_same in E. destruct E as [E _].
  assert (F1 := Qlt_floor (since (td w) k + 1)). assert (F2 := Qfloor_le (since (td w) k)). rewrite <- E in F1. rewrite inject_Z_plus in F1. change (inject_Z 1) with 1 in F1. lra.
Qed.
Lemma advance_sem f n u l : regionalF n u -> length (td u) = length (td w) -> advance f P x n = Some l ->
  (forall r, In r l -> exists q, 0 <= q /\ regionalF r (wait u q) /\ agreeOn P w (wait u q)) /\
  (forall q, 0 <= q -> agreeOn P w (wait u q) -> exists r, In r l /\ regionalF r (wait u q)).
Proof using R B.
  intros Rn L H. destruct (advance_shape _ _ _ _ _ H) as (K & K1 & K2 & K3).
  assert (LW : forall q, length (td (wait u q)) = length (td w)) by (intro q; unfold wait, delayed; cbn [td]; rewrite addBack_length; exact L). split.
  - intros r Hr. apply K3 in Hr. destruct Hr as (j & J1 & -> & J3). destruct (frSuccs_exists j n u Rn) as (q & Q0 & Rq). exists q. split; [exact Q0|]. split; [exact Rq|]. apply (sameBounds_iff P x w _ (wait u q) R Rq (LW q) B). exact J3.
  - intros q Q0 A. destruct (frSuccs_reach (Z.to_nat (vol (addBack (td u) q) - vol (td u))) n u q Rn Q0) as [j Rj]; [assert (V := vol_delay (td u) q Q0); lia|]. exists (frSuccs j n). split; [|exact Rj].
    apply K3. exists j. assert (SB : sameBounds P x (frSuccs j n) = true) by (apply (sameBounds_iff P x w _ (wait u q) R Rj (LW q) B); exact A). split; [|auto].
    destruct (Nat.lt_ge_cases j K) as [G|G]; [exact G|]. exfalso. assert (N := same_notPassed _ _ Rj (LW q) SB). assert (M := passed_mono j n u K Rn L N G). congruence.
Qed.
End Advance.
Lemma frEqb_same n n' u u' : regionalF n u -> regionalF n' u' -> frEqb n n' = true -> forall v, inElem (fel n) v <-> inElem (fel n') v.
Proof.
  intros R R' E. unfold frEqb in E. apply andb_true_iff in E. destruct E as [E _]. apply (elEqb_same _ _ E); [apply R|apply R'].
Qed.
Lemma uniq_in l r : In r (uniq l) -> In r l.
Proof.
  induction l as [|x l IH]; [auto|]. cbn [uniq]. destruct (uniq l) as [|y l'] eqn:E; [intros [<-|[]]; left; auto|]. destruct (frEqb x y).
  - intros [<-|H]; [left; auto|]. right. apply IH. right. exact H.
  - intros [<-|H]; [left; auto|]. right. apply IH. exact H.
Qed.
Lemma uniq_covers l u : regions l -> (covers (uniq l) u <-> covers l u).
Proof.
  intro RG. split; [intros (r & H & I); exists r; split; [apply uniq_in; exact H|exact I]|]. induction l as [|x l IH]; intros (r & H & I); [destruct H|].
  assert (RG' : regions l) by (intros n Hn; apply RG; right; exact Hn). cbn [uniq]. destruct H as [<-|H].
  - exists x. split; [|exact I]. destruct (uniq l); [left; auto|]. destruct (frEqb x f); left; auto.
  - destruct (IH RG' (ex_intro _ r (conj H I))) as (s & Hs & Is). assert (U := uniq_in l s). destruct (uniq l) as [|y l'] eqn:E; [destruct Hs|]. destruct (frEqb x y) eqn:F; [|exists s; split; [right; exact Hs|exact Is]].
    destruct Hs as [<-|Hs]; [|exists s; split; [right; exact Hs|exact Is]]. exists x. split; [left; auto|].
    destruct (RG x (or_introl eq_refl)) as [ux Rx]. destruct (RG' y (U (or_introl eq_refl))) as [uy Ry]. apply (frEqb_same x y ux uy Rx Ry F). exact Is.
Qed.
(** the word of the neighbours *)
Definition sameWord (w : tword) (ns : list frel) : Prop := forall n, In n ns -> ew (fel n) = tw w.
Lemma regions_len w ns : wfTW w -> sameWord w ns -> forall n u, In n ns -> regionalF n u -> length (td u) = length (td w).
Proof. intros W SW n u Hn (E & Wu & _). unfold wfTW in *. rewrite Wu, W, E, (SW n Hn). reflexivity. Qed.
Lemma advanceAll_sem f P x w : regionalF x w -> (forall k, In k P -> (k < length (td w))%nat) -> forall ns l, regions ns -> sameWord w ns -> advanceAll f P x ns = Some l ->
  regions l /\ sameWord w l /\ (forall u', covers l u' <-> agreeOn P w u' /\ exists u q, covers ns u /\ 0 <= q /\ tw u' = tw u /\ sameRegion (td (wait u q)) (td u')).
Proof.
  intros R B. assert (W : wfTW w) by apply R. induction ns as [|n ns IH]; intros l RG SW H; cbn [advanceAll] in H.
  - injection H as <-. split; [intros ? []|]. split; [intros ? []|]. intro u'. split; [intros (? & [] & _)|intros (_ & ? & ? & (? & [] & _) & _)].
  - destruct (advance f P x n) as [a|] eqn:A; [|discriminate]. destruct (advanceAll f P x ns) as [b|] eqn:C; [|discriminate]. injection H as <-.
    destruct (IH b (fun k Hk => RG k (or_intror Hk)) (fun k Hk => SW k (or_intror Hk)) eq_refl) as (I1 & I2 & I3). destruct (RG n (or_introl eq_refl)) as [u0 R0]. assert (L0 := regions_len w _ W SW n u0 (or_introl eq_refl) R0).
    destruct (advance_sem P x w R B f n u0 a R0 L0 A) as [S1 S2]. split; [|split].
    + intros r Hr. apply in_app_iff in Hr. destruct Hr as [Hr|Hr]; [|apply I1; exact Hr]. destruct (S1 r Hr) as (q & _ & Q & _). eauto.
    + intros r Hr. apply in_app_iff in Hr. destruct Hr as [Hr|Hr]; [|apply I2; exact Hr]. destruct (S1 r Hr) as (q & _ & (Q & _) & _). rewrite <- Q. cbn [wait tw]. rewrite (proj1 R0). apply SW. left; auto.
    + intro u'. split.
      * intros (r & Hr & Hu). apply in_app_iff in Hr. destruct Hr as [Hr|Hr].
        -- destruct (S1 r Hr) as (q & Q0 & Q1 & Q2). rewrite (regionalF_members r (wait u0 q) u' Q1) in Hu. destruct Hu as [U1 U2]. split.
           ++ intros k Hk. eapply sameUnit_trans; [apply Q2; exact Hk|]. apply since_same; [exact U2|]. cbn [wait td]. unfold delayed. rewrite addBack_length, L0. auto.
           ++ exists u0, q. split; [|auto]. exists n. split; [left; auto|]. apply (regionalF_members n u0 u0 R0). split; [auto|apply sameRegion_refl].
        -- assert (CV : covers b u') by (exists r; auto). apply I3 in CV. destruct CV as (C1 & u & q & (m & M1 & M2) & C3). split; [exact C1|]. exists u, q. split; [exists m; split; [right; exact M1|exact M2]|exact C3].
      * intros (C1 & u & q & (m & [<-|M1] & M2) & Q0 & E1 & E2).
        -- apply (regionalF_members n u0 u R0) in M2. destruct M2 as [M2 M3]. assert (Ru := regionalF_same n u0 u R0 M2 M3). assert (Lu := regions_len w _ W SW n u (or_introl eq_refl) Ru).
           destruct (advance_sem P x w R B f n u a Ru Lu A) as [_ S3]. destruct (S3 q Q0) as (r & Hr & Rr).
           ++ intros k Hk. eapply sameUnit_trans; [apply C1; exact Hk|]. apply sameUnit_sym. apply since_same; [exact E2|]. cbn [wait td]. unfold delayed. rewrite addBack_length, Lu. auto.
           ++ exists r. split; [apply in_app_iff; left; exact Hr|]. apply (regionalF_members r _ u' Rr). split; [exact E1|exact E2].
        -- assert (CV : covers b u'). { apply I3. split; [exact C1|]. exists u, q. split; [exists m; auto|auto]. } destruct CV as (r & V1 & V2). exists r. split; [apply in_app_iff; right; exact V1|exact V2].
Qed.
Lemma advance_more f : forall g P x n l, (f <= g)%nat -> advance f P x n = Some l -> advance g P x n = Some l.
Proof.
  induction f as [|f IH]; intros [|g] P x n l Hg H; try lia; try discriminate. cbn [advance] in *. destruct (notPassed P x n); [|exact H].
  destruct (advance f P x (frSucc n)) as [a|] eqn:A; [|discriminate]. rewrite (IH g P x _ a ltac:(lia) A). exact H.
Qed.
Lemma advanceAll_total P x w : regionalF x w -> (forall k, In k P -> (k < length (td w))%nat) -> P <> [] -> forall ns, regions ns -> sameWord w ns ->
  exists l N, forall f, (N <= f)%nat -> advanceAll f P x ns = Some l.
Proof.
  intros R B NP. assert (W : wfTW w) by apply R. induction ns as [|n ns IH]; intros RG SW.
  - exists [], 0%nat. reflexivity.
  - destruct (IH (fun k Hk => RG k (or_intror Hk)) (fun k Hk => SW k (or_intror Hk))) as (b & N & HN). destruct (RG n (or_introl eq_refl)) as [u0 R0]. assert (L0 := regions_len w _ W SW n u0 (or_introl eq_refl) R0).
    destruct (advance_end P x w R B n u0 NP R0 L0) as [K HK]. destruct (advance_total K P x n (S K) HK ltac:(lia)) as [a HA].
    exists (a ++ b), (Nat.max (S K) N). intros f Hf. cbn [advanceAll]. rewrite (advance_more (S K) f P x n a ltac:(lia) HA), HN by lia. reflexivity.
Qed.
(** the result does not depend on the fuel, and is exactly the delayed words that agree on the precise clocks *)
Lemma updateNeighbors_spec ord P x w ns : (forall l, Permutation (ord l) l) -> regionalF x w -> (forall k, In k P -> (k < length (td w))%nat) -> P <> [] -> regions ns -> sameWord w ns ->
  exists ns' N, (forall f, (N <= f)%nat -> updateNeighbors ord f P x ns = Some ns') /\ regions ns' /\ sameWord w ns' /\
    forall u', covers ns' u' <-> agreeOn P w u' /\ exists u q, covers ns u /\ 0 <= q /\ tw u' = tw u /\ sameRegion (td (wait u q)) (td u').
Proof.
  intros HO R B NP RG SW. destruct (advanceAll_total P x w R B NP ns RG SW) as (l & N & HN). destruct (advanceAll_sem N P x w R B ns l RG SW (HN N ltac:(lia))) as (A1 & A2 & A3).
  assert (RO : regions (ord l)) by (intros n Hn; apply A1; eapply Permutation_in; [apply HO|exact Hn]).
  exists (uniq (ord l)), N. split; [intros f Hf; unfold updateNeighbors; rewrite HN by lia; reflexivity|]. split; [|split].
  - intros n Hn. apply RO. apply uniq_in. exact Hn.
  - intros n Hn. apply A2. eapply Permutation_in; [apply HO|]. apply uniq_in. exact Hn.
  - intro u'. rewrite uniq_covers by exact RO. rewrite <- A3. split; intros (n & Hn & H); exists n; (split; [|exact H]); [eapply Permutation_in; [apply HO|exact Hn]|eapply Permutation_in; [apply Permutation_sym; apply HO|exact Hn]].
Qed.
(** without precise clocks the loop never ends *)
Lemma advance_diverges f : forall x n, advance f [] x n = None.
Proof. induction f as [|f IH]; intros; [reflexivity|]. cbn [advance]. unfold notPassed. cbn [forallb]. rewrite IH. reflexivity. Qed.
Lemma updateNeighbors_diverges ord f x ns : ns <> [] -> updateNeighbors ord f [] x ns = None.
Proof. intro H. destruct ns as [|n r]; [congruence|]. unfold updateNeighbors. cbn [advanceAll]. rewrite advance_diverges. reflexivity. Qed.
