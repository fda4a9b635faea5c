(** Removal of unused clocks; the composed simplifications; merging. *)
From Coq Require Import QArith ZArith Bool List Arith Lia Lqa Sorted.
From Verif Require Import BoundsModel ConstraintModel GuardSpec ZoneModel AutomatonModel AutomatonSpec.
From Verif Require Import BoundsProofs ConstraintProofs ConstraintProofs2 AutomatonProofs AutomatonProofs2 AutomatonProofs5.
Import ListNotations.
Open Scope Q_scope.

(** ** sorted vector of used clocks *)
Lemma insertSorted_in x l y : In y (insertSorted x l) <-> y = x \/ In y l.
Proof.
  induction l as [|z l IH]; cbn [insertSorted].
  - cbn. intuition.
  - destruct (Nat.ltb x z) eqn:E1; [cbn; intuition|]. destruct (Nat.eqb x z) eqn:E2.
    + apply Nat.eqb_eq in E2. subst. cbn. intuition.
    + cbn [In]. rewrite IH. intuition.
Qed.
Lemma insertSorted_sorted x l : StronglySorted lt l -> StronglySorted lt (insertSorted x l).
Proof.
  induction 1 as [|z l S IH F]; cbn [insertSorted]; [repeat constructor|].
  destruct (Nat.ltb x z) eqn:E1.
  - apply Nat.ltb_lt in E1. constructor; [constructor; auto|]. constructor; auto. eapply Forall_impl; [|exact F]. intros; lia.
  - apply Nat.ltb_ge in E1. destruct (Nat.eqb x z) eqn:E2; [constructor; auto|]. apply Nat.eqb_neq in E2. constructor; auto.
    apply Forall_forall. intros y I. apply insertSorted_in in I. destruct I as [->|I]; [lia|]. rewrite Forall_forall in F. auto.
Qed.
Lemma usedClocks_in A x : In x (usedClocks A) <-> exists t, In t (allTrans A) /\ In x (usedInT t).
Proof.
  unfold usedClocks. rewrite <- in_flat_map. induction (flat_map usedInT (allTrans A)) as [|y l IH]; cbn [fold_right]; [cbn; tauto|].
  rewrite insertSorted_in, IH. cbn. intuition.
Qed.
Lemma usedClocks_sorted A : StronglySorted lt (usedClocks A).
Proof. unfold usedClocks. induction (flat_map usedInT (allTrans A)) as [|y l IH]; cbn [fold_right]; [constructor|]. apply insertSorted_sorted, IH. Qed.
Lemma allTrans_iff A t : In t (allTrans A) <-> exists l a, edge A l a t.
Proof.
  unfold allTrans, edge. rewrite in_flat_map. split.
  - intros ([l s] & H & K). apply in_flat_map in K. destruct K as ([a ts] & K1 & K2). exists l, a, s, ts. auto.
  - intros (l & a & s & ts & H & K1 & K2). exists (l, s). split; auto. apply in_flat_map. exists (a, ts). auto.
Qed.
Lemma sorted_nodup l : StronglySorted lt l -> NoDup l.
Proof.
  induction 1 as [|x l S IH F]; constructor; auto. intro I. rewrite Forall_forall in F. specialize (F x I). lia.
Qed.

Lemma indexOf_some x l i : indexOf x l = Some i -> nth_error l i = Some x.
Proof.
  revert i. induction l as [|y l IH]; intros i H; [discriminate|]. cbn [indexOf] in H. destruct (Nat.eqb x y) eqn:E.
  - injection H as <-. apply Nat.eqb_eq in E. subst. reflexivity.
  - destruct (indexOf x l) as [j|]; [|discriminate]. cbn in H. injection H as <-. cbn. auto.
Qed.
Lemma indexOf_in x l : In x l -> exists i, indexOf x l = Some i.
Proof.
  induction l as [|y l IH]; intro H; [destruct H|]. cbn [indexOf]. destruct (Nat.eqb x y) eqn:E; [eauto|].
  destruct H as [->|H]; [rewrite Nat.eqb_refl in E; discriminate|]. destruct (IH H) as (i & ->). exists (S i). reflexivity.
Qed.
Lemma renClock_inj u x y : In x u -> In y u -> renClock u x = renClock u y -> x = y.
Proof.
  intros Hx Hy. unfold renClock. destruct (indexOf_in x u Hx) as (i & Ei), (indexOf_in y u Hy) as (j & Ej).
  rewrite Ei, Ej. intros ->. apply indexOf_some in Ei. apply indexOf_some in Ej. congruence.
Qed.
Lemma renClock_nth u x : In x u -> nth_error u (renClock u x) = Some x.
Proof. intro H. unfold renClock. destruct (indexOf_in x u H) as (i & E). rewrite E. apply indexOf_some, E. Qed.

(** ** the renamed resets do the same on the used clocks *)
Definition vrel (u : list clock) (v w : valuation) : Prop := forall x, In x u -> w (renClock u x) == v x.
Lemma renResets_apply u v w rs :
  (forall x y, In (x, RVar y) rs -> In y u) -> vrel u v w ->
  forall a b, vrel u a b ->
  vrel u (fold_left (applyReset1 v) rs a)
    (fold_left (applyReset1 w) (map (fun p => (renClock u (fst p), match snd p with RConst q => RConst q | RVar y => RVar (renClock u y) end))
           (filter (fun p => memb (fst p) u) rs)) b).
Proof.
  intros Hu Hv. induction rs as [|[x r] rs IH]; intros a b Hab; [exact Hab|]. cbn [fold_left filter fst snd].
  assert (Hu' : forall x y, In (x, RVar y) rs -> In y u) by (intros x' y' I; apply (Hu x' y'); right; auto).
  destruct (memb x u) eqn:M.
  - cbn [map fold_left fst snd]. apply IH; auto. intros z Iz. unfold applyReset1. cbn [fst snd]. apply memb_in in M.
    destruct (Nat.eqb z x) eqn:E.
    + apply Nat.eqb_eq in E. subst z. rewrite Nat.eqb_refl. destruct r as [q|y]; [reflexivity|]. apply Hv. apply (Hu x y). left; reflexivity.
    + destruct (Nat.eqb (renClock u z) (renClock u x)) eqn:E'; [|apply Hab; auto].
      apply Nat.eqb_eq in E'. apply renClock_inj in E'; auto. subst. rewrite Nat.eqb_refl in E. discriminate.
  - apply IH; auto. intros z Iz. unfold applyReset1. cbn [fst snd]. destruct (Nat.eqb z x) eqn:E; [|apply Hab; auto].
    apply Nat.eqb_eq in E. subst. apply memb_in in Iz. congruence.
Qed.
Lemma renTrans_apply u v w t : (forall x, In x (usedInT t) -> In x u) -> vrel u v w ->
  vrel u (applyReset v (trst t)) (applyReset w (trst (renTrans u t))).
Proof.
  intros Hu Hv. unfold applyReset, renTrans. cbn [trst]. apply renResets_apply; auto.
  intros x y I. apply Hu. unfold usedInT. apply in_or_app. right. apply in_flat_map. exists (x, RVar y). split; auto. left; reflexivity.
Qed.
Lemma renTrans_guard u v w t : (forall x, In x (usedInT t) -> In x u) -> vrel u v w ->
  (gsat (tgrd (renTrans u t)) w <-> gsat (tgrd t) v).
Proof.
  intros Hu Hv. unfold gsat, renTrans. cbn [tgrd]. split.
  - intros H k I. assert (Ix : In (cx k) u) by (apply Hu; unfold usedInT; apply in_or_app; left; apply in_map; auto).
    specialize (H (mkC (renClock u (cx k)) (codr k) (cc k))). cbn [cx] in H.
    assert (K := H (in_map (fun k => mkC (renClock u (cx k)) (codr k) (cc k)) _ _ I)). unfold holds in *. cbn [codr cc] in K.
    assert (E := Hv _ Ix). destruct (codr k); lra.
  - intros H k' I. apply in_map_iff in I. destruct I as (k & <- & I). cbn [cx]. specialize (H k I).
    assert (Ix : In (cx k) u) by (apply Hu; unfold usedInT; apply in_or_app; left; apply in_map; auto).
    assert (E := Hv _ Ix). unfold holds in *. cbn [codr cc]. destruct (codr k); lra.
Qed.

Section Unused.
Variable A : ta.
Let u := usedClocks A.
Let B := removeUnusedClockVariables A.
Lemma unused_used l a t : edge A l a t -> forall x, In x (usedInT t) -> In x u.
Proof. intros H x I. apply usedClocks_in. exists t. split; auto. apply allTrans_iff. eauto. Qed.
Lemma unused_states : tstates B = tstates (mapStates (fun _ s => mkS (isMatch s) (mapNext (map (renTrans u)) (snext s))) A).
Proof. reflexivity. Qed.
Lemma unused_edge l a t : edge B l a t <-> exists t0, edge A l a t0 /\ t = renTrans u t0.
Proof.
  assert (K : edge B l a t <-> edge (mapStates (fun _ s => mkS (isMatch s) (mapNext (map (renTrans u)) (snext s))) A) l a t) by reflexivity.
  rewrite K, (mapTs_edge (map (renTrans u))). split.
  - intros (s & ts & H1 & H2 & H3). apply in_map_iff in H3. destruct H3 as (t0 & <- & H3). exists t0. split; auto. exists s, ts. auto.
  - intros (t0 & (s & ts & H1 & H2 & H3) & ->). exists s, ts. split; [auto|split; [auto|]]. apply in_map; auto.
Qed.
Lemma unused_acc l : accepting B l <-> accepting A l.
Proof. apply (mapTs_acc (map (renTrans u)) A l). Qed.
Lemma vrel_delay v w d v1 : vrel u v w -> veq v1 (delay v d) -> vrel u v1 (delay w d).
Proof. intros H E x I. rewrite (E x). unfold delay. rewrite (H x I). reflexivity. Qed.
Lemma unused_lang : sameLang B A.
Proof.
  intros d0 w. split.
  - apply (sim_accepts B A (fun c c' => fst c = fst c' /\ vrel u (snd c') (snd c)) (fun _ => False)).
    + intros l v l' v' d v1 [E H] Hd Ev. cbn [fst snd] in *. subst l'. exists (delay v' d). split; [intro; reflexivity|]. split; [reflexivity|].
      intros x I. rewrite (Ev _). unfold delay. rewrite (H x I). reflexivity.
    + intros a [l v] [l1 v1] [l' v'] [E H] (t & He & G & Et & R). cbn [fst snd] in *. subst l'. left.
      apply unused_edge in He. destruct He as (t0 & He & ->). assert (Hu := unused_used l a t0 He).
      exists (ttgt t0, applyReset v' (trst t0)). split.
      * exists t0. cbn [fst snd]. split; [exact He|]. split; [apply (renTrans_guard u v' v t0); auto|]. split; [reflexivity|apply applyReset_isReset].
      * cbn [fst snd]. split; [exact Et|]. apply isReset_applyReset in R. intros x I. rewrite (R _). apply renTrans_apply; auto.
    + intros l a t [].
    + intros l [].
    + intros l I. left. exists l. split; [exact I|]. split; [reflexivity|]. intros x _. reflexivity.
    + intros c c' [E _]. rewrite E. apply unused_acc.
  - apply (sim_accepts A B (fun c c' => fst c = fst c' /\ vrel u (snd c) (snd c')) (fun _ => False)).
    + intros l v l' v' d v1 [E H] Hd Ev. cbn [fst snd] in *. subst l'. exists (delay v' d). split; [intro; reflexivity|]. split; [reflexivity|].
      eapply vrel_delay; eauto.
    + intros a [l v] [l1 v1] [l' v'] [E H] (t & He & G & Et & R). cbn [fst snd] in *. subst l'. left.
      assert (Hu := unused_used l a t He).
      exists (ttgt t, applyReset v' (trst (renTrans u t))). split.
      * exists (renTrans u t). cbn [fst snd]. split; [apply unused_edge; exists t; auto|]. split; [apply (renTrans_guard u v v' t); auto|]. split; [reflexivity|apply applyReset_isReset].
      * cbn [fst snd]. split; [exact Et|]. apply isReset_applyReset in R. intros x I. rewrite (R _). apply renTrans_apply; auto.
    + intros l a t [].
    + intros l [].
    + intros l I. left. exists l. split; [exact I|]. split; [reflexivity|]. intros x _. reflexivity.
    + intros c c' [E _]. rewrite <- E. apply unused_acc.
Qed.
Lemma unused_wf : wfTA A -> wfTA B.
Proof.
  intro W. assert (K := mapTs_wf (map (renTrans u)) A). apply K; auto. intros ts t H. apply in_map_iff in H. destruct H as (t0 & <- & H). exists t0. auto.
Qed.
(** the clocks of the result are consecutive *)
Lemma unused_clocks l a t x : edge B l a t -> (In x (map cx (tgrd t)) \/ In x (map fst (trst t)) \/ (exists y, In (y, RVar x) (trst t))) ->
  (x < length u)%nat.
Proof.
  intros He. apply unused_edge in He. destruct He as (t0 & He & ->). assert (Hu := unused_used l a t0 He).
  assert (K : forall z, In z u -> (renClock u z < length u)%nat).
  { intros z Iz. apply nth_error_Some. rewrite renClock_nth; auto. discriminate. }
  unfold renTrans. cbn [tgrd trst]. intros [H|[H|(y & H)]].
  - rewrite map_map in H. apply in_map_iff in H. destruct H as (k & <- & H). cbn [cx]. apply K, Hu. unfold usedInT. apply in_or_app. left. apply in_map; auto.
  - rewrite map_map in H. apply in_map_iff in H. destruct H as (p & <- & H). cbn [fst]. apply filter_In in H. apply K, memb_in. tauto.
  - apply in_map_iff in H. destruct H as ([z [q|z']] & E & H); [discriminate|]. cbn [fst snd] in E. injection E as _ <-.
    apply filter_In in H. apply K, Hu. unfold usedInT. apply in_or_app. right. apply in_flat_map. exists (z, RVar z'). split; [tauto|left; reflexivity].
Qed.
End Unused.

(** the maximum constants follow their clocks *)
Lemma nth_updNth i f m : forall j, nth j (updNth i f m) 0%Z = if Nat.eqb i j && Nat.ltb i (length m) then f (nth j m 0%Z) else nth j m 0%Z.
Proof.
  revert i. induction m as [|x m IH]; intros i j; destruct i; cbn [updNth]; try (rewrite andb_false_r; destruct j; reflexivity).
  - destruct j; reflexivity.
  - destruct j as [|j]; cbn [nth]; [reflexivity|]. rewrite IH. cbn [Nat.eqb length]. reflexivity.
Qed.
Lemma sorted_nth_gt l : StronglySorted lt l -> forall lo i y, Forall (lt lo) l -> nth_error l i = Some y -> (lo + i < y)%nat.
Proof.
  induction 1 as [|z l So IH F]; intros lo i y HF H; [destruct i; discriminate|].
  inversion HF; subst. destruct i as [|i]; [injection H as <-; lia|]. cbn in H.
  assert (K := IH z i y F H). lia.
Qed.
Lemma sorted_nth_ge u : StronglySorted lt u -> forall i x, nth_error u i = Some x -> (i <= x)%nat.
Proof.
  intros So i x H. destruct u as [|y l]; [destruct i; discriminate|]. inversion So; subst.
  destruct i as [|i]; [lia|]. cbn in H. assert (K := sorted_nth_gt l H2 y i x H3 H). lia.
Qed.
Lemma compact_fold u m : StronglySorted lt u -> (forall x, In x u -> (x < length m)%nat) ->
  forall n, (n <= length u)%nat ->
  let m' := fold_left (fun m i => updNth i (fun _ => nth (nth i u O) m 0%Z) m) (seq 0 n) m in
  length m' = length m /\ forall j, nth j m' 0%Z = if Nat.ltb j n then nth (nth j u O) m 0%Z else nth j m 0%Z.
Proof.
  intros Su Hm. induction n as [|n IH]; intro Hn; cbv zeta; [split; auto|].
  rewrite seq_S, fold_left_app. cbn [fold_left Nat.add]. destruct (IH ltac:(lia)) as [L N]. cbv zeta in L, N.
  set (m1 := fold_left _ (seq 0 n) m) in *.
  assert (Lu : forall i f (l : list Z), length (updNth i f l) = length l).
  { clear. intros i f l. revert i. induction l as [|x l IH]; intros [|i]; cbn; auto. }
  split; [rewrite Lu; exact L|]. intro j. rewrite nth_updNth.
  destruct (nth_error u n) as [x|] eqn:En; [|apply nth_error_None in En; lia].
  assert (Ex : nth n u O = x) by (apply nth_error_nth; auto).
  assert (Gx : (n <= x)%nat) by (apply (sorted_nth_ge u Su); auto).
  assert (Lx : (x < length m)%nat) by (apply Hm; eapply nth_error_In; eauto).
  destruct (Nat.eqb n j) eqn:E.
  - apply Nat.eqb_eq in E. subst j. assert (Nat.ltb n (length m1) = true) as -> by (apply Nat.ltb_lt; lia).
    cbn [andb]. assert (Nat.ltb n (S n) = true) as -> by (apply Nat.ltb_lt; lia). rewrite N, Ex.
    assert (Nat.ltb x n = false) as -> by (apply Nat.ltb_ge; lia). reflexivity.
  - cbn [andb]. apply Nat.eqb_neq in E. rewrite N. destruct (Nat.ltb j n) eqn:J.
    + apply Nat.ltb_lt in J. assert (Nat.ltb j (S n) = true) as -> by (apply Nat.ltb_lt; lia). reflexivity.
    + apply Nat.ltb_ge in J. assert (Nat.ltb j (S n) = false) as -> by (apply Nat.ltb_ge; lia). reflexivity.
Qed.
Lemma compactMax_spec u m : StronglySorted lt u -> (forall x, In x u -> (x < length m)%nat) -> (length u <= length m)%nat ->
  length (compactMax u m) = length u /\ forall x, In x u -> nth (renClock u x) (compactMax u m) 0%Z = nth x m 0%Z.
Proof.
  intros Su Hm Hl. unfold compactMax. destruct (compact_fold u m Su Hm (length u) (le_n _)) as [L N]. cbv zeta in L, N.
  split; [rewrite firstn_length; apply Nat.min_l; exact (eq_ind_r (fun n => (length u <= n)%nat) Hl L)|]. intros x I.
  assert (E := renClock_nth u x I). assert (B : (renClock u x < length u)%nat) by (apply nth_error_Some; intro K; pose proof (eq_trans (eq_sym E) K) as X; discriminate X).
  assert (F : forall (l : list Z) n i, (i < n)%nat -> nth i (firstn n l) 0%Z = nth i l 0%Z).
  { clear. induction l as [|a l IH]; intros n i H; [rewrite firstn_nil; auto|]. destruct n; [lia|]. destruct i; [reflexivity|]. cbn. apply IH. lia. }
  rewrite F; auto. rewrite N. assert (Nat.ltb (renClock u x) (length u) = true) as -> by (apply Nat.ltb_lt; auto).
  rewrite (nth_error_nth u (renClock u x) O E). reflexivity.
Qed.
Lemma sorted_len u m : StronglySorted lt u -> (forall x, In x u -> (x < m)%nat) -> (length u <= m)%nat.
Proof.
  intros S H. rewrite <- (seq_length m 0). apply NoDup_incl_length; [apply sorted_nodup, S|]. intros x I. apply in_seq. specialize (H x I). lia.
Qed.
Lemma unused_max A x : (forall y, In y (usedClocks A) -> (y < length (tmax A))%nat) -> In x (usedClocks A) ->
  nth (renClock (usedClocks A) x) (tmax (removeUnusedClockVariables A)) 0%Z = nth x (tmax A) 0%Z.
Proof.
  intros H I. unfold removeUnusedClockVariables. cbn [tmax]. apply compactMax_spec; auto; [apply usedClocks_sorted|].
  apply sorted_len; [apply usedClocks_sorted|auto].
Qed.

(** ** the composed simplifications *)
Lemma taSimplify_ok A : wfTA A -> sameLang (taSimplify A) A /\ wfTA (taSimplify A).
Proof.
  intro W. unfold taSimplify. assert (W1 := simplifyTransitions_wf A W). split.
  - eapply sameLang_trans; [apply unused_lang|]. eapply sameLang_trans; [apply unreach_lang; auto|apply simplifyTransitions_lang].
  - apply unused_wf, unreach_wf, W1.
Qed.
Lemma taSimplifyStrong_ok A : wfTA A -> sameLang (taSimplifyStrong A) A /\ wfTA (taSimplifyStrong A).
Proof.
  intro W. unfold taSimplifyStrong. assert (W1 := simplifyTransitions_wf A W). assert (W2 := unreach_wf _ W1).
  destruct (deadStates_ok _ W2) as (L3 & W3 & _). assert (W4 := deadLoop_wf _ W3). destruct (useless_ok _ W4) as [L5 W5]. split.
  - eapply sameLang_trans; [apply unused_lang|]. eapply sameLang_trans; [exact L5|].
    eapply sameLang_trans; [apply deadLoop_lang; auto|]. eapply sameLang_trans; [exact L3|].
    eapply sameLang_trans; [apply unreach_lang; auto|apply simplifyTransitions_lang].
  - apply unused_wf, W5.
Qed.

(** ** weaker guards *)
Lemma constraint_eqb_refl k : constraint_eqb k k = true.
Proof. unfold constraint_eqb. rewrite Nat.eqb_refl, Z.eqb_refl. destruct (codr k); reflexivity. Qed.
Lemma trans_eqb_refl t : trans_eqb t t = true.
Proof.
  unfold trans_eqb. rewrite Nat.eqb_refl. cbn [andb]. apply andb_true_iff. split.
  - unfold resets_eqb. induction (trst t) as [|[x r] l IH]; cbn; auto. rewrite Nat.eqb_refl, IH.
    assert (rhs_eqb r r = true) as ->; [|reflexivity]. destruct r; cbn; [apply Qeq_bool_iff; reflexivity|apply Nat.eqb_refl].
  - unfold guard_eqb. induction (tgrd t) as [|k l IH]; cbn; auto. rewrite constraint_eqb_refl. exact IH.
Qed.
Lemma removeWeaker_spec rest : forall kept,
  (forall u, In u (removeWeaker kept rest) -> In u kept \/ In u rest) /\
  (forall t, In t kept \/ In t rest -> exists u, In u (removeWeaker kept rest) /\ ttgt u = ttgt t /\ forall v, gsat (tgrd t) v -> gsat (tgrd u) v).
Proof.
  induction rest as [|t r IH]; intro kept; cbn [removeWeaker].
  - split; [auto|]. intros t [H|[]]. exists t. auto.
  - destruct (existsb _ (kept ++ t :: r)) eqn:E.
    + destruct (IH kept) as [H1 H2]. split.
      * intros u I. destruct (H1 u I); cbn; auto.
      * intros t0 [K|[<-|K]]; [apply H2; auto| |apply H2; auto].
        apply existsb_exists in E. destruct E as (u & I & E). rewrite !andb_true_iff in E. destruct E as [[E1 E2] E3].
        apply Nat.eqb_eq in E3.
        assert (J : In u kept \/ In u r).
        { apply in_app_or in I. destruct I as [I|[<-|I]]; auto. rewrite trans_eqb_refl in E1. discriminate. }
        destruct (H2 u J) as (u' & K1 & K2 & K3). exists u'. split; auto. split; [congruence|]. intros v G. apply K3. eapply isWeaker_sound; eauto.
    + destruct (IH (kept ++ [t])) as [H1 H2]. split.
      * intros u I. destruct (H1 u I) as [K|K]; [|cbn; auto]. apply in_app_or in K. destruct K as [K|[<-|[]]]; cbn; auto.
      * intros t0 K. apply H2. rewrite in_app_iff. cbn. cbn in K. tauto.
Qed.
Definition pruneWeaker (A : ta) : ta := mapStates (fun _ s => removeTransitionsWithWeakerGuards s) A.
Lemma pruneWeaker_lang A :
  (forall l a t u, edge A l a t -> edge A l a u -> ttgt t = ttgt u -> forall v v', isReset (trst t) v v' -> isReset (trst u) v v') ->
  sameLang (pruneWeaker A) A.
Proof.
  intros Hr d0 w.
  assert (K : forall l a t, edge (pruneWeaker A) l a t <-> exists s ts, In (l, s) (tstates A) /\ In (a, ts) (snext s) /\ In t (removeWeaker [] ts)).
  { intros l a t. apply (mapTs_edge (removeWeaker [])). }
  assert (Ac : forall l, accepting (pruneWeaker A) l <-> accepting A l) by (intro l; apply (mapTs_acc (removeWeaker []))).
  split.
  - apply (sim_id _ _ (fun _ => True) (fun _ => False)); [|intros l a t []|intros l []|intros l H; left; split; [exact H|exact I]|intros l _; apply Ac].
    intros l a t _ H. left. apply K in H. destruct H as (s & ts & H1 & H2 & H3). exists t.
    split; [exists s, ts; split; [auto|split; [auto|]]|auto]. destruct (proj1 (removeWeaker_spec ts []) t H3) as [[]|J]. exact J.
  - apply (sim_id _ _ (fun _ => True) (fun _ => False)); [|intros l a t []|intros l []|intros l H; left; split; [exact H|exact I]|intros l _; apply Ac].
    intros l a t _ (s & ts & H1 & H2 & H3). left. destruct (proj2 (removeWeaker_spec ts []) t (or_intror H3)) as (u & I & E & G).
    exists u. split; [apply K; exists s, ts; auto|]. split; [exact E|]. split; [|split; [exact G|exact Logic.I]].
    apply (Hr l a t u); auto; [exists s, ts; auto|]. exists s, ts. split; [auto|split; [auto|]].
    destruct (proj1 (removeWeaker_spec ts []) u I) as [[]|J]. exact J.
Qed.

(** ** merging adjacent transitions *)
Definition tcover (u t : trans) : Prop := ttgt u = ttgt t /\ (forall v v', isReset (trst t) v v' -> isReset (trst u) v v') /\ forall v, gsat (tgrd t) v -> gsat (tgrd u) v.
Lemma tcover_refl t : tcover t t.
Proof. split; [|split]; auto. Qed.
Lemma tcover_trans a b c : tcover a b -> tcover b c -> tcover a c.
Proof. intros (A1 & A2 & A3) (B1 & B2 & B3). split; [congruence|]. split; auto. Qed.
Lemma resets_eqb_sym a b : resets_eqb a b = true -> resets_eqb b a = true.
Proof.
  unfold resets_eqb. revert b. induction a as [|[x r] a IH]; intros [|[y q] b]; cbn; auto. rewrite !andb_true_iff. intros [[H1 H2] H3].
  split; [split|auto]; [apply Nat.eqb_eq in H1; apply Nat.eqb_eq; auto|]. destruct r, q; cbn in *; try discriminate.
  - apply Qeq_bool_iff. apply Qeq_bool_iff in H2. symmetry; auto.
  - apply Nat.eqb_eq in H2. apply Nat.eqb_eq. auto.
Qed.
Lemma mergeT_cover it t : mergeable it t = true -> tcover (mergeT it t) it /\ tcover (mergeT it t) t.
Proof.
  unfold mergeable, mergeT. rewrite !andb_true_iff. intros [[H1 H2] H3]. apply Nat.eqb_eq in H1.
  split; (split; [cbn [ttgt]; auto|]; split; cbn [trst tgrd]).
  - intros v v'. apply resets_eqb_equiv; auto.
  - intros v. unfold unionHull2. apply unionHull_sound. right; left; reflexivity.
  - auto.
  - intros v. unfold unionHull2. apply unionHull_sound. left; reflexivity.
Qed.
Lemma absorb_cover rest : forall it it' r', absorb it rest = (it', r') ->
  tcover it' it /\ (length r' <= length rest)%nat /\ (forall t, In t rest -> tcover it' t \/ In t r') /\ (forall t, In t r' -> In t rest).
Proof.
  induction rest as [|t rest IH]; intros it it' r' H; cbn [absorb] in H.
  - injection H as <- <-. split; [apply tcover_refl|]. split; [auto|]. split; [intros t []|auto].
  - destruct (mergeable it t) eqn:M.
    + destruct (mergeT_cover it t M) as [C1 C2]. destruct (IH _ _ _ H) as (H1 & H2 & H3 & H4).
      split; [eapply tcover_trans; eauto|]. split; [cbn; lia|]. split; [|intros x I; right; auto].
      intros x [<-|I]; auto. left. eapply tcover_trans; eauto.
    + destruct (absorb it rest) as [it1 r1] eqn:E. injection H as <- <-. destruct (IH _ _ _ E) as (H1 & H2 & H3 & H4).
      split; [auto|]. split; [cbn; lia|]. split.
      * intros x [<-|I]; [right; left; reflexivity|]. destruct (H3 x I); [auto|right; right; auto].
      * intros x [<-|I]; [left; reflexivity|right; auto].
Qed.
Lemma mergeAdj_cover fuel : forall ts t, (length ts <= fuel)%nat -> In t ts -> exists u, In u (mergeAdj fuel ts) /\ tcover u t.
Proof.
  induction fuel as [|fuel IH]; intros ts t Hl I.
  - destruct ts; [destruct I|cbn in Hl; lia].
  - destruct ts as [|t0 ts]; [destruct I|]. cbn [mergeAdj]. destruct (absorb t0 ts) as [t' r'] eqn:E.
    destruct (absorb_cover ts _ _ _ E) as (H1 & H2 & H3 & H4). cbn in Hl. destruct I as [<-|I].
    + exists t'. split; [left; reflexivity|auto].
    + destruct (H3 t I) as [K|K]; [exists t'; split; [left; reflexivity|auto]|].
      destruct (IH r' t) as (u & J1 & J2); auto; [lia|]. exists u. split; [right; auto|auto].
Qed.
Lemma mergeAdjacent_superset A d0 w : accepts A d0 w -> accepts (mergeAdjacentTransitions A) d0 w.
Proof.
  set (f := fun ts => mergeAdj (length ts) ts).
  apply (sim_id A (mergeAdjacentTransitions A) (fun _ => True) (fun _ => False));
    [|intros l a t []|intros l []|intros l H; left; split; [exact H|exact I]|intros l _; apply (mapTs_acc f)].
  intros l a t _ (s & ts & H1 & H2 & H3). left.
  destruct (mergeAdj_cover (length ts) ts t (le_n _) H3) as (u & J & C1 & C2 & C3). exists u.
  split; [apply (mapTs_edge f); exists s, ts; auto|]. auto.
Qed.

(** if each merge of transitions satisfying an invariant is exact, the language is the same *)
Section MergeExact.
Variable good : guard -> Prop.
Hypothesis good_exact : forall l r v, good l -> good r -> adjacent l r = true -> nonneg v -> gsat (unionHull2 r l) v -> gsat l v \/ gsat r v.
Hypothesis good_hull : forall l r, good l -> good r -> adjacent l r = true -> good (unionHull2 r l).

(** [u] is covered by the transitions [ts] *)
Definition splitT (u : trans) (ts : list trans) : Prop := good (tgrd u) /\
  forall v, nonneg v -> gsat (tgrd u) v -> exists t, In t ts /\ ttgt t = ttgt u /\ (forall v', isReset (trst u) v v' -> isReset (trst t) v v') /\ gsat (tgrd t) v.
Lemma absorb_split ts rest : forall it it' r', absorb it rest = (it', r') -> splitT it ts -> (forall t, In t rest -> splitT t ts) ->
  splitT it' ts /\ (forall t, In t r' -> splitT t ts).
Proof.
  induction rest as [|t rest IH]; intros it it' r' H Hi Hr; cbn [absorb] in H.
  - injection H as <- <-. auto.
  - destruct (mergeable it t) eqn:M.
    + apply (IH _ _ _ H); [|intros x I; apply Hr; right; auto].
      unfold mergeable in M. rewrite !andb_true_iff in M. destruct M as [[M1 M2] M3]. apply Nat.eqb_eq in M1.
      destruct Hi as [G1 S1]. destruct (Hr t (or_introl eq_refl)) as [G2 S2]. split; [apply good_hull; auto|].
      unfold mergeT. cbn [ttgt trst tgrd]. intros v Nn G. destruct (good_exact _ _ v G1 G2 M2 Nn G) as [K|K].
      * destruct (S1 v Nn K) as (x & X1 & X2 & X3 & X4). exists x. split; auto. split; [congruence|]. split; auto.
        intros v' R. apply X3. apply (resets_eqb_equiv (trst t)); auto. apply resets_eqb_sym; auto.
      * apply (S2 v Nn K).
    + destruct (absorb it rest) as [it1 r1] eqn:E. injection H as <- <-.
      destruct (IH _ _ _ E Hi) as [K1 K2]; [intros x I; apply Hr; right; auto|]. split; auto.
      intros x [<-|I]; [apply Hr; left; reflexivity|auto].
Qed.
Lemma mergeAdj_split ts0 fuel : forall ts, (forall t, In t ts -> splitT t ts0) -> forall u, In u (mergeAdj fuel ts) -> splitT u ts0.
Proof.
  induction fuel as [|fuel IH]; intros ts H u I; cbn [mergeAdj] in I; [auto|]. destruct ts as [|t ts]; [destruct I|].
  destruct (absorb t ts) as [t' r'] eqn:E. destruct (absorb_split ts0 ts _ _ _ E) as [K1 K2]; [apply H; left; reflexivity|intros x J; apply H; right; auto|].
  destruct I as [<-|I]; [auto|]. apply (IH r'); auto.
Qed.
Lemma mergeAdjacent_same A : nonnegResets A -> (forall l a t, edge A l a t -> good (tgrd t)) -> sameLang (mergeAdjacentTransitions A) A.
Proof.
  intros NR Hg d0 w. split; [|apply mergeAdjacent_superset].
  set (f := fun ts => mergeAdj (length ts) ts).
  apply (sim_accepts (mergeAdjacentTransitions A) A (fun c c' => c = c' /\ nonneg (snd c)) (fun _ => False)).
  - intros l v l' v' d v1 [E Nn] Hd Ev. injection E as <- <-. exists v1. split; auto. split; auto. intro x. cbn [snd] in *. rewrite (Ev x). unfold delay. specialize (Nn x). lra.
  - intros a [l v] [l1 v1] c1' [<- Nn] (t & He & G & Et & R). cbn [fst snd] in *. left.
    apply (mapTs_edge f) in He. destruct He as (s & ts & H1 & H2 & H3).
    assert (Sp : splitT t ts).
    { apply (mergeAdj_split ts (length ts) ts); auto. intros x I. split; [apply (Hg l a); exists s, ts; auto|]. intros v0 _ G0. exists x. auto. }
    destruct Sp as [_ Sp]. destruct (Sp v Nn G) as (x & X1 & X2 & X3 & X4). exists (l1, v1).
    assert (Ex : edge A l a x) by (exists s, ts; auto).
    split; [exists x; cbn [fst snd]; split; [auto|]; split; [auto|]; split; [congruence|auto]|]. split; auto. cbn [snd].
    apply X3 in R. apply isReset_applyReset in R. intro z. rewrite (R z). apply applyReset_nonneg; auto. intros y q I. apply (NR l a x y q Ex I).
  - intros l a t [].
  - intros l [].
  - intros l I. left. exists l. split; [exact I|]. split; [reflexivity|]. intro x. apply Qle_refl.
  - intros c c' [<- _]. apply (mapTs_acc f).
Qed.
End MergeExact.
