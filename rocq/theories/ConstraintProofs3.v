From Coq Require Import QArith ZArith Bool List Lia Lqa Sorted.
From Verif Require Import BoundsModel BoundsProofs ConstraintModel GuardSpec ConstraintProofs ConstraintProofs2.
Import ListNotations.
Open Scope Q_scope.

Lemma clockSat_upLo g x d : clockSat g x d <-> upSat g x d /\ loSat g x d.
Proof.
  unfold clockSat, upSat, loSat. split.
  - intro H; split; intros; auto.
  - intros [H1 H2] k Hk Hx. destruct (isUpper k) eqn:E; auto.
Qed.

Lemma clockSat_row g x d : smallConsts g -> 0 <= d ->
  (clockSat g x d <-> rowOk (nth x (toBounds g) defB) d).
Proof.
  intros Hs Hd. rewrite clockSat_upLo. destruct (toBounds_sep g x d Hs Hd) as [A B].
  unfold rowOk. rewrite A, B. tauto.
Qed.

Lemma injZ_le a b : (a <= b)%Z -> inject_Z a <= inject_Z b.
Proof. rewrite <- Zle_Qle. auto. Qed.
Lemma injZ_lt a b : (a < b)%Z -> inject_Z a < inject_Z b.
Proof. rewrite <- Zlt_Qlt. auto. Qed.
Lemma injZ_succ a : inject_Z (a + 1) == inject_Z a + 1.
Proof. rewrite inject_Z_plus. reflexivity. Qed.
Lemma injZ_le1 a b : (a < b)%Z -> inject_Z a + 1 <= inject_Z b.
Proof. intro H. rewrite <- injZ_succ. apply injZ_le. lia. Qed.

Lemma simpleVariables_exact g x :
  (forall k, In k g -> (cc k < INT_MAX - 1)%Z) ->
  (In x (simpleVariables g) <->
   exists c : Z, (0 <= c)%Z /\
     ((forall d, 0 <= d -> (clockSat g x d <-> d == inject_Z c)) \/
      (forall d, 0 <= d -> (clockSat g x d <-> inject_Z c < d /\ d < inject_Z c + 1)))).
Proof.
  intro Hs'. assert (Hs : smallConsts g) by (intros k Hk; specialize (Hs' k Hk); lia).
  assert (W := toBounds_wf g Hs x).
  assert (C := fun d H => clockSat_row g x d Hs H).
  unfold simpleVariables. rewrite filter_In, in_seq.
  destruct (nth x (toBounds g) defB) as [u l] eqn:E.
  destruct W as [W1 [W2 W3]]. cbn [fst snd] in *.
  split.
  - intros [_ H]. unfold ib_isSimple in H. apply orb_true_iff in H.
    exists (fst l). split; [auto|].
    destruct H as [H|H]; rewrite !andb_true_iff in H; destruct H as [[H1 H2] H3]; apply Z.eqb_eq in H1.
    + left. intros d Hd. rewrite (C d Hd). unfold rowOk, upOk, loOk; cbn [fst snd].
      rewrite H2, H3, <- H1. split.
      * intros [[X|X] Y]; [subst u; discriminate|lra].
      * intro X. split; [right|]; lra.
    + right. rewrite negb_true_iff in H2, H3. intros d Hd. rewrite (C d Hd).
      unfold rowOk, upOk, loOk; cbn [fst snd]. rewrite H2, H3, <- H1.
      assert (Nm : u <> maxUB).
      { intro; subst u. cbn in H1.
        assert (Hd0 : 0 <= inject_Z (INT_MAX - 1)) by (apply (injZ_le 0); unfold INT_MAX; lia).
        destruct (toBounds_sep g x (inject_Z (INT_MAX - 1)) Hs Hd0) as [_ B].
        rewrite E in B. cbn [snd] in B. unfold loOk in B. rewrite H3 in B.
        replace (fst l) with (INT_MAX - 1)%Z in B by lia.
        assert (X : inject_Z (INT_MAX - 1) < inject_Z (INT_MAX - 1)); [apply B|lra].
        intros k Hk _ Hu. specialize (Hs' k Hk).
        assert (Y := injZ_lt _ _ Hs'). unfold holds, isUpper in *. destruct (codr k); try discriminate; lra. }
      rewrite injZ_succ. split.
      * intros [[X|X] Y]; [contradiction|auto].
      * intros [X Y]. split; [right; lra|lra].
  - intros [c [Hc H]].
    assert (Hc0 : 0 <= inject_Z c) by (apply (injZ_le 0); auto).
    destruct H as [H|H].
    + assert (H0 : rowOk (u, l) (inject_Z c)) by (apply C; auto; apply H; auto; lra).
      assert (U1 : ~ rowOk (u, l) (inject_Z c + (1#2))).
      { intro X. apply C in X; [|lra]. apply H in X; lra. }
      unfold rowOk, upOk, loOk in *; cbn [fst snd] in *. destruct H0 as [Hu Hl].
      assert (Hl2 : loOk l (inject_Z c + (1#2))) by (unfold loOk; destruct (snd l); lra).
      assert (Um : u <> maxUB) by (intro Y; apply U1; split; [left; auto|exact Hl2]).
      destruct Hu as [Hu|Hu]; [contradiction|].
      assert (Eu : fst u = c).
      { destruct (Z.lt_trichotomy (fst u) c) as [L|[L|L]]; [|auto|].
        - apply injZ_lt in L. destruct (snd u); lra.
        - exfalso. apply U1. split; [|exact Hl2]. right. apply injZ_le1 in L. destruct (snd u); lra. }
      assert (Su : snd u = true) by (destruct (snd u); [auto|rewrite Eu in Hu; lra]).
      assert (El : fst l = c /\ snd l = true).
      { destruct (Z.lt_trichotomy (fst l) c) as [L|[L|L]].
        - exfalso. assert (L' := injZ_le1 _ _ L). assert (W1' := injZ_le _ _ W1). change (inject_Z 0) with 0 in W1'.
          assert (X : rowOk (u, l) (inject_Z c - (1#2))).
          { unfold rowOk, upOk, loOk; cbn [fst snd]. rewrite Su, Eu. split; [right; lra|destruct (snd l); lra]. }
          apply C in X; [|lra]. apply H in X; lra.
        - split; [auto|]. destruct (snd l); [auto|]. rewrite L in Hl. lra.
        - apply injZ_lt in L. destruct (snd l); lra. }
      destruct El as [El Sl]. split.
      * destruct (Nat.lt_ge_cases x (length (toBounds g))) as [L|L]; [lia|].
        rewrite nth_overflow in E by auto. inversion E; subst u. cbn in Su. discriminate.
      * unfold ib_isSimple. rewrite Eu, El, Su, Sl, Z.eqb_refl. reflexivity.
    + assert (H0 : rowOk (u, l) (inject_Z c + (1#2))) by (apply C; [lra|]; apply H; lra).
      assert (U1 : ~ rowOk (u, l) (inject_Z c + 1)).
      { intro X. apply C in X; [|lra]. apply H in X; lra. }
      assert (U2 : ~ rowOk (u, l) (inject_Z c)).
      { intro X. apply C in X; [|lra]. apply H in X; lra. }
      unfold rowOk, upOk, loOk in H0, U1, U2; cbn [fst snd] in *. destruct H0 as [Hu Hl].
      assert (Hl2 : loOk l (inject_Z c + 1)) by (unfold loOk; destruct (snd l); lra).
      assert (Um : u <> maxUB) by (intro Y; apply U1; split; [left; auto|exact Hl2]).
      destruct Hu as [Hu|Hu]; [contradiction|].
      assert (Eu : fst u = (c + 1)%Z).
      { destruct (Z.lt_trichotomy (fst u) (c + 1)) as [L|[L|L]]; [|auto|].
        - assert (L' : (fst u <= c)%Z) by lia. apply injZ_le in L'. destruct (snd u); lra.
        - exfalso. apply U1. split; [|exact Hl2]. right. apply injZ_lt in L. rewrite injZ_succ in L. destruct (snd u); lra. }
      assert (Su : snd u = false).
      { destruct (snd u) eqn:Su; [|auto]. exfalso. apply U1. split; [|exact Hl2]. right. rewrite Eu, injZ_succ. lra. }
      assert (Hu2 : upOk u (inject_Z c)).
      { right. rewrite Su, Eu, injZ_succ. lra. }
      assert (El : fst l = c /\ snd l = false).
      { destruct (Z.lt_trichotomy (fst l) c) as [L|[L|L]].
        - exfalso. apply U2. split; [exact Hu2|]. apply injZ_lt in L. destruct (snd l); lra.
        - split; [auto|]. destruct (snd l); [|auto]. exfalso. apply U2. split; [exact Hu2|]. rewrite L. lra.
        - apply injZ_le1 in L. destruct (snd l); lra. }
      destruct El as [El Sl]. split.
      * destruct (Nat.lt_ge_cases x (length (toBounds g))) as [L|L]; [lia|].
        rewrite nth_overflow in E by auto. inversion E; subst u. contradiction.
      * unfold ib_isSimple. rewrite Eu, El, Su, Sl, Z.eqb_refl. apply orb_true_r.
Qed.

Lemma seq_sorted n : forall s, StronglySorted lt (seq s n).
Proof.
  induction n as [|n IH]; intro s; cbn; constructor; auto.
  apply Forall_forall. intros x Hx. apply in_seq in Hx. lia.
Qed.

Lemma filter_sorted {A} (R : A -> A -> Prop) p l : StronglySorted R l -> StronglySorted R (filter p l).
Proof.
  induction 1 as [|a l H IH F]; cbn; [constructor|]. destruct (p a); [|auto]. constructor; [auto|].
  apply Forall_forall. intros x Hx. apply filter_In in Hx. rewrite Forall_forall in F. apply F; tauto.
Qed.

Lemma simpleVariables_sorted g : StronglySorted lt (simpleVariables g).
Proof. apply filter_sorted, seq_sorted. Qed.

(** ** isWeaker is complete on satisfiable right-hand sides *)
Lemma blt_int_true a b : ib_ltb a b = true -> snd a = true -> (fst a < fst b)%Z.
Proof. intros H S. apply ib_ltb_spec in H. destruct H as [H|[_ [H _]]]; [auto|congruence]. Qed.

Lemma isWeaker_complete l r :
  (exists v, nonneg v /\ gsat r v) ->
  (forall k, In k l -> nonTrivial k) ->
  (forall v, nonneg v -> gsat r v -> gsat l v) ->
  isWeaker l r = true.
Proof.
  intros [v [Hv Hr]] Hnt Himp. unfold isWeaker. apply forallb_forall. intros k Hk.
  destruct (existsb (fun r0 => isWeaker1 k r0) r) eqn:E; [reflexivity|]. exfalso.
  assert (Hno : forall k', In k' r -> keyOf k' = keyOf k -> ib_ltb (toDBMBoundZ k) (toDBMBoundZ k') = true).
  { intros k' Hk' Ek. rewrite ib_ltb_blt. unfold blt. apply negb_true_iff.
    destruct (ble (toF (toDBMBoundZ k')) (toF (toDBMBoundZ k))) eqn:B; [|auto].
    assert (existsb (fun r0 => isWeaker1 k r0) r = true); [|congruence].
    apply existsb_exists. exists k'. split; [auto|]. unfold isWeaker1, keyOf in *. injection Ek as E1 E2.
    rewrite E1, E2, Nat.eqb_refl, eqb_reflx, !toDBM_toF. exact B. }
  (* a value d for clock (cx k) violating k, compatible with r's bounds on the same side *)
  assert (Hd : exists d, 0 <= d /\ ~ holds k d /\
                 (forall k', In k' r -> keyOf k' = keyOf k -> holds k' d)).
  { destruct k as [x o c]. destruct o.
    - (* x < c *) destruct (Z.le_gt_cases 0 c) as [L|L].
      + exists (inject_Z c). split; [apply (injZ_le 0); auto|]. split; [unfold holds; cbn; lra|].
        intros k' H' Ek. specialize (Hno k' H' Ek). apply holds_key. rewrite Ek. cbn [keyOf snd isUpper codr side].
        destruct (toDBMBoundZ k') as [c' s']. apply ib_ltb_spec in Hno. cbn in Hno. unfold toF, bsat; cbn [fst snd].
        destruct Hno as [Hn|[Hn [_ Hn2]]]; [apply injZ_lt in Hn; destruct s'; lra|subst; lra].
      + exfalso. specialize (Himp v Hv Hr _ Hk). unfold holds in Himp; cbn in Himp. specialize (Hv x).
        apply injZ_lt in L. change (inject_Z 0) with 0 in L. lra.
    - (* x <= c *) destruct (Z.le_gt_cases 0 c) as [L|L].
      + exists (inject_Z c + (1#2)). apply injZ_le in L. change (inject_Z 0) with 0 in L.
        split; [lra|]. split; [unfold holds; cbn; lra|].
        intros k' H' Ek. specialize (Hno k' H' Ek). apply holds_key. rewrite Ek. cbn [keyOf snd isUpper codr side].
        destruct (toDBMBoundZ k') as [c' s']. apply blt_int_true in Hno; [|reflexivity]. cbn in Hno.
        apply injZ_le1 in Hno. unfold toF, bsat; cbn [fst snd]. destruct s'; lra.
      + exfalso. specialize (Himp v Hv Hr _ Hk). unfold holds in Himp; cbn in Himp. specialize (Hv x).
        apply injZ_lt in L. change (inject_Z 0) with 0 in L. lra.
    - (* x >= c *)
      assert (Hc : (1 <= c)%Z).
      { destruct (Hnt _ Hk) as [d [D1 D2]]. unfold holds in D2; cbn in D2. destruct (Z.le_gt_cases 1 c); [auto|].
        assert (L : (c <= 0)%Z) by lia. apply injZ_le in L. change (inject_Z 0) with 0 in L. lra. }
      exists (inject_Z c - (1#2)). apply injZ_le in Hc. change (inject_Z 1) with 1 in Hc.
      split; [lra|]. split; [unfold holds; cbn; lra|].
      intros k' H' Ek. specialize (Hno k' H' Ek). apply holds_key. rewrite Ek. cbn [keyOf snd isUpper codr side].
      destruct (toDBMBoundZ k') as [c' s']. apply blt_int_true in Hno; [|reflexivity]. cbn in Hno.
      apply injZ_le1 in Hno. rewrite inject_Z_opp in Hno. unfold toF, bsat; cbn [fst snd]. destruct s'; lra.
    - (* x > c *)
      assert (Hc : (0 <= c)%Z).
      { destruct (Hnt _ Hk) as [d [D1 D2]]. unfold holds in D2; cbn in D2. destruct (Z.le_gt_cases 0 c); [auto|].
        apply injZ_lt in H. change (inject_Z 0) with 0 in H. lra. }
      exists (inject_Z c). split; [apply (injZ_le 0); auto|]. split; [unfold holds; cbn; lra|].
      intros k' H' Ek. specialize (Hno k' H' Ek). apply holds_key. rewrite Ek. cbn [keyOf snd isUpper codr side].
      destruct (toDBMBoundZ k') as [c' s']. apply ib_ltb_spec in Hno. cbn in Hno. unfold toF, bsat; cbn [fst snd].
      destruct Hno as [Hn|[Hn [_ Hn2]]];
        [apply injZ_lt in Hn; rewrite inject_Z_opp in Hn; destruct s'; lra|subst; rewrite inject_Z_opp; lra]. }
  destruct Hd as [d [Hd0 [Hd1 Hd2]]].
  set (x := cx k) in *.
  assert (Hvx := Himp v Hv Hr k Hk). fold x in Hvx.
  assert (G : gsat r (upd v x d)).
  { intros k' H'. unfold upd. destruct (Nat.eqb_spec (cx k') x) as [E1|E1]; [|apply Hr; auto].
    destruct (bool_dec (isUpper k') (isUpper k)) as [E2|E2].
    - apply Hd2; auto. unfold keyOf. rewrite E1, E2. reflexivity.
    - specialize (Hr k' H'). rewrite E1 in Hr. unfold holds, isUpper in *.
      destruct (codr k), (codr k'); try (exfalso; apply E2; reflexivity); lra. }
  assert (N : nonneg (upd v x d)) by (intro y; unfold upd; destruct (Nat.eqb y x); auto).
  specialize (Himp _ N G k Hk). unfold upd in Himp. fold x in Himp. rewrite Nat.eqb_refl in Himp. auto.
Qed.

(** ** lowerBoundDurationToSatisfy *)
Definition durOk (b : Q * bool) (d : Q) : Prop := if snd b then - fst b <= d else - fst b < d.

Lemma lowerDur1_some k v b :
  lowerDur1 k v = Some b ->
  fst b <= 0 /\ (isUpper k = true -> v (cx k) <= inject_Z (cc k)) /\
  forall d, 0 <= d -> (durOk b d <-> (isUpper k = false -> holds k (v (cx k) + d))).
Proof.
  unfold lowerDur1, durOk, isUpper, holds. destruct (codr k).
  - destruct (Qle_bool _ _) eqn:E; [|discriminate]. intros [= <-]. apply Qle_bool_iff in E. cbn.
    split; [lra|]. split; [auto|]. intros d Hd. split; [intros _ X; discriminate|lra].
  - destruct (Qle_bool _ _) eqn:E; [|discriminate]. intros [= <-]. apply Qle_bool_iff in E. cbn.
    split; [lra|]. split; [auto|]. intros d Hd. split; [intros _ X; discriminate|lra].
  - destruct (Qltb _ _) eqn:E; intros [= <-]; qcases; cbn; (split; [lra|]); (split; [discriminate|]);
      intros d Hd; (split; [intros X _; lra|intro X; specialize (X eq_refl); lra]).
  - destruct (Qltb _ _) eqn:E; intros [= <-]; qcases; cbn; (split; [lra|]); (split; [discriminate|]);
      intros d Hd; (split; [intros X _; lra|intro X; specialize (X eq_refl); lra]).
Qed.

Lemma lowerDur1_none k v :
  lowerDur1 k v = None -> isUpper k = true /\ inject_Z (cc k) < v (cx k).
Proof.
  unfold lowerDur1, isUpper. destruct (codr k); try (destruct (Qltb _ _); discriminate);
    destruct (Qle_bool _ _) eqn:E; try discriminate; intros _; (split; [reflexivity|]);
    apply Qnot_le_lt; intro X; apply Qle_bool_iff in X; congruence.
Qed.

Lemma qb_min_ok p q d : durOk (if qb_ltb q p then q else p) d <-> durOk p d /\ durOk q d.
Proof.
  unfold qb_ltb, durOk. destruct p as [p ps], q as [q qs]; cbn [fst snd].
  destruct (Qltb q p) eqn:E1; destruct (Qeq_bool q p) eqn:E2;
    destruct ps, qs; cbn; qcases; try lra;
    (destruct (Qlt_le_dec p q); [lra|]; exfalso; apply E2; lra).
Qed.

Lemma lowerDur_fold l : forall a,
  match fold_left dur_min l a with
  | Some b => exists a', a = Some a' /\ Forall (fun x => x <> None) l
      /\ (fst a' <= 0 -> Forall (fun x => forall y, x = Some y -> fst y <= 0) l -> fst b <= 0)
      /\ forall d, durOk b d <-> durOk a' d /\ forall x, In (Some x) l -> durOk x d
  | None => a = None \/ In None l
  end.
Proof.
  induction l as [|x l IH]; intro a; cbn [fold_left].
  - destruct a as [a'|]; [|auto]. exists a'. repeat split; auto; try tauto; try (intros; contradiction).
  - specialize (IH (dur_min a x)). destruct (fold_left dur_min l (dur_min a x)) as [b|].
    + destruct IH as [a' [E [F [Hn H]]]]. unfold dur_min in E. destruct a as [p|]; [|discriminate].
      destruct x as [q|]; [|discriminate].
      assert (E' : (if qb_ltb q p then q else p) = a') by (destruct (qb_ltb q p); congruence).
      exists p. split; [reflexivity|]. split; [constructor; [discriminate|auto]|]. split.
      * intros Hp Hl. inversion Hl; subst. apply Hn; [|auto]. destruct (qb_ltb q p); auto.
      * intro d. rewrite H, <- E', qb_min_ok. split.
        -- intros [[A B] C]. split; [auto|]. intros y [[= <-]|Hy]; auto.
        -- intros [A B]. split; [split; [auto|apply B; left; reflexivity]|]. intros y Hy. apply B. right; auto.
    + destruct IH as [IH|IH]; [|right; right; auto].
      unfold dur_min in IH. destruct a as [p|]; [|auto]. destruct x as [q|]; [|right; left; auto].
      destruct (qb_ltb q p); discriminate.
Qed.

Lemma lowerDur_some g v b :
  lowerDur g v = Some (Some b) ->
  fst b <= 0 /\
  (forall k, In k g -> isUpper k = true -> v (cx k) <= inject_Z (cc k)) /\
  forall d, 0 <= d -> (durOk b d <-> lowerSat g (delay v d)).
Proof.
  unfold lowerDur. destruct g as [|k g]; cbn [map]; [discriminate|]. intros [= H].
  assert (F := lowerDur_fold (map (fun k => lowerDur1 k v) g) (lowerDur1 k v)). rewrite H in F.
  destruct F as [a' [E [F [Hn Hd]]]].
  destruct (lowerDur1_some k v a' E) as [K1 [K2 K3]].
  assert (Hall : forall k', In k' g -> exists b', lowerDur1 k' v = Some b').
  { intros k' Hk'. rewrite Forall_forall in F. specialize (F (lowerDur1 k' v) (in_map (fun k => lowerDur1 k v) _ _ Hk')).
    destruct (lowerDur1 k' v); eauto. congruence. }
  split; [|split].
  - apply Hn; [auto|]. apply Forall_forall. intros x Hx y ->. apply in_map_iff in Hx. destruct Hx as [k' [E' _]].
    apply lowerDur1_some in E'. tauto.
  - intros k' [<-|Hk'] Hu; [auto|]. destruct (Hall k' Hk') as [b' E']. apply lowerDur1_some in E'. tauto.
  - intros d Hd0. rewrite Hd, K3 by auto. unfold lowerSat, delay. split.
    + intros [A B] k' [<-|Hk'] Hu; [auto|]. destruct (Hall k' Hk') as [b' E'].
      assert (X : durOk b' d) by (apply B; rewrite <- E'; apply (in_map (fun k => lowerDur1 k v)); auto).
      apply lowerDur1_some in E'. destruct E' as [_ [_ E']]. apply E' in X; auto.
    + intro A. split; [intro Hu; apply (A k); [left; reflexivity|auto]|].
      intros x Hx. apply in_map_iff in Hx. destruct Hx as [k' [E' Hk']].
      apply lowerDur1_some in E'. destruct E' as [_ [_ E']]. apply E'; auto. intro Hu. apply (A k'); [right; auto|auto].
Qed.

Lemma lowerDur_none g v :
  lowerDur g v = Some None -> forall d, 0 <= d -> ~ gsat g (delay v d).
Proof.
  unfold lowerDur. destruct g as [|k g]; cbn [map]; [discriminate|]. intros [= H] d Hd Hs.
  assert (F := lowerDur_fold (map (fun k => lowerDur1 k v) g) (lowerDur1 k v)). rewrite H in F.
  assert (X : exists k', In k' (k :: g) /\ lowerDur1 k' v = None).
  { destruct F as [F|F]; [exists k; cbn; auto|]. apply in_map_iff in F. destruct F as [k' [E Hk']]. exists k'; cbn; auto. }
  destruct X as [k' [Hk' E]]. apply lowerDur1_none in E. destruct E as [E1 E2].
  specialize (Hs k' Hk'). unfold holds, delay, isUpper in *. destruct (codr k'); try discriminate; lra.
Qed.

(** strict upper bound at the boundary: reported as enabled now, never enabled *)
Lemma lowerDur_strict_bug :
  let g := [mkC 0 Olt 1] in let v := fun _ : clock => 1 in
  lowerDur g v = Some (Some (0, true)) /\ forall d, 0 <= d -> ~ gsat g (delay v d).
Proof.
  cbn zeta. split; [reflexivity|]. intros d Hd H. specialize (H _ (or_introl eq_refl)).
  unfold holds, delay in H. cbn [codr cc cx] in H. change (inject_Z 1) with 1 in H. lra.
Qed.

(** ** addUpperBound *)
Lemma addUpperBound_stronger g v : gsat (addUpperBound g) v -> gsat g v.
Proof. unfold addUpperBound. rewrite gsat_app. tauto. Qed.

Lemma addUpperBound_clock g x k d :
  onClock g x = [k] -> isUpper k = false ->
  (clockSat (addUpperBound g) x d <->
   holds k d /\ d < inject_Z (cc k) + 1).
Proof.
  intros Hk Hu.
  assert (Hin : In k g /\ cx k = x).
  { assert (X : In k (onClock g x)) by (rewrite Hk; left; reflexivity).
    unfold onClock in X. apply filter_In in X. rewrite Nat.eqb_eq in X. tauto. }
  destruct Hin as [Hin Hx].
  assert (Hadd : In (mkC x Olt (cc k + 1)) (addUpperBound g)).
  { unfold addUpperBound. apply in_or_app. right. apply in_flat_map. exists x. split.
    - unfold clocksOf. apply nodup_In, in_map_iff. eauto.
    - rewrite Hk, Hu. unfold isUpper in Hu. destruct (codr k); try discriminate; left; reflexivity. }
  split.
  - intro H. split.
    + apply H; auto. unfold addUpperBound. apply in_or_app; auto.
    + specialize (H _ Hadd eq_refl). unfold holds in H. cbn in H. rewrite injZ_succ in H. exact H.
  - intros [H1 H2] k' Hk' Hx'. unfold addUpperBound in Hk'. apply in_app_or in Hk'. destruct Hk' as [Hk'|Hk'].
    + assert (X : In k' (onClock g x)) by (unfold onClock; apply filter_In; rewrite Nat.eqb_eq; auto).
      rewrite Hk in X. destruct X as [<-|[]]. exact H1.
    + apply in_flat_map in Hk'. destruct Hk' as [y [_ Hy]].
      destruct (onClock g y) as [|k0 [|]] eqn:Ey; try (destruct Hy; fail).
      destruct (isUpper k0) eqn:Eu0; [destruct Hy|].
      assert (y = x).
      { unfold isUpper in Eu0. destruct (codr k0); try discriminate; destruct Hy as [<-|[]]; cbn in Hx'; auto. }
      subst y. rewrite Hk in Ey. injection Ey as <-.
      unfold isUpper in Eu0. destruct (codr k); try discriminate; destruct Hy as [<-|[]]; unfold holds; cbn;
        rewrite injZ_succ; exact H2.
Qed.

Lemma widen_ok g v : gsat (widen g) v <-> forall k, In k g -> isUpper k = true -> holds k (v (cx k)).
Proof.
  unfold gsat, widen. split.
  - intros H k Hk Hu. apply H. apply filter_In. split; [auto|]. unfold isUpper in Hu. destruct (codr k); congruence.
  - intros H k Hk. apply filter_In in Hk. destruct Hk as [Hk Hf]. apply H; auto.
Qed.
