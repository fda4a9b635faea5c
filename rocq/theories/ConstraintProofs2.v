(** unionHull, adjacent, simpleVariables, lowerBoundDurationToSatisfy,
    addUpperBound, widen. *)
From Coq Require Import QArith ZArith Bool List Lia Lqa.
From Verif Require Import BoundsModel BoundsProofs ConstraintModel GuardSpec ConstraintProofs.
Import ListNotations.
Open Scope Q_scope.

Definition toF (b : ibounds) : bound := Fin (inject_Z (fst b)) (snd b).

Lemma toDBM_toF k : toDBMBound k = toF (toDBMBoundZ k).
Proof. destruct k as [x o c]; destruct o; reflexivity. Qed.

Lemma inject_Z_ltb a b : Qltb (inject_Z a) (inject_Z b) = Z.ltb a b.
Proof.
  destruct (Z.ltb_spec a b) as [L|L].
  - apply Qltb_true. rewrite <- Zlt_Qlt. auto.
  - apply Qltb_false. rewrite <- Zle_Qle. auto.
Qed.

Lemma inject_Z_eqb a b : Qeq_bool (inject_Z a) (inject_Z b) = Z.eqb a b.
Proof.
  destruct (Z.eqb_spec a b) as [->|L].
  - apply Qeqb_true. reflexivity.
  - apply Qeqb_false. rewrite inject_Z_injective. auto.
Qed.

Lemma ib_ltb_blt a b : ib_ltb a b = blt (toF a) (toF b).
Proof.
  unfold ib_ltb, blt, toF, ble. rewrite inject_Z_ltb, inject_Z_eqb.
  destruct (Z.ltb_spec (fst a) (fst b)); destruct (Z.ltb_spec (fst b) (fst a));
    destruct (Z.eqb_spec (fst b) (fst a)); destruct (Z.eqb_spec (fst a) (fst b)); try lia;
    destruct (snd a), (snd b); reflexivity.
Qed.

Lemma ib_max_bmax a b : toF (ib_max a b) = bmax (toF a) (toF b).
Proof. unfold ib_max, bmax. rewrite ib_ltb_blt. destruct (blt (toF a) (toF b)); reflexivity. Qed.

Lemma hkey_eqb_eq a b : hkey_eqb a b = true <-> a = b.
Proof.
  destruct a as [a1 a2], b as [b1 b2]. unfold hkey_eqb; cbn.
  rewrite andb_true_iff, Nat.eqb_eq, eqb_true_iff. split; [intros [-> ->]; auto|intros [= -> ->]; auto].
Qed.

Lemma hkey_eqb_refl a : hkey_eqb a a = true.
Proof. apply hkey_eqb_eq; reflexivity. Qed.

Lemma hkey_eqb_false a b : hkey_eqb a b = false <-> a <> b.
Proof.
  destruct (hkey_eqb a b) eqn:E.
  - apply hkey_eqb_eq in E. split; [discriminate|]. intro; contradiction.
  - split; [|auto]. intros _ H. apply hkey_eqb_eq in H. congruence.
Qed.

Lemma hfind_hset m k b k' : hfind (hset m k b) k' = if hkey_eqb k' k then Some b else hfind m k'.
Proof.
  induction m as [|[k0 b0] m IH]; cbn.
  - destruct (hkey_eqb k' k); reflexivity.
  - destruct (hkey_eqb k k0) eqn:E; cbn.
    + apply hkey_eqb_eq in E; subst. destruct (hkey_eqb k' k0); reflexivity.
    + rewrite IH. destruct (hkey_eqb k' k0) eqn:E1; [|reflexivity].
      apply hkey_eqb_eq in E1; subst. destruct (hkey_eqb k0 k) eqn:E2; [|reflexivity].
      apply hkey_eqb_eq in E2; subst. rewrite hkey_eqb_refl in E. discriminate.
Qed.

Lemma hfind_filter (p : hkey -> bool) m k :
  hfind (filter (fun kb => p (fst kb)) m) k = if p k then hfind m k else None.
Proof.
  induction m as [|[k0 b0] m IH]; cbn; [destruct (p k); reflexivity|].
  destruct (p k0) eqn:E; cbn.
  - destruct (hkey_eqb k k0) eqn:E1; [|auto]. apply hkey_eqb_eq in E1; subst. rewrite E. reflexivity.
  - rewrite IH. destruct (hkey_eqb k k0) eqn:E1; [|auto]. apply hkey_eqb_eq in E1; subst. rewrite E. reflexivity.
Qed.

Definition uniqKeys (m : hmap) : Prop := NoDup (map fst m).

Lemma hset_keys m k b x : In x (map fst (hset m k b)) -> x = k \/ In x (map fst m).
Proof.
  induction m as [|[k0 b0] m IH]; cbn; [intuition|].
  destruct (hkey_eqb k k0); cbn; intuition.
Qed.

Lemma hset_uniq m k b : uniqKeys m -> uniqKeys (hset m k b).
Proof.
  unfold uniqKeys. induction m as [|[k0 b0] m IH]; cbn; intro H.
  - constructor; [intros []|constructor].
  - inversion H; subst. destruct (hkey_eqb k k0) eqn:E; cbn; constructor; auto.
    intro Hin. apply hset_keys in Hin. destruct Hin as [->|Hin]; [|auto].
    rewrite hkey_eqb_refl in E. discriminate.
Qed.

Lemma filter_uniq (p : hkey * ibounds -> bool) m : uniqKeys m -> uniqKeys (filter p m).
Proof.
  unfold uniqKeys. induction m as [|a m IH]; cbn; intro H; [constructor|].
  inversion H; subst. destruct (p a); cbn; [|auto]. constructor; [|auto].
  intro Hin. apply H2. apply in_map_iff in Hin. destruct Hin as [x [E Hx]].
  apply filter_In in Hx. apply in_map_iff. exists x. tauto.
Qed.

Lemma uniq_hfind m k b : uniqKeys m -> (In (k, b) m <-> hfind m k = Some b).
Proof.
  unfold uniqKeys. induction m as [|[k0 b0] m IH]; cbn; intro H; [split; [intros []|discriminate]|].
  inversion H; subst. destruct (hkey_eqb k k0) eqn:E.
  - apply hkey_eqb_eq in E; subst. split.
    + intros [[= ->]|Hin]; [reflexivity|]. exfalso. apply H2. apply in_map_iff. exists (k0, b). auto.
    + intros [= ->]. auto.
  - rewrite <- IH; auto. split; [|auto]. intros [[= -> ->]|Hin]; [|auto].
    rewrite hkey_eqb_refl in E. discriminate.
Qed.

Lemma hullStep_uniq i m k : uniqKeys m -> uniqKeys (hullStep i m k).
Proof.
  intro H. unfold hullStep. destruct (hfind m (keyOf k)); [apply hset_uniq; auto|].
  destruct i; [apply hset_uniq|]; auto.
Qed.

Lemma hullFold_uniq i g : forall m, uniqKeys m -> uniqKeys (fold_left (hullStep i) g m).
Proof. induction g as [|k g IH]; cbn; intros m H; auto using hullStep_uniq. Qed.

Lemma hullGuards_uniq gs : forall i m, uniqKeys m -> uniqKeys (hullGuards i m gs).
Proof.
  induction gs as [|g gs IH]; cbn; intros i m H; [auto|].
  apply IH. apply filter_uniq, hullFold_uniq; auto.
Qed.

(** order on ibounds *)
Definition ib_le (a b : ibounds) : Prop := ble (toF a) (toF b) = true.

Lemma ib_le_refl a : ib_le a a. Proof. apply ble_refl. Qed.
Lemma ib_le_trans a b c : ib_le a b -> ib_le b c -> ib_le a c. Proof. apply ble_trans. Qed.
Lemma ib_max_l a b : ib_le a (ib_max a b). Proof. unfold ib_le. rewrite ib_max_bmax. apply bmax_ge_l. Qed.
Lemma ib_max_r a b : ib_le b (ib_max a b). Proof. unfold ib_le. rewrite ib_max_bmax. apply bmax_ge_r. Qed.
Lemma ib_max_or a b : ib_max a b = a \/ ib_max a b = b. Proof. unfold ib_max. destruct (ib_ltb a b); auto. Qed.

(** one guard: effect on an existing key *)
Lemma hullFold_mono i g : forall m k b,
  hfind m k = Some b ->
  exists b', hfind (fold_left (hullStep i) g m) k = Some b' /\ ib_le b b'
    /\ (forall c, In c g -> keyOf c = k -> ib_le (toDBMBoundZ c) b')
    /\ (b' = b \/ exists c, In c g /\ keyOf c = k /\ b' = toDBMBoundZ c).
Proof.
  induction g as [|c g IH]; cbn [fold_left]; intros m k b H.
  - exists b. split; [auto|]. split; [apply ib_le_refl|]. split; [intros c []|auto].
  - destruct (hkey_eqb k (keyOf c)) eqn:E.
    + apply hkey_eqb_eq in E. subst k.
      assert (H1 : hfind (hullStep i m c) (keyOf c) = Some (ib_max b (toDBMBoundZ c))).
      { unfold hullStep. rewrite H, hfind_hset, hkey_eqb_refl. reflexivity. }
      destruct (IH _ _ _ H1) as [b' [A1 [A2 [A3 A4]]]]. exists b'.
      split; [auto|]. split; [eapply ib_le_trans; [apply ib_max_l|exact A2]|]. split.
      * intros c' [<-|Hc'] Hk; [eapply ib_le_trans; [apply ib_max_r|exact A2]|auto].
      * destruct A4 as [->|[c' [B1 [B2 B3]]]]; [|right; exists c'; cbn; auto].
        destruct (ib_max_or b (toDBMBoundZ c)) as [->|E2]; [auto|]. right. exists c. cbn; auto.
    + assert (H1 : hfind (hullStep i m c) k = Some b).
      { unfold hullStep. destruct (hfind m (keyOf c)); [|destruct i; [|auto]]; rewrite hfind_hset, E; auto. }
      destruct (IH _ _ _ H1) as [b' [A1 [A2 [A3 A4]]]]. exists b'.
      split; [auto|]. split; [auto|]. split.
      * intros c' [<-|Hc'] Hk; [|auto]. rewrite <- Hk, hkey_eqb_refl in E. discriminate.
      * destruct A4 as [->|[c' [B1 [B2 B3]]]]; [auto|]. right; exists c'; cbn; auto.
Qed.

(** one guard: keys that were absent *)
Lemma hullFold_new i g : forall m k,
  hfind m k = None ->
  match hfind (fold_left (hullStep i) g m) k with
  | None => i = false \/ forall c, In c g -> keyOf c <> k
  | Some b' => i = true /\ (forall c, In c g -> keyOf c = k -> ib_le (toDBMBoundZ c) b')
               /\ exists c, In c g /\ keyOf c = k /\ b' = toDBMBoundZ c
  end.
Proof.
  induction g as [|c g IH]; cbn [fold_left]; intros m k H.
  - rewrite H. right. intros c [].
  - destruct (hkey_eqb k (keyOf c)) eqn:E.
    + apply hkey_eqb_eq in E. subst k. destruct i.
      * assert (H1 : hfind (hullStep true m c) (keyOf c) = Some (toDBMBoundZ c)).
        { unfold hullStep. rewrite H, hfind_hset, hkey_eqb_refl. reflexivity. }
        destruct (hullFold_mono true g _ _ _ H1) as [b' [A1 [A2 [A3 A4]]]]. rewrite A1.
        split; [auto|]. split.
        -- intros c' [<-|Hc'] Hk; auto.
        -- destruct A4 as [->|[c' [B1 [B2 B3]]]]; [exists c|exists c']; cbn; auto.
      * assert (H1 : hullStep false m c = m) by (unfold hullStep; rewrite H; reflexivity).
        rewrite H1. specialize (IH m (keyOf c) H). destruct (hfind _ _); [|auto].
        destruct IH as [IH _]; discriminate.
    + assert (H1 : hfind (hullStep i m c) k = None).
      { unfold hullStep. destruct (hfind m (keyOf c)); [|destruct i; [|auto]]; rewrite hfind_hset, E; auto. }
      specialize (IH _ _ H1). destruct (hfind _ _).
      * destruct IH as [A [B [c' [C1 [C2 C3]]]]]. split; [auto|]. split.
        -- intros c'' [<-|Hc'] Hk; [|auto]. rewrite <- Hk, hkey_eqb_refl in E. discriminate.
        -- exists c'. cbn. auto.
      * destruct IH as [IH|IH]; [auto|]. right. intros c' [<-|Hc']; [|auto].
        intro Hk. rewrite <- Hk, hkey_eqb_refl in E. discriminate.
Qed.

Lemma hasKey g k : existsb (fun c => hkey_eqb k (keyOf c)) g = true <-> exists c, In c g /\ keyOf c = k.
Proof.
  rewrite existsb_exists. split; intros [c [H1 H2]]; exists c; split; auto.
  - apply hkey_eqb_eq in H2. auto.
  - apply hkey_eqb_eq. auto.
Qed.

Lemma hullGuard_find i m g k :
  hfind (hullGuard i m g) k =
  if existsb (fun c => hkey_eqb k (keyOf c)) g then hfind (fold_left (hullStep i) g m) k else None.
Proof.
  unfold hullGuard.
  apply (hfind_filter (fun k => existsb (fun c => hkey_eqb k (keyOf c)) g)).
Qed.

(** the remaining guards *)
Lemma hullGuards_rest gs : forall m k,
  match hfind (hullGuards false m gs) k with
  | Some b' => exists b, hfind m k = Some b /\ ib_le b b'
      /\ (forall g, In g gs -> (exists c, In c g /\ keyOf c = k)
            /\ forall c, In c g -> keyOf c = k -> ib_le (toDBMBoundZ c) b')
      /\ (b' = b \/ exists g c, In g gs /\ In c g /\ keyOf c = k /\ b' = toDBMBoundZ c)
  | None => hfind m k = None \/ exists g, In g gs /\ forall c, In c g -> keyOf c <> k
  end.
Proof.
  induction gs as [|g gs IH]; cbn [hullGuards]; intros m k.
  - destruct (hfind m k) as [b|] eqn:E; [|auto]. exists b. split; [auto|]. split; [apply ib_le_refl|].
    split; [intros g []|auto].
  - specialize (IH (hullGuard false m g) k). rewrite hullGuard_find in IH.
    destruct (existsb _ g) eqn:Eg.
    + apply hasKey in Eg. destruct (hfind m k) as [b|] eqn:E.
      * destruct (hullFold_mono false g m k b E) as [b1 [A1 [A2 [A3 A4]]]]. rewrite A1 in IH.
        destruct (hfind (hullGuards _ _ _) k) as [b'|].
        -- destruct IH as [b0 [[= <-] [B2 [B3 B4]]]]. exists b. split; [auto|].
           split; [eapply ib_le_trans; eauto|]. split.
           ++ intros g' [<-|Hg']; [|auto]. split; [auto|]. intros c Hc Hk.
              eapply ib_le_trans; [apply (A3 c Hc Hk)|exact B2].
           ++ destruct B4 as [->|[g' [c [C1 [C2 [C3 C4]]]]]].
              ** destruct A4 as [->|[c [C1 [C2 C3]]]]; [auto|]. right. exists g, c. cbn; auto.
              ** right. exists g', c. cbn; auto.
        -- destruct IH as [IH|[g' [C1 C2]]]; [discriminate|]. right. exists g'. cbn; auto.
      * assert (X := hullFold_new false g m k E). destruct (hfind (fold_left _ _ _) k).
        -- destruct X as [X _]; discriminate.
        -- destruct (hfind (hullGuards _ _ _) k) as [b'|]; [|auto].
           destruct IH as [b0 [X1 _]]. discriminate.
    + assert (Hno : forall c, In c g -> keyOf c <> k).
      { intros c Hc Hk. assert (Y : existsb (fun c => hkey_eqb k (keyOf c)) g = true) by (apply hasKey; eauto). congruence. }
      destruct (hfind (hullGuards _ _ _) k) as [b'|].
      * destruct IH as [b0 [X1 _]]. discriminate.
      * right. exists g. cbn; auto.
Qed.

(** the complete characterization of the hull map *)
Lemma hull_char gs k :
  gs <> [] ->
  match hfind (hullGuards true [] gs) k with
  | Some b => (forall g, In g gs -> (exists c, In c g /\ keyOf c = k)
                 /\ forall c, In c g -> keyOf c = k -> ib_le (toDBMBoundZ c) b)
              /\ exists g c, In g gs /\ In c g /\ keyOf c = k /\ b = toDBMBoundZ c
  | None => exists g, In g gs /\ forall c, In c g -> keyOf c <> k
  end.
Proof.
  destruct gs as [|g gs]; [intro H; contradiction|]. intros _. cbn [hullGuards].
  assert (R := hullGuards_rest gs (hullGuard true [] g) k). rewrite hullGuard_find in R.
  assert (N := hullFold_new true g [] k eq_refl).
  destruct (existsb _ g) eqn:Eg.
  - apply hasKey in Eg. destruct (hfind (fold_left _ _ _) k) as [b1|].
    + destruct N as [_ [N1 [c0 [N2 [N3 N4]]]]].
      destruct (hfind (hullGuards _ _ _) k) as [b|].
      * destruct R as [b0 [[= <-] [B2 [B3 B4]]]]. split.
        -- intros g' [<-|Hg']; [|auto]. split; [auto|]. intros c Hc Hk. eapply ib_le_trans; eauto.
        -- destruct B4 as [->|[g' [c [C1 [C2 [C3 C4]]]]]]; [exists g, c0|exists g', c]; cbn; auto.
      * destruct R as [R|[g' [C1 C2]]]; [discriminate|]. exists g'; cbn; auto.
    + destruct N as [N|N]; [discriminate|]. destruct Eg as [c [Hc Hk]]. exfalso. apply (N c Hc Hk).
  - assert (Hno : forall c, In c g -> keyOf c <> k).
    { intros c Hc Hk. assert (Y : existsb (fun c => hkey_eqb k (keyOf c)) g = true) by (apply hasKey; eauto). congruence. }
    destruct (hfind (hullGuards _ _ _) k) as [b|].
    + destruct R as [b0 [X1 _]]. discriminate.
    + exists g; cbn; auto.
Qed.

Lemma hullConstraint_key k b : keyOf (hullConstraint (k, b)) = k.
Proof. destruct k as [x [|]], b as [c [|]]; reflexivity. Qed.

Lemma hullConstraint_cx k b : cx (hullConstraint (k, b)) = fst k.
Proof. destruct k as [x [|]], b as [c [|]]; reflexivity. Qed.

Lemma hullConstraint_up k b : isUpper (hullConstraint (k, b)) = snd k.
Proof. destruct k as [x [|]], b as [c [|]]; reflexivity. Qed.

Lemma hullConstraint_dbm k b : toF (toDBMBoundZ (hullConstraint (k, b))) = toF b.
Proof.
  destruct k as [x [|]], b as [c [|]]; cbn; unfold toDBMBoundZ; cbn; unfold ib_neg, toF; cbn;
    rewrite ?Z.opp_involutive; reflexivity.
Qed.

(** side of a clock value: [d] for upper bounds, [-d] for lower bounds *)
Definition side (up : bool) (d : Q) : Q := if up then d else - d.

Lemma holds_key k d : holds k d <-> bsat (toF (toDBMBoundZ k)) (side (snd (keyOf k)) d).
Proof. rewrite holds_dbm, toDBM_toF. reflexivity. Qed.

Lemma unionHull_In gs c :
  In c (unionHull gs) -> exists k b, c = hullConstraint (k, b) /\ hfind (hullGuards true [] gs) k = Some b.
Proof.
  unfold unionHull. intro H. apply in_map_iff in H. destruct H as [[k b] [<- H]].
  exists k, b. split; [auto|]. apply uniq_hfind in H; auto. apply hullGuards_uniq. constructor.
Qed.

Lemma unionHull_sound gs g v : In g gs -> gsat g v -> gsat (unionHull gs) v.
Proof.
  intros Hg Hs c Hc. apply unionHull_In in Hc. destruct Hc as [k [b [-> Hf]]].
  assert (C := hull_char gs k). rewrite Hf in C.
  assert (Hne : gs <> []) by (intro; subst; destruct Hg).
  destruct (C Hne) as [C1 _]. destruct (C1 g Hg) as [[c [Hc Hk]] C2].
  specialize (C2 c Hc Hk). specialize (Hs c Hc).
  apply holds_key. rewrite hullConstraint_dbm, hullConstraint_key.
  apply holds_key in Hs. rewrite Hk in Hs.
  replace (cx (hullConstraint (k, b))) with (fst k) by (symmetry; apply hullConstraint_cx).
  replace (cx c) with (fst k) in Hs by (rewrite <- Hk; reflexivity).
  apply (ble_sat_1 _ _ C2); auto.
Qed.

Lemma unionHull_weaker gs g : In g gs -> isWeaker (unionHull gs) g = true.
Proof.
  intro Hg. unfold isWeaker. apply forallb_forall. intros c Hc.
  apply unionHull_In in Hc. destruct Hc as [k [b [-> Hf]]].
  assert (C := hull_char gs k). rewrite Hf in C.
  assert (Hne : gs <> []) by (intro; subst; destruct Hg).
  destruct (C Hne) as [C1 _]. destruct (C1 g Hg) as [[c [Hc Hk]] C2].
  apply existsb_exists. exists c. split; [auto|]. unfold isWeaker1.
  rewrite hullConstraint_cx, hullConstraint_up. replace (fst k) with (cx c) by (rewrite <- Hk; reflexivity).
  replace (snd k) with (isUpper c) by (rewrite <- Hk; reflexivity). rewrite Nat.eqb_refl, eqb_reflx. rewrite !toDBM_toF, hullConstraint_dbm.
  apply C2; auto.
Qed.

(** *** upper / lower parts of a guard at one clock *)
Definition upSat (g : guard) (x : clock) (d : Q) : Prop :=
  forall k, In k g -> cx k = x -> isUpper k = true -> holds k d.
Definition loSat (g : guard) (x : clock) (d : Q) : Prop :=
  forall k, In k g -> cx k = x -> isUpper k = false -> holds k d.

Lemma gsat_upLo g v : gsat g v <-> forall x, upSat g x (v x) /\ loSat g x (v x).
Proof.
  split.
  - intros H x. split; intros k Hk <- _; auto.
  - intros H k Hk. destruct (H (cx k)) as [H1 H2]. destruct (isUpper k) eqn:E; auto.
Qed.

Lemma nonRed_unique g c c' :
  nonRedundant g -> In c g -> In c' g -> keyOf c = keyOf c' -> c = c'.
Proof.
  unfold nonRedundant. fold keyOf. change (fun k => (cx k, isUpper k)) with keyOf.
  induction g as [|a g IH]; cbn; intros Hn H1 H2 E; [destruct H1|].
  inversion Hn; subst. destruct H1 as [->|H1], H2 as [->|H2]; auto.
  - exfalso. apply H3. rewrite E. apply in_map; auto.
  - exfalso. apply H3. rewrite <- E. apply in_map; auto.
Qed.

(** semantics of the binary hull of non-redundant guards *)
Definition keySat (g : guard) (k : hkey) (q : Q) : Prop :=
  forall c, In c g -> keyOf c = k -> bsat (toF (toDBMBoundZ c)) q.

Lemma unionHull_sem gs v :
  gs <> [] -> (forall g, In g gs -> nonRedundant g) ->
  (gsat (unionHull gs) v <->
   forall k, exists g, In g gs /\ keySat g k (side (snd k) (v (fst k)))).
Proof.
  intros Hne Hn. split.
  - intros H k. assert (C := hull_char gs k Hne).
    destruct (hfind (hullGuards true [] gs) k) as [b|] eqn:Hf.
    + destruct C as [_ [g [c [C1 [C2 [C3 C4]]]]]]. exists g. split; [auto|].
      intros c' Hc' Hk'. assert (c' = c) by (apply (nonRed_unique g); auto; congruence). subst c'.
      assert (Hin : In (hullConstraint (k, b)) (unionHull gs)).
      { unfold unionHull. apply in_map. apply uniq_hfind; auto. apply hullGuards_uniq. constructor. }
      specialize (H _ Hin). apply holds_key in H. rewrite hullConstraint_dbm, hullConstraint_key in H.
      replace (cx (hullConstraint (k, b))) with (fst k) in H by (symmetry; apply hullConstraint_cx).
      subst b. exact H.
    + destruct C as [g [C1 C2]]. exists g. split; [auto|]. intros c Hc Hk. exfalso. apply (C2 c); auto.
  - intros H c Hc. apply unionHull_In in Hc. destruct Hc as [k [b [-> Hf]]].
    destruct (H k) as [g [Hg Hs]]. assert (C := hull_char gs k Hne). rewrite Hf in C.
    destruct C as [C _]. destruct (C g Hg) as [[c [Hc Hk]] C2].
    apply holds_key. rewrite hullConstraint_dbm, hullConstraint_key.
    replace (cx (hullConstraint (k, b))) with (fst k) by (symmetry; apply hullConstraint_cx).
    apply (ble_sat_1 _ _ (C2 c Hc Hk)). apply Hs; auto.
Qed.

(** the strongest common weakening *)
Definition upd (v : valuation) (x : clock) (d : Q) : valuation :=
  fun y => if Nat.eqb y x then d else v y.

Lemma unionHull_strongest gs d :
  gs <> [] ->
  (forall g, In g gs -> nonRedundant g /\ exists v, nonneg v /\ gsat g v) ->
  (forall g v, In g gs -> nonneg v -> gsat g v -> holds d (v (cx d))) ->
  forall v, nonneg v -> gsat (unionHull gs) v -> holds d (v (cx d)).
Proof.
  intros Hne Hg Himp v Hv Hs.
  assert (Hs' := proj1 (unionHull_sem gs v Hne (fun g H => proj1 (Hg g H))) Hs).
  specialize (Hs' (keyOf d)). cbn [fst snd keyOf] in Hs'. destruct Hs' as [g [Hin Hk]].
  destruct (Hg g Hin) as [Hn [w [Hw Hgw]]].
  apply holds_key. cbn [keyOf snd].
  set (x := cx d) in *. set (q := v x) in *.
  (* move the clock x of w towards q *)
  assert (Hqx : 0 <= q) by apply Hv.
  destruct (isUpper d) eqn:Eup; cbn [side].
  - (* upper *)
    destruct (Qlt_le_dec (w x) q) as [L|L].
    + (* raise w x to q: upper bounds on x hold by Hk, lower by monotonicity *)
      assert (G : gsat g (upd w x q)).
      { intros c Hc. unfold upd. destruct (Nat.eqb_spec (cx c) x) as [E|E]; [|apply Hgw; auto].
        destruct (isUpper c) eqn:Ec.
        - apply holds_key. unfold keyOf; cbn [snd]. rewrite Ec. cbn [side].
          apply Hk; auto. unfold keyOf. rewrite E, Ec, Eup. reflexivity.
        - specialize (Hgw c Hc). rewrite E in Hgw. unfold holds, isUpper in *. destruct (codr c); try discriminate; lra. }
      assert (N : nonneg (upd w x q)).
      { intro y. unfold upd. destruct (Nat.eqb y x); auto. }
      specialize (Himp g _ Hin N G). unfold upd in Himp. rewrite Nat.eqb_refl in Himp.
      apply holds_key in Himp. cbn [keyOf snd] in Himp. rewrite Eup in Himp. exact Himp.
    + specialize (Himp g w Hin Hw Hgw). apply holds_key in Himp. cbn [keyOf snd] in Himp. rewrite Eup in Himp.
      cbn [side] in Himp. eapply bsat_down; [exact L|exact Himp].
  - destruct (Qlt_le_dec q (w x)) as [L|L].
    + assert (G : gsat g (upd w x q)).
      { intros c Hc. unfold upd. destruct (Nat.eqb_spec (cx c) x) as [E|E]; [|apply Hgw; auto].
        destruct (isUpper c) eqn:Ec.
        - specialize (Hgw c Hc). rewrite E in Hgw. unfold holds, isUpper in *. destruct (codr c); try discriminate; lra.
        - apply holds_key. unfold keyOf; cbn [snd]. rewrite Ec. cbn [side].
          apply Hk; auto. unfold keyOf. rewrite E, Ec, Eup. reflexivity. }
      assert (N : nonneg (upd w x q)).
      { intro y. unfold upd. destruct (Nat.eqb y x); auto. }
      specialize (Himp g _ Hin N G). unfold upd in Himp. rewrite Nat.eqb_refl in Himp.
      apply holds_key in Himp. cbn [keyOf snd] in Himp. rewrite Eup in Himp. exact Himp.
    + specialize (Himp g w Hin Hw Hgw). apply holds_key in Himp. cbn [keyOf snd] in Himp. rewrite Eup in Himp.
      cbn [side] in Himp. eapply bsat_down; [|exact Himp]. lra.
Qed.

(** *** toBounds separately for upper and lower bounds *)
Lemma updRow_up k ul d :
  (cc k < INT_MAX)%Z -> rowWF ul -> 0 <= d ->
  (upOk (fst (updRow k ul)) d <-> upOk (fst ul) d /\ (isUpper k = true -> holds k d)).
Proof.
  intros Hc Hw Hd. destruct (isUpper k) eqn:E.
  - destruct ul as [u l].
    assert (W : rowWF (u, minLB)) by (destruct Hw as [_ [Hw _]]; split; [cbn; lia|split; [exact Hw|unfold INT_MAX; cbn; lia]]).
    destruct (updRow_ok k (u, minLB) d Hc W Hd) as [X _].
    unfold rowOk, updRow in *. rewrite E in *. cbn [fst snd] in *.
    assert (L : loOk minLB d) by exact Hd. tauto.
  - unfold updRow. rewrite E. cbn. intuition discriminate.
Qed.

Lemma updRow_lo k ul d :
  (cc k < INT_MAX)%Z -> rowWF ul -> 0 <= d ->
  (loOk (snd (updRow k ul)) d <-> loOk (snd ul) d /\ (isUpper k = false -> holds k d)).
Proof.
  intros Hc Hw Hd. destruct (isUpper k) eqn:E.
  - unfold updRow. rewrite E. cbn. intuition discriminate.
  - destruct ul as [u l].
    assert (W : rowWF (maxUB, l)) by (destruct Hw as [Hw1 [_ Hw2]]; split; [exact Hw1|split; [left; reflexivity|exact Hw2]]).
    destruct (updRow_ok k (maxUB, l) d Hc W Hd) as [X _].
    unfold rowOk, updRow in *. rewrite E in *. cbn [fst snd] in *.
    assert (L : upOk maxUB d) by (left; reflexivity). tauto.
Qed.

Lemma toBounds_sep_fold g : forall t x d,
  smallConsts g -> tableWF t -> 0 <= d ->
  let r := nth x (fold_left toBoundsStep g t) defB in
  (upOk (fst r) d <-> upOk (fst (nth x t defB)) d /\ upSat g x d) /\
  (loOk (snd r) d <-> loOk (snd (nth x t defB)) d /\ loSat g x d).
Proof.
  induction g as [|k g IH]; intros t x d Hs Hw Hd; cbn [fold_left].
  - split; split; try tauto; (intro H; split; [auto|intros k []]).
  - assert (Hk : (cc k < INT_MAX)%Z) by (apply Hs; left; reflexivity).
    assert (Hw' : tableWF (toBoundsStep t k)).
    { intro i. rewrite nth_toBoundsStep. destruct (i =? cx k)%nat; [|apply Hw].
      apply (updRow_ok k _ 0 Hk (Hw i)). lra. }
    destruct (IH (toBoundsStep t k) x d (fun k' H => Hs k' (or_intror H)) Hw' Hd) as [I1 I2].
    cbv zeta. cbv zeta in I1, I2. rewrite I1, I2, nth_toBoundsStep.
    destruct (Nat.eqb_spec x (cx k)) as [E|E].
    + rewrite updRow_up, updRow_lo by (auto; apply Hw). split; split.
      * intros [[A B] C]. split; [auto|]. intros k' [<-|H'] Hx Hu; auto.
      * intros [A B]. split; [split; [auto|intro Hu; apply B; auto; left; reflexivity]|].
        intros k' H' Hx Hu; apply B; auto; right; auto.
      * intros [[A B] C]. split; [auto|]. intros k' [<-|H'] Hx Hu; auto.
      * intros [A B]. split; [split; [auto|intro Hu; apply B; auto; left; reflexivity]|].
        intros k' H' Hx Hu; apply B; auto; right; auto.
    + split; split; intros [A B]; (split; [auto|]); intros k' H' Hx Hu.
      * destruct H' as [<-|H']; [congruence|auto].
      * apply B; auto; right; auto.
      * destruct H' as [<-|H']; [congruence|auto].
      * apply B; auto; right; auto.
Qed.

Lemma toBounds_sep g x d :
  smallConsts g -> 0 <= d ->
  (upOk (fst (nth x (toBounds g) defB)) d <-> upSat g x d) /\
  (loOk (snd (nth x (toBounds g) defB)) d <-> loSat g x d).
Proof.
  intros Hs Hd. destruct (toBounds_sep_fold g [] x d Hs nil_wf Hd) as [A B]. cbv zeta in A, B.
  unfold toBounds. rewrite A, B.
  assert (nth x ([] : btable) defB = defB) as -> by (destruct x; reflexivity).
  assert (U : upOk (fst defB) d) by (left; reflexivity).
  assert (L : loOk (snd defB) d) by exact Hd. tauto.
Qed.

(** *** adjacency *)
Lemma filter_len1 {A} (p : A -> bool) (d : A) l i j :
  (length (filter p l) <= 1)%nat -> (i < length l)%nat -> (j < length l)%nat ->
  p (nth i l d) = true -> p (nth j l d) = true -> i = j.
Proof.
  revert i j. induction l as [|a l IH]; cbn; intros i j H Hi Hj Pi Pj; [lia|].
  assert (Hz : forall i, length (filter p l) = 0%nat -> (i < length l)%nat -> p (nth i l d) = true -> False).
  { intros i0 H0 Hi0 P0. assert (In (nth i0 l d) (filter p l)) by (apply filter_In; split; auto; apply nth_In; auto).
    destruct (filter p l); [auto|cbn in H0; lia]. }
  destruct i as [|i], j as [|j]; auto.
  - rewrite Pi in H. cbn in H. exfalso. apply (Hz j); auto; lia.
  - rewrite Pj in H. cbn in H. exfalso. apply (Hz i); auto; lia.
  - f_equal. apply IH; auto; [|lia|lia]. destruct (p a); cbn in H; lia.
Qed.

Lemma traverse_all {A B} (f : A -> option B) l bs :
  traverse f l = Some bs -> forall a, In a l -> f a <> None.
Proof.
  revert bs. induction l as [|a l IH]; cbn; intros bs H b Hb; [destruct Hb|].
  destruct (f a) eqn:E; [|discriminate]. destruct (traverse f l) eqn:E2; [|discriminate].
  destruct Hb as [->|Hb]; [congruence|eapply IH; eauto].
Qed.


Lemma upper_maxUB g x : smallConsts g ->
  (fst (nth x (toBounds g) defB) = maxUB <-> ~ exists k, In k g /\ cx k = x /\ isUpper k = true).
Proof.
  intro Hs. split.
  - intros H [k [H1 [H2 H3]]].
    set (d := inject_Z (Z.max 0 (cc k)) + 1).
    assert (Hd0 : inject_Z 0 <= inject_Z (Z.max 0 (cc k))) by (rewrite <- Zle_Qle; lia).
    assert (Hd1 : inject_Z (cc k) <= inject_Z (Z.max 0 (cc k))) by (rewrite <- Zle_Qle; lia).
    change (inject_Z 0) with 0 in Hd0.
    assert (Hd : 0 <= d) by (unfold d; lra).
    destruct (toBounds_sep g x d Hs Hd) as [A _].
    assert (U : upSat g x d) by (apply A; rewrite H; left; reflexivity).
    specialize (U k H1 H2 H3). unfold holds, isUpper in *. destruct (codr k); try discriminate; unfold d in U; lra.
  - intro H. assert (W := toBounds_wf g Hs x). destruct W as [W1 [[W2|W2] W3]]; [exact W2|].
    destruct (nth x (toBounds g) defB) as [[u us] [l ls]] eqn:E. cbn [fst snd] in *.
    exfalso. set (d := inject_Z (Z.max 0 u) + 1).
    assert (Hd0 : inject_Z 0 <= inject_Z (Z.max 0 u)) by (rewrite <- Zle_Qle; lia).
    assert (Hd1 : inject_Z u <= inject_Z (Z.max 0 u)) by (rewrite <- Zle_Qle; lia).
    change (inject_Z 0) with 0 in Hd0.
    assert (Hd : 0 <= d) by (unfold d; lra).
    destruct (toBounds_sep g x d Hs Hd) as [A _]. rewrite E in A. cbn [fst] in A.
    assert (U : upOk (u, us) d) by (apply A; intros k H1 H2 H3; exfalso; apply H; eauto).
    destruct U as [U|U]; cbn in U.
    + inversion U; subst. lia.
    + destruct us; unfold d in U; lra.
Qed.

Lemma touch lu ll ru rl d :
  fst lu = fst rl -> eqb (snd lu) (snd rl) = false -> lu <> maxUB ->
  (upOk lu d \/ upOk ru d) -> (loOk ll d \/ loOk rl d) ->
  (upOk lu d /\ loOk ll d) \/ (upOk ru d /\ loOk rl d).
Proof.
  intros E1 E2 Hm H1 H2.
  assert (X : (upOk lu d \/ loOk rl d) /\ ~ (upOk lu d /\ loOk rl d)).
  { destruct lu as [u us], rl as [l ls]; unfold upOk, loOk; cbn [fst snd] in *. subst l.
    destruct us, ls; try discriminate E2.
    - destruct (Qlt_le_dec (inject_Z u) d) as [L|L]; split.
      + right; exact L.
      + intros [[Y|Y] _]; [contradiction|lra].
      + left; right; exact L.
      + intros [_ Y]; lra.
    - destruct (Qlt_le_dec d (inject_Z u)) as [L|L]; split.
      + left; right; exact L.
      + intros [_ Y]; lra.
      + right; exact L.
      + intros [[Y|Y] _]; [contradiction|lra]. }
  tauto.
Qed.

Lemma gsat_rows g v : smallConsts g -> nonneg v ->
  (gsat g v <-> forall x, rowOk (nth x (toBounds g) defB) (v x)).
Proof. intros Hs Hv. symmetry. apply toBounds_ok; auto. Qed.

Lemma hull2_sem l r v :
  nonRedundant l -> nonRedundant r ->
  (gsat (unionHull2 l r) v <->
   forall x, (upSat l x (v x) \/ upSat r x (v x)) /\ (loSat l x (v x) \/ loSat r x (v x))).
Proof.
  intros Hl Hr. unfold unionHull2. rewrite unionHull_sem; [|discriminate|intros g [<-|[<-|[]]]; auto].
  assert (K : forall g x up d, keySat g (x, up) (side up d) <-> (if up then upSat g x d else loSat g x d)).
  { intros g x up d. unfold keySat, upSat, loSat. destruct up; split.
    - intros H k Hk Hx Hu. apply holds_key. unfold keyOf; cbn [snd]. rewrite Hu. apply H; auto. unfold keyOf; congruence.
    - intros H c Hc Hk. unfold keyOf in Hk. injection Hk as Hx Hu. specialize (H c Hc Hx Hu). apply holds_key in H.
      unfold keyOf in H; cbn [snd] in H. rewrite Hu in H. exact H.
    - intros H k Hk Hx Hu. apply holds_key. unfold keyOf; cbn [snd]. rewrite Hu. apply H; auto. unfold keyOf; congruence.
    - intros H c Hc Hk. unfold keyOf in Hk. injection Hk as Hx Hu. specialize (H c Hc Hx Hu). apply holds_key in H.
      unfold keyOf in H; cbn [snd] in H. rewrite Hu in H. exact H. }
  split.
  - intros H x. split.
    + destruct (H (x, true)) as [g [Hg Hs]]. apply (K g x true) in Hs. destruct Hg as [<-|[<-|[]]]; auto.
    + destruct (H (x, false)) as [g [Hg Hs]]. apply (K g x false) in Hs. destruct Hg as [<-|[<-|[]]]; auto.
  - intros H [x up]. cbn [fst snd]. destruct (H x) as [H1 H2]. destruct up.
    + destruct H1 as [H1|H1]; [exists l|exists r]; (split; [cbn; auto|]); apply K; auto.
    + destruct H2 as [H2|H2]; [exists l|exists r]; (split; [cbn; auto|]); apply K; auto.
Qed.

Lemma nth_adjRows l r x :
  length (toBounds l) = length (toBounds r) ->
  nth x (adjRows l r) (defB, defB) = (nth x (toBounds l) defB, nth x (toBounds r) defB).
Proof. intro H. unfold adjRows. apply combine_nth; auto. Qed.

Lemma adjRows_length l r : length (adjRows l r) = Nat.min (length (toBounds l)) (length (toBounds r)).
Proof. apply combine_length. Qed.

Lemma adjacent_merge_exact l r v :
  smallConsts l -> smallConsts r -> nonRedundant l -> nonRedundant r ->
  sameBoundedness l r -> (length (differing l r) <= 1)%nat ->
  adjacent l r = true -> nonneg v ->
  (gsat (unionHull2 l r) v <-> gsat l v \/ gsat r v).
Proof.
  intros Sl Sr Nl Nr Sb Hd Ha Hv. split.
  2:{ intros [H|H]; eapply unionHull_sound; try exact H; cbn; auto. }
  rewrite hull2_sem by auto. intro H.
  unfold adjacent in Ha. destruct (Nat.eqb_spec (length (toBounds l)) (length (toBounds r))) as [EL|]; [|discriminate].
  destruct (traverse rowKind (adjRows l r)) as [bs|] eqn:Et; [|discriminate]. clear Ha.
  assert (Hrow : forall x, (upOk (fst (nth x (toBounds l) defB)) (v x) \/ upOk (fst (nth x (toBounds r) defB)) (v x))
                  /\ (loOk (snd (nth x (toBounds l) defB)) (v x) \/ loOk (snd (nth x (toBounds r) defB)) (v x))).
  { intro x. destruct (H x) as [H1 H2].
    destruct (toBounds_sep l x (v x) Sl (Hv x)) as [A1 A2]. destruct (toBounds_sep r x (v x) Sr (Hv x)) as [B1 B2].
    rewrite A1, A2, B1, B2. auto. }
  assert (Hfill : forall x, fillRow (nth x (toBounds l) defB, nth x (toBounds r) defB)
                            = (nth x (toBounds l) defB, nth x (toBounds r) defB)).
  { intro x. assert (M1 := upper_maxUB l x Sl). assert (M2 := upper_maxUB r x Sr). specialize (Sb x).
    destruct (nth x (toBounds l) defB) as [lu ll], (nth x (toBounds r) defB) as [ru rl]. cbn [fst] in *.
    unfold fillRow, fillUB, ib_neqb.
    assert (M : lu = maxUB <-> ru = maxUB) by tauto.
    destruct (ib_eqb lu maxUB) eqn:E1, (ib_eqb ru maxUB) eqn:E2; cbn; auto; exfalso.
    - apply ib_eqb_eq in E1. apply M in E1. apply ib_eqb_eq in E1. congruence.
    - apply ib_eqb_eq in E2. apply M in E2. apply ib_eqb_eq in E2. congruence. }
  assert (Hkind : forall x, rowKind (nth x (toBounds l) defB, nth x (toBounds r) defB) <> None).
  { intro x. destruct (Nat.lt_ge_cases x (length (toBounds l))) as [L|L].
    - apply (traverse_all _ _ _ Et). rewrite <- nth_adjRows by auto. apply nth_In.
      rewrite adjRows_length, <- EL. lia.
    - rewrite !nth_overflow by lia. cbn. discriminate. }
  (* rows that are not differing are equal *)
  assert (Heq : forall x, rowKind (nth x (toBounds l) defB, nth x (toBounds r) defB) = Some false ->
                          nth x (toBounds l) defB = nth x (toBounds r) defB).
  { intros x Hx. unfold rowKind in Hx. rewrite Hfill in Hx.
    destruct (nth x (toBounds l) defB) as [lu ll], (nth x (toBounds r) defB) as [ru rl].
    destruct (ib_eqb lu ru && ib_eqb ll rl) eqn:E.
    - apply andb_true_iff in E. destruct E as [E1 E2]. apply ib_eqb_eq in E1, E2. congruence.
    - destruct (fst lu =? fst rl)%Z; [destruct (eqb (snd lu) (snd rl)); discriminate|].
      destruct (fst ru =? fst ll)%Z; [destruct (eqb (snd ru) (snd ll)); discriminate|discriminate]. }
  (* a differing row splits *)
  assert (Hsplit : forall x, rowKind (nth x (toBounds l) defB, nth x (toBounds r) defB) = Some true ->
                     rowOk (nth x (toBounds l) defB) (v x) \/ rowOk (nth x (toBounds r) defB) (v x)).
  { intros x Hx. destruct (Hrow x) as [U L]. unfold rowKind in Hx. rewrite Hfill in Hx.
    assert (Wl := toBounds_wf l Sl x). assert (Wr := toBounds_wf r Sr x).
    destruct (nth x (toBounds l) defB) as [lu ll], (nth x (toBounds r) defB) as [ru rl]. cbn [fst snd] in *.
    destruct Wl as [_ [_ Wl]], Wr as [_ [_ Wr]]. cbn [fst snd] in *. unfold rowOk; cbn [fst snd].
    destruct (ib_eqb lu ru && ib_eqb ll rl); [discriminate|].
    destruct (Z.eqb_spec (fst lu) (fst rl)) as [E|_].
    - destruct (eqb (snd lu) (snd rl)) eqn:E2; [discriminate|].
      apply touch; auto. intro; subst lu. cbn in E. lia.
    - destruct (Z.eqb_spec (fst ru) (fst ll)) as [E|_]; [|discriminate].
      destruct (eqb (snd ru) (snd ll)) eqn:E2; [discriminate|].
      assert (T : (upOk ru (v x) /\ loOk rl (v x)) \/ (upOk lu (v x) /\ loOk ll (v x))).
      { apply touch; auto; [|tauto|tauto]. intro; subst ru. cbn in E. lia. }
      tauto. }
  assert (Hnon : forall x, rowKind (nth x (toBounds l) defB, nth x (toBounds r) defB) = Some false ->
                     rowOk (nth x (toBounds l) defB) (v x) /\ rowOk (nth x (toBounds r) defB) (v x)).
  { intros x Hx. destruct (Hrow x) as [U L]. rewrite (Heq x Hx) in *. unfold rowOk. tauto. }
  rewrite !gsat_rows by auto.
  (* is there a differing row? *)
  set (p := fun x : rows => match rowKind x with Some true => true | _ => false end).
  destruct (existsb p (adjRows l r)) eqn:Ex.
  - apply existsb_exists in Ex. destruct Ex as [row [Hin Hp]].
    destruct (In_nth _ _ (defB, defB) Hin) as [x0 [Hx0 E0]]. rewrite nth_adjRows in E0 by auto.
    assert (K0 : rowKind (nth x0 (toBounds l) defB, nth x0 (toBounds r) defB) = Some true).
    { rewrite E0. unfold p in Hp. destruct (rowKind row) as [[|]|]; congruence. }
    assert (Hoth : forall x, x <> x0 -> rowKind (nth x (toBounds l) defB, nth x (toBounds r) defB) = Some false).
    { intros x Nx. destruct (rowKind (nth x (toBounds l) defB, nth x (toBounds r) defB)) as [[|]|] eqn:K; auto.
      - exfalso. apply Nx. destruct (Nat.lt_ge_cases x (length (adjRows l r))) as [Lx|Lx].
        + apply (filter_len1 p (defB, defB) (adjRows l r)); auto; rewrite nth_adjRows by auto; unfold p; [rewrite K|rewrite K0]; auto.
        + assert (length (adjRows l r) = length (toBounds l)) by (rewrite adjRows_length; lia).
          rewrite !nth_overflow in K by lia. cbn in K. discriminate.
      - exfalso. apply (Hkind x K). }
    destruct (Hsplit x0 K0) as [S|S]; [left|right]; intro x; destruct (Nat.eq_dec x x0) as [->|Nx]; auto;
      apply Hnon; apply Hoth; auto.
  - left. intro x. apply Hnon.
    destruct (rowKind (nth x (toBounds l) defB, nth x (toBounds r) defB)) as [[|]|] eqn:K; auto.
    + exfalso. destruct (Nat.lt_ge_cases x (length (adjRows l r))) as [Lx|Lx].
      * assert (existsb p (adjRows l r) = true); [|congruence].
        apply existsb_exists. exists (nth x (adjRows l r) (defB, defB)). split; [apply nth_In; auto|].
        rewrite nth_adjRows by auto. unfold p. rewrite K. auto.
      * assert (length (adjRows l r) = length (toBounds l)) by (rewrite adjRows_length; lia).
        rewrite !nth_overflow in K by lia. cbn in K. discriminate.
    + exfalso. apply (Hkind x K).
Qed.

(** counterexamples to exactness in general *)
Definition ex_l1 : guard := [mkC 0 Oge 1; mkC 0 Ole 1; mkC 1 Oge 1; mkC 1 Ole 1].
Definition ex_r1 : guard := [mkC 0 Ogt 1; mkC 0 Olt 2; mkC 1 Ogt 1; mkC 1 Olt 2].
Definition ex_v1 : valuation := fun x => match x with O => 1 | _ => 3#2 end.
Lemma adjacent_two_clocks_inexact :
  adjacent ex_l1 ex_r1 = true /\ gsatb (unionHull2 ex_l1 ex_r1) ex_v1 = true
  /\ gsatb ex_l1 ex_v1 = false /\ gsatb ex_r1 ex_v1 = false.
Proof. vm_compute. auto. Qed.

Definition ex_l2 : guard := [mkC 0 Oge 1; mkC 0 Ole 1; mkC 1 Oge 2].
Definition ex_r2 : guard := [mkC 0 Ogt 1; mkC 0 Olt 2; mkC 1 Oge 2; mkC 1 Ole 2].
Definition ex_v2 : valuation := fun x => match x with O => 3#2 | _ => 3 end.
Lemma adjacent_unbounded_inexact :
  adjacent ex_l2 ex_r2 = true /\ length (differing ex_l2 ex_r2) = 1%nat
  /\ gsatb (unionHull2 ex_l2 ex_r2) ex_v2 = true
  /\ gsatb ex_l2 ex_v2 = false /\ gsatb ex_r2 ex_v2 = false.
Proof. vm_compute. auto. Qed.
