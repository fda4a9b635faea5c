(** Splitting along morphisms and the analysis of counterexamples. *)
From Coq Require Import QArith ZArith Bool List Lia Lqa Qround Arith.
From Verif Require Import BoundsModel BoundsProofs ConstraintModel ZoneModel ZoneSpec ZoneProofs ZoneProofs2 ZoneProofs3 ZoneProofs5 TimedConditionProofs5
  AutomatonModel TimedWordModel TimedWordSpec TimedWordProofs TimedConditionModel TimedConditionSpec TimedConditionProofs TimedConditionProofs2
  TimedConditionProofs3 TimedConditionProofs4 ElementaryModel ElementarySpec ElementaryProofs ElementaryProofs2 RegionalModel RegionalSpec
  RegionalProofs RegionalProofs2 RegionalProofs3 RegionalProofs4 RegionalProofs5 OracleModel CexModel CexSpec CexProofs.
Import ListNotations.
Open Scope Q_scope.

Lemma fuel_sum : forall d : list Q, Forall (fun q => 0 <= q) d ->
  (Z.to_nat (sumTo (length d) (fun i => uidx (nth i d 0%Q))) < fold_right (fun q n => Z.to_nat (2 * (Qfloor q) + 2) + n)%nat 1%nat d)%nat.
Proof.
  intros d F. enough (K : (sumTo (length d) (fun i => uidx (nth i d 0%Q)) < Z.of_nat (fold_right (fun q n => Z.to_nat (2 * (Qfloor q) + 2) + n)%nat 1%nat d))%Z).
  { assert (X : (0 <= sumTo (length d) (fun i => uidx (nth i d 0%Q)))%Z).
    { assert (Z0 : sumTo (length d) (fun _ => 0%Z) = 0%Z) by (generalize (length d); induction n; cbn; lia). rewrite <- Z0. apply sumTo_le. intros i Hi. apply uidx_nonneg.
      rewrite Forall_forall in F. apply F. apply nth_In. auto. }
    lia. }
  induction d as [|q d IH]; [cbn; lia|]. inversion F as [|? ? F1 F2]; subst. specialize (IH F2).
  assert (S1 : forall (f : nat -> Z) n, sumTo (S n) f = (f 0%nat + sumTo n (fun i => f (S i)))%Z).
  { intros f. induction n; [cbn; lia|]. cbn [sumTo] in *. lia. }
  cbn [length]. rewrite S1. cbn [nth fold_right]. rewrite Nat2Z.inj_add.
  assert (U : (uidx q <= 2 * Qfloor q + 1)%Z) by (unfold uidx; destruct (Qeq_bool q _); lia). lia.
Qed.
Lemma prefixFuel_ok w : nonnegTW w -> (mu w < prefixFuel w)%nat.
Proof.
  intros [W F]. unfold mu, prefixFuel, vol. assert (FA : Forall (fun q => 0 <= q) (accum (td w))).
  { apply Forall_forall. intros q Hq. apply (In_nth _ _ 0) in Hq. destruct Hq as [k [Hk <-]]. rewrite accum_nth. apply accd_nonneg. auto. }
  assert (K := fuel_sum _ FA). rewrite accum_length in K.
  assert (E : sumTo (length (td w)) (fun i => uidx (since (td w) i)) = sumTo (length (td w)) (fun i => uidx (nth i (accum (td w)) 0))).
  { apply sumTo_ext. intros i Hi. apply uidx_ext. rewrite since_acc by auto. symmetry. apply accum_nth. }
  rewrite E. lia.
Qed.

Lemma Forall2_nth_eq : forall a b : list Q, Forall2 Qeq a b -> forall i, (i < length a)%nat -> nth i a 0 == nth i b 0.
Proof. induction 1; intros [|i] Hi; cbn in *; try lia; auto. apply IHForall2. lia. Qed.
(** shape of a timed prefix *)
Lemma timedPrefix_shape p w : timedPrefix p w -> let n := length (tw p) in
  (n < length (td w))%nat /\ tw p = firstn n (tw w) /\ exists t, sameDurs (td p) (firstn n (td w) ++ [t]) /\ 0 <= t /\ t <= nth n (td w) 0.
Proof.
  intros [[Wp Fp] [y [[Wy Fy] [S1 S2]]]]. cbv zeta. destruct (snoc_wf p Wp) as [d [t [Ed Ld]]]. cbn [concatTW td tw] in *.
  unfold wfTW in Wy. destruct (td y) as [|b r] eqn:Ey; [discriminate|]. cbn [hd tl] in S2. rewrite Ed, addBack_snoc, <- app_assoc in S2. cbn [app] in S2.
  assert (L : length (td w) = (length d + S (length r))%nat) by (rewrite (Forall2_len _ _ _ S2), app_length; reflexivity).
  split; [lia|]. split; [rewrite S1, firstn_app, Nat.sub_diag, firstn_all; cbn; rewrite app_nil_r; reflexivity|].
  exists t. assert (Ft : 0 <= t /\ 0 <= b).
  { split; [rewrite Ed in Fp; apply Forall_app in Fp; destruct Fp as [_ Fp]; inversion Fp; auto|inversion Fy; auto]. }
  split; [|split; [apply Ft|]].
  - rewrite Ed, <- Ld. apply F2Q_app; [|apply F2Q_refl]. apply Forall2_nth_Q; [rewrite firstn_length; lia|]. intros i Hi. rewrite nth_firstn_lt by auto.
    assert (K := Forall2_nth_eq _ _ S2 i). rewrite app_nth1 in K by auto. symmetry. apply K. lia.
  - assert (K := Forall2_nth_eq _ _ S2 (length d) ltac:(lia)). rewrite app_nth2 in K by lia. rewrite Nat.sub_diag in K. cbn [nth] in K. rewrite <- Ld. lra.
Qed.

Lemma sameTW_elem x w w' : sameTW w w' -> inElem x w -> inElem x w'.
Proof. intros [A B] [C D]. split; [congruence|]. eapply inCond_same; eauto. Qed.

Lemma rSplit_prefix h w t : properRL h -> properTW w -> rSplit h w = Some t ->
  In (smor t) (rmorphs h) /\ exists p, timedPrefix p w /\ inElem (mdom (smor t)) p /\ boundedCond (ec (mdom (smor t))).
Proof.
  intros HP [NW NU] H. unfold rSplit in H. cbv zeta in H.
  destruct (find _ (rmorphs h)) as [m|] eqn:F; [|discriminate]. apply find_some in F. destruct F as [F1 F2].
  assert (E : smor t = m) by (destruct (elContains (mdom m) w); injection H as <-; reflexivity). rewrite E. split; [auto|].
  apply existsb_exists in F2. destruct F2 as [y [Y1 Y2]].
  assert (R := frFromTimedWord_regional w (proj1 NW)).
  destruct (frPrefixes_spec (mu w) _ w R NW (le_n _)) as [L [A [_ [_ [B C]]]]]. rewrite A in Y1 by (apply prefixFuel_ok; auto). rewrite app_nil_r in Y1.
  destruct (B y Y1) as [p [P1 P2]]. exists p. split; [auto|].
  destruct HP as [_ [_ HM]]. destruct (HM m F1) as [[[[D _] _] _] _].
  assert (RC : regionCond (ec (fel y)) (td p)) by apply P2. assert (D2 : (2 <= dim (ec (fel y)))%nat) by apply RC.
  destruct (elEqb_same _ _ Y2 D D2) as [_ [K1 K2]]. split; [|apply K2; eapply regionCond_bounded; eauto].
  apply K1. apply (regionalF_members y p p P2). split; [reflexivity|apply sameRegion_refl].
Qed.

Lemma sublist_obs (l : list letter) n : ~ In UNOBSERVABLE l -> ~ In UNOBSERVABLE (firstn n l) /\ ~ In UNOBSERVABLE (skipn n l).
Proof.
  intro H. split; intro K; apply H; rewrite <- (firstn_skipn n l); apply in_or_app; auto.
Qed.

Lemma rSplit_spec h w t : properRL h -> properTW w -> rSplit h w = Some t ->
  In (smor t) (rmorphs h) /\ inElem (mdom (smor t)) (spre t) /\ properTW (spre t) /\ properTW (ssuf t) /\ sameTW w (concatTW (spre t) (ssuf t)).
Proof.
  intros HP PW H. destruct (rSplit_prefix h w t HP PW H) as [A [p [TP [Ip BD]]]]. split; [auto|].
  unfold rSplit in H. cbv zeta in H. destruct (find _ (rmorphs h)) as [m|] eqn:F; [|discriminate].
  destruct PW as [NW NU]. assert (WW := proj1 NW).
  destruct HP as [_ [_ HM]]. assert (E : smor t = m) by (destruct (elContains (mdom m) w); injection H as <-; reflexivity). rewrite E in *.
  destruct (HM m A) as [[WD [VD ND]] _].
  destruct (elContains (mdom m) w) eqn:EC.
  - injection H as <-. cbn [smor spre ssuf]. apply elContains_exact in EC; auto. split; [auto|]. split; [split; auto|]. split.
    + cbn. split; [split; [reflexivity|repeat constructor; cbn; lra]|auto].
    + apply sameTW_sym. apply concat_unit_r. auto.
  - injection H as <-. cbn [smor spre ssuf]. set (x := mdom m) in *.
    destruct (timedPrefix_shape p w TP) as [LN [TN [t0 [S0 [T0 T1]]]]].
    assert (EX : tw p = ew x) by apply Ip. rewrite EX in *. set (n := length (ew x)) in *.
    assert (I0 : inCond (ec x) (firstn n (td w) ++ [t0])) by (eapply inCond_same; [exact S0|apply Ip]).
    destruct (splitLast_spec x w t0 WD BD VD LN I0 T1) as [SI SL]. fold n in SI, SL. set (q := splitLast x w) in *.
    assert (VO : ~ In UNOBSERVABLE (ew x)) by (rewrite TN; apply sublist_obs; auto).
    assert (LF : length (firstn n (td w)) = n) by (rewrite firstn_length; lia).
    assert (EP : mkTimedWord (ew x) (firstn n (td w) ++ [q]) = mkTW (ew x) (firstn n (td w) ++ [q])).
    { destruct (firstn n (td w) ++ [q]) as [|a r] eqn:Er; [destruct (firstn n (td w)); discriminate|]. cbn [mkTimedWord]. apply absorb_id; auto.
      assert (X : length (firstn n (td w) ++ [q]) = S n) by (rewrite app_length, LF; cbn; lia). rewrite Er in X. cbn in X. unfold n in X. lia. }
    rewrite EP. split; [auto|].
    assert (WP : wfTW (mkTW (ew x) (firstn n (td w) ++ [q]))) by (unfold wfTW; cbn [td tw]; rewrite app_length, LF; cbn; unfold n; lia).
    assert (FP := ND _ SI). cbn [td] in FP.
    split; [split; [split; auto|auto]|].
    (* the suffix *)
    unfold getSuffix, wordSize. cbn [tw td]. fold n. rewrite last_last.
    assert (SK : exists b, skipn n (td w) = nth n (td w) 0 :: b /\ td w = firstn n (td w) ++ nth n (td w) 0 :: b /\ length b = length (skipn n (tw w))).
    { assert (X := firstn_skipn n (td w)). assert (Y : length (skipn n (td w)) = (length (td w) - n)%nat) by apply skipn_length.
      destruct (skipn n (td w)) as [|a b] eqn:Es; [cbn in Y; lia|]. exists b.
      assert (Z : a = nth n (td w) 0) by (rewrite <- X, app_nth2 by lia; rewrite LF, Nat.sub_diag; reflexivity). rewrite <- Z. split; [auto|]. split; [auto|].
      rewrite skipn_length. unfold wfTW in WW. cbn in Y. lia. }
    destruct SK as [b [SK1 [SK2 SK3]]]. rewrite SK1. cbn [mkTimedWord].
    assert (OS : ~ In UNOBSERVABLE (skipn n (tw w))) by (apply sublist_obs; auto).
    rewrite absorb_id by auto.
    assert (FW : Forall (fun q => 0 <= q) (td w)) by apply NW. rewrite SK2 in FW. apply Forall_app in FW. destruct FW as [_ FW]. inversion FW as [|? ? FW1 FW2]; subst.
    split.
    + split; [split|]; cbn [tw td]; [unfold wfTW; cbn [tw td length]; lia|constructor; [lra|auto]|auto].
    + split; cbn [concatTW tw td hd tl].
      * rewrite TN, firstn_skipn. reflexivity.
      * rewrite addBack_snoc, <- app_assoc. cbn [app]. rewrite SK2 at 1. apply F2Q_app; [apply F2Q_refl|]. constructor; [lra|apply F2Q_refl].
Qed.

Lemma properTW_concat p s : properTW p -> properTW s -> properTW (concatTW p s).
Proof.
  intros [A B] [C D]. split; [apply concat_nonneg; auto|]. cbn. intro H. apply in_app_or in H. tauto.
Qed.
Lemma rSplit_step h w t : properRL h -> properTW w -> rSplit h w = Some t ->
  mapsStep h w (splitApply t) (ssuf t) /\ properTW (splitApply t).
Proof.
  intros HP PW H. destruct (rSplit_spec h w t HP PW H) as [A [B [C [D E]]]]. destruct HP as [_ [_ HM]].
  destruct (mMaps_spec (smor t) (spre t) (HM _ A) B) as [M1 [M2 M3]]. split.
  - exists (smor t), (spre t), (mMaps (smor t) (spre t)). repeat (split; [auto; fail|]). apply sameTW_refl.
  - apply properTW_concat; auto.
Qed.
Lemma mapsStep_breaks h f w w' s : respects f -> mapsStep h w w' s -> f w <> f w' -> breaks h f s.
Proof.
  intros R [m [p [p' [A [B [C [D [E [F G]]]]]]]]] N. exists m, p, p'. repeat (split; [auto; fail|]). rewrite <- (R _ _ F), <- (R _ _ G). auto.
Qed.

(** * the search for a morphism finds one *)
Lemma regionCond_equal a b d : regionCond a d -> regionCond b d -> tcEqb a b = true.
Proof.
  intros [La [[Da _] Ha]] [Lb [[Db _] Hb]]. unfold tcEqb. assert (S : tcSize a = tcSize b) by congruence. rewrite S, Nat.eqb_refl. cbn [andb].
  apply zstrictEqual_spec. intros i j Hi Hj N. destruct (pair_cases (dim a) i j Hi Hj N) as [k [l [Hkl [Hl C]]]].
  fold (tcSize a) in *. fold (colOf a l) in C. assert (Ec : colOf b l = colOf a l) by (unfold colOf; rewrite S; reflexivity).
  specialize (Ha k l Hkl Hl). rewrite S in Hl. specialize (Hb k l Hkl Hl). unfold getUpperBound, getLowerBound in *. rewrite Ec in Hb.
  assert (EQ : forall p q s, p == q -> bequiv (Fin p s) (Fin q s)) by (intros p q s E; split; apply ble_spec; destruct s; cbn; intros; lra).
  assert (G : bequiv (get a (k + 1) (colOf a l)) (get b (k + 1) (colOf a l)) /\ bequiv (get a (colOf a l) (k + 1)) (get b (colOf a l) (k + 1))).
  { destruct Ha as [z [c [e [[-> [-> [A1 [A2 A3]]]]|[-> [-> [A1 [A2 [A3 A4]]]]]]]]], Hb as [z' [c' [e' [[-> [-> [B1 [B2 B3]]]]|[-> [-> [B1 [B2 [B3 B4]]]]]]]]].
    - assert (Z : inject_Z z == inject_Z z') by lra. split; apply EQ; lra.
    - exfalso. rewrite A3 in B3, B4. rewrite <- Zlt_Qlt in B3. change 1 with (inject_Z 1) in B4. rewrite <- inject_Z_plus, <- Zlt_Qlt in B4. lia.
    - exfalso. rewrite B3 in A3, A4. rewrite <- Zlt_Qlt in A3. change 1 with (inject_Z 1) in A4. rewrite <- inject_Z_plus, <- Zlt_Qlt in A4. lia.
    - assert (z = z').
      { assert (X : inject_Z z < inject_Z z' + 1) by lra. assert (Y : inject_Z z' < inject_Z z + 1) by lra.
        change 1 with (inject_Z 1) in X, Y. rewrite <- inject_Z_plus, <- Zlt_Qlt in X, Y. lia. }
      subst. split; apply EQ; lra. }
  destruct C as [[-> ->]|[-> ->]]; apply G.
Qed.
Lemma rSplit_found h w m p : properRL h -> properTW w -> In m (rmorphs h) -> inElem (mdom m) p -> regionCond (ec (mdom m)) (td p) -> timedPrefix p w ->
  rSplit h w <> None.
Proof.
  intros HP [NW NU] Hm Ip Rp TP. unfold rSplit. cbv zeta.
  destruct (find _ (rmorphs h)) as [m'|] eqn:F; [destruct (elContains (mdom m') w); discriminate|].
  exfalso. assert (K := find_none _ _ F m Hm). cbv beta in K.
  assert (R := frFromTimedWord_regional w (proj1 NW)).
  destruct (frPrefixes_spec (mu w) _ w R NW (le_n _)) as [L [A [_ [_ [B C]]]]]. rewrite A in K by (apply prefixFuel_ok; auto). rewrite app_nil_r in K.
  destruct (C p TP) as [y [Y1 Y2]].
  assert (X : existsb (fun p => isDomain m (fel p)) L = true); [|congruence].
  apply existsb_exists. exists y. split; [auto|]. unfold isDomain, elEqb. apply andb_true_iff. split.
  - apply eqLetters_iff. destruct Y2 as [Y2 _]. destruct Ip as [Ip _]. congruence.
  - apply (regionCond_equal _ _ (td p)); [auto|apply Y2].
Qed.

(** * containment and the analysis *)
Lemma cexSplits_contains : forall fuel h w ts, cexSplits fuel h w = Some ts ->
  rContains fuel h w = Some (isFinal h (lastMapped w ts)) /\ inPrefixes h (lastMapped w ts) = true /\
  rContains fuel h (lastMapped w ts) = Some (isFinal h (lastMapped w ts)).
Proof.
  induction fuel as [|fuel IH]; intros h w ts H; [discriminate|]. cbn [cexSplits rContains] in *.
  destruct (inPrefixes h w) eqn:E.
  - injection H as <-. unfold lastMapped. cbn [map last]. rewrite E. auto.
  - destruct (rSplit h w) as [t|] eqn:ET; [|discriminate]. destruct (cexSplits fuel h (splitApply t)) as [ts'|] eqn:ES; [|discriminate]. injection H as <-.
    destruct (IH _ _ _ ES) as [A [B C]].
    assert (LM : lastMapped w (t :: ts') = lastMapped (splitApply t) ts').
    { unfold lastMapped. cbn [map]. generalize (map splitApply ts'). intro l. change (last (w :: splitApply t :: l) w) with (last (splitApply t :: l) w).
      clear. revert w. induction l as [|a l IHl] using rev_ind; intro w0; [reflexivity|]. rewrite !app_comm_cons, !last_last. reflexivity. }
    rewrite LM. split; [auto|]. split; [auto|]. rewrite B. auto.
Qed.
Lemma contains_cexSplits : forall fuel h w b, rContains fuel h w = Some b -> exists ts, cexSplits fuel h w = Some ts.
Proof.
  induction fuel as [|fuel IH]; intros h w b H; [discriminate|]. cbn [cexSplits rContains] in *.
  destruct (inPrefixes h w); [eauto|]. destruct (rSplit h w) as [t|]; [|discriminate]. destruct (IH _ _ _ H) as [ts ->]. cbn. eauto.
Qed.

Section Analysis.
  Context {St : Type} (o : mOracle St) (f : tword -> bool) (Inv : St -> Prop).
  Variables (h : rlang) (cur : list elem).
  Hypothesis HO : forall s x, Inv s -> properTW x -> exists s', o s x = Some (s', f x) /\ Inv s'.
  Hypothesis HP : properRL h.
  Hypothesis HC : forall x, In x cur -> sizedEL x.

  Lemma eval_ok r s w : Inv s -> properTW w -> exists s', cexEval o r s w = Some (s', Bool.eqb (f w) r) /\ Inv s'.
  Proof using HO. intros I P. destruct (HO s w I P) as [s' [E I']]. unfold cexEval. rewrite E. eauto. Qed.

  Lemma contained_in s : properTW s -> forallb (fun x => negb (elContains x s)) cur = false -> exists x, In x cur /\ inElem x s.
  Proof using HC.
    intros P H. apply not_true_iff_false in H. rewrite forallb_forall in H.
    assert (K : existsb (fun x => elContains x s) cur = true).
    { apply not_false_iff_true. intro K. apply H. intros x Hx. apply negb_true_iff. apply not_true_iff_false. intro E.
      assert (X : existsb (fun x => elContains x s) cur = true) by (apply existsb_exists; eauto). congruence. }
    apply existsb_exists in K. destruct K as [x [X1 X2]]. exists x. split; [auto|]. apply elContains_exactD in X2; auto; apply P.
  Qed.
  Lemma not_contained_in s : properTW s -> forallb (fun x => negb (elContains x s)) cur = true -> forall x, In x cur -> ~ inElem x s.
  Proof using HC.
    intros P H x Hx K. rewrite forallb_forall in H. specialize (H x Hx). apply elContains_exactD in K; [|apply (HC x Hx)|apply P]. rewrite K in H. discriminate.
  Qed.

  Lemma search_ok r : forall fuel w ts s, cexSplits fuel h w = Some ts -> properTW w -> Inv s ->
    exists s' res, cexSearch o cur r s w ts = Some (s', res) /\ Inv s' /\
      match res with
      | CFresh x => exists w1 w2, mapsStep h w1 w2 x /\ f w1 <> f w2 /\ (forall y, In y cur -> ~ inElem y x)
      | CNone => f w = f (lastMapped w ts) \/ exists w1 w2 x, mapsStep h w1 w2 x /\ f w1 <> f w2 /\ exists y, In y cur /\ inElem y x
      | CError => False
      end.
  Proof using HO HP HC.
    induction fuel as [|fuel IH]; intros w ts s H P I; [discriminate|]. cbn [cexSplits] in H. destruct (inPrefixes h w) eqn:E.
    - injection H as <-. cbn [cexSearch]. exists s, CNone. split; [auto|]. split; [auto|]. left. reflexivity.
    - destruct (rSplit h w) as [t|] eqn:ET; [|discriminate]. destruct (cexSplits fuel h (splitApply t)) as [ts'|] eqn:ES; [|discriminate]. injection H as <-.
      destruct (rSplit_step h w t HP P ET) as [MS PA]. destruct (rSplit_spec h w t HP P ET) as [_ [_ [_ [PS _]]]].
      cbn [cexSearch]. destruct (eval_ok r s w I P) as [s1 [-> I1]]. destruct (eval_ok r s1 (splitApply t) I1 PA) as [s2 [-> I2]].
      assert (LM : lastMapped w (t :: ts') = lastMapped (splitApply t) ts').
      { unfold lastMapped. cbn [map]. generalize (map splitApply ts'). intro l. change (last (w :: splitApply t :: l) w) with (last (splitApply t :: l) w).
        clear. revert w. induction l as [|a l IHl] using rev_ind; intro w0; [reflexivity|]. rewrite !app_comm_cons, !last_last. reflexivity. }
      destruct (IH (splitApply t) ts' s2 ES PA I2) as [s' [res [R1 [R2 R3]]]].
      destruct (negb (Bool.eqb (Bool.eqb (f w) r) (Bool.eqb (f (splitApply t)) r))) eqn:EN; cbn [andb].
      + assert (FN : f w <> f (splitApply t)) by (intro K; rewrite K, Bool.eqb_reflx in EN; discriminate).
        destruct (forallb (fun x => negb (elContains x (ssuf t))) cur) eqn:EF.
        * exists s2, (CFresh (ssuf t)). split; [auto|]. split; [auto|]. exists w, (splitApply t). split; [auto|]. split; [auto|]. apply not_contained_in; auto.
        * exists s', res. split; [auto|]. split; [auto|]. destruct res; auto. right. exists w, (splitApply t), (ssuf t). split; [auto|]. split; [auto|]. apply contained_in; auto.
      + assert (FE : f w = f (splitApply t)) by (destruct (f w), (f (splitApply t)), r; try discriminate; auto).
        exists s', res. split; [auto|]. split; [auto|]. destruct res; auto. rewrite LM, FE. auto.
  Qed.

  Lemma analyze_ok fuel w s b : rContains fuel h w = Some b -> properTW w -> Inv s ->
    exists s' res, analyzeCEX fuel h cur o s w = Some (s', res) /\ Inv s' /\
      match res with
      | CFresh x => f w <> b /\ exists w1 w2, mapsStep h w1 w2 x /\ f w1 <> f w2 /\ (forall y, In y cur -> ~ inElem y x)
      | CNone => f w <> b /\ ((exists u, inPrefixes h u = true /\ properTW u /\ f u <> isFinal h u) \/ exists w1 w2 x, mapsStep h w1 w2 x /\ f w1 <> f w2 /\ exists y, In y cur /\ inElem y x)
      | CError => f w = b
      end.
  Proof using HO HP HC.
    intros RC P I. destruct (contains_cexSplits _ _ _ _ RC) as [ts ES]. destruct (cexSplits_contains _ _ _ _ ES) as [A [B C]].
    unfold analyzeCEX. rewrite ES, C. assert (EB : b = isFinal h (lastMapped w ts)) by congruence. rewrite <- EB in *.
    destruct (eval_ok b s w I P) as [s1 [-> I1]]. destruct (Bool.eqb (f w) b) eqn:EE.
    - exists s1, CError. split; [auto|]. split; [auto|]. apply eqb_prop. auto.
    - assert (N : f w <> b) by (intro K; rewrite K, Bool.eqb_reflx in EE; discriminate).
      destruct (search_ok b fuel w ts s1 ES P I1) as [s' [res [R1 [R2 R3]]]]. exists s', res. split; [auto|]. split; [auto|].
      destruct res; [auto| |destruct R3]. split; [auto|]. destruct R3 as [R3|R3]; [left|auto].
      exists (lastMapped w ts). split; [auto|]. split; [|congruence].
      clear - ES P HP. revert w ts ES P. induction fuel as [|fuel IH]; intros w ts ES P; [discriminate|]. cbn [cexSplits] in ES. destruct (inPrefixes h w).
      + injection ES as <-. exact P.
      + destruct (rSplit h w) as [t|] eqn:ET; [|discriminate]. destruct (cexSplits fuel h (splitApply t)) as [ts'|] eqn:ES'; [|discriminate]. injection ES as <-.
        destruct (rSplit_step h w t HP P ET) as [_ PA]. specialize (IH _ _ ES' PA).
        replace (lastMapped w (t :: ts')) with (lastMapped (splitApply t) ts'); [auto|].
        unfold lastMapped. cbn [map]. generalize (map splitApply ts'). intro l. change (last (w :: splitApply t :: l) w) with (last (splitApply t :: l) w).
        clear. revert w. induction l as [|a l IHl] using rev_ind; intro w0; [reflexivity|]. rewrite !app_comm_cons, !last_last. reflexivity.
  Qed.
End Analysis.
