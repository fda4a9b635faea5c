From Coq Require Import QArith ZArith Bool List Lia Lqa Qround Arith Sorted Permutation.
From Verif Require Import BoundsModel BoundsProofs ConstraintModel ZoneModel ZoneSpec ZoneProofs
  AutomatonModel TimedWordModel TimedWordSpec TimedWordProofs TimedConditionModel TimedConditionSpec TimedConditionProofs TimedConditionProofs2
  TimedConditionProofs3 TimedConditionProofs4 ElementaryModel ElementarySpec ElementaryProofs ElementaryProofs2 RegionalModel RegionalSpec RegionalProofs RegionalProofs2 RegionalProofs3 RegionalProofs4.
Import ListNotations.
Open Scope Q_scope.

(** * counting units *)
Definition uidx (q : Q) : Z := (2 * Qfloor q + (if Qeq_bool q (qfloor q) then 0 else 1))%Z.
Lemma uidx_same p q : sameUnit p q <-> uidx p = uidx q.
Proof.
  unfold sameUnit, uidx. unfold qfloor. split.
  - intros [A B]. destruct (Qeq_bool p _) eqn:E1, (Qeq_bool q _) eqn:E2; try lia.
    + apply Qeq_bool_eq in E1. apply B in E1. apply Qeq_bool_iff in E1. congruence.
    + apply Qeq_bool_eq in E2. apply B in E2. apply Qeq_bool_iff in E2. congruence.
  - intro H. assert (F : Qfloor p = Qfloor q) by (destruct (Qeq_bool p _), (Qeq_bool q _); lia). split; [auto|].
    rewrite <- !Qeq_bool_iff. destruct (Qeq_bool p _) eqn:E1, (Qeq_bool q _) eqn:E2; try tauto; lia.
Qed.
Lemma uidx_mono p q : p <= q -> (uidx p <= uidx q)%Z.
Proof.
  intro H. assert (F := Qfloor_resp_le p q H). unfold uidx, qfloor.
  destruct (Qeq_bool p _) eqn:E1, (Qeq_bool q _) eqn:E2; try lia.
  destruct (Z.eq_dec (Qfloor p) (Qfloor q)) as [E|E]; [|lia]. exfalso.
  apply Qeq_bool_eq in E2. apply Qeq_bool_false in E1. assert (A := Qfloor_le p). rewrite <- E in E2. apply E1. lra.
Qed.
Lemma uidx_ext p q : p == q -> uidx p = uidx q.
Proof. intro E. apply uidx_same. eapply sameUnit_ext; [reflexivity|exact E|apply sameUnit_refl]. Qed.
Lemma uidx_nonneg q : 0 <= q -> (0 <= uidx q)%Z.
Proof. intro H. replace 0%Z with (uidx 0) by reflexivity. apply uidx_mono. auto. Qed.

Fixpoint sumTo (n : nat) (f : nat -> Z) : Z := match n with O => 0%Z | S k => (sumTo k f + f k)%Z end.
Lemma sumTo_le n f g : (forall i, (i < n)%nat -> (f i <= g i)%Z) -> (sumTo n f <= sumTo n g)%Z.
Proof. induction n; intro H; cbn; [lia|]. assert (A := IHn (fun i Hi => H i (Nat.lt_lt_succ_r _ _ Hi))). assert (B := H n (Nat.lt_succ_diag_r n)). lia. Qed.
Lemma sumTo_eq n f g : (forall i, (i < n)%nat -> (f i <= g i)%Z) -> sumTo n f = sumTo n g -> forall i, (i < n)%nat -> f i = g i.
Proof.
  induction n; intros H E i Hi; [lia|]. cbn in E.
  assert (A := sumTo_le n f g (fun i Hi => H i (Nat.lt_lt_succ_r _ _ Hi))). assert (B := H n (Nat.lt_succ_diag_r n)).
  destruct (Nat.eq_dec i n) as [->|K]; [lia|]. apply IHn; [auto|lia|lia].
Qed.
Lemma sumTo_ext n f g : (forall i, (i < n)%nat -> f i = g i) -> sumTo n f = sumTo n g.
Proof. intro H. assert (A := sumTo_le n f g). assert (B := sumTo_le n g f). assert (X : forall i, (i < n)%nat -> (f i <= g i)%Z) by (intros; rewrite H; auto; lia). assert (Y : forall i, (i < n)%nat -> (g i <= f i)%Z) by (intros; rewrite H; auto; lia). specialize (A X). specialize (B Y). lia. Qed.
Definition vol (d : list Q) : Z := sumTo (length d) (fun i => uidx (since d i)).
Lemma vol_delay d q : 0 <= q -> (vol d <= vol (addBack d q))%Z.
Proof.
  intro H. unfold vol. rewrite addBack_length. apply sumTo_le. intros i Hi. apply uidx_mono. rewrite since_addBack by auto. lra.
Qed.
Lemma vol_same d d' : sameRegion d d' -> vol d = vol d'.
Proof. intros R. assert (L : length d = length d') by apply R. unfold vol. rewrite <- L. apply sumTo_ext. intros i Hi. apply uidx_same. apply since_same; auto. Qed.
Lemma vol_strict d q : (0 < length d)%nat -> 0 <= q -> ~ sameRegion d (addBack d q) -> (vol d < vol (addBack d q))%Z.
Proof.
  intros P H R. assert (K := vol_delay d q H). destruct (Z.eq_dec (vol d) (vol (addBack d q))) as [E|E]; [|lia]. exfalso. apply R.
  eapply sameRegion_trans; [apply sameDurs_region; apply addBack_zero|]. apply addBack_same_region; auto.
  intros i Hi. unfold vol in E. rewrite addBack_length in E.
  assert (U : sameUnit (since d i) (since (addBack d q) i)).
  { apply uidx_same. apply (sumTo_eq (length d) (fun i => uidx (since d i)) (fun i => uidx (since (addBack d q) i))); auto.
    intros k Hk. apply uidx_mono. rewrite since_addBack by auto. lra. }
  eapply sameUnit_ext; [| |exact U]; [lra|]. rewrite since_addBack by auto. lra.
Qed.
Lemma since_nonneg d i : Forall (fun q => 0 <= q) d -> 0 <= since d i.
Proof.
  intro F. unfold since, T. generalize (Datatypes.S (length d - 1) - i)%nat. intro n.
  assert (K : Forall (fun q => 0 <= q) (skipn i d)).
  { apply Forall_forall. intros x Hx. rewrite Forall_forall in F. apply F. rewrite <- (firstn_skipn i d). apply in_app_iff. auto. }
  revert n. induction K as [|x l Hx F' IH]; intros [|n]; cbn; try lra. specialize (IH n). lra.
Qed.
Lemma vol_nonneg d : Forall (fun q => 0 <= q) d -> (0 <= vol d)%Z.
Proof.
  intro F. unfold vol. replace 0%Z with (sumTo (length d) (fun _ => 0%Z)) by (induction (length d); cbn; lia).
  apply sumTo_le. intros i Hi. apply uidx_nonneg. apply since_nonneg; auto.
Qed.

(** * iterated successors *)
Lemma frSuccs_reach : forall n x w t, regionalF x w -> 0 <= t -> (vol (addBack (td w) t) - vol (td w) <= Z.of_nat n)%Z ->
  exists k, regionalF (frSuccs k x) (mkTW (tw w) (delayed (td w) t)).
Proof.
  induction n as [|n IH]; intros x w t R Ht V.
  - exists 0%nat. cbn [frSuccs]. apply (regionalF_same x w); auto. cbn [td]. unfold delayed.
    assert (P : (0 < length (td w))%nat) by (apply wfTW_pos; apply R).
    assert (K := vol_delay (td w) t Ht). assert (E : vol (td w) = vol (addBack (td w) t)) by lia. clear V K.
    destruct (frSucc_regional x w R) as [q [[Q0 [Q1 Q2]] _]]. unfold delayed in *.
    eapply sameRegion_trans; [apply sameDurs_region; apply addBack_zero|]. apply addBack_same_region; auto. intros i Hi.
    unfold vol in E. rewrite addBack_length in E.
    assert (U : sameUnit (since (td w) i) (since (addBack (td w) t) i)).
    { apply uidx_same. apply (sumTo_eq (length (td w)) (fun i => uidx (since (td w) i)) (fun i => uidx (since (addBack (td w) t) i))); auto.
      intros k Hk. apply uidx_mono. rewrite since_addBack by auto. lra. }
    eapply sameUnit_ext; [| |exact U]; [lra|]. rewrite since_addBack by auto. lra.
  - assert (P : (0 < length (td w))%nat) by (apply wfTW_pos; apply R).
    destruct (frSucc_regional x w R) as [q [[Q0 [Q1 Q2]] Q3]]. unfold delayed in *.
    destruct (Qlt_le_dec q t) as [L|L].
    + destruct (IH (frSucc x) (mkTW (tw w) (addBack (td w) q)) (t - q) Q3) as [k K]; [lra| |].
      * cbn [td]. assert (E : vol (addBack (addBack (td w) q) (t - q)) = vol (addBack (td w) t)).
        { apply vol_same. apply sameDurs_region. eapply F2Q_trans; [apply addBack_add|]. apply addBack_ext. lra. }
        assert (S := vol_strict (td w) q P ltac:(lra) Q1). lia.
      * exists (Datatypes.S k). cbn [frSuccs]. eapply regionalF_same; [exact K|reflexivity|]. cbn [td]. apply sameDurs_region.
        eapply F2Q_trans; [apply addBack_add|]. apply addBack_ext. lra.
    + destruct (Q2 t Ht L) as [S|S].
      * exists 0%nat. cbn [frSuccs]. apply (regionalF_same x w); auto.
      * exists 1%nat. cbn [frSuccs]. eapply regionalF_same; [exact Q3|reflexivity|exact S].
Qed.
Lemma frSuccs_exists : forall k x w, regionalF x w -> exists t, 0 <= t /\ regionalF (frSuccs k x) (mkTW (tw w) (delayed (td w) t)).
Proof.
  induction k as [|k IH]; intros x w R.
  - exists 0. split; [lra|]. cbn [frSuccs]. apply (regionalF_same x w); auto. apply sameDurs_region. apply addBack_zero.
  - destruct (frSucc_regional x w R) as [q [[Q0 _] Q3]]. destruct (IH _ _ Q3) as [t [T0 K]]. cbn [td tw] in K. exists (q + t). split; [lra|].
    cbn [frSuccs]. eapply regionalF_same; [exact K|reflexivity|]. cbn [td]. apply sameDurs_region. apply addBack_add.
Qed.

(** * timed prefixes *)
Lemma forall_Q a b : Forall2 Qeq a b -> Forall (fun q => 0 <= q) a -> Forall (fun q => 0 <= q) b.
Proof. induction 1; intro H'; constructor; inversion H'; subst; auto. lra. Qed.
Lemma nonneg_Q w w' : sameTW w w' -> nonnegTW w -> nonnegTW w'.
Proof.
  intros [A B] [C D]. split; [|apply (forall_Q _ _ B D)]. unfold wfTW in *. rewrite <- A. rewrite <- (Forall2_len _ _ _ B). auto.
Qed.
Lemma addBack_nonneg d q : Forall (fun x => 0 <= x) d -> 0 <= q -> Forall (fun x => 0 <= x) (addBack d q).
Proof.
  intros F H. induction d as [|x [|y r] IH]; [constructor| |].
  - inversion F; subst. constructor; [lra|constructor].
  - inversion F; subst. cbn [addBack]. constructor; [auto|]. apply IH; auto.
Qed.
Lemma concat_nonneg p y : nonnegTW p -> nonnegTW y -> nonnegTW (concatTW p y).
Proof.
  intros [A B] [C D]. split; [apply concat_wf; auto|]. cbn [concatTW td]. destruct (td y) as [|q r]; cbn [hd tl].
  - rewrite app_nil_r. apply addBack_nonneg; auto. lra.
  - inversion D; subst. apply Forall_app. split; [apply addBack_nonneg; auto|auto].
Qed.
Lemma timedPrefix_trans p q r : timedPrefix p q -> timedPrefix q r -> timedPrefix p r.
Proof.
  intros [A [y [B C]]] [D [z [E F]]]. split; [auto|]. exists (concatTW y z). split; [apply concat_nonneg; auto|].
  eapply sameTW_trans; [exact F|]. eapply sameTW_trans; [apply concat_Q; [exact C|apply sameTW_refl]|]. apply concat_assoc; [apply A|apply B|apply E].
Qed.
Lemma timedPrefix_same p w w' : timedPrefix p w -> sameTW w w' -> timedPrefix p w'.
Proof. intros [A [y [B C]]] S. split; [auto|]. exists y. split; [auto|]. eapply sameTW_trans; [apply sameTW_sym; exact S|auto]. Qed.
Lemma timedPrefix_refl w : nonnegTW w -> timedPrefix w w.
Proof.
  intro N. split; [auto|]. exists emptyTW. split; [split; [reflexivity|repeat constructor; lra]|]. apply sameTW_sym. apply concat_unit_r. apply N.
Qed.
Lemma nonneg_last d : Forall (fun q => 0 <= q) d -> 0 <= since d (length d - 1). Proof. apply since_nonneg. Qed.
Lemma since_last l t : since (l ++ [t]) (length (l ++ [t]) - 1) == t.
Proof.
  unfold since. rewrite app_length. cbn [length]. replace (length l + 1 - 1)%nat with (length l) by lia. rewrite T_snoc_last by lia. rewrite Nat.ltb_irrefl. lra.
Qed.
(** taking back time *)
Lemma timedPrefix_back w q : nonnegTW w -> 0 <= q -> q <= since (td w) (length (td w) - 1) -> timedPrefix (mkTW (tw w) (addBack (td w) (- q))) w.
Proof.
  intros [W N] Q0 Q1. destruct (snoc_wf w W) as [d [t [Ed Ld]]]. rewrite Ed in *. rewrite since_last in Q1. rewrite addBack_snoc.
  apply Forall_app in N. destruct N as [N1 N2]. split.
  - split; [unfold wfTW; cbn; rewrite app_length; cbn; lia|]. cbn [td]. apply Forall_app. split; [auto|]. constructor; [lra|constructor].
  - exists (mkTW [] [q]). split; [split; [reflexivity|repeat constructor; auto]|]. split; cbn [concatTW tw td]; [rewrite app_nil_r; auto|].
    cbn [hd tl]. rewrite app_nil_r, addBack_snoc, Ed. apply F2Q_app; [apply F2Q_refl|]. constructor; [lra|constructor].
Qed.

Definition mu (w : tword) : nat := (length (tw w) + Z.to_nat (vol (td w)))%nat.
Lemma vol_snoc_zero d t : d <> [] -> t == 0 -> vol (d ++ [t]) = vol d.
Proof.
  intros N E. unfold vol. rewrite app_length. cbn [length]. rewrite Nat.add_1_r. cbn [sumTo].
  assert (Z0 : uidx (since (d ++ [t]) (length d)) = 0%Z).
  { replace 0%Z with (uidx 0) by reflexivity. apply uidx_ext. assert (K := since_last d t). rewrite app_length in K. cbn [length] in K.
    replace (length d + 1 - 1)%nat with (length d) in K by lia. rewrite K. auto. }
  rewrite Z0, Z.add_0_r. apply sumTo_ext. intros i Hi. apply uidx_ext. unfold since. rewrite app_length. cbn [length].
  replace (length d + 1 - 1)%nat with (length d) by lia. rewrite T_snoc_last by lia. replace ((i <? length d)%nat) with true by (symmetry; apply Nat.ltb_lt; auto). lra.
Qed.

Lemma frPrefixes_spec : forall n x w, regionalF x w -> nonnegTW w -> (mu w <= n)%nat ->
  exists L, (forall fuel acc, (n < fuel)%nat -> frPrefixes fuel x acc = L ++ acc) /\ In x L /\
    (exists L', L = L' ++ [x]) /\
    (forall y, In y L -> exists w', timedPrefix w' w /\ regionalF y w') /\
    (forall w', timedPrefix w' w -> exists y, In y L /\ regionalF y w').
Proof.
  induction n as [n IH] using lt_wf_ind. intros x w R N Mu.
  assert (W := proj1 N). assert (P := wfTW_pos w W). assert (SL := nonneg_last _ (proj2 N)).
  destruct (snoc_wf w W) as [d [t [Ed Ld]]].
  assert (FP := frPrefix_regional x w R SL). destruct (frImmediatePrefix x) as [y|] eqn:Ex.
  - destruct FP as [[Z0 [w0 [a [W0 [S0 R0]]]]]|[q [Nq [Lq Rq]]]].
    + (* discrete *)
      assert (E0 : t == 0) by (rewrite Ed, since_last in Z0; auto).
      assert (NN0 : nonnegTW w0).
      { split; [auto|]. destruct (nonneg_Q _ _ S0 N) as [_ K]. cbn [concatChar td] in K. apply Forall_app in K. apply K. }
      assert (D0 : td w0 <> []) by (intro K; unfold wfTW in W0; rewrite K in W0; discriminate).
      assert (M : (mu w0 < mu w)%nat).
      { unfold mu. destruct S0 as [S1 S2]. cbn [concatChar tw td] in S1, S2. rewrite (vol_same _ _ (sameDurs_region _ _ S2)), vol_snoc_zero by (auto; lra).
        rewrite S1, app_length. cbn [length]. lia. }
      destruct (IH (mu w0) ltac:(lia) y w0 R0 NN0 (le_n _)) as [L [F [_ [_ [So Co]]]]].
      exists (L ++ [x]). split; [|split; [|split; [|split]]].
      * intros fuel acc Hf. destruct fuel as [|fuel]; [lia|]. cbn [frPrefixes]. rewrite Ex. rewrite F by lia. rewrite <- app_assoc. reflexivity.
      * apply in_app_iff. cbn. auto.
      * exists L. auto.
      * assert (PW : timedPrefix w0 w).
        { split; [auto|]. exists (mkTW [a] [0; 0]). split; [split; [reflexivity|repeat constructor; lra]|].
          eapply sameTW_trans; [exact S0|]. split; [reflexivity|]. cbn [concatChar concatTW td hd tl]. apply F2Q_app; [apply addBack_zero|apply F2Q_refl]. }
        intros z Hz. apply in_app_iff in Hz. destruct Hz as [Hz|[<-|[]]].
        -- destruct (So z Hz) as [w' [K1 K2]]. exists w'. split; [eapply timedPrefix_trans; eauto|auto].
        -- exists w. split; [apply timedPrefix_refl; auto|auto].
      * intros w' [Nw' [v [Nv Sv]]]. destruct (snoc_wf v (proj1 Nv)) as [e [s [Ee Le]]]. destruct Sv as [Sv1 Sv2]. cbn [concatTW tw td] in Sv1, Sv2.
        destruct S0 as [S01 S02]. cbn [concatChar tw td] in S01, S02.
        destruct (exists_last (l := td w')) as [d' [t' Ed']]; [intro K; destruct Nw' as [K' _]; unfold wfTW in K'; rewrite K in K'; discriminate|].
        assert (Nt' : 0 <= t'). { destruct Nw' as [_ K]. rewrite Ed' in K. apply Forall_app in K. destruct K as [_ K]. inversion K; auto. }
        assert (Ns : 0 <= s). { destruct Nv as [_ K]. rewrite Ee in K. apply Forall_app in K. destruct K as [_ K]. inversion K; auto. }
        destruct e as [|e0 e].
        -- (* only a delay, which must be zero *)
           assert (tw v = []) by (destruct (tw v); [auto|cbn in Le; lia]). rewrite H, app_nil_r in Sv1. cbn [app] in Ee. rewrite Ee in Sv2. cbn [hd tl] in Sv2. rewrite app_nil_r in Sv2.
           assert (s == 0).
           { rewrite Ed, Ed', addBack_snoc in Sv2. apply Forall2_app_inv_l in Sv2. destruct Sv2 as [l1 [l2 [X1 [X2 X3]]]].
             inversion X2 as [|? ? ? ? X4 X5]; subst. inversion X5; subst. apply app_inj_tail in X3. destruct X3 as [_ X3]. rewrite <- X3 in X4. lra. }
           exists x. split; [apply in_app_iff; cbn; auto|]. apply (regionalF_same x w); auto. apply sameDurs_region. eapply F2Q_trans; [exact Sv2|].
           apply F2Q_sym. eapply F2Q_trans; [apply addBack_zero|]. apply addBack_ext. lra.
        -- destruct (exists_last (l := tw v)) as [l0 [b Eb]]; [intro K; rewrite K in Le; discriminate|].
           assert (PW : timedPrefix w' w0).
           { split; [auto|]. exists (mkTW l0 (e0 :: e)). split.
             - split; [unfold wfTW; cbn; rewrite Eb, app_length in Le; cbn in Le; lia|]. destruct Nv as [_ K]. rewrite Ee in K. apply Forall_app in K. apply K.
             - rewrite S01, Eb, app_assoc in Sv1. apply app_inj_tail in Sv1. destruct Sv1 as [Sv1 _]. split; [exact Sv1|]. cbn [concatTW td hd tl].
               rewrite Ee in Sv2. cbn [app hd tl] in Sv2. rewrite app_assoc in Sv2.
               assert (X : Forall2 Qeq (td w0 ++ [0]) ((addBack (td w') e0 ++ e) ++ [s])) by (eapply F2Q_trans; [apply F2Q_sym; exact S02|exact Sv2]).
               apply Forall2_app_inv_l in X. destruct X as [l1 [l2 [X1 [X2 X3]]]]. inversion X2 as [|? ? ? ? X4 X5]; subst. inversion X5; subst.
               apply app_inj_tail in X3. destruct X3 as [X3 _]. rewrite X3. exact X1. }
           destruct (Co w' PW) as [z [Z1 Z2]]. exists z. split; [apply in_app_iff; auto|auto].
    + (* continuous *)
      assert (Q0 : 0 < q) by apply Nq.
      assert (PW : timedPrefix (mkTW (tw w) (addBack (td w) (- q))) w) by (apply timedPrefix_back; auto; lra).
      assert (BD : sameDurs (addBack (addBack (td w) (- q)) q) (td w)).
      { eapply F2Q_trans; [apply addBack_add|]. apply F2Q_sym. eapply F2Q_trans; [apply addBack_zero|]. apply addBack_ext. lra. }
      assert (M : (mu (mkTW (tw w) (addBack (td w) (- q))) < mu w)%nat).
      { unfold mu. cbn [tw td]. assert (V := vol_strict (addBack (td w) (- q)) q ltac:(rewrite addBack_length; auto) ltac:(lra)).
        rewrite (vol_same _ _ (sameDurs_region _ _ BD)) in V. assert (V0 : (0 <= vol (addBack (td w) (- q)))%Z) by (apply vol_nonneg; apply PW).
        assert (vol (addBack (td w) (- q)) < vol (td w))%Z; [|lia]. apply V. intro K. destruct Nq as [_ [K' _]]. apply K'.
        apply sameRegion_sym. eapply sameRegion_trans; [exact K|]. apply sameDurs_region. exact BD. }
      destruct (IH (mu (mkTW (tw w) (addBack (td w) (- q)))) ltac:(lia) y _ Rq ltac:(apply PW) (le_n _)) as [L [F [Iy [_ [So Co]]]]].
      exists (L ++ [x]). split; [|split; [|split; [|split]]].
      * intros fuel acc Hf. destruct fuel as [|fuel]; [lia|]. cbn [frPrefixes]. rewrite Ex. rewrite F by lia. rewrite <- app_assoc. reflexivity.
      * apply in_app_iff. cbn. auto.
      * exists L. auto.
      * intros z Hz. apply in_app_iff in Hz. destruct Hz as [Hz|[<-|[]]].
        -- destruct (So z Hz) as [w' [K1 K2]]. exists w'. split; [eapply timedPrefix_trans; eauto|auto].
        -- exists w. split; [apply timedPrefix_refl; auto|auto].
      * intros w' [Nw' [v [Nv Sv]]]. destruct (snoc_wf v (proj1 Nv)) as [e [s [Ee Le]]]. destruct Sv as [Sv1 Sv2]. cbn [concatTW tw td] in Sv1, Sv2.
        assert (Ns : 0 <= s). { destruct Nv as [_ K]. rewrite Ee in K. apply Forall_app in K. destruct K as [_ K]. inversion K; auto. }
        destruct e as [|e0 e].
        -- assert (tw v = []) by (destruct (tw v); [auto|cbn in Le; lia]). rewrite H, app_nil_r in Sv1. cbn [app] in Ee. rewrite Ee in Sv2. cbn [hd tl] in Sv2. rewrite app_nil_r in Sv2.
           assert (Wd : sameDurs (td w') (addBack (td w) (- s))).
           { apply F2Q_sym. assert (X : forall a b c, sameDurs a b -> sameDurs (addBack a c) (addBack b c)).
             { clear. intros a b c S. induction S as [|x y l l' E F IH]; [constructor|]. destruct F; cbn [addBack] in *; constructor; auto; try lra. }
             eapply F2Q_trans; [apply X; exact Sv2|]. eapply F2Q_trans; [apply addBack_add|]. apply F2Q_sym. eapply F2Q_trans; [apply addBack_zero|]. apply addBack_ext. lra. }
           destruct (Qlt_le_dec q s) as [Ls|Ls].
           ++ destruct (Co w') as [z [Z1 Z2]].
              { split; [auto|]. exists (mkTW [] [s - q]). split; [split; [reflexivity|constructor; [lra|constructor]]|]. split; [cbn; rewrite app_nil_r; auto|].
                cbn [concatTW td hd tl]. rewrite app_nil_r.
                assert (X : forall a b c, sameDurs a b -> sameDurs (addBack a c) (addBack b c)).
                { clear. intros a b c S. induction S as [|x y l l' E F IH]; [constructor|]. destruct F; cbn [addBack] in *; constructor; auto; try lra. }
                apply F2Q_sym. eapply F2Q_trans; [apply X; exact Wd|]. eapply F2Q_trans; [apply addBack_add|]. apply addBack_ext. lra. }
              exists z. split; [apply in_app_iff; auto|auto].
           ++ destruct Nq as [_ [_ Nq]]. destruct (Nq s Ns Ls) as [K|K]; unfold delayed in K.
              ** exists x. split; [apply in_app_iff; cbn; auto|]. apply (regionalF_same x w); auto. eapply sameRegion_trans; [exact K|]. apply sameDurs_region. apply F2Q_sym. exact Wd.
              ** exists y. split; [apply in_app_iff; auto|]. eapply regionalF_same; [exact Rq|cbn; auto|]. cbn [td]. unfold delayed. eapply sameRegion_trans; [exact K|]. apply sameDurs_region. apply F2Q_sym. exact Wd.
        -- rewrite Ee in Sv2. cbn [app hd tl] in Sv2. rewrite app_assoc in Sv2.
           assert (X : t == s /\ Forall2 Qeq d (addBack (td w') e0 ++ e)).
           { rewrite Ed in Sv2. apply Forall2_app_inv_l in Sv2. destruct Sv2 as [l1 [l2 [X1 [X2 X3]]]]. inversion X2 as [|? ? ? ? X4 X5]; subst. inversion X5; subst.
             apply app_inj_tail in X3. destruct X3 as [X3 X6]. subst. split; auto. }
           destruct X as [Xt Xd]. rewrite Ed, since_last in Lq.
           destruct (Co w') as [z [Z1 Z2]].
           { split; [auto|]. exists (mkTW (tw v) (e0 :: e ++ [s - q])). split.
             - split; [unfold wfTW; cbn; rewrite app_length; cbn in *; lia|]. destruct Nv as [_ K]. rewrite Ee in K. cbn [app] in K. inversion K as [|? ? K1 K2]; subst.
               apply Forall_app in K2. cbn [td]. constructor; [auto|]. apply Forall_app. split; [apply K2|]. constructor; [lra|constructor].
             - split; [exact Sv1|]. cbn [concatTW td hd tl]. rewrite Ed, addBack_snoc, app_assoc. apply F2Q_app; [exact Xd|]. constructor; [lra|constructor]. }
           exists z. split; [apply in_app_iff; auto|auto].
  - destruct FP as [T0 Z0]. exists [x]. split; [|split; [cbn; auto|split; [exists []; auto|split]]].
    + intros fuel acc Hf. destruct fuel as [|fuel]; [lia|]. cbn [frPrefixes]. rewrite Ex. reflexivity.
    + intros y [<-|[]]. exists w. split; [apply timedPrefix_refl; auto|auto].
    + intros w' [Nw' [v [Nv Sv]]]. exists x. split; [cbn; auto|]. destruct Sv as [Sv1 Sv2]. cbn [concatTW tw td] in Sv1, Sv2. rewrite T0 in Sv1.
      symmetry in Sv1. apply app_eq_nil in Sv1. destruct Sv1 as [Tw' Tv]. apply (regionalF_same x w); [auto|congruence|]. apply sameDurs_region.
      assert (Lw : length d = 0%nat) by (rewrite Ld, T0; reflexivity). destruct d; [|discriminate]. cbn [app] in Ed. rewrite Ed in *.
      destruct Nw' as [Ww' Nw']. destruct Nv as [Wv Nv]. unfold wfTW in Ww', Wv. rewrite Tw' in Ww'. rewrite Tv in Wv.
      destruct (td w') as [|a [|? ?]]; try discriminate. destruct (td v) as [|b [|? ?]]; try discriminate. cbn [addBack hd tl app] in Sv2.
      inversion Sv2; subst. inversion Nw'; subst. inversion Nv; subst. unfold since, T in Z0. cbn in Z0. constructor; [lra|constructor].
Qed.

(** * every member of a region extends in the same way *)
Lemma concat_step p a t : sameTW (concatTW p (mkTW [] [t])) (mkTW (tw p) (addBack (td p) t)) /\
  (wfTW p -> forall l d, sameTW (concatTW p (mkTW (a :: l) (t :: d))) (concatTW (concatChar (mkTW (tw p) (addBack (td p) t)) a) (mkTW l d)) \/ d = []).
Proof.
  split; [split; cbn; [rewrite app_nil_r; auto|rewrite app_nil_r; apply F2Q_refl]|]. intros W l d. destruct d as [|s d]; [right; auto|left].
  split; [cbn; rewrite <- app_assoc; reflexivity|]. cbn [concatTW concatChar td hd tl]. rewrite addBack_snoc, <- app_assoc. apply F2Q_app; [apply F2Q_refl|]. cbn [app]. constructor; [lra|apply F2Q_refl].
Qed.
Lemma addBack_congr a b c : sameDurs a b -> sameDurs (addBack a c) (addBack b c).
Proof. intro S. induction S as [|x y l l' E F IH]; [constructor|]. destruct F; cbn [addBack] in *; constructor; auto; try lra. Qed.
Lemma extend_same : forall l d p w w', nonnegTW (mkTW l d) -> regionalF p w -> regionalF p w' ->
  exists y', nonnegTW y' /\ tw y' = l /\ exists x, regionalF x (concatTW w (mkTW l d)) /\ regionalF x (concatTW w' y').
Proof.
  induction l as [|a l IH]; intros d p w w' [W N] R R'; unfold wfTW in W; cbn [tw td length] in *.
  - destruct d as [|t [|? ?]]; try discriminate. inversion N; subst.
    destruct (frSuccs_reach (Z.to_nat (vol (addBack (td w) t) - vol (td w))) p w t R) as [k K]; [auto|lia|].
    destruct (frSuccs_exists k p w' R') as [t' [T0 K']]. exists (mkTW [] [t']). split; [split; [reflexivity|constructor; auto]|]. split; [reflexivity|].
    exists (frSuccs k p). destruct (proj1 (concat_step w 0%nat t)) as [C1 C2]. destruct (proj1 (concat_step w' 0%nat t')) as [C1' C2'].
    split; [eapply regionalF_same; [exact K|exact C1|apply sameDurs_region; apply F2Q_sym; exact C2]|eapply regionalF_same; [exact K'|exact C1'|apply sameDurs_region; apply F2Q_sym; exact C2']].
  - destruct d as [|t d]; [discriminate|]. inversion N as [|? ? N1 N2]; subst.
    destruct (frSuccs_reach (Z.to_nat (vol (addBack (td w) t) - vol (td w))) p w t R) as [k K]; [auto|lia|].
    destruct (frSuccs_exists k p w' R') as [t' [T0 K']].
    apply (frSuccAct_regional _ _ a) in K. apply (frSuccAct_regional _ _ a) in K'.
    destruct (IH d _ _ _ ltac:(split; [unfold wfTW; cbn in *; lia|exact N2]) K K') as [y' [[Wy Ny] [Ty [x [X1 X2]]]]].
    assert (Wd : d <> []) by (intro; subst; cbn in W; lia).
    assert (Wy' : td y' <> []) by (intro E; unfold wfTW in Wy; rewrite E in Wy; discriminate).
    exists (mkTW (a :: l) (t' :: td y')). split; [split; [unfold wfTW in *; cbn; rewrite Wy, Ty; auto|constructor; auto]|]. split; [reflexivity|]. exists x.
    destruct (proj2 (concat_step w a t) ltac:(apply R) l d) as [[C1 C2]|C]; [|congruence].
    destruct (proj2 (concat_step w' a t') ltac:(apply R') l (td y')) as [[C1' C2']|C]; [|congruence].
    split; [eapply regionalF_same; [exact X1|exact C1|apply sameDurs_region; apply F2Q_sym; exact C2]|].
    destruct y' as [ly dy]. cbn [tw td] in *. subst ly. eapply regionalF_same; [exact X2|exact C1'|apply sameDurs_region; apply F2Q_sym; exact C2'].
Qed.
Lemma regionalF_extension p x w w' v : regionalF p w -> regionalF p w' -> nonnegTW w' -> timedPrefix w v -> regionalF x v ->
  exists v', timedPrefix w' v' /\ regionalF x v'.
Proof.
  intros R R' N' [N [y [Ny S]]] X. destruct y as [l d]. destruct (extend_same l d p w w' Ny R R') as [y' [Ny' [Ty [z [Z1 Z2]]]]].
  exists (concatTW w' y'). split; [split; [auto|]; exists y'; split; [auto|apply sameTW_refl]|].
  assert (M1 := proj1 (regionalF_members z _ v Z1)). 
  assert (S' := sameTW_sym _ _ S).
  apply (regionalF_same x v); auto.
  - cbn [concatTW tw]. rewrite Ty. destruct S as [-> _]. cbn [concatTW tw]. assert (tw w' = tw w) by (destruct R as [-> _]; destruct R' as [-> _]; auto). congruence.
  - assert (K := proj1 (regionalF_members z _ (concatTW w' y') Z1)). destruct K as [_ K].
    { destruct Z2 as [A [B [C D]]]. split; [auto|]. apply (regionCond_exact _ _ C). apply sameRegion_refl. }
    eapply sameRegion_trans; [|exact K]. apply sameDurs_region. apply S.
Qed.
