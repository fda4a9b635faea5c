From Coq Require Import QArith ZArith Bool List Lia Lqa Qround Arith Sorted Permutation.
From Verif Require Import BoundsModel BoundsProofs ConstraintModel ZoneModel ZoneSpec ZoneProofs
  AutomatonModel TimedWordModel TimedWordSpec TimedConditionModel TimedConditionSpec TimedConditionProofs TimedConditionProofs2
  TimedConditionProofs3 ElementaryModel ElementarySpec ElementaryProofs ElementaryProofs2 RegionalModel RegionalSpec RegionalProofs.
Import ListNotations.
Open Scope Q_scope.

(** * fractional parts *)
Lemma frac_bounds q : 0 <= frac q /\ frac q < 1.
Proof. unfold frac. assert (A := Qfloor_le q). assert (B := qfloor_lt q). unfold qfloor in *. split; lra. Qed.
Lemma frac_floor z q : inject_Z z <= q -> q < inject_Z z + 1 -> frac q == q - inject_Z z.
Proof. intros A B. unfold frac, qfloor. rewrite (floor_unique z q A B). reflexivity. Qed.
Lemma frac_dec q : exists z, q == inject_Z z + frac q.
Proof. exists (Qfloor q). unfold frac, qfloor. lra. Qed.
Lemma frac_of z f q : 0 <= f -> f < 1 -> q == inject_Z z + f -> frac q == f.
Proof. intros A B C. rewrite (frac_floor z q); lra. Qed.
Lemma frac_ext p q : p == q -> frac p == frac q.
Proof. intro E. destruct (frac_dec q) as [z H]. destruct (frac_bounds q). apply (frac_of z); auto. lra. Qed.
Lemma sameUnit_frac z f f' p q : p == inject_Z z + f -> q == inject_Z z + f' -> 0 < f -> f < 1 -> 0 < f' -> f' < 1 -> sameUnit p q.
Proof. intros. apply (sameUnit_open p z); lra. Qed.

(** * orders *)
Lemma ordAbove_gt : forall r lo f, ordAbove lo r f -> forall i, In i (concat r) -> lo < f i.
Proof.
  induction r as [|b r IH]; intros lo f H i Hi; [destruct Hi|]. destruct H as [_ [v [A [B C]]]]. cbn in Hi. apply in_app_iff in Hi.
  destruct Hi as [Hi|Hi]; [rewrite (B i Hi); auto|]. assert (K := IH v f C i Hi). lra.
Qed.
Lemma ordAbove_weaken r lo lo' f : lo' <= lo -> ordAbove lo r f -> ordAbove lo' r f.
Proof. destruct r as [|b r]; [auto|]. intros L [A [v [B C]]]. split; [auto|]. exists v. split; [lra|auto]. Qed.
Lemma ordAbove_shift q : forall r lo f g, ordAbove lo r f -> (forall i, In i (concat r) -> g i == f i + q) -> ordAbove (lo + q) r g.
Proof.
  induction r as [|b r IH]; intros lo f g H E; [exact I|]. destruct H as [A [v [B [C D]]]]. split; [auto|]. exists (v + q). split; [lra|].
  split.
  - intros i Hi. rewrite (E i) by (cbn; apply in_app_iff; auto). rewrite (C i Hi). reflexivity.
  - apply IH with f; auto. intros i Hi. apply E. cbn. apply in_app_iff; auto.
Qed.
Lemma ordAbove_transfer : forall r lo lo' f g, ordAbove lo r f -> (forall i, In i (concat r) -> lo' < g i) ->
  (forall i j, In i (concat r) -> In j (concat r) -> (f i < f j <-> g i < g j)) -> ordAbove lo' r g.
Proof.
  induction r as [|b r IH]; intros lo lo' f g H G E; [exact I|]. destruct H as [A [v [B [C D]]]]. split; [auto|].
  destruct b as [|i0 b]; [congruence|]. exists (g i0). split; [apply G; cbn; auto|]. split.
  - intros i Hi. destruct (Q_dec (g i) (g i0)) as [[K|K]|K]; [| |auto]; exfalso.
    + apply E in K; [|cbn in *; rewrite ?in_app_iff; tauto|cbn; auto]. rewrite (C i Hi), (C i0 (or_introl eq_refl)) in K. lra.
    + apply E in K; [|cbn; auto|cbn in *; rewrite ?in_app_iff; tauto]. rewrite (C i Hi), (C i0 (or_introl eq_refl)) in K. lra.
  - apply IH with v f; auto.
    + intros i Hi. apply E; [cbn; auto|cbn; rewrite in_app_iff; auto|]. rewrite (C i0 (or_introl eq_refl)). apply (ordAbove_gt r v f D i Hi).
    + intros i j Hi Hj. apply E; cbn; rewrite in_app_iff; auto.
Qed.
Lemma ordAbove_app : forall r b lo g v, ordAbove lo r g -> b <> [] -> lo < v -> (forall i, In i (concat r) -> g i < v) ->
  (forall i, In i b -> g i == v) -> ordAbove lo (r ++ [b]) g.
Proof.
  induction r as [|c r IH]; intros b lo g v H N L G E; cbn.
  - split; [auto|]. exists v. auto.
  - destruct H as [A [w [B [C D]]]]. split; [auto|]. exists w. split; [auto|]. split; [auto|]. apply IH with v; auto.
    + destruct c as [|i c]; [congruence|]. rewrite <- (C i (or_introl eq_refl)). apply G. cbn. auto.
    + intros i Hi. apply G. cbn. rewrite in_app_iff. auto.
Qed.
Lemma ordAbove_snoc : forall r b lo g, ordAbove lo (r ++ [b]) g -> b <> [] /\ ordAbove lo r g /\
  exists v, lo < v /\ (forall i, In i b -> g i == v) /\ (forall i, In i (concat r) -> g i < v).
Proof.
  induction r as [|c r IH]; intros b lo g H; cbn in H.
  - destruct H as [A [v [B [C _]]]]. split; [auto|]. split; [exact I|]. exists v. split; [auto|]. split; [auto|]. intros i [].
  - destruct H as [A [w [B [C D]]]]. destruct (IH b w g D) as [N [O [v [V1 [V2 V3]]]]]. split; [auto|]. split.
    + split; [auto|]. exists w. auto.
    + exists v. split; [lra|]. split; [auto|]. intros i Hi. cbn in Hi. apply in_app_iff in Hi. destruct Hi as [Hi|Hi]; [rewrite (C i Hi); auto|auto].
Qed.
Lemma ordAbove_ext r lo f g : ordAbove lo r f -> (forall i, In i (concat r) -> g i == f i) -> ordAbove lo r g.
Proof.
  intros H E. apply ordAbove_weaken with (lo + 0); [lra|]. apply ordAbove_shift with f; auto. intros i Hi. rewrite (E i Hi). lra.
Qed.
(** a bound strictly between the values and c *)
Lemma ordAbove_below r lo f c : ordAbove lo r f -> lo < c -> (forall i, In i (concat r) -> f i < c) ->
  exists m, lo <= m /\ m < c /\ forall i, In i (concat r) -> f i <= m.
Proof.
  intros H L G. destruct r as [|b0 r0] eqn:Er; [exists lo; split; [lra|]; split; [auto|]; intros i []|].
  destruct (exists_last (l := r)) as [p [b Eb]]; [congruence|]. rewrite <- Er in *. rewrite Eb in *.
  destruct (ordAbove_snoc p b lo f H) as [N [_ [v [V1 [V2 V3]]]]]. destruct b as [|i b]; [congruence|]. exists v. split; [lra|]. split.
  - rewrite <- (V2 i (or_introl eq_refl)). apply G. rewrite concat_app. apply in_app_iff. right. cbn. auto.
  - intros j Hj. rewrite concat_app in Hj. apply in_app_iff in Hj. destruct Hj as [Hj|Hj]; [apply Qlt_le_weak; auto|].
    cbn in Hj. rewrite app_nil_r in Hj. rewrite (V2 j Hj). lra.
Qed.

Lemma orderOf_in o n f : orderOf o n f -> forall i, In i (concat (blocks o)) <-> (i < n)%nat.
Proof.
  intros [_ [P _]] i. split; intro H.
  - apply (Permutation_in _ P) in H. apply in_seq in H. lia.
  - apply (Permutation_in _ (Permutation_sym P)). apply in_seq. lia.
Qed.
Lemma orderOf_nodup o n f : orderOf o n f -> NoDup (concat (blocks o)).
Proof. intros [_ [P _]]. apply (Permutation_NoDup (Permutation_sym P)). apply seq_NoDup. Qed.
Lemma orderOf_transfer o n f g : orderOf o n f ->
  (forall i, (i < n)%nat -> 0 <= g i) -> (forall i, (i < n)%nat -> (f i == 0 <-> g i == 0)) ->
  (forall i j, (i < n)%nat -> (j < n)%nat -> (f i < f j <-> g i < g j)) -> orderOf o n g.
Proof.
  intros H P Z E. assert (I := orderOf_in o n f H). destruct H as [A [B [C D]]]. split; [auto|]. split; [auto|]. split; [auto|].
  destruct (blocks o) as [|z r]; [auto|]. destruct D as [D1 D2].
  assert (I1 : forall i, In i z -> (i < n)%nat) by (intros i Hi; apply I; cbn; apply in_app_iff; auto).
  assert (I2 : forall i, In i (concat r) -> (i < n)%nat) by (intros i Hi; apply I; cbn; apply in_app_iff; auto).
  split; [intros i Hi; apply Z; auto|]. apply ordAbove_transfer with 0 f; auto.
  intros i Hi. assert (K := ordAbove_gt r 0 f D2 i Hi). assert (K' := P i (I2 i Hi)).
  destruct (Qeq_dec (g i) 0) as [e|e]; [apply Z in e; auto; lra|]. apply Qle_lteq in K'. destruct K' as [|K']; [auto|]. exfalso. apply e. rewrite K'. reflexivity.
Qed.
Lemma orderOf_ext o n f g : orderOf o n f -> (forall i, (i < n)%nat -> g i == f i) -> (forall i, (i < n)%nat -> 0 <= f i) -> orderOf o n g.
Proof.
  intros H E P. apply orderOf_transfer with f; auto; intros.
  - rewrite E by auto. auto.
  - rewrite E by auto. reflexivity.
  - rewrite !E by auto. reflexivity.
Qed.

(** * the unit of a value moves up *)
Definition unitUp (p q : Q) : Prop :=
  exists z, (p == inject_Z z /\ inject_Z z < q /\ q < inject_Z z + 1) \/ (inject_Z z < p /\ p < inject_Z z + 1 /\ q == inject_Z z + 1).
Definition moveUp (n : nat) (v v' : nat -> Q) (vars : list nat) : Prop :=
  (forall i, In i vars -> (i < n)%nat /\ unitUp (v i) (v' i)) /\
  (forall i, (i < n)%nat -> ~ In i vars -> sameUnit (v i) (v' i)).
Lemma unitUp_not p q : unitUp p q -> ~ sameUnit p q.
Proof.
  intros [z [[A [B C]]|[A [B C]]]] H.
  - apply (sameUnit_point p z A) in H. lra.
  - apply (sameUnit_open p z A B) in H. lra.
Qed.

Lemma foSucc_empty p (b : list nat) s : foSucc (mkFO ([] :: p ++ [b]) s) = mkFO (b :: p) s.
Proof.
  unfold foSucc. cbn [blocks fsize]. f_equal. destruct (p ++ [b]) as [|c l] eqn:E; [destruct p; discriminate|].
  rewrite <- E, last_last, removelast_last. reflexivity.
Qed.

Section Steps.
  Variables (o : forder) (n : nat) (v : nat -> Q).
  Hypothesis H : orderOf o n (fun i => frac (v i)).
  Hypothesis Hn : (0 < n)%nat.

  Lemma nonempty_order : exists i, In i (concat (blocks o)).
  Proof using H Hn. exists 0%nat. apply (orderOf_in _ _ _ H). auto. Qed.

  (** letting time pass reaches the successor *)
  Lemma order_succ : exists q, 0 < q /\
    (forall v', (forall i, (i < n)%nat -> v' i == v i + q) ->
       moveUp n v v' (foSuccVars o) /\ orderOf (foSucc o) n (fun i => frac (v' i))) /\
    foSuccVars o <> [] /\
    (forall e, 0 <= e -> e <= q ->
       (forall i, (i < n)%nat -> sameUnit (v i) (v i + e)) \/ (forall i, (i < n)%nat -> sameUnit (v i + q) (v i + e))).
  Proof using H Hn.
    assert (IN := orderOf_in _ _ _ H). assert (ND := orderOf_nodup _ _ _ H). destruct nonempty_order as [k Hk].
    assert (SE : forall p b, blocks o = [] :: p ++ [b] -> foSucc o = mkFO (b :: p) (fsize o))
      by (intros p b K; destruct o as [bs s]; cbn in *; subst bs; apply foSucc_empty).
    assert (SC : forall x l r, blocks o = (x :: l) :: r -> foSucc o = mkFO ([] :: blocks o) (fsize o))
      by (intros x l r K; destruct o as [bs s]; cbn in *; subst bs; reflexivity).
    destruct H as [A [B [C D]]]. unfold foSuccVars. destruct (blocks o) as [|z r] eqn:Eb; [destruct D|]. destruct D as [D1 D2].
    assert (I1 : forall i, In i z -> (i < n)%nat) by (intros i Hi; apply IN; cbn; apply in_app_iff; auto).
    assert (I2 : forall i, In i (concat r) -> (i < n)%nat) by (intros i Hi; apply IN; cbn; apply in_app_iff; auto).
    assert (SP : forall i, (i < n)%nat -> In i z \/ In i (concat r)) by (intros i Hi; apply IN in Hi; cbn in Hi; apply in_app_iff in Hi; auto).
    destruct z as [|z0 z].
    - (* no integer value: the largest fractional parts become integers *)
      destruct r as [|b0 r0] eqn:Er; [destruct Hk|]. destruct (exists_last (l := r)) as [p [b Ep]]; [congruence|]. rewrite <- Er in *. rewrite Ep in *.
      destruct (ordAbove_snoc p b 0 _ D2) as [N [O [m [M0 [M1 M2]]]]].
      assert (M3 : m < 1). { destruct b as [|i b]; [congruence|]. rewrite <- (M1 i (or_introl eq_refl)). apply frac_bounds. }
      assert (LB : last ([] :: p ++ [b]) [] = b).
      { change ([] :: p ++ [b]) with (([] :: p) ++ [b]). apply last_last. }
      rewrite (SE p b eq_refl).
      exists (1 - m). split; [lra|].
      assert (IB : forall i, In i b -> exists zz, v i == inject_Z zz + m).
      { intros i Hi. destruct (frac_dec (v i)) as [zz Hz]. exists zz. rewrite Hz at 1. rewrite (M1 i Hi). reflexivity. }
      assert (IP : forall i, In i (concat p) -> exists zz, v i == inject_Z zz + frac (v i) /\ 0 < frac (v i) /\ frac (v i) < m).
      { intros i Hi. destruct (frac_dec (v i)) as [zz Hz]. exists zz. split; [exact Hz|]. split; [apply (ordAbove_gt p 0 _ O i Hi)|apply (M2 i Hi)]. }
      assert (SPB : forall i, (i < n)%nat -> In i b \/ In i (concat p)).
      { intros i Hi. destruct (SP i Hi) as [[]|K]. rewrite concat_app in K. apply in_app_iff in K. cbn in K. rewrite app_nil_r in K. tauto. }
      assert (NB : forall i, In i b -> (i < n)%nat).
      { intros i Hi. apply I2. rewrite concat_app. apply in_app_iff. right. cbn. rewrite app_nil_r. auto. }
      split; [|split].
      + intros v' Ev. rewrite LB. split; [split|].
        * intros i Hi. split; [auto|]. destruct (IB i Hi) as [zz Hz]. exists zz. right. rewrite (Ev i (NB i Hi)). lra.
        * intros i Hi Nb. destruct (SPB i Hi) as [K|K]; [tauto|]. destruct (IP i K) as [zz [Hz [P1 P2]]].
          apply (sameUnit_open (v i) zz); [lra|lra|]. rewrite (Ev i Hi). lra.
        * cbn [blocks fsize].
          split; [auto|]. split; [|split].
          -- cbn [blocks concat]. cbn [concat app] in B. rewrite concat_app in B. cbn [concat app] in B. rewrite app_nil_r in B. eapply Permutation_trans; [|exact B]. apply Permutation_app_comm.
          -- cbn [blocks]. inversion C as [|? ? _ C']; subst. apply Forall_app in C'. destruct C' as [C1 C2]. constructor; [inversion C2; auto|auto].
          -- cbn [blocks]. split.
             ++ intros i Hi. destruct (IB i Hi) as [zz Hz]. apply (frac_of (zz + 1)); [lra|lra|]. rewrite (Ev i (NB i Hi)), inject_Z_plus. change (inject_Z 1) with 1. lra.
             ++ apply ordAbove_weaken with (0 + (1 - m)); [lra|]. apply ordAbove_shift with (fun i => frac (v i)); auto.
                intros i Hi. destruct (IP i Hi) as [zz [Hz [P1 P2]]]. apply (frac_of zz); [lra|lra|].
                rewrite (Ev i) by (apply I2; rewrite concat_app; apply in_app_iff; auto). lra.
      + rewrite LB. auto.
      + intros e He1 He2. destruct (Qlt_le_dec e (1 - m)) as [L|L].
        * left. intros i Hi. destruct (SPB i Hi) as [K|K].
          -- destruct (IB i K) as [zz Hz]. apply (sameUnit_open (v i) zz); lra.
          -- destruct (IP i K) as [zz [Hz [P1 P2]]]. apply (sameUnit_open (v i) zz); lra.
        * right. intros i Hi. eapply sameUnit_ext; [reflexivity| |apply sameUnit_refl]. lra.
    - (* the integer values become positive *)
      rewrite (SC _ _ _ eq_refl).
      set (zs := z0 :: z) in *.
      destruct (ordAbove_below r 0 _ 1 D2) as [m [M0 [M1 M2]]]; [lra|intros; apply frac_bounds|].
      exists ((1 - m) / 2). assert (Q0 : 0 < (1 - m) / 2) by (apply Qlt_shift_div_l; lra).
      assert (Q1 : (1 - m) / 2 == (1 - m) * (1 # 2)) by (field). set (q := (1 - m) / 2) in *. clearbody q.
      split; [auto|].
      assert (IZ : forall i, In i zs -> exists zz, v i == inject_Z zz).
      { intros i Hi. destruct (frac_dec (v i)) as [zz Hz]. exists zz. assert (K := D1 i Hi). cbn in K. lra. }
      assert (IP : forall i, In i (concat r) -> exists zz, v i == inject_Z zz + frac (v i) /\ 0 < frac (v i) /\ frac (v i) <= m).
      { intros i Hi. destruct (frac_dec (v i)) as [zz Hz]. exists zz. split; [exact Hz|]. split; [apply (ordAbove_gt r 0 _ D2 i Hi)|apply (M2 i Hi)]. }
      split; [|split].
      + intros v' Ev. split; [split|].
        * intros i Hi. split; [auto|]. destruct (IZ i Hi) as [zz Hz]. exists zz. left. rewrite (Ev i (I1 i Hi)). lra.
        * intros i Hi Nz. destruct (SP i Hi) as [K|K]; [tauto|]. destruct (IP i K) as [zz [Hz [P1 P2]]].
          apply (sameUnit_open (v i) zz); [lra|lra|]. rewrite (Ev i Hi). lra.
        * split; [auto|]. split; [exact B|]. split; [constructor; [constructor|exact C]|]. cbn [blocks]. split; [intros i []|].
          split; [unfold zs; congruence|]. exists q. split; [auto|]. split.
          -- intros i Hi. destruct (IZ i Hi) as [zz Hz]. apply (frac_of zz); [lra|lra|]. rewrite (Ev i (I1 i Hi)). lra.
          -- apply ordAbove_weaken with (0 + q); [lra|]. apply ordAbove_shift with (fun i => frac (v i)); auto.
             intros i Hi. destruct (IP i Hi) as [zz [Hz [P1 P2]]]. apply (frac_of zz); [lra|lra|]. rewrite (Ev i (I2 i Hi)). lra.
      + unfold zs; congruence.
      + intros e He1 He2. apply Qle_lteq in He1. destruct He1 as [P|P].
        * right. intros i Hi. destruct (SP i Hi) as [K|K].
          -- destruct (IZ i K) as [zz Hz]. apply (sameUnit_open (v i + q) zz); lra.
          -- destruct (IP i K) as [zz [Hz [P1 P2]]]. apply (sameUnit_open (v i + q) zz); lra.
        * left. intros i Hi. eapply sameUnit_ext; [reflexivity| |apply sameUnit_refl]. lra.
  Qed.

  (** taking time back reaches the predecessor *)
  Lemma order_pred : exists q, 0 < q /\
    (forall v', (forall i, (i < n)%nat -> v' i == v i - q) ->
       moveUp n v' v (foPredVars o) /\ orderOf (foPred o) n (fun i => frac (v' i))) /\
    foPredVars o <> [] /\
    (forall e, 0 <= e -> e <= q ->
       (forall i, (i < n)%nat -> sameUnit (v i) (v i - e)) \/ (forall i, (i < n)%nat -> sameUnit (v i - q) (v i - e))) /\
    (forall i, (i < n)%nat -> 0 < v i -> q <= v i).
  Proof using H Hn.
    assert (IN := orderOf_in _ _ _ H). assert (ND := orderOf_nodup _ _ _ H). destruct nonempty_order as [k Hk].
    destruct H as [A [B [C D]]]. unfold foPredVars, foPred. destruct (blocks o) as [|z r] eqn:Eb; [destruct D|]. destruct D as [D1 D2].
    assert (I1 : forall i, In i z -> (i < n)%nat) by (intros i Hi; apply IN; cbn; apply in_app_iff; auto).
    assert (I2 : forall i, In i (concat r) -> (i < n)%nat) by (intros i Hi; apply IN; cbn; apply in_app_iff; auto).
    assert (SP : forall i, (i < n)%nat -> In i z \/ In i (concat r)) by (intros i Hi; apply IN in Hi; cbn in Hi; apply in_app_iff in Hi; auto).
    assert (PV : forall zz p, 0 < p -> p == inject_Z zz -> 1 <= p).
    { intros zz p P E. assert (0 < zz)%Z by (rewrite Zlt_Qlt; change (inject_Z 0) with 0; lra).
      assert (K : inject_Z 1 <= inject_Z zz) by (rewrite <- Zle_Qle; lia). change (inject_Z 1) with 1 in K. lra. }
    assert (PF : forall zz p f, 0 < p -> p == inject_Z zz + f -> f < 1 -> f <= p).
    { intros zz p f P E L. assert (0 <= zz)%Z. { assert (-(1) < zz)%Z; [|lia]. rewrite Zlt_Qlt, inject_Z_opp. change (inject_Z 1) with 1. lra. }
      assert (K : inject_Z 0 <= inject_Z zz) by (rewrite <- Zle_Qle; lia). change (inject_Z 0) with 0 in K. lra. }
    destruct z as [|z0 z].
    - (* the smallest fractional parts become integers *)
      destruct r as [|b r]; [destruct Hk|]. cbn [hd]. destruct D2 as [N [m [M0 [M1 M2]]]].
      assert (M3 : m < 1). { destruct b as [|i b]; [congruence|]. rewrite <- (M1 i (or_introl eq_refl)). apply frac_bounds. }
      exists m. split; [auto|].
      assert (IB : forall i, In i b -> exists zz, v i == inject_Z zz + m).
      { intros i Hi. destruct (frac_dec (v i)) as [zz Hz]. exists zz. rewrite Hz at 1. rewrite (M1 i Hi). reflexivity. }
      assert (IP : forall i, In i (concat r) -> exists zz, v i == inject_Z zz + frac (v i) /\ m < frac (v i) /\ frac (v i) < 1).
      { intros i Hi. destruct (frac_dec (v i)) as [zz Hz]. exists zz. split; [exact Hz|]. split; [apply (ordAbove_gt r m _ M2 i Hi)|apply frac_bounds]. }
      assert (SPB : forall i, (i < n)%nat -> In i b \/ In i (concat r)).
      { intros i Hi. destruct (SP i Hi) as [[]|K]. cbn in K. apply in_app_iff in K. tauto. }
      assert (NB : forall i, In i b -> (i < n)%nat) by (intros i Hi; apply I2; cbn; apply in_app_iff; auto).
      split; [|split; [|split]].
      + intros v' Ev. split; [split|].
        * intros i Hi. split; [auto|]. destruct (IB i Hi) as [zz Hz]. exists zz. left. rewrite (Ev i (NB i Hi)). lra.
        * intros i Hi Nb. destruct (SPB i Hi) as [K|K]; [tauto|]. destruct (IP i K) as [zz [Hz [P1 P2]]].
          apply sameUnit_sym. apply (sameUnit_open (v i) zz); [lra|lra|]. rewrite (Ev i Hi). lra.
        * split; [auto|]. split; [exact B|]. split; [inversion C; auto|]. cbn [blocks]. split.
          -- intros i Hi. destruct (IB i Hi) as [zz Hz]. apply (frac_of zz); [lra|lra|]. rewrite (Ev i (NB i Hi)). lra.
          -- apply ordAbove_weaken with (m + - m); [lra|]. apply ordAbove_shift with (fun i => frac (v i)); auto.
             intros i Hi. destruct (IP i Hi) as [zz [Hz [P1 P2]]]. apply (frac_of zz); [lra|lra|].
             rewrite (Ev i) by (apply I2; cbn; apply in_app_iff; auto). lra.
      + auto.
      + intros e He1 He2. destruct (Qlt_le_dec e m) as [L|L].
        * left. intros i Hi. destruct (SPB i Hi) as [K|K].
          -- destruct (IB i K) as [zz Hz]. apply (sameUnit_open (v i) zz); lra.
          -- destruct (IP i K) as [zz [Hz [P1 P2]]]. apply (sameUnit_open (v i) zz); lra.
        * right. intros i Hi. eapply sameUnit_ext; [reflexivity| |apply sameUnit_refl]. lra.
      + intros i Hi P. destruct (SPB i Hi) as [K|K].
        * destruct (IB i K) as [zz Hz]. apply (PF zz); auto.
        * destruct (IP i K) as [zz [Hz [P1 P2]]]. assert (frac (v i) <= v i) by (apply (PF zz); auto). lra.
    - set (zs := z0 :: z) in *.
      (* a bound below all positive fractional parts *)
      assert (MM : exists m, 0 < m /\ m <= 1 /\ ordAbove (m * (1 # 2)) r (fun i => frac (v i)) /\ forall i, In i (concat r) -> m <= frac (v i)).
      { destruct r as [|b r]; [exists 1; split; [lra|]; split; [lra|]; split; [exact I|intros i []]|].
        destruct D2 as [N [m [M0 [M1 M2]]]]. exists m. split; [auto|]. split.
        - destruct b as [|i b]; [congruence|]. rewrite <- (M1 i (or_introl eq_refl)). apply Qlt_le_weak. apply frac_bounds.
        - split.
          + split; [auto|]. exists m. split; [lra|]. auto.
          + intros i Hi. cbn in Hi. apply in_app_iff in Hi. destruct Hi as [Hi|Hi]; [rewrite (M1 i Hi); lra|]. apply Qlt_le_weak. apply (ordAbove_gt r m _ M2 i Hi). }
      destruct MM as [m [M0 [M1 [M2 M3]]]]. exists (m * (1 # 2)). split; [lra|].
      assert (IZ : forall i, In i zs -> exists zz, v i == inject_Z zz).
      { intros i Hi. destruct (frac_dec (v i)) as [zz Hz]. exists zz. assert (K := D1 i Hi). cbn in K. lra. }
      assert (IP : forall i, In i (concat r) -> exists zz, v i == inject_Z zz + frac (v i) /\ m <= frac (v i) /\ frac (v i) < 1).
      { intros i Hi. destruct (frac_dec (v i)) as [zz Hz]. exists zz. split; [exact Hz|]. split; [apply (M3 i Hi)|apply frac_bounds]. }
      split; [|split; [|split]].
      + intros v' Ev. split; [split|].
        * intros i Hi. split; [auto|]. destruct (IZ i Hi) as [zz Hz]. exists (zz - 1)%Z. right. rewrite (Ev i (I1 i Hi)).
          unfold Z.sub. rewrite inject_Z_plus, inject_Z_opp. change (inject_Z 1) with 1. lra.
        * intros i Hi Nz. destruct (SP i Hi) as [K|K]; [tauto|]. destruct (IP i K) as [zz [Hz [P1 P2]]].
          apply sameUnit_sym. apply (sameUnit_open (v i) zz); [lra|lra|]. rewrite (Ev i Hi). lra.
        * assert (G : forall i, In i (concat r) -> frac (v' i) == frac (v i) + - (m * (1 # 2))).
          { intros i Hi. destruct (IP i Hi) as [zz [Hz [P1 P2]]]. apply (frac_of zz); [lra|lra|]. rewrite (Ev i (I2 i Hi)). lra. }
          split; [auto|]. cbn [blocks]. split; [|split].
          -- eapply Permutation_trans; [|exact B]. cbn [concat app]. rewrite concat_app. cbn [concat]. rewrite app_nil_r. apply (Permutation_app_comm (concat r) zs).
          -- inversion C as [|? ? C1 C2]; subst. constructor; [constructor|]. apply Forall_app. split; [auto|]. constructor; [auto|constructor].
          -- split; [intros i []|]. apply ordAbove_app with (1 - m * (1 # 2)).
             ++ apply ordAbove_weaken with (m * (1 # 2) + - (m * (1 # 2))); [lra|]. apply ordAbove_shift with (fun i => frac (v i)); auto.
             ++ unfold zs; congruence.
             ++ lra.
             ++ intros i Hi. rewrite (G i Hi). assert (K := frac_bounds (v i)). lra.
             ++ intros i Hi. destruct (IZ i Hi) as [zz Hz]. apply (frac_of (zz - 1)); [lra|lra|]. rewrite (Ev i (I1 i Hi)).
                unfold Z.sub. rewrite inject_Z_plus, inject_Z_opp. change (inject_Z 1) with 1. lra.
      + unfold zs; congruence.
      + intros e He1 He2. apply Qle_lteq in He1. destruct He1 as [P|P].
        * right. intros i Hi. destruct (SP i Hi) as [K|K].
          -- destruct (IZ i K) as [zz Hz]. assert (E : inject_Z (zz - 1) == inject_Z zz - 1) by (unfold Z.sub; rewrite inject_Z_plus, inject_Z_opp; reflexivity).
             apply (sameUnit_open (v i - m * (1 # 2)) (zz - 1)); rewrite E; lra.
          -- destruct (IP i K) as [zz [Hz [P1 P2]]]. apply (sameUnit_open (v i - m * (1 # 2)) zz); lra.
        * left. intros i Hi. eapply sameUnit_ext; [reflexivity| |apply sameUnit_refl]. lra.
      + intros i Hi P. destruct (SP i Hi) as [K|K].
        * destruct (IZ i K) as [zz Hz]. assert (1 <= v i) by (apply (PV zz); auto). lra.
        * destruct (IP i K) as [zz [Hz [P1 P2]]]. assert (frac (v i) <= v i) by (apply (PF zz); auto). lra.
  Qed.
End Steps.

(** successor and predecessor are inverse *)
Lemma foPred_foSucc o n f : (0 < n)%nat -> orderOf o n f -> foPred (foSucc o) = o.
Proof.
  intros Hn [A [B [C D]]]. destruct o as [bs s]. cbn [blocks fsize] in *.
  destruct bs as [|z r]; [destruct D|]. destruct D as [D1 D2]. destruct z as [|z0 z]; [|reflexivity].
  destruct r as [|b0 r0] eqn:Er.
  - exfalso. cbn in B. apply Permutation_nil in B. destruct n; [lia|discriminate].
  - destruct (exists_last (l := r)) as [p [b Ep]]; [congruence|]. rewrite <- Er in *. rewrite Ep in *.
    destruct (ordAbove_snoc p b 0 _ D2) as [N _]. rewrite foSucc_empty. unfold foPred. cbn [blocks fsize]. destruct b; [congruence|reflexivity].
Qed.
Lemma foSucc_foPred o n f : (0 < n)%nat -> orderOf o n f -> foSucc (foPred o) = o.
Proof.
  intros Hn [A [B [C D]]]. destruct o as [bs s]. cbn [blocks fsize] in *.
  destruct bs as [|z r]; [destruct D|]. destruct D as [D1 D2]. destruct z as [|z0 z].
  - destruct r as [|b r]; [|destruct D2 as [N _]; destruct b; [congruence|reflexivity]].
    exfalso. cbn in B. apply Permutation_nil in B. destruct n; [lia|discriminate].
  - unfold foPred. cbn [blocks fsize]. apply foSucc_empty.
Qed.

(** extending by a zero-valued variable *)
Lemma foExtendN_order o n f : orderOf o n f -> forall g, g n == 0 -> (forall i, (i < n)%nat -> g i == f i) -> orderOf (foExtendN o) (S n) g.
Proof.
  intros H g G0 G1. assert (IN := orderOf_in _ _ _ H). destruct H as [A [B [C D]]]. unfold foExtendN. subst n. destruct o as [bs n]. cbn [blocks fsize] in *.
  split; [reflexivity|]. destruct bs as [|z r]; [destruct D|]. destruct D as [D1 D2]. cbn [blocks]. split; [|split; [|split]].
  - cbn [concat] in *. rewrite <- app_assoc. rewrite seq_S. cbn [app Nat.add]. eapply Permutation_trans; [symmetry; apply (Permutation_middle z)|].
    eapply Permutation_trans; [apply perm_skip; exact B|]. apply Permutation_cons_append.
  - inversion C as [|? ? C1 C2]; subst. constructor; [|auto].
    assert (L : forall i, In i z -> (i < n)%nat) by (intros i Hi; apply IN; cbn; apply in_app_iff; auto). clear -C1 L.
    induction z as [|a z IH]; cbn; [constructor; constructor|]. inversion C1 as [|? ? S1 S2]; subst. constructor.
    + apply IH; auto. intros; apply L; cbn; auto.
    + apply Forall_app. split; [auto|]. constructor; [apply L; cbn; auto|constructor].
  - intros i Hi. apply in_app_iff in Hi. destruct Hi as [Hi|[<-|[]]]; [|auto]. rewrite (G1 i); [auto|]. apply IN. cbn. apply in_app_iff; auto.
  - apply ordAbove_ext with f; auto. intros i Hi. apply G1. apply IN. cbn. apply in_app_iff; auto.
Qed.
(** removing a zero-valued last variable *)
Lemma foRemoveN_order o n f : orderOf o (S n) f -> f n == 0 -> orderOf (foRemoveN o) n f.
Proof.
  intros H F0. assert (IN := orderOf_in _ _ _ H). assert (ND := orderOf_nodup _ _ _ H). destruct H as [A [B [C D]]]. unfold foRemoveN. destruct o as [bs s]. cbn [blocks fsize] in *. subst s.
  split; [cbn [fsize]; lia|]. destruct bs as [|z r]; [destruct D|]. destruct D as [D1 D2]. cbn [blocks].
  assert (Nz : In n z).
  { assert (K : In n (concat (z :: r))) by (apply IN; lia). cbn in K. apply in_app_iff in K. destruct K as [K|K]; [auto|].
    assert (X := ordAbove_gt r 0 f D2 n K). lra. }
  inversion C as [|? ? C1 C2]; subst.
  assert (L : forall i, In i z -> (i <= n)%nat). { intros i Hi. assert (K : In i (concat (z :: r))) by (cbn; apply in_app_iff; auto). apply IN in K. lia. }
  assert (E : exists z', z = z' ++ [n]).
  { destruct (exists_last (l := z)) as [z' [a Ez]]; [intro K; subst z; destruct Nz|]. exists z'. rewrite Ez in *. f_equal. f_equal.
    apply in_app_iff in Nz. destruct Nz as [Nz|[E|[]]]; [|auto]. exfalso.
    assert (a <= n)%nat by (apply L; apply in_app_iff; cbn; auto).
    assert (n < a)%nat; [|lia]. clear -C1 Nz. induction z' as [|b z' IH]; [destruct Nz|]. cbn in C1. inversion C1 as [|? ? S1 S2]; subst.
    destruct Nz as [->|Nz]; [|apply IH; auto]. rewrite Forall_forall in S2. apply S2. apply in_app_iff. cbn. auto. }
  destruct E as [z' Ez]. rewrite Ez in *. rewrite removelast_last. split; [|split; [|split]].
  - cbn [concat] in *. rewrite seq_S in B. cbn [Nat.add] in B. rewrite <- app_assoc in B. cbn [app] in B.
    apply (Permutation_app_inv z' (concat r) (seq 0 n) []) with (a := n) in B. rewrite app_nil_r in B. exact B.
  - constructor; [|auto]. clear -C1. induction z' as [|a z' IH]; [constructor|]. cbn in C1. inversion C1 as [|? ? S1 S2]; subst. apply Forall_app in S2. constructor; [apply IH; auto|tauto].
  - intros i Hi. apply D1. apply in_app_iff. auto.
  - auto.
Qed.
(** a zero-valued variable in front *)
Lemma ordAbove_map : forall r lo f g, ordAbove lo r f -> (forall i, In i (concat r) -> g (S i) == f i) -> ordAbove lo (map (map S) r) g.
Proof.
  induction r as [|b r IH]; intros lo f g H E; [exact I|]. destruct H as [A [v [B [C D]]]]. cbn. split; [destruct b; [congruence|discriminate]|].
  exists v. split; [auto|]. split.
  - intros i Hi. apply in_map_iff in Hi. destruct Hi as [j [<- Hj]]. rewrite E by (cbn; apply in_app_iff; auto). auto.
  - apply IH with f; auto. intros i Hi. apply E. cbn. apply in_app_iff; auto.
Qed.
Lemma foExtendZero_order o n f : orderOf o n f -> forall g, g 0%nat == 0 -> (forall i, (i < n)%nat -> g (S i) == f i) -> orderOf (foExtendZero o) (S n) g.
Proof.
  intros H g G0 G1. assert (IN := orderOf_in _ _ _ H). destruct H as [A [B [C D]]]. unfold foExtendZero. destruct o as [bs s]. cbn [blocks fsize] in *. subst s.
  split; [reflexivity|]. destruct bs as [|z r]; [destruct D|]. destruct D as [D1 D2]. cbn [blocks map]. split; [|split; [|split]].
  - cbn [concat app seq]. apply perm_skip. rewrite <- seq_shift. rewrite <- concat_map. rewrite <- map_app. apply Permutation_map. exact B.
  - inversion C as [|? ? C1 C2]; subst.
    assert (SM : forall b, StronglySorted lt b -> StronglySorted lt (map S b)).
    { induction 1; cbn; constructor; auto. apply Forall_forall. intros x Hx. apply in_map_iff in Hx. destruct Hx as [y [<- Hy]]. rewrite Forall_forall in H0. assert (a < y)%nat by auto. lia. }
    constructor; [constructor; [apply SM; auto|]|].
    + apply Forall_forall. intros x Hx. apply in_map_iff in Hx. destruct Hx as [y [<- _]]. lia.
    + apply Forall_forall. intros b Hb. apply in_map_iff in Hb. destruct Hb as [y [<- Hy]]. apply SM. rewrite Forall_forall in C2. auto.
  - intros i [<-|Hi]; [auto|]. apply in_map_iff in Hi. destruct Hi as [j [<- Hj]]. rewrite G1 by (apply IN; cbn; apply in_app_iff; auto). auto.
  - apply ordAbove_map with f; auto. intros i Hi. apply G1. apply IN. cbn. apply in_app_iff; auto.
Qed.
