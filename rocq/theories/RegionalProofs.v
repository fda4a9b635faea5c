From Coq Require Import QArith ZArith Bool List Lia Lqa Qround Arith Sorted Permutation.
From Verif Require Import BoundsModel BoundsProofs ConstraintModel ZoneModel ZoneSpec ZoneProofs
  AutomatonModel TimedWordModel TimedWordSpec TimedConditionModel TimedConditionSpec TimedConditionProofs TimedConditionProofs2
  TimedConditionProofs3 ElementaryModel ElementarySpec ElementaryProofs ElementaryProofs2 RegionalModel RegionalSpec.
Import ListNotations.
Open Scope Q_scope.

(** * units *)
Lemma sameUnit_refl q : sameUnit q q. Proof. split; [reflexivity|tauto]. Qed.
Lemma sameUnit_sym p q : sameUnit p q -> sameUnit q p. Proof. intros [A B]. split; [auto|tauto]. Qed.
Lemma sameUnit_trans p q r : sameUnit p q -> sameUnit q r -> sameUnit p r.
Proof. intros [A B] [C D]. split; [congruence|tauto]. Qed.
Lemma sameRegion_refl d : sameRegion d d. Proof. split; [auto|]. intros; apply sameUnit_refl. Qed.
Lemma sameRegion_sym d e : sameRegion d e -> sameRegion e d.
Proof. intros [L H]. split; [auto|]. intros. apply sameUnit_sym. apply H; auto. lia. Qed.
Lemma sameRegion_trans a b c : sameRegion a b -> sameRegion b c -> sameRegion a c.
Proof. intros [L H] [L' H']. split; [congruence|]. intros i j Hij Hj. eapply sameUnit_trans; [apply H|apply H']; auto. lia. Qed.

Lemma unit_cases q : exists z, q == inject_Z z \/ (inject_Z z < q /\ q < inject_Z z + 1).
Proof.
  exists (Qfloor q). assert (A := Qfloor_le q). assert (B := qfloor_lt q). unfold qfloor in B.
  destruct (Qlt_le_dec (inject_Z (Qfloor q)) q); [right; auto|left; lra].
Qed.
Lemma sameUnit_point q z : q == inject_Z z -> forall p, sameUnit q p <-> p == inject_Z z.
Proof.
  intros E p. unfold sameUnit. rewrite (Qfloor_comp _ _ E), Qfloor_Z. split.
  - intros [A B]. rewrite <- A in B. apply B. exact E.
  - intro H. rewrite (Qfloor_comp _ _ H), Qfloor_Z. split; [auto|tauto].
Qed.
Lemma sameUnit_open q z : inject_Z z < q -> q < inject_Z z + 1 -> forall p, sameUnit q p <-> inject_Z z < p /\ p < inject_Z z + 1.
Proof.
  intros H1 H2 p. assert (F : Qfloor q = z) by (apply floor_unique; lra). unfold sameUnit. rewrite F. split.
  - intros [A B]. rewrite <- A in B. assert (C := Qfloor_le p). assert (D := qfloor_lt p). unfold qfloor in D. rewrite <- A in C, D.
    split; [|auto]. destruct (Qlt_le_dec (inject_Z z) p) as [|K]; [auto|]. exfalso. assert (q == inject_Z z) by (apply B; lra). lra.
  - intros [A B]. assert (F' : Qfloor p = z) by (apply floor_unique; lra). rewrite F'. split; [auto|]. split; intro; lra.
Qed.
Lemma unitBounds_sat u l q : unitBounds u l q -> forall p, bsat u p /\ bsat l (- p) <-> sameUnit q p.
Proof.
  intros [z [c [e [[-> [-> [C [E H]]]]|[-> [-> [C [E [H H']]]]]]]]] p; cbn [bsat].
  - rewrite (sameUnit_point q z H p). split; [intros [? ?]; lra|intro; split; lra].
  - rewrite (sameUnit_open q z H H' p). split; [intros [? ?]; split; lra|intros [? ?]; split; lra].
Qed.
Lemma unitBounds_same u l q p : unitBounds u l q -> sameUnit q p -> unitBounds u l p.
Proof.
  intros [z [c [e [[-> [-> [C [E H]]]]|[-> [-> [C [E [H H']]]]]]]]] S; exists z, c, e.
  - left. apply (sameUnit_point q z H) in S. auto 6.
  - right. apply (sameUnit_open q z H H') in S. destruct S. auto 8.
Qed.
Lemma unitBounds_ext u l q p : q == p -> unitBounds u l q -> unitBounds u l p.
Proof. intros E H. eapply unitBounds_same; [exact H|]. eapply sameUnit_ext; [reflexivity|exact E|apply sameUnit_refl]. Qed.
Lemma unitBounds_simple u l q : unitBounds u l q -> isSimpleB u l = true.
Proof.
  intros [z [c [e [[-> [-> [C [E H]]]]|[-> [-> [C [E [H H']]]]]]]]]; unfold isSimpleB, isPoint, isUnitOpen; apply orb_true_iff; [left|right]; cbn [negb].
  - rewrite !andb_true_r. apply Qeq_bool_iff. lra.
  - rewrite !andb_true_r. apply Qeq_bool_iff. lra.
Qed.

Lemma regionCond_exact m d : regionCond m d -> forall d', inCond m d' <-> sameRegion d d'.
Proof.
  intros [L [D H]] d'. unfold inCond, sameRegion. rewrite L. split.
  - intros [L' K]. split; [congruence|]. intros i j Hij Hj. apply (unitBounds_sat _ _ _ (H i j Hij Hj)). auto.
  - intros [L' K]. split; [congruence|]. intros i j Hij Hj. apply (unitBounds_sat _ _ _ (H i j Hij Hj)). auto.
Qed.
Lemma regionCond_simple m d : regionCond m d -> isSimple m = true.
Proof. intros [L [[D DG] H]]. apply isSimple_spec; auto. intros i j Hij Hj. eapply unitBounds_simple. apply H; auto. Qed.
Lemma regionCond_same m d d' : regionCond m d -> sameRegion d d' -> regionCond m d'.
Proof.
  intros [L [D H]] [L' R]. split; [congruence|]. split; [auto|]. intros i j Hij Hj. eapply unitBounds_same; [apply H; auto|]. apply R; auto. lia.
Qed.
Lemma simple_regionCond m d : (2 <= dim m)%nat -> nonemptyZ m -> intCond m -> isSimple m = true -> inCond m d -> regionCond m d.
Proof.
  intros D [u0 NE] I S [L H]. split; [auto|]. split; [split; [auto|]; intros k Hk; eapply bsat_ext; [|apply (NE k k Hk Hk)]; lra|]. intros i j Hij Hj.
  assert (SB := proj1 (isSimple_spec m D) S i j Hij Hj).
  assert (Hc := colOf_lt m j D Hj). assert (Hi : (i + 1 < dim m)%nat) by (unfold tcSize in *; lia).
  assert (IU : intB (getUpperBound m i j)) by (apply I; auto).
  assert (IL : intB (getLowerBound m i j)) by (apply I; auto).
  destruct (H i j Hij Hj) as [B1 B2]. unfold isSimpleB in SB. apply orb_true_iff in SB.
  destruct (getUpperBound m i j) as [c s|], (getLowerBound m i j) as [e t|]; try (cbn in SB; destruct SB; discriminate).
  destruct IU as [zu Hu], IL as [zl Hl].
  destruct SB as [SB|SB]; unfold isPoint, isUnitOpen in SB; apply andb_true_iff in SB; destruct SB as [SB S2]; apply andb_true_iff in SB; destruct SB as [SB S1];
    apply Qeq_bool_iff in SB; try apply negb_true_iff in S1; try apply negb_true_iff in S2; subst s t; cbn [bsat] in B1, B2.
  - exists zu, c, e. left. repeat (split; [first [reflexivity|lra]|]). lra.
  - exists (- zl)%Z, c, e. right. rewrite inject_Z_opp. repeat (split; [first [reflexivity|lra]|]). lra.
Qed.
Lemma tcOf_regionCond d : d <> [] -> regionCond (tcOf (accum d)) d.
Proof.
  intro N. apply simple_regionCond; [apply tcOf_ok; auto|apply tcOf_ok; auto|apply tcOf_int; auto|apply tcOf_simple; auto|].
  apply tcOf_exact; auto. apply sameRegion_refl.
Qed.

(** * closedness: region bounds are tight (off the diagonal) *)

(** * updating pairs of entries *)
Definition updPair (g : bound -> bound -> bound * bound) (m : tcond) (p : nat * nat) : tcond :=
  let r := g (get m (fst p) (snd p)) (get m (snd p) (fst p)) in
  set1 (set1 m (fst p) (snd p) (fst r)) (snd p) (fst p) (snd r).
Definition succG (u l : bound) : bound * bound :=
  if bSnd l then (bInc u 1 false, bSecond l false) else (bSecond u true, bInc l (- (1)) true).
Definition predG (u l : bound) : bound * bound :=
  if isPoint u l then (bInc u 1 false, bSecond l false) else (bSecond u true, bInc l (- (1)) true).
Definition prefG (u l : bound) : bound * bound :=
  if isPoint u l then (bSecond u false, bInc l 1 false) else (bInc u (- (1)) true, bSecond l true).
Lemma succ1_upd m i : succ1 m i = updPair succG m (i + 1, 0)%nat.
Proof. unfold succ1, updPair, succG. cbn [fst snd]. destruct (bSnd _); reflexivity. Qed.
Lemma prefix1_upd m i : prefix1 m i = updPair prefG m (i + 1, 0)%nat.
Proof. unfold prefix1, updPair, prefG. cbn [fst snd]. destruct (isPoint _ _); reflexivity. Qed.
Lemma pred1_upd m i : pred1 m i = updPair predG m (1, (i + 2) mod (dim m))%nat.
Proof. unfold pred1, updPair, predG. cbn [fst snd]. destruct (isPoint _ _); reflexivity. Qed.
Lemma suffix1_upd m i : suffix1 m i = updPair prefG m (1, colOf m i)%nat.
Proof. unfold suffix1, updPair, prefG. cbn [fst snd]. destruct (isPoint _ _); reflexivity. Qed.
Lemma dim_updPair g m p : dim (updPair g m p) = dim m.
Proof. unfold updPair. cbv zeta. rewrite !dim_set1. reflexivity. Qed.

(** the pair (a, b) after the updates *)
Lemma upd_fold g : forall ps m, 
  (forall p, In p ps -> (fst p < dim m)%nat /\ (snd p < dim m)%nat /\ fst p <> snd p) ->
  NoDup ps -> (forall p q, In p ps -> In q ps -> (fst p, snd p) <> (snd q, fst q)) ->
  dim (fold_left (updPair g) ps m) = dim m /\
  forall a b, (a < dim m)%nat -> (b < dim m)%nat ->
    (In (a, b) ps -> get (fold_left (updPair g) ps m) a b = fst (g (get m a b) (get m b a)) /\
                     get (fold_left (updPair g) ps m) b a = snd (g (get m a b) (get m b a))) /\
    (~ In (a, b) ps -> ~ In (b, a) ps -> get (fold_left (updPair g) ps m) a b = get m a b).
Proof.
  induction ps as [|p ps IH]; intros m B ND X; cbn [fold_left].
  - split; [auto|]. intros a b Ha Hb. split; [intros []|auto].
  - inversion ND as [|? ? Np ND']; subst. destruct (B p (or_introl eq_refl)) as [B1 [B2 B3]].
    set (m' := updPair g m p). assert (D' : dim m' = dim m) by apply dim_updPair.
    destruct (IH m') as [E F]; auto.
    { intros q Hq. rewrite D'. apply B; right; auto. } { intros q r Hq Hr. apply X; right; auto. }
    split; [congruence|]. intros a b Ha Hb. rewrite <- D' in Ha, Hb. destruct (F a b Ha Hb) as [F1 F2]. rewrite D' in Ha, Hb.
    assert (G : forall c e, (c < dim m)%nat -> (e < dim m)%nat -> (c, e) <> p -> (e, c) <> p -> get m' c e = get m c e).
    { intros c e Hc He N1 N2. unfold m', updPair. cbv zeta. rewrite get_set1 by (rewrite dim_set1; auto). rewrite get_set1 by auto.
      destruct ((c =? snd p)%nat && (e =? fst p)%nat) eqn:K.
      - apply andb_true_iff in K. destruct K as [K1 K2]. apply Nat.eqb_eq in K1. apply Nat.eqb_eq in K2. exfalso. apply N2. destruct p; cbn in *; congruence.
      - destruct ((c =? fst p)%nat && (e =? snd p)%nat) eqn:K'; [|reflexivity].
        apply andb_true_iff in K'. destruct K' as [K1 K2]. apply Nat.eqb_eq in K1. apply Nat.eqb_eq in K2. exfalso. apply N1. destruct p; cbn in *; congruence. }
    split.
    + intros [->|Hin].
      * assert (NI : ~ In (a, b) ps) by exact Np.
        assert (NI' : ~ In (b, a) ps).
        { intro K. apply (X (a, b) (b, a)); cbn; auto. }
        destruct (F b a ltac:(rewrite D'; auto) ltac:(rewrite D'; auto)) as [_ F2']. rewrite F2, F2' by auto.
        cbn [fst snd] in *. unfold m', updPair. cbv zeta. cbn [fst snd].
        split.
        -- rewrite get_set1 by (rewrite dim_set1; auto).
           destruct ((a =? b)%nat && (b =? a)%nat) eqn:K; [apply andb_true_iff in K; destruct K as [K _]; apply Nat.eqb_eq in K; congruence|].
           rewrite get_set1 by auto. rewrite !Nat.eqb_refl. reflexivity.
        -- rewrite get_set1 by (rewrite dim_set1; auto). rewrite !Nat.eqb_refl. reflexivity.
      * assert (N1 : (a, b) <> p) by (intro K; subst p; auto).
        assert (N2 : (b, a) <> p).
        { intro K. subst p. apply (X (b, a) (a, b)); cbn; auto. }
        destruct (F1 Hin) as [R1 R2]. rewrite R1, R2. rewrite !G by auto. auto.
    + intros N1 N2. rewrite F2; [|intro K; apply N1; right; exact K|intro K; apply N2; right; exact K]. apply G; auto; intro K; [apply N1|apply N2]; left; auto.
Qed.
