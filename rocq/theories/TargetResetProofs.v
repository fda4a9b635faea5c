(** Proofs about applyResets(resets, targetClockSize). *)
From Coq Require Import QArith Qround ZArith Bool List Arith Lia Lqa.
From Verif Require Import BoundsModel BoundsProofs ConstraintModel GuardSpec ZoneModel ZoneSpec ZoneProofs ZoneProofs2 ZoneProofs3 AutomatonSpec AutomatonProofs TimedConditionModel TimedConditionSpec TimedConditionProofs
  TimedConditionProofs2 TimedWordModel TimedWordSpec ElementaryModel ElementarySpec ElementaryProofs RegionalModel RegionalSpec RegionalProofs RegionalProofs4 CexProofs ResetSpec ConditionResets TargetResetModel TargetResetSpec.
Import ListNotations.
Open Scope Q_scope.

(** ** conditions built by forced bounds on distinct entries *)
Definition fromBounds (m : matrix) (E : list (nat * nat * bound)) : Prop :=
  (forall x y b, In (x, y, b) E -> (x < dim m)%nat /\ (y < dim m)%nat /\ forall d, bsat (get m x y) d -> bsat b d) /\
  (forall v, (forall x y b, In (x, y, b) E -> bsat b (ext v x - ext v y)) -> inZone m v).
Lemma fromBounds_exact m E v : fromBounds m E -> (inZone m v <-> forall x y b, In (x, y, b) E -> bsat b (ext v x - ext v y)).
Proof.
  intros [A B]. split; [|apply B]. intros H x y b Hb. destruct (A x y b Hb) as [Hx [Hy I]]. apply I. apply inZone_Z in H. apply H; auto.
Qed.
Lemma fromBounds_force m E x y b : fromBounds m E -> (x < dim m)%nat -> (y < dim m)%nat -> (forall b', ~ In (x, y, b') E) ->
  fromBounds (canonize (set1 m x y b)) ((x, y, b) :: E).
Proof.
  intros [A B] Hx Hy F. assert (DM : dim (canonize (set1 m x y b)) = dim m) by (rewrite dim_canonize, dim_set1; reflexivity).
  assert (ML : forall i j, (i < dim m)%nat -> (j < dim m)%nat -> forall d, bsat (get (canonize (set1 m x y b)) i j) d -> bsat (get (set1 m x y b) i j) d).
  { intros i j Hi Hj d H. destruct (canonize_mle (set1 m x y b)) as [_ L]. rewrite dim_canonize, dim_set1 in L. eapply ble_sat_1; [apply L; auto|exact H]. }
  split.
  - intros i j c Hc. rewrite DM. destruct Hc as [Hc|Hc].
    + injection Hc as <- <- <-. split; [auto|]. split; [auto|]. intros d H. apply ML in H; auto. rewrite get_set1 in H by auto. rewrite !Nat.eqb_refl in H. exact H.
    + destruct (A i j c Hc) as [Hi [Hj K]]. split; [auto|]. split; [auto|]. intros d H. apply ML in H; auto. rewrite get_set1 in H by auto. destruct ((i =? x)%nat && (j =? y)%nat) eqn:E1; [|apply K; exact H].
      apply andb_true_iff in E1. rewrite !Nat.eqb_eq in E1. destruct E1 as [-> ->]. exfalso. exact (F c Hc).
  - intros v H. apply canonize_inZone. apply inZone_Z. intros i j Hi Hj. rewrite dim_set1 in *. rewrite get_set1 by auto. destruct ((i =? x)%nat && (j =? y)%nat) eqn:E1.
    + apply andb_true_iff in E1. rewrite !Nat.eqb_eq in E1. destruct E1 as [-> ->]. apply H. left. reflexivity.
    + assert (I : inZone m v) by (apply B; intros i' j' c Hc; apply H; right; exact Hc). apply inZone_Z in I. apply I; auto.
Qed.

(** the bounds of [E] are at entries whose larger index satisfies K, and mean C *)
Definition builtFrom (n : nat) (m : matrix) (K : nat -> nat -> Prop) (C : (nat -> Q) -> Prop) : Prop :=
  dim m = n /\ exists E, fromBounds m E /\ (forall x y b, In (x, y, b) E -> K x y) /\ (forall v, (forall x y b, In (x, y, b) E -> bsat b (ext v x - ext v y)) <-> C v).
Lemma built_weaken n m (K K' : nat -> nat -> Prop) (C C' : (nat -> Q) -> Prop) : builtFrom n m K C -> (forall x y, K x y -> K' x y) -> (forall v, C v <-> C' v) -> builtFrom n m K' C'.
Proof. intros (D & E & F & HK & HC) A B. split; [exact D|]. exists E. split; [exact F|]. split; [eauto|]. intro v. rewrite HC. apply B. Qed.
Lemma built_force n m K C i j q : builtFrom n m K C -> (S i < n)%nat -> (colOf m j < n)%nat -> colOf m j <> S i -> ~ K (S i) (colOf m j) -> ~ K (colOf m j) (S i) ->
  builtFrom n (forceUnit m i j q) (fun x y => K x y \/ (x = S i /\ y = colOf m j) \/ (x = colOf m j /\ y = S i)) (fun v => C v /\ sameUnit q (v i - ext v (colOf m j))).
Proof.
  intros (D & E & F & HK & HC) Hi Hj NE N1 N2.
  assert (G : forall l s u s', (forall p, sameUnit q p <-> bsat (Fin l s) (0 - p) /\ bsat (Fin u s') (p - 0)) ->
    builtFrom n (restrictUpperBound (restrictLowerBound m i j (Fin l s) true) i j (Fin u s') true) (fun x y => K x y \/ (x = S i /\ y = colOf m j) \/ (x = colOf m j /\ y = S i)) (fun v => C v /\ sameUnit q (v i - ext v (colOf m j)))).
  { intros l s u s' U. unfold restrictUpperBound, restrictLowerBound. replace (i + 1)%nat with (S i) by lia. set (c := colOf m j) in *. set (m1 := canonize (set1 m c (S i) (Fin l s))).
    assert (D1 : dim m1 = n) by (unfold m1; rewrite dim_canonize, dim_set1; exact D). assert (CO : colOf m1 j = c) by (unfold colOf, tcSize; rewrite D1, <- D; reflexivity). rewrite CO.
    assert (F1 : fromBounds m1 ((c, S i, Fin l s) :: E)) by (apply fromBounds_force; [exact F|lia|lia|intros b Hb; exact (N2 (HK _ _ _ Hb))]).
    split; [rewrite dim_canonize, dim_set1; exact D1|]. exists ((S i, c, Fin u s') :: (c, S i, Fin l s) :: E). split; [|split].
    - apply fromBounds_force; [exact F1|lia|lia|]. intros b [Hb|Hb]; [apply NE; congruence|exact (N1 (HK _ _ _ Hb))].
    - intros x y b [Hb|[Hb|Hb]]; [injection Hb as <- <- <-; auto|injection Hb as <- <- <-; auto|left; eauto].
    - intro v. rewrite U. cbn [ext]. rewrite <- HC. split.
      + intro H. split; [intros x y b Hb; apply H; right; right; exact Hb|]. assert (H1 := H _ _ _ (or_introl eq_refl)). assert (H2 := H _ _ _ (or_intror (or_introl eq_refl))). cbn [ext] in H1, H2.
        split; [eapply bsat_ext; [|exact H2]; ring|eapply bsat_ext; [|exact H1]; ring].
      + intros [H [H1 H2]] x y b [Hb|[Hb|Hb]]; [injection Hb as <- <- <-; cbn [ext]; eapply bsat_ext; [|exact H2]; ring|injection Hb as <- <- <-; cbn [ext]; eapply bsat_ext; [|exact H1]; ring|apply H; exact Hb]. }
  unfold forceUnit. assert (RB := region_bounds q). destruct (Qeq_bool q (qfloor q)); apply G; exact RB.
Qed.

Lemma dim_restrictUB m i j b f : dim (restrictUpperBound m i j b f) = dim m.
Proof. unfold restrictUpperBound. rewrite dim_canonize, dim_set1. reflexivity. Qed.
Lemma dim_restrictLB m i j b f : dim (restrictLowerBound m i j b f) = dim m.
Proof. unfold restrictLowerBound. rewrite dim_canonize, dim_set1. reflexivity. Qed.
Lemma dim_forceUnit m i j q : dim (forceUnit m i j q) = dim m.
Proof. unfold forceUnit. destruct (Qeq_bool q (qfloor q)); rewrite dim_restrictUB, dim_restrictLB; reflexivity. Qed.
(** the inner loop *)
Lemma built_diffs N x q : (x < N)%nat -> forall l m K C, NoDup (map fst l) -> builtFrom (N + 1) m K C ->
  (forall y, In y (map fst l) -> (y < x)%nat -> ~ K (S y) (S x) /\ ~ K (S x) (S y)) ->
  builtFrom (N + 1) (fold_left (forceDiff x q) l m) (fun a b => K a b \/ (Nat.max a b = S x))
    (fun v => C v /\ forall y p, In (y, RConst p) l -> (y < x)%nat -> sameUnit (p - q) (v y - v x)).
Proof.
  intros Hx. induction l as [|[y r] l IH]; intros m K C ND B F; cbn [fold_left].
  - eapply built_weaken; [exact B|auto|]. intro v. split; [intro H; split; [exact H|intros y p []]|tauto].
  - cbn [map fst] in ND, F. inversion ND as [|y0 l0 ND1 ND2]; subst y0 l0.
    assert (SKIP : (forall p, r = RConst p -> ~ (y < x)%nat) -> builtFrom (N + 1) (fold_left (forceDiff x q) l m) (fun a b => K a b \/ Nat.max a b = S x) (fun v => C v /\ forall y0 p, In (y0, RConst p) ((y, r) :: l) -> (y0 < x)%nat -> sameUnit (p - q) (v y0 - v x))).
    { intro S. assert (I := IH m K C ND2 B (fun y0 Hy => F y0 (or_intror Hy))). eapply built_weaken; [exact I|auto|]. intro v. split; intros [H1 H2]; (split; [exact H1|]); intros y0 p Hp L; [destruct Hp as [Hp|Hp]; [injection Hp as <- ->; exfalso; exact (S p eq_refl L)|apply H2; auto]|apply H2; [right; exact Hp|exact L]]. }
    cbn [forceDiff]. destruct r as [p|z]; [|apply SKIP; discriminate]. destruct (Nat.ltb_spec y x) as [L|L]; [|apply SKIP; intros; lia].
    assert (DM : dim m = (N + 1)%nat) by apply B. assert (CO : colOf m (x - 1) = S x) by (unfold colOf, tcSize; rewrite DM; destruct (Nat.eqb_spec (x - 1) (pred (N + 1) - 1)); lia).
    destruct (F y (or_introl eq_refl) L) as [F1 F2]. assert (B1 := built_force (N + 1) m K C y (x - 1) (p - q) B ltac:(lia) ltac:(lia) ltac:(lia) ltac:(rewrite CO; exact F1) ltac:(rewrite CO; exact F2)). rewrite CO in B1. cbn [ext] in B1.
    assert (I := IH (forceUnit m y (x - 1) (p - q)) _ _ ND2 B1). eapply built_weaken; [apply I|..].
    + intros y0 Hy L0. assert (NE : y0 <> y) by (intros ->; auto). destruct (F y0 (or_intror Hy) L0) as [G1 G2]. split; intros [H|[[H1 H2]|[H1 H2]]]; try contradiction; lia.
    + cbn beta. intros a b [[H|[[-> ->]|[-> ->]]]|H]; auto; right; lia.
    + intro v. cbn beta. split.
      * intros [[H1 H2] H3]. split; [exact H1|]. intros y0 p0 [Hp|Hp] L0; [injection Hp as <- <-; exact H2|apply H3; auto].
      * intros [H1 H2]. split; [split; [exact H1|apply H2; [left; reflexivity|exact L]]|]. intros y0 p0 Hp L0. apply H2; [right; exact Hp|exact L0].
Qed.
(** the outer loop *)
Lemma built_resets N rs : NoDup (map fst rs) -> forall l m K C, NoDup (map fst l) -> builtFrom (N + 1) m K C ->
  (forall a b x, K a b -> In x (map fst l) -> Nat.max a b <> S x) ->
  exists K', builtFrom (N + 1) (fold_left (forceReset rs N) l m) K'
    (fun v => C v /\ forall x q, In (x, RConst q) l -> (x < N)%nat -> sameUnit q (v x) /\ forall y p, In (y, RConst p) rs -> (y < x)%nat -> sameUnit (p - q) (v y - v x)).
Proof.
  intros ND. induction l as [|[x r] l IH]; intros m K C NDl B F; cbn [fold_left].
  - exists K. eapply built_weaken; [exact B|auto|]. intro v. split; [intro H; split; [exact H|intros x q []]|tauto].
  - cbn [map fst] in NDl, F. inversion NDl as [|x0 l0 ND1 ND2]; subst x0 l0.
    assert (SKIP : (forall q, r = RConst q -> ~ (x < N)%nat) -> exists K', builtFrom (N + 1) (fold_left (forceReset rs N) l m) K' (fun v => C v /\ forall x0 q, In (x0, RConst q) ((x, r) :: l) -> (x0 < N)%nat -> sameUnit q (v x0) /\ forall y p, In (y, RConst p) rs -> (y < x0)%nat -> sameUnit (p - q) (v y - v x0))).
    { intro S. destruct (IH m K C ND2 B (fun a b x0 Hk Hx => F a b x0 Hk (or_intror Hx))) as [K' I]. exists K'. eapply built_weaken; [exact I|auto|]. intro v. split; intros [H1 H2]; (split; [exact H1|]); intros x0 q Hq L; [destruct Hq as [Hq|Hq]; [injection Hq as <- ->; exfalso; exact (S q eq_refl L)|apply H2; auto]|apply H2; [right; exact Hq|exact L]]. }
    cbn [forceReset]. destruct r as [q|z]; [|apply SKIP; discriminate]. destruct (Nat.ltb_spec x N) as [L|L]; [|apply SKIP; intros; lia].
    assert (DM : dim m = (N + 1)%nat) by apply B. assert (CO : colOf m (tcSize m - 1) = 0%nat) by apply colOf_last.
    assert (NK : forall a b, Nat.max a b = S x -> ~ K a b) by (intros a b H Hk; exact (F a b x Hk (or_introl eq_refl) H)).
    assert (B1 := built_force (N + 1) m K C x (tcSize m - 1) q B ltac:(lia) ltac:(lia) ltac:(lia) ltac:(rewrite CO; apply NK; lia) ltac:(rewrite CO; apply NK; lia)). rewrite CO in B1. cbn [ext] in B1.
    assert (B2 := built_diffs N x q L rs _ _ _ ND B1). destruct (IH _ _ _ ND2 (B2 ltac:(intros y _ Ly; split; intros [H|[[H1 H2]|[H1 H2]]]; [revert H; apply NK; lia|lia|lia|revert H; apply NK; lia|lia|lia]))) as [K' I].
    + intros a b x0 [[H|[[-> ->]|[-> ->]]]|H] Hx0; [exact (F a b x0 H (or_intror Hx0))| | |]; intro E; assert (x0 = x) by lia; subst x0; contradiction.
    + exists K'. eapply built_weaken; [exact I|auto|]. intro v. cbn beta. split.
      * intros [[[H1 H2] H3] H4]. split; [exact H1|]. intros x0 q0 [Hq|Hq] L0; [injection Hq as <- <-; split; [eapply TimedConditionProofs3.sameUnit_ext; [reflexivity| |exact H2]; ring|exact H3]|apply H4; auto].
      * intros [H1 H2]. destruct (H2 x q (or_introl eq_refl) L) as [H3 H4]. split; [split; [split; [exact H1|eapply TimedConditionProofs3.sameUnit_ext; [reflexivity| |exact H3]; ring]|exact H4]|]. intros x0 q0 Hq L0. apply H2; [right; exact Hq|exact L0].
Qed.
Lemma resetConds_exact rs N v : NoDup (map fst rs) ->
  dim (resetConds rs N) = S N /\
  (inZone (resetConds rs N) v <-> forall x q, In (x, RConst q) rs -> (x < N)%nat -> sameUnit q (v x) /\ forall y p, In (y, RConst p) rs -> (y < x)%nat -> sameUnit (p - q) (v y - v x)).
Proof.
  intro ND. assert (B0 : builtFrom (N + 1) (ztop (N + 1)) (fun _ _ => False) (fun _ => True)).
  { split; [apply dim_mk|]. exists []. split; [split; [intros x y b []|]|split; [intros x y b []|intro u; split; [auto|intros _ x y b []]]]. intros u _ i j Hi Hj. unfold ztop in *. rewrite dim_mk in *. rewrite get_mk by auto. exact I. }
  destruct (built_resets N rs ND rs _ _ _ ND B0 ltac:(intros a b x [])) as [K' (D & E & F & HK & HC)]. fold (resetConds rs N) in *. split; [lia|].
  rewrite (fromBounds_exact _ _ v F), HC. tauto.
Qed.

(** ** the renaming *)
Lemma renaming_in rs N y x : In (y, x) (resetRenaming rs N) <-> (x < N)%nat /\ (In (x, RVar y) rs \/ (x = y /\ ~ In x (map fst rs))).
Proof.
  unfold resetRenaming. rewrite in_app_iff, in_flat_map, in_map_iff. split.
  - intros [[[x0 [q|y0]] [H1 H2]]|[k [H1 H2]]].
    + destruct H2.
    + destruct (Nat.ltb_spec x0 N); [|destruct H2]. destruct H2 as [H2|[]]. injection H2 as <- <-. auto.
    + injection H1 as <- <-. apply filter_In in H2. destruct H2 as [H2 H3]. apply in_seq in H2. split; [lia|]. right. split; [reflexivity|]. intro K. apply negb_true_iff in H3. apply in_map_iff in K. destruct K as [r [K1 K2]].
      assert (X : existsb (fun r => (fst r =? k)%nat) rs = true) by (apply existsb_exists; exists r; split; [exact K2|apply Nat.eqb_eq; exact K1]). congruence.
  - intros [L [H|[-> H]]].
    + left. exists (x, RVar y). split; [exact H|]. destruct (Nat.ltb_spec x N); [left; reflexivity|lia].
    + right. exists y. split; [reflexivity|]. apply filter_In. split; [apply in_seq; lia|]. apply negb_true_iff. destruct (existsb (fun r => (fst r =? y)%nat) rs) eqn:X; [|reflexivity].
      exfalso. apply H. apply existsb_exists in X. destruct X as [r [X1 X2]]. apply Nat.eqb_eq in X2. apply in_map_iff. exists r. auto.
Qed.
Lemma reset_val rs v z x r : NoDup (map fst rs) -> isReset rs v z -> In (x, r) rs -> z x == match r with RConst q => q | RVar y => v y end.
Proof.
  intros ND R H. apply in_split in H. destruct H as [a [b E]]. destruct (R x) as [_ R2]. apply (R2 a r b E). subst rs. rewrite map_app in ND. cbn [map fst] in ND. apply NoDup_remove_2 in ND. intro K. apply ND. apply in_or_app. auto.
Qed.
Lemma nodup_one (rs : resets) x r r' : NoDup (map fst rs) -> In (x, r) rs -> In (x, r') rs -> r = r'.
Proof.
  induction rs as [|[y s] rs IH]; intros ND H H'; [destruct H|]. cbn [map fst] in ND. inversion ND as [|y0 l0 N1 N2]; subst y0 l0.
  destruct H as [H|H], H' as [H'|H']; [congruence| | |auto]; exfalso; apply N1; apply in_map_iff; [injection H as -> ->; exists (x, r')|injection H' as -> ->; exists (x, r)]; auto.
Qed.
Lemma likeReset_zone rs N n v z w : resetsInto n rs N -> isReset rs v z ->
  (likeReset rs N z w <->
   (forall x q, In (x, RConst q) rs -> (x < N)%nat -> sameUnit q (w x) /\ forall y p, In (y, RConst p) rs -> (y < x)%nat -> sameUnit (p - q) (w y - w x)) /\
   (forall p, In p (resetRenaming rs N) -> v (fst p) == w (snd p))).
Proof.
  intros (ND & V & U) R. split.
  - intros (H1 & H2 & H3). split.
    + intros x q Hx L. split.
      * eapply TimedConditionProofs3.sameUnit_ext; [|reflexivity|apply (H2 x L); exists q; exact Hx]. exact (reset_val rs v z x _ ND R Hx).
      * intros y p Hy Ly. eapply TimedConditionProofs3.sameUnit_ext; [|reflexivity|apply (H3 y x Ly L); [exists p; exact Hy|exists q; exact Hx]].
        rewrite (reset_val rs v z x _ ND R Hx), (reset_val rs v z y _ ND R Hy). reflexivity.
    + intros [y x] Hp. apply renaming_in in Hp. cbn [fst snd]. destruct Hp as [L [H|[-> H]]].
      * rewrite (H1 x L); [symmetry; exact (reset_val rs v z x _ ND R H)|]. intros [q Hq]. assert (X := nodup_one rs x _ _ ND H Hq). discriminate.
      * rewrite (H1 y L); [symmetry; apply (R y); exact H|]. intros [q Hq]. apply H. apply in_map_iff. exists (y, RConst q). auto.
  - intros [H1 H2]. split; [|split].
    + intros k L NC. destruct (in_dec Nat.eq_dec k (map fst rs)) as [I|I].
      * apply in_map_iff in I. destruct I as [[x r] [E I]]. cbn [fst] in E. subst x. destruct r as [q|y]; [exfalso; apply NC; exists q; exact I|].
        assert (X := H2 (y, k) (proj2 (renaming_in rs N y k) (conj L (or_introl I)))). cbn [fst snd] in X. rewrite <- X. symmetry. exact (reset_val rs v z k _ ND R I).
      * assert (X := H2 (k, k) (proj2 (renaming_in rs N k k) (conj L (or_intror (conj eq_refl I))))). cbn [fst snd] in X. rewrite <- X. symmetry. apply (R k). exact I.
    + intros k L [q Hq]. eapply TimedConditionProofs3.sameUnit_ext; [symmetry; exact (reset_val rs v z k _ ND R Hq)|reflexivity|apply (H1 k q Hq L)].
    + intros j k Hjk L [p Hp] [q Hq]. eapply TimedConditionProofs3.sameUnit_ext; [|reflexivity|exact (proj2 (H1 k q Hq L) j p Hp Hjk)].
      rewrite (reset_val rs v z k _ ND R Hq), (reset_val rs v z j _ ND R Hp). reflexivity.
Qed.
Lemma likeReset_refl rs N z : likeReset rs N z z.
Proof. split; [intros; reflexivity|]. split; intros; apply sameUnit_refl. Qed.

Lemma tcApplyResetsTo_exact m rs N : (2 <= dim m)%nat -> nonemptyZ m -> (1 <= N)%nat -> resetsInto (tcSize m) rs N ->
  okCond (tcApplyResetsTo m rs N) /\ tcSize (tcApplyResetsTo m rs N) = N /\
  forall w, inZone (tcApplyResetsTo m rs N) w <-> exists v z, inZone m v /\ isReset rs v z /\ likeReset rs N z w.
Proof.
  intros D NE HN RI. assert (ND : NoDup (map fst rs)) by apply RI. assert (DR := proj1 (resetConds_exact rs N (fun _ => 0) ND)).
  assert (NER : forall v, inZone (resetConds rs N) (applyReset v rs)).
  { intro v. apply resetConds_exact; [exact ND|]. apply (likeReset_zone rs N _ v (applyReset v rs) _ RI (applyReset_isReset rs v)), likeReset_refl. }
  assert (NR : nonemptyZ (resetConds rs N)) by (exists (applyReset (fun _ => 0) rs); apply NER).
  assert (H00 : bsat (get (resetConds rs N) 0 0) 0). { assert (X := NER (fun _ => 0)). apply inZone_Z in X. eapply bsat_ext; [|exact (X 0%nat 0%nat ltac:(lia) ltac:(lia))]. ring. }
  assert (RR : forall p, In p (resetRenaming rs N) -> (fst p < pred (dim m))%nat /\ (snd p < pred (dim (resetConds rs N)))%nat).
  { intros [y x] Hp. apply renaming_in in Hp. rewrite DR. cbn [fst snd pred]. destruct Hp as [L [H|[-> H]]]; (split; [|exact L]); [apply (proj1 (proj2 RI) x y H L)|apply (proj2 (proj2 RI) y L H)]. }
  assert (RO : renOk (pred (dim m)) (dim (jux m (resetConds rs N))) (resetRenaming rs N)).
  { intros p Hp. destruct (RR p Hp) as [A B]. rewrite dim_jux. lia. }
  assert (DA : dim (addRenaming (pred (dim m)) (jux m (resetConds rs N)) (resetRenaming rs N)) = (pred (dim m) + N + 1)%nat) by (rewrite dim_addRenaming by exact RO; rewrite dim_jux, DR; lia).
  assert (SAT : isSatNoCanon (addRenaming (pred (dim m)) (jux m (resetConds rs N)) (resetRenaming rs N)) = true).
  { apply isSatNoCanon_spec. destruct NE as [v Hv]. set (z := applyReset v rs).
    apply (nonneg2_of_point _ (ext (fun k => if (k <? pred (dim m))%nat then v k else z (k - pred (dim m))%nat))). apply inZone_Z. apply addRenaming_exact; [exact RO|]. split.
    - apply jux_exact; [lia|lia|exact H00|]. split.
      + eapply inZone_ext; [|exact Hv]. intros k Hk. destruct (Nat.ltb_spec k (pred (dim m))); [reflexivity|lia].
      + eapply inZone_ext; [|exact (NER v)]. intros k Hk. unfold rightPart. destruct (Nat.ltb_spec (pred (dim m) + k) (pred (dim m))); [lia|]. replace (pred (dim m) + k - pred (dim m))%nat with k by lia. reflexivity.
    - intros p Hp. destruct (RR p Hp) as [A B]. destruct (Nat.ltb_spec (fst p) (pred (dim m))); [|lia]. destruct (Nat.ltb_spec (pred (dim m) + snd p) (pred (dim m))); [lia|]. replace (pred (dim m) + snd p - pred (dim m))%nat with (snd p) by lia.
      apply (likeReset_zone rs N _ v z z RI (applyReset_isReset rs v)); [apply likeReset_refl|exact Hp]. }
  assert (EX : forall w, inZone (tcApplyResetsTo m rs N) w <-> exists v z, inZone m v /\ isReset rs v z /\ likeReset rs N z w).
  { intro w. unfold tcApplyResetsTo. change (tcSize m) with (pred (dim m)). replace N with (pred (dim (resetConds rs N))) at 1 by (rewrite DR; reflexivity). rewrite (jux_right_exact m (resetConds rs N) (resetRenaming rs N) w ltac:(lia) ltac:(lia) H00 RR NE NR SAT). split.
    - intros [H1 [v [Hv H2]]]. exists v, (applyReset v rs). split; [exact Hv|]. split; [apply applyReset_isReset|]. apply (likeReset_zone rs N _ v _ w RI (applyReset_isReset rs v)). split; [apply resetConds_exact; auto|exact H2].
    - intros [v [z [Hv [Hz H]]]]. apply (likeReset_zone rs N _ v z w RI Hz) in H. destruct H as [H1 H2]. split; [apply resetConds_exact; auto|]. exists v. auto. }
  assert (DT : dim (tcApplyResetsTo m rs N) = S N) by (unfold tcApplyResetsTo, getRight; rewrite dim_canonize, dim_mk; reflexivity).
  split; [|split; [unfold tcSize; rewrite DT; reflexivity|exact EX]]. split; [lia|].
  assert (NT : nonemptyZ (tcApplyResetsTo m rs N)). { destruct NE as [v Hv]. exists (applyReset v rs). apply EX. exists v, (applyReset v rs). split; [exact Hv|]. split; [apply applyReset_isReset|apply likeReset_refl]. }
  split; [|exact NT]. unfold tcApplyResetsTo, getRight in *. apply canonize_closed_sat. destruct NT as [v Hv]. exists v. apply canonize_inZone. exact Hv.
Qed.
Lemma likeReset_ext rs N z w w' : (forall k, (k < N)%nat -> w k == w' k) -> likeReset rs N z w -> likeReset rs N z w'.
Proof.
  intros E (H1 & H2 & H3). split; [|split].
  - intros k L NC. rewrite <- (E k L). apply H1; auto.
  - intros k L CA. eapply TimedConditionProofs3.sameUnit_ext; [reflexivity|apply E; exact L|apply H2; auto].
  - intros j k Hjk L C1 C2. eapply TimedConditionProofs3.sameUnit_ext; [reflexivity| |apply H3; eauto]. rewrite (E j), (E k) by lia. reflexivity.
Qed.
Lemma isReset_same_source n rs N v v' z : resetsInto n rs N -> (forall k, (k < n)%nat -> v k == v' k) -> isReset rs v z -> exists z', isReset rs v' z' /\ forall k, (k < N)%nat -> z k == z' k.
Proof.
  intros (ND & V & U) E R. exists (applyReset v' rs). assert (R' := applyReset_isReset rs v'). split; [exact R'|]. intros k L.
  destruct (in_dec Nat.eq_dec k (map fst rs)) as [I|I].
  - apply in_map_iff in I. destruct I as [[x r] [Ex I]]. cbn [fst] in Ex. subst x. rewrite (reset_val rs v z k r ND R I), (reset_val rs v' _ k r ND R' I). destruct r as [q|y]; [reflexivity|]. apply E. exact (V k y I L).
  - rewrite (proj1 (R k) I), (proj1 (R' k) I). apply E. exact (U k L I).
Qed.
Lemma likeReset_ext_l rs N z z' w : (forall k, (k < N)%nat -> z k == z' k) -> likeReset rs N z w -> likeReset rs N z' w.
Proof.
  intros E (H1 & H2 & H3). split; [|split].
  - intros k L NC. rewrite <- (E k L). apply H1; auto.
  - intros k L CA. eapply TimedConditionProofs3.sameUnit_ext; [apply E; exact L|reflexivity|apply H2; auto].
  - intros j k Hjk L C1 C2. eapply TimedConditionProofs3.sameUnit_ext; [|reflexivity|apply H3; eauto]. rewrite (E j), (E k) by lia. reflexivity.
Qed.
(** in terms of durations *)
Lemma inCond_zone m d : (2 <= dim m)%nat -> nonemptyZ m -> (inCond m d <-> length d = tcSize m /\ inZone m (accd d)).
Proof.
  intros D NE. split.
  - intro H. split; [apply H|]. apply inCond_inZone; auto. apply nonempty_diag; auto.
  - intros [L H]. apply inZone_inCond; auto.
Qed.
Lemma tcApplyResetsTo_durations m rs N : (2 <= dim m)%nat -> nonemptyZ m -> (1 <= N)%nat -> resetsInto (tcSize m) rs N -> forall d,
  inCond (tcApplyResetsTo m rs N) d <-> length d = N /\ exists d0 z, inCond m d0 /\ isReset rs (since d0) z /\ likeReset rs N z (since d).
Proof.
  intros D NE HN RI d. destruct (tcApplyResetsTo_exact m rs N D NE HN RI) as (O1 & T1 & E). rewrite inCond_iff by exact O1. rewrite T1, E. split.
  - intros [L [v [z [Hv [R H]]]]]. split; [exact L|].
    assert (SV : forall k, (k < tcSize m)%nat -> v k == since (durs (tcSize m) v) k) by (intros k Hk; rewrite since_acc by (rewrite durs_length; lia); symmetry; apply durs_acc; exact Hk).
    destruct (isReset_same_source (tcSize m) rs N v _ z RI SV R) as [z' [R' EZ]]. exists (durs (tcSize m) v), z'. split; [apply inZone_durs; [exact D|exact Hv]|]. split; [exact R'|].
    apply (likeReset_ext_l rs N z z' _ EZ). apply (likeReset_ext rs N z (accd d)); [|exact H]. intros k Hk. symmetry. apply since_acc. lia.
  - intros [L [d0 [z [Hd [R H]]]]]. split; [exact L|]. apply inCond_zone in Hd; [|exact D|exact NE]. destruct Hd as [L0 Hd].
    assert (SV : forall k, (k < tcSize m)%nat -> since d0 k == accd d0 k) by (intros k Hk; apply since_acc; lia).
    destruct (isReset_same_source (tcSize m) rs N _ (accd d0) z RI SV R) as [z' [R' EZ]]. exists (accd d0), z'. split; [exact Hd|]. split; [exact R'|].
    apply (likeReset_ext_l rs N z z' _ EZ). apply (likeReset_ext rs N z (since d)); [|exact H]. intros k Hk. apply since_acc. lia.
Qed.
