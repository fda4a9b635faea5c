(** Acceptance by an automaton with integer constants does not distinguish
    words of the same region. *)
From Coq Require Import QArith ZArith Bool List Arith Lia Lqa Qround.
From Verif Require Import BoundsModel BoundsProofs ConstraintModel GuardSpec ZoneModel ZoneSpec AutomatonModel AutomatonSpec AutomatonProofs TimedWordModel TimedWordSpec
  TimedConditionModel TimedConditionSpec TimedConditionProofs TimedConditionProofs2 TimedConditionProofs3 ElementaryModel ElementarySpec ElementaryProofs
  OracleModel OracleSpec SymbolicModel SymbolicSpec RegionalProofs.
Import ListNotations.
Open Scope Q_scope.

Lemma T_step d i k : (i <= k)%nat -> T d i (S k) == T d i k + T d (S k) (S k).
Proof. intro H. rewrite !T_acc by lia. ring. Qed.

Lemma sameUnit_shift z p q : sameUnit p q -> sameUnit (inject_Z z + p) (inject_Z z + q).
Proof.
  intros [A B]. assert (F : forall r, Qfloor (inject_Z z + r) = (z + Qfloor r)%Z).
  { intro r. apply floor_unique; rewrite inject_Z_plus; assert (X := Qfloor_le r); assert (Y := Qlt_floor r); rewrite inject_Z_plus in Y; change (inject_Z 1) with 1 in Y; lra. }
  unfold sameUnit. rewrite !F, A. split; [reflexivity|]. rewrite inject_Z_plus. rewrite A in B. split; intro H.
  - assert (p == inject_Z (Qfloor q)) by lra. apply B in H0. lra.
  - assert (q == inject_Z (Qfloor q)) by lra. apply B in H0. lra.
Qed.
Lemma holds_unit k p q : sameUnit p q -> holds k p -> holds k q.
Proof.
  intros U H. assert (K : forall z : Z, (p < inject_Z z <-> q < inject_Z z) /\ (p <= inject_Z z <-> q <= inject_Z z)).
  { intro z. destruct U as [F I].
    assert (Lt : forall r, r < inject_Z z <-> (Qfloor r < z)%Z).
    { intro r. assert (X := Qfloor_le r). assert (Y := Qlt_floor r). split; intro H0.
      - rewrite Zlt_Qlt. lra.
      - assert (Qfloor r + 1 <= z)%Z by lia. rewrite Zle_Qle in H1. lra. }
    assert (Le : forall r, r <= inject_Z z <-> (Qfloor r < z)%Z \/ (Qfloor r = z /\ r == inject_Z (Qfloor r))).
    { intro r. split; intro H0.
      - destruct (Qlt_le_dec r (inject_Z z)) as [L|L]; [left; apply Lt; auto|]. assert (E : r == inject_Z z) by lra. right.
        rewrite (Qfloor_comp _ _ E), Qfloor_Z. auto.
      - destruct H0 as [H0|[<- H0]]; [apply Lt in H0; lra|]. rewrite H0 at 1. lra. }
    split; [rewrite !Lt, F; reflexivity|]. rewrite !Le, F. rewrite F in I. tauto. }
  unfold holds in *. destruct (codr k); destruct (K (cc k)) as [K1 K2].
  - apply K1; auto. - apply K2; auto.
  - destruct (Qlt_le_dec q (inject_Z (cc k))) as [L|L]; [|auto]. apply K1 in L. lra.
  - destruct (Qlt_le_dec (inject_Z (cc k)) q) as [L|L]; [auto|]. apply K2 in L. lra.
Qed.

Lemma last_entry (rs : resets) x : ~ In x (map fst rs) \/ exists a r b, rs = a ++ (x, r) :: b /\ ~ In x (map fst b).
Proof.
  induction rs as [|[y r] rs IH]; [left; auto|]. destruct IH as [IH|[a [r' [b [E N]]]]].
  - destruct (Nat.eq_dec y x) as [->|D]; [right; exists [], r, rs; auto|left; cbn; intros [K|K]; auto].
  - right. exists ((y, r) :: a), r', b. rewrite E. auto.
Qed.

(** clock values after the k-th delay: integer plus the time since some event *)
Definition clocked (d d' : list Q) (k : nat) (v v' : valuation) : Prop :=
  forall x, exists z i, (i <= k)%nat /\ v x == inject_Z z + T d i k /\ v' x == inject_Z z + T d' i k.
Section Runs.
Variables (A : ta) (d d' : list Q).
Hypotheses (NS : noSilent A) (IR : intResets A) (R : sameRegion d d') (NN : forall q, In q d' -> 0 <= q).

Lemma clocked_fire k v v' l a c1 : (k < length d)%nat -> clocked d d' k v v' -> fire A a (l, v) c1 ->
  exists v1', fire A a (l, v') (fst c1, v1') /\
   forall x, (exists z, snd c1 x == inject_Z z /\ v1' x == inject_Z z) \/ exists z i, (i <= k)%nat /\ snd c1 x == inject_Z z + T d i k /\ v1' x == inject_Z z + T d' i k.
Proof using R IR.
  intros Hk C [t [E [G [Ht RS]]]]. cbn [fst snd] in *. exists (applyReset v' (trst t)). split.
  - exists t. cbn [fst snd]. split; [auto|]. split; [|split; [auto|apply applyReset_isReset]].
    intros g Hg. destruct (C (cx g)) as [z [i [Hi [E1 E2]]]]. eapply holds_unit; [|apply G; auto].
    eapply sameUnit_ext; [symmetry; exact E1|symmetry; exact E2|]. apply sameUnit_shift. apply R; auto.
  - intro x. assert (RS' := applyReset_isReset (trst t) v' x). specialize (RS x). destruct RS as [R1 R2], RS' as [R3 R4].
    destruct (last_entry (trst t) x) as [N|[p [r [q [Eq N]]]]].
    + right. destruct (C x) as [z [i [Hi [E1 E2]]]]. exists z, i. split; [auto|]. rewrite (R1 N), (R3 N). auto.
    + specialize (R2 p r q Eq N). specialize (R4 p r q Eq N). destruct r as [c|y].
      * left. destruct (IR l a t x c E) as [z Ez]; [rewrite Eq; apply in_or_app; right; left; auto|]. exists z. rewrite R2, R4. auto.
      * right. destruct (C y) as [z [i [Hi [E1 E2]]]]. exists z, i. split; [auto|]. rewrite R2, R4. auto.
Qed.
Lemma clocked_flow k c1 v1' c2 : (S k < length d)%nat ->
  (forall x, (exists z, snd c1 x == inject_Z z /\ v1' x == inject_Z z) \/ exists z i, (i <= k)%nat /\ snd c1 x == inject_Z z + T d i k /\ v1' x == inject_Z z + T d' i k) ->
  flow A c1 (nth (S k) d 0) c2 -> exists v2', flow A (fst c1, v1') (nth (S k) d' 0) (fst c2, v2') /\ clocked d d' (S k) (snd c2) v2'.
Proof using NS R NN.
  intros Hk C F. destruct c1 as [l v1]. apply flow_noSilent in F; auto. destruct F as [F1 [F2 F3]]. cbn [fst snd] in *.
  assert (Lk : (S k < length d')%nat) by (destruct R as [<- _]; auto).
  exists (delay v1' (nth (S k) d' 0)). split; [rewrite F1; constructor; [apply NN; apply nth_In; auto|intro; reflexivity]|].
  intro x. specialize (F2 x). unfold delay in F2.
  assert (D1 := T_diag d (S k) Hk). assert (D2 := T_diag d' (S k) Lk). unfold delay.
  destruct (C x) as [[z [E1 E2]]|[z [i [Hi [E1 E2]]]]].
  - exists z, (S k). split; [auto|]. split; lra.
  - exists z, i. split; [lia|]. assert (T1 := T_step d i k Hi). assert (T2 := T_step d' i k Hi). split; lra.
Qed.
Lemma clocked_run : forall ws ds ds' k l v v' c, (k < length d)%nat -> ds = skipn (S k) d -> ds' = skipn (S k) d' -> length ds = length ws ->
  clocked d d' k v v' -> run A (l, v) (combine ws ds) c -> exists v2', run A (l, v') (combine ws ds') (fst c, v2').
Proof using NS IR R NN.
  induction ws as [|a ws IH]; intros ds ds' k l v v' c Hk E E' L C Rn.
  - cbn in *. inversion Rn; subst. cbn. eexists. constructor.
  - destruct ds as [|q ds]; [discriminate|]. cbn [combine] in Rn. inversion Rn as [|? ? ? c1 c2 ? ? F1 F2 F3]; subst.
    assert (Lk : (S k < length d)%nat). { assert (K : length (q :: ds) = length (skipn (S k) d)) by (rewrite E; auto). rewrite skipn_length in K. cbn [length] in K. lia. }
    assert (Lk' : (S k < length d')%nat) by (destruct R as [<- _]; auto).
    assert (SP : forall (e : list Q), (S k < length e)%nat -> skipn (S k) e = nth (S k) e 0 :: skipn (S (S k)) e).
    { clear. intros e. revert e. induction (S k) as [|n IH]; intros [|y e] H; cbn [length] in H; try lia; [reflexivity|]. cbn [skipn nth]. apply IH. lia. }
    rewrite (SP d Lk) in E. injection E as -> ->. rewrite (SP d' Lk'). cbn [combine].
    destruct (clocked_fire k v v' l a c1 Hk C F1) as [v1' [G1 G2]].
    destruct (clocked_flow k c1 v1' c2 Lk G2 F2) as [v2' [H1 H2]].
    destruct c2 as [l2 v2]. destruct (IH _ (skipn (S (S k)) d') (S k) l2 v2 v2' c Lk eq_refl eq_refl) as [v3' K]; auto.
    exists v3'. econstructor; eauto.
Qed.
End Runs.

Lemma sameRegion_sym d d' : sameRegion d d' -> sameRegion d' d.
Proof. intros [L H]. split; [auto|]. intros i j Hij Hj. apply sameUnit_sym. apply H; auto. rewrite L; auto. Qed.
Lemma region_nonneg d d' : sameRegion d d' -> (forall q, In q d -> 0 <= q) -> forall q, In q d' -> 0 <= q.
Proof.
  intros [L H] N q Hq. apply (In_nth _ _ 0) in Hq. destruct Hq as [i [Hi <-]]. assert (Li : (i < length d)%nat) by lia.
  assert (U := H i i (le_n _) Li). assert (P : 0 <= T d i i) by (rewrite T_diag by auto; apply N; apply nth_In; auto).
  assert (K : 0 <= T d' i i) by exact (holds_unit (mkC 0%nat Oge 0%Z) _ _ U P). assert (D := T_diag d' i Hi). lra.
Qed.
Lemma accepts_region_1 A w w' : noSilent A -> intResets A -> wfTW w -> wfTW w' -> tw w = tw w' -> sameRegion (td w) (td w') -> OracleSpec.nonnegTW w' ->
  acceptsTW A w -> acceptsTW A w'.
Proof.
  intros NS IR W W' Et R N [l0 [c0 [c [Hl [F [Rn Ac]]]]]]. unfold acceptsTW, accepts.
  apply flow_noSilent in F; auto. destruct F as [F1 [F2 F3]]. destruct c0 as [l1 v1]. cbn [fst snd] in *. subst l1.
  unfold wfTW in *. destruct (td w) as [|q ds] eqn:Ed; [discriminate|]. destruct (td w') as [|q' ds'] eqn:Ed'; [destruct R as [R _]; discriminate|].
  unfold firstDur, events in *. rewrite Ed in *. rewrite Ed' in *. cbn [hd tl] in *.
  assert (NN : forall p, In p (q' :: ds') -> 0 <= p) by (intros p Hp; apply N; rewrite Ed'; auto).
  assert (C : clocked (q :: ds) (q' :: ds') 0 v1 (delay (fun _ => 0) q')).
  { intro x. exists 0%Z, 0%nat. split; [auto|]. specialize (F2 x). unfold delay in *. rewrite !T_diag by (cbn; lia). cbn [nth]. change (inject_Z 0) with 0. rewrite F2. split; reflexivity. }
  assert (Lw : length ds = length (tw w)) by (cbn [length] in W; lia).
  destruct (clocked_run A _ _ NS IR R NN (tw w) ds ds' 0 l0 v1 _ c ltac:(cbn; lia) eq_refl eq_refl Lw C Rn) as [v2' K].
  exists l0, (l0, delay (fun _ => 0) q'), (fst c, v2'). split; [auto|]. split; [constructor; [apply NN; left; auto|intro; reflexivity]|].
  split; [rewrite <- Et; exact K|exact Ac].
Qed.
Lemma accepts_region A w w' : noSilent A -> intResets A -> wfTW w -> wfTW w' -> tw w = tw w' -> sameRegion (td w) (td w') -> OracleSpec.nonnegTW w ->
  (acceptsTW A w <-> acceptsTW A w').
Proof.
  intros NS IR W W' E R N. split; intro H.
  - eapply (accepts_region_1 A w w'); eauto. intros q Hq. apply (region_nonneg (td w) (td w') R); auto.
  - eapply (accepts_region_1 A w' w); eauto. apply sameRegion_sym; auto.
Qed.
