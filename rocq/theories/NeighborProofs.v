(** Proofs about neighbour conditions. *)
From Coq Require Import QArith ZArith Bool List Arith Lia Lqa Qround Permutation.
From Verif Require Import BoundsModel BoundsProofs ConstraintModel GuardSpec ConstraintProofs ZoneModel ZoneSpec ZoneProofs ZoneProofs3 AutomatonModel AutomatonSpec AutomatonProofs TimedWordModel TimedWordSpec TimedWordProofs TimedConditionModel TimedConditionSpec
  TimedConditionProofs TimedConditionProofs2 TimedConditionProofs3 TimedConditionProofs5 ElementaryModel ElementarySpec ElementaryProofs ElementaryProofs2 RegionalModel RegionalSpec RegionalProofs RegionalProofs3 RegionalProofs4 RegionalProofs5
  QueryableProofs PropertiesConditions CexProofs ReconstructProofs TableModel NeighborModel NeighborSpec.
Import ListNotations.
Open Scope Q_scope.

Lemma isPrecise_iff P k : isPrecise P k = true <-> In k P.
Proof. unfold isPrecise. rewrite existsb_exists. split; [intros (x & H & E); apply Nat.eqb_eq in E; subst; auto|intro H; exists k; rewrite Nat.eqb_refl; auto]. Qed.

(** ** the relaxed condition *)
Lemma tcSize_ztop n : tcSize (ztop (n + 1)) = n.
Proof. unfold tcSize, ztop. rewrite dim_mk. lia. Qed.
Lemma okCond_ztop n : (1 <= n)%nat -> okCond (ztop (n + 1)).
Proof. intro H. split; [unfold ztop; rewrite dim_mk; lia|]. split; [apply ztop_closed|]. exists (fun _ => 0). apply ztop_all. Qed.
Lemma inCond_ztop n d : (1 <= n)%nat -> (inCond (ztop (n + 1)) d <-> length d = n).
Proof.
  intro H. unfold inCond. rewrite tcSize_ztop. split; [intros [L _]; exact L|]. intro L. split; [exact L|]. intros i j Hij Hj. unfold getUpperBound, getLowerBound, ztop.
  assert (C : (colOf (mk (n + 1) (fun _ _ => Inf)) j < n + 1)%nat). { unfold colOf. unfold tcSize. rewrite dim_mk. destruct (j =? _)%nat eqn:E; [lia|]. apply Nat.eqb_neq in E. lia. }
  rewrite !get_mk by lia. cbn. auto.
Qed.
(** restricting by finite bounds that some durations respect *)
Definition fine (n : nat) (e : list Q) (m : tcond) : Prop := okCond m /\ intCond m /\ tcSize m = n /\ inCond m e.
Lemma copyBounds_fine m0 m n d e i j : regionCond m0 d -> fine n e m -> n = tcSize m0 -> (i <= j)%nat -> (j < n)%nat -> sameUnit (T d i j) (T e i j) ->
  fine n e (copyBounds m0 m i j) /\ forall d', inCond (copyBounds m0 m i j) d' <-> inCond m d' /\ sameUnit (T d i j) (T d' i j).
Proof.
  intros (Ld & _ & R) (O & I & Sz & In0) -> Hij Hj SU. specialize (R i j Hij Hj). assert (K := unitBounds_sat _ _ _ R).
  destruct (K (T e i j)) as [_ K0]. specialize (K0 SU). destruct K0 as [KU KL].
  assert (IB : intB (getUpperBound m0 i j) /\ intB (getLowerBound m0 i j)).
  { destruct R as (z & c & x & [(E1 & E2 & E3 & E4 & _)|(E1 & E2 & E3 & E4 & _)]); rewrite E1, E2; cbn [intB]; split.
    - exists z; exact E3.
    - exists (- z)%Z. rewrite inject_Z_opp. exact E4.
    - exists (z + 1)%Z. rewrite inject_Z_plus. exact E3.
    - exists (- z)%Z. rewrite inject_Z_opp. exact E4. }
  set (m1 := restrictLowerBound m i j (getLowerBound m0 i j) false).
  assert (X1 : forall d', inCond m1 d' <-> inCond m d' /\ bsat (getLowerBound m0 i j) (- T d' i j)) by (intro d'; apply C20_restrict; auto; lia).
  assert (D : (2 <= dim m)%nat) by apply O.
  assert (N1 : inCond m1 e) by (apply X1; auto).
  assert (S1 : tcSize m1 = tcSize m) by apply tcSize_restrictLower.
  assert (D1 : (2 <= dim m1)%nat) by (unfold m1; rewrite dim_restrictLower; exact D).
  assert (dm : diagOK m) by (destruct O as (_ & _ & NZ); apply nonempty_diag; exact NZ).
  assert (Z1 : exists v, inZone m1 v).
  { exists (accd e). apply (restrictLower_exact m i j _ e O Hij ltac:(lia)). auto. }
  assert (O1 : okCond m1).
  { unfold m1, restrictLowerBound. apply okCond_canonize; [rewrite dim_set1; exact D|]. destruct Z1 as [v Hv]. exists v. apply canonize_inZone. exact Hv. }
  assert (I1 : intCond m1) by (apply intCond_restrictLower; auto; try lia; apply IB).
  set (m2 := restrictUpperBound m1 i j (getUpperBound m0 i j) false).
  assert (X2 : forall d', inCond m2 d' <-> inCond m1 d' /\ bsat (getUpperBound m0 i j) (T d' i j)) by (intro d'; apply C20_restrict; auto; lia).
  assert (Z2 : exists v, inZone m2 v).
  { exists (accd e). apply (restrictUpper_exact m1 i j _ e O1 Hij ltac:(lia)). auto. }
  change (copyBounds m0 m i j) with m2. split.
  - split; [|split; [|split]].
    + unfold m2, restrictUpperBound. apply okCond_canonize; [rewrite dim_set1; exact D1|]. destruct Z2 as [v Hv]. exists v. apply canonize_inZone. exact Hv.
    + apply intCond_restrictUpper; auto; try lia. apply IB.
    + unfold m2. rewrite tcSize_restrictUpper. lia.
    + apply X2. auto.
  - intro d'. rewrite X2, X1, <- K. tauto.
Qed.
Definition relaxedOn (P : list nat) (d e : list Q) (i j : nat) : Prop := (In i P <-> In j P) -> sameUnit (T d i (j - 1)) (T e i (j - 1)).
Lemma eqb_precise P i j : Bool.eqb (isPrecise P i) (isPrecise P j) = true <-> (In i P <-> In j P).
Proof. rewrite eqb_true_iff, <- !isPrecise_iff. split; [intros ->; tauto|]. intro H. apply eq_true_iff_eq. exact H. Qed.
Lemma relaxRow_fine m0 P n d e m i : regionCond m0 d -> fine n e m -> n = tcSize m0 -> (i < n)%nat ->
  sameUnit (T d i (n - 1)) (T e i (n - 1)) -> (forall j, (i < j)%nat -> (j < n)%nat -> relaxedOn P d e i j) ->
  fine n e (relaxRow m0 P m i) /\ forall d', inCond (relaxRow m0 P m i) d' <-> inCond m d' /\ sameUnit (T d i (n - 1)) (T d' i (n - 1)) /\ forall j, (i < j)%nat -> (j < n)%nat -> relaxedOn P d d' i j.
Proof.
  intros R F En Hi U0 UJ. unfold relaxRow. rewrite <- En. destruct (copyBounds_fine m0 m n d e i (n - 1) R F En ltac:(lia) ltac:(lia) U0) as [F1 X1].
  assert (G : forall l m1, fine n e m1 -> (forall j, In j l -> (i < j)%nat /\ (j < n)%nat) ->
    let m2 := fold_left (fun m j => if Bool.eqb (isPrecise P i) (isPrecise P j) then copyBounds m0 m i (j - 1) else m) l m1 in
    fine n e m2 /\ forall d', inCond m2 d' <-> inCond m1 d' /\ forall j, In j l -> relaxedOn P d d' i j).
  { induction l as [|j l IH]; intros m1 F2 L; cbn [fold_left].
    - split; [exact F2|]. intro d'. split; [intro H; split; [exact H|intros ? []]|tauto].
    - destruct (L j (or_introl eq_refl)) as [Lj1 Lj2]. destruct (Bool.eqb (isPrecise P i) (isPrecise P j)) eqn:B.
      + assert (B' := proj1 (eqb_precise P i j) B). destruct (copyBounds_fine m0 m1 n d e i (j - 1) R F2 En ltac:(lia) ltac:(lia) (UJ j Lj1 Lj2 B')) as [F3 X3].
        destruct (IH _ F3 (fun k Hk => L k (or_intror Hk))) as [F4 X4]. split; [exact F4|]. intro d'. rewrite X4, X3. split.
        * intros [[Y1 Y2] Y3]. split; [exact Y1|]. intros k [<-|Hk]; [intros _; exact Y2|auto].
        * intros [Y1 Y2]. split; [split; [exact Y1|apply (Y2 j (or_introl eq_refl) B')]|]. intros k Hk. apply Y2. right; auto.
      + destruct (IH _ F2 (fun k Hk => L k (or_intror Hk))) as [F4 X4]. split; [exact F4|]. intro d'. rewrite X4. split.
        * intros [Y1 Y3]. split; [exact Y1|]. intros k [<-|Hk]; [|auto]. intro C. apply eqb_precise in C. congruence.
        * intros [Y1 Y2]. split; [exact Y1|]. intros k Hk. apply Y2. right; auto. }
  destruct (G (seq (i + 1) (n - (i + 1))) _ F1) as [F2 X2]; [intros j Hj; apply in_seq in Hj; lia|]. split; [exact F2|]. intro d'. rewrite X2, X1. split.
  - intros [[Y1 Y2] Y3]. split; [exact Y1|]. split; [exact Y2|]. intros j H1 H2. apply Y3. apply in_seq. lia.
  - intros [Y1 [Y2 Y3]]. split; [split; auto|]. intros j Hj. apply in_seq in Hj. apply Y3; lia.
Qed.
Lemma relaxedCond_fine m0 P d : regionCond m0 d ->
  fine (tcSize m0) d (relaxedCond m0 P) /\ forall d', inCond (relaxedCond m0 P) d' <->
    length d' = tcSize m0 /\ forall i, (i < tcSize m0)%nat -> sameUnit (T d i (tcSize m0 - 1)) (T d' i (tcSize m0 - 1)) /\ forall j, (i < j)%nat -> (j < tcSize m0)%nat -> relaxedOn P d d' i j.
Proof.
  intro R. set (n := tcSize m0). assert (N1 : (1 <= n)%nat) by (destruct R as (_ & [D _] & _); unfold n, tcSize; lia).
  assert (G : forall l m1, fine n d m1 -> (forall i, In i l -> (i < n)%nat) ->
    fine n d (fold_left (relaxRow m0 P) l m1) /\ forall d', inCond (fold_left (relaxRow m0 P) l m1) d' <-> inCond m1 d' /\ forall i, In i l -> sameUnit (T d i (n - 1)) (T d' i (n - 1)) /\ forall j, (i < j)%nat -> (j < n)%nat -> relaxedOn P d d' i j).
  { induction l as [|i l IH]; intros m1 F L; cbn [fold_left].
    - split; [exact F|]. intro d'. split; [intro H; split; [exact H|intros ? []]|tauto].
    - destruct (relaxRow_fine m0 P n d d m1 i R F eq_refl (L i (or_introl eq_refl))) as [F1 X1]; [apply sameUnit_refl|intros j _ _ _; apply sameUnit_refl|].
      destruct (IH _ F1 (fun k Hk => L k (or_intror Hk))) as [F2 X2]. split; [exact F2|]. intro d'. rewrite X2, X1. split.
      + intros [[Y1 Y2] Y3]. split; [exact Y1|]. intros k [<-|Hk]; auto.
      + intros [Y1 Y2]. split; [split; [exact Y1|apply (Y2 i (or_introl eq_refl))]|]. intros k Hk. apply Y2. right; auto. }
  assert (F0 : fine n d (ztop (n + 1))).
  { split; [apply okCond_ztop; auto|]. split; [apply intCond_ztop|]. split; [apply tcSize_ztop|]. apply inCond_ztop; [auto|apply R]. }
  destruct (G (seq 0 n) _ F0) as [F1 X1]; [intros i Hi; apply in_seq in Hi; lia|]. split; [exact F1|]. intro d'. unfold relaxedCond. fold n. rewrite X1, (inCond_ztop n d' N1). split.
  - intros [Y1 Y2]. split; [exact Y1|]. intros i Hi. apply Y2. apply in_seq. lia.
  - intros [Y1 Y2]. split; [exact Y1|]. intros i Hi. apply Y2. apply in_seq in Hi. lia.
Qed.
Lemma copyBounds_mle m0 m i j : (2 <= dim m)%nat -> (i <= j)%nat -> (j < tcSize m)%nat ->
  mle (copyBounds m0 m i j) m /\ ble (getUpperBound (copyBounds m0 m i j) i j) (getUpperBound m0 i j) = true /\ ble (getLowerBound (copyBounds m0 m i j) i j) (getLowerBound m0 i j) = true.
Proof.
  intros D Hij Hj. unfold copyBounds. set (m1 := restrictLowerBound m i j (getLowerBound m0 i j) false).
  assert (D1 : (2 <= dim m1)%nat) by (unfold m1; rewrite dim_restrictLower; auto). assert (S1 : tcSize m1 = tcSize m) by apply tcSize_restrictLower.
  assert (M2 := restrictUpper_mle m1 i j (getUpperBound m0 i j) D1 Hij ltac:(lia)). assert (M1 := restrictLower_mle m i j (getLowerBound m0 i j) D Hij Hj). fold m1 in M1.
  split; [eapply mle_trans; eauto|]. split; [apply restrictUpper_le; auto; lia|].
  assert (L := restrictLower_le m i j (getLowerBound m0 i j) D Hij Hj). fold m1 in L. eapply ble_trans; [|exact L].
  set (m2 := restrictUpperBound m1 i j (getUpperBound m0 i j) false) in *. assert (S2 : tcSize m2 = tcSize m1) by apply tcSize_restrictUpper. assert (D2 : dim m2 = dim m1) by apply dim_restrictUpper.
  assert (C := colOf_lt m1 j D1 ltac:(lia)). unfold getLowerBound. assert (EC : colOf m2 j = colOf m1 j) by (unfold colOf; rewrite S2; reflexivity). rewrite EC. apply M2; rewrite D2; [exact C|unfold tcSize in *; lia].
Qed.
Lemma bounds_mle a b i j : mle a b -> (2 <= dim b)%nat -> (i <= j)%nat -> (j < tcSize b)%nat ->
  ble (getUpperBound a i j) (getUpperBound b i j) = true /\ ble (getLowerBound a i j) (getLowerBound b i j) = true.
Proof.
  intros [E M] D Hij Hj. assert (C := colOf_lt b j D Hj). assert (EC : colOf a j = colOf b j) by (unfold colOf, tcSize; rewrite E; reflexivity).
  unfold getUpperBound, getLowerBound. rewrite EC. split; apply M; rewrite E; auto; unfold tcSize in *; lia.
Qed.
Lemma relaxRow_mle m0 P m i : (2 <= dim m)%nat -> tcSize m = tcSize m0 -> (i < tcSize m)%nat ->
  mle (relaxRow m0 P m i) m /\ ble (getUpperBound (relaxRow m0 P m i) i (tcSize m0 - 1)) (getUpperBound m0 i (tcSize m0 - 1)) = true /\ ble (getLowerBound (relaxRow m0 P m i) i (tcSize m0 - 1)) (getLowerBound m0 i (tcSize m0 - 1)) = true.
Proof.
  intros D E Hi. unfold relaxRow. destruct (copyBounds_mle m0 m i (tcSize m0 - 1) D ltac:(lia) ltac:(lia)) as (M1 & U1 & L1). set (m1 := copyBounds m0 m i (tcSize m0 - 1)) in *.
  assert (D1 : dim m1 = dim m) by apply M1.
  assert (G : forall l m2, dim m2 = dim m -> (forall j, In j l -> (i < j)%nat /\ (j < tcSize m0)%nat) ->
    mle (fold_left (fun m j => if Bool.eqb (isPrecise P i) (isPrecise P j) then copyBounds m0 m i (j - 1) else m) l m2) m2).
  { induction l as [|j l IH]; intros m2 E2 L; cbn [fold_left]; [apply mle_refl|]. destruct (L j (or_introl eq_refl)) as [L1' L2'].
    destruct (Bool.eqb _ _); [|apply IH; auto; intros k Hk; apply L; right; auto].
    destruct (copyBounds_mle m0 m2 i (j - 1)) as (M & _); [lia|lia|unfold tcSize in *; rewrite E2; lia|].
    eapply mle_trans; [apply IH; [rewrite (proj1 M); exact E2|intros k Hk; apply L; right; auto]|exact M]. }
  assert (M2 : mle (fold_left (fun m j => if Bool.eqb (isPrecise P i) (isPrecise P j) then copyBounds m0 m i (j - 1) else m) (seq (i + 1) (tcSize m0 - (i + 1))) m1) m1) by (apply G; [exact D1|intros j Hj; apply in_seq in Hj; lia]).
  set (m3 := fold_left _ _ m1) in *. split; [eapply mle_trans; eauto|]. destruct (bounds_mle m3 m1 i (tcSize m0 - 1) M2) as [B1 B2]; [lia|lia|unfold tcSize in *; rewrite D1; lia|]. split; eapply ble_trans; eauto.
Qed.
Lemma relaxedCond_bounded m0 P d : regionCond m0 d -> boundedCond (relaxedCond m0 P).
Proof.
  intro R. set (n := tcSize m0). assert (N1 : (1 <= n)%nat) by (destruct R as (_ & [D _] & _); unfold n, tcSize; lia).
  assert (G : forall l m, (2 <= dim m)%nat -> tcSize m = n -> (forall i, In i l -> (i < n)%nat) ->
    mle (fold_left (relaxRow m0 P) l m) m /\ forall i, In i l -> ble (getUpperBound (fold_left (relaxRow m0 P) l m) i (n - 1)) (getUpperBound m0 i (n - 1)) = true /\ ble (getLowerBound (fold_left (relaxRow m0 P) l m) i (n - 1)) (getLowerBound m0 i (n - 1)) = true).
  { induction l as [|i l IH]; intros m D E L; cbn [fold_left]; [split; [apply mle_refl|intros ? []]|].
    destruct (relaxRow_mle m0 P m i D E) as (M1 & U1 & L1); [rewrite E; apply L; left; auto|]. assert (D1 : dim (relaxRow m0 P m i) = dim m) by apply M1.
    assert (E1 : tcSize (relaxRow m0 P m i) = n) by (unfold tcSize in *; rewrite D1; exact E).
    destruct (IH (relaxRow m0 P m i)) as [M2 B2]; [lia|exact E1|intros k Hk; apply L; right; auto|]. split; [eapply mle_trans; eauto|].
    intros k [<-|Hk]; [|auto]. destruct (bounds_mle _ _ i (n - 1) M2) as [X1 X2]; [lia|specialize (L i (or_introl eq_refl)); lia|rewrite E1; lia|]. split; eapply ble_trans; eauto. }
  destruct (G (seq 0 n) (ztop (n + 1))) as [M B]; [unfold ztop; rewrite dim_mk; lia|apply tcSize_ztop|intros i Hi; apply in_seq in Hi; lia|].
  change (fold_left (relaxRow m0 P) (seq 0 n) (ztop (n + 1))) with (relaxedCond m0 P) in *. destruct (relaxedCond_fine m0 P d R) as [(O & _ & Sz & _) _]. fold n in Sz. destruct O as (D & C & _).
  assert (FB : forall i, (i < n)%nat -> get (relaxedCond m0 P) (i + 1) 0 <> Inf /\ get (relaxedCond m0 P) 0 (i + 1) <> Inf).
  { intros i Hi. destruct (B i ltac:(apply in_seq; lia)) as [B1 B2]. destruct R as (_ & _ & R). specialize (R i (n - 1)%nat ltac:(lia) ltac:(unfold n in *; lia)).
    unfold getUpperBound at 1 in B1. unfold getLowerBound at 1 in B2. assert (EC : colOf (relaxedCond m0 P) (n - 1) = 0%nat) by (unfold colOf; rewrite Sz, Nat.eqb_refl; reflexivity). rewrite EC in B1, B2.
    destruct R as (z & c & e & [(E1 & E2 & _)|(E1 & E2 & _)]); rewrite E1 in B1; rewrite E2 in B2; split; intro X; rewrite X in *; discriminate. }
  intros i j Hij Hj. rewrite Sz in Hj. unfold getUpperBound, getLowerBound, colOf. rewrite Sz. destruct (Nat.eqb_spec j (n - 1)) as [->|Nj].
  - destruct (FB i ltac:(lia)). auto.
  - replace (j + 2)%nat with ((j + 1) + 1)%nat by lia. destruct (FB i ltac:(lia)) as [A1 A2]. destruct (FB (j + 1)%nat ltac:(lia)) as [A3 A4]. assert (DS : dim (relaxedCond m0 P) = (n + 1)%nat) by (unfold tcSize in *; lia).
    assert (K1 := C (i + 1)%nat (j + 1 + 1)%nat 0%nat ltac:(lia) ltac:(lia) ltac:(lia)). assert (K2 := C (j + 1 + 1)%nat (i + 1)%nat 0%nat ltac:(lia) ltac:(lia) ltac:(lia)).
    split; intro X; rewrite X in *; [clear K2|clear K1].
    + destruct (get (relaxedCond m0 P) (i + 1) 0); [|congruence]. destruct (get (relaxedCond m0 P) 0 (j + 1 + 1)); [|congruence]. discriminate K1.
    + destruct (get (relaxedCond m0 P) (j + 1 + 1) 0); [|congruence]. destruct (get (relaxedCond m0 P) 0 (i + 1)); [|congruence]. discriminate K2.
Qed.
