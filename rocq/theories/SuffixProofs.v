(** Proofs about ForwardRegionalElementaryLanguage::suffix. *)
From Coq Require Import QArith ZArith Bool List Lia Lqa Qround Arith Sorted Permutation.
From Verif Require Import BoundsModel BoundsProofs ConstraintModel ZoneModel ZoneSpec ZoneProofs
  AutomatonModel TimedWordModel TimedWordSpec TimedWordProofs TimedConditionModel TimedConditionSpec TimedConditionProofs TimedConditionProofs2
  TimedConditionProofs3 TimedConditionProofs4 ElementaryModel ElementarySpec ElementaryProofs ElementaryProofs2 RegionalModel RegionalSpec RegionalProofs RegionalProofs2 RegionalProofs3
  RegionalProofs4 RegionalProofs5 RegionalProofs6 RegionInvariance SuffixModel.
Import ListNotations.
Open Scope Q_scope.

(** ** cutting a region in two *)
(** numbers compared with integers *)
Lemma unit_lt (p q : Q) z : sameUnit p q -> (p < inject_Z z <-> q < inject_Z z).
Proof.
  intros U. destruct (unit_cases p) as [k [E|[A B]]].
  - apply (sameUnit_point p k E) in U. rewrite E, U. reflexivity.
  - apply (sameUnit_open p k A B) in U. destruct U as [C D].
    assert (K : forall t, inject_Z k < t -> t < inject_Z k + 1 -> (t < inject_Z z <-> (k + 1 <= z)%Z)).
    { intros t X Y. assert (I : inject_Z (k + 1) == inject_Z k + 1) by (rewrite inject_Z_plus; reflexivity). split; intro H.
      - assert (inject_Z k < inject_Z z) by lra. rewrite <- Zlt_Qlt in H0. lia.
      - rewrite Zle_Qle in H. lra. }
    rewrite (K p A B), (K q C D). reflexivity.
Qed.
Definition unitLo (q : Q) : Q := qfloor q.
(** a point that lies in the given units relative to other points *)
Lemma cut_exists (n : nat) (e e' : nat -> Q) (c : Q) : (forall i j, (i < n)%nat -> (j < n)%nat -> sameUnit (e i - e j) (e' i - e' j)) ->
  exists c', forall i, (i < n)%nat -> sameUnit (c - e i) (c' - e' i).
Proof.
  intro H.
  assert (P : (exists i, (i < n)%nat /\ c - e i == inject_Z (Qfloor (c - e i))) \/ forall i, (i < n)%nat -> inject_Z (Qfloor (c - e i)) < c - e i).
  { induction n as [|n IH]; [right; intros; lia|]. destruct IH as [(i & A & B)|A]; [intros; apply H; lia|left; exists i; split; [lia|auto]|].
    assert (F := Qfloor_le (c - e n)). destruct (Qlt_le_dec (inject_Z (Qfloor (c - e n))) (c - e n)) as [L|L].
    - right. intros i Hi. destruct (Nat.eq_dec i n) as [->|]; [exact L|apply A; lia].
    - left. exists n. split; [lia|]. lra. }
  destruct P as [(i & Hi & E)|A].
  - exists (e' i + inject_Z (Qfloor (c - e i))). intros j Hj. set (z := Qfloor (c - e i)) in *.
    assert (X := sameUnit_shift z _ _ (H i j Hi Hj)). eapply sameUnit_ext; [| |exact X]; lra.
  - assert (G : forall m, (m <= n)%nat -> (0 < m)%nat -> exists i, (i < m)%nat /\ forall j, (j < m)%nat -> e' j + inject_Z (Qfloor (c - e j)) <= e' i + inject_Z (Qfloor (c - e i))).
    { induction m as [|m IH]; intros Hm P; [lia|]. destruct m as [|m]; [exists 0%nat; split; [lia|]; intros j Hj; replace j with 0%nat by lia; lra|].
      destruct (IH ltac:(lia) ltac:(lia)) as (i & A1 & A2). destruct (Qlt_le_dec (e' i + inject_Z (Qfloor (c - e i))) (e' (S m) + inject_Z (Qfloor (c - e (S m))))) as [L|L].
      - exists (S m). split; [lia|]. intros j Hj. destruct (Nat.eq_dec j (S m)) as [->|]; [lra|]. assert (X := A2 j ltac:(lia)). lra.
      - exists i. split; [lia|]. intros j Hj. destruct (Nat.eq_dec j (S m)) as [->|]; [lra|]. apply A2. lia. }
    assert (G' : forall m, (m <= n)%nat -> (0 < m)%nat -> exists i, (i < m)%nat /\ forall j, (j < m)%nat -> e' i + inject_Z (Qfloor (c - e i)) + 1 <= e' j + inject_Z (Qfloor (c - e j)) + 1).
    { induction m as [|m IH]; intros Hm P; [lia|]. destruct m as [|m]; [exists 0%nat; split; [lia|]; intros j Hj; replace j with 0%nat by lia; lra|].
      destruct (IH ltac:(lia) ltac:(lia)) as (i & A1 & A2). destruct (Qlt_le_dec (e' (S m) + inject_Z (Qfloor (c - e (S m)))) (e' i + inject_Z (Qfloor (c - e i)))) as [L|L].
      - exists (S m). split; [lia|]. intros j Hj. destruct (Nat.eq_dec j (S m)) as [->|]; [lra|]. assert (X := A2 j ltac:(lia)). lra.
      - exists i. split; [lia|]. intros j Hj. destruct (Nat.eq_dec j (S m)) as [->|]; [lra|]. apply A2. lia. }
    destruct n as [|n]; [exists 0; intros; lia|]. destruct (G (S n) (le_n _) ltac:(lia)) as (i & Hi & A1). destruct (G' (S n) (le_n _) ltac:(lia)) as (j & Hj & A2).
    assert (L : e' i + inject_Z (Qfloor (c - e i)) < e' j + inject_Z (Qfloor (c - e j)) + 1).
    { assert (X1 := A i Hi). assert (X2 := qfloor_lt (c - e j)). unfold qfloor in X2.
      assert (U := unit_lt _ _ (Qfloor (c - e j) + 1 - Qfloor (c - e i)) (H i j Hi Hj)). unfold Z.sub in U. rewrite !inject_Z_plus, inject_Z_opp in U. change (inject_Z 1) with 1 in U.
      assert (e' i - e' j < inject_Z (Qfloor (c - e j)) + 1 + - inject_Z (Qfloor (c - e i))) by (apply U; lra). lra. }
    exists ((e' i + inject_Z (Qfloor (c - e i)) + (e' j + inject_Z (Qfloor (c - e j)) + 1)) * (1 # 2)).
    intros k Hk. assert (Y1 := A1 k Hk). assert (Y2 := A2 k Hk). assert (Y3 := A k Hk). assert (Y4 := qfloor_lt (c - e k)). unfold qfloor in Y4.
    apply (sameUnit_open (c - e k) (Qfloor (c - e k)) Y3 Y4). split; lra.
Qed.

(** ** the sampled duration is the middle of the possible ones *)
Lemma partial_snoc m d t : (length d < tcSize m)%nat -> partialIn m d ->
  (partialIn m (d ++ [t]) <-> forall k, (k <= length d)%nat -> bsat (getUpperBound m k (length d)) (accd d k + t) /\ bsat (getLowerBound m k (length d)) (- (accd d k + t))).
Proof.
  intros L P. set (i := length d) in *. assert (E : forall a, (a <= i)%nat -> T (d ++ [t]) a i == accd d a + t).
  { intros a Hab. rewrite T_acc by auto. rewrite accd_snoc by auto. rewrite (accd_end (d ++ [t])) by (rewrite app_length; cbn; unfold i; lia). ring. }
  split.
  - intros H k Hk. destruct (H k i Hk ltac:(rewrite app_length; cbn; unfold i; lia)) as [X1 X2]. split; (eapply bsat_ext; [|eassumption]); rewrite E by auto; reflexivity.
  - intros K a b Hab Hb. rewrite app_length in Hb. cbn [length] in Hb. destruct (Nat.eq_dec b i) as [->|Nb].
    + destruct (K a Hab) as [X1 X2]. split; (eapply bsat_ext; [|eassumption]); rewrite E by auto; reflexivity.
    + assert (Lb : (b < i)%nat) by (unfold i in *; lia).
      assert (E2 : T (d ++ [t]) a b == T d a b) by (rewrite !T_acc by auto; rewrite !accd_snoc by (unfold i in *; lia); ring).
      destruct (P a b Hab Lb) as [X1 X2]. split; (eapply bsat_ext; [|eassumption]); rewrite E2; reflexivity.
Qed.
Definition middleOf (P : Q -> Prop) (q : Q) : Prop :=
  exists lo up, q == (lo + up) * (1 # 2) /\ (forall t, P t -> lo <= t /\ t <= up) /\ (forall t, lo < t -> t < up -> P t).
Lemma middle_unique (P R : Q -> Prop) p q : (forall t, P t <-> R t) -> (exists t, P t) -> middleOf P p -> middleOf R q -> p == q.
Proof.
  intros E (t0 & Ht) (lo & up & A1 & A2 & A3) (lo' & up' & B1 & B2 & B3).
  assert (X := A2 t0 Ht). assert (Y := B2 t0 (proj1 (E t0) Ht)).
  assert (L : lo == lo' /\ up == up').
  { destruct (Qlt_le_dec lo up) as [C|C].
    - assert (K1 : lo' <= lo). { destruct (Qlt_le_dec lo lo') as [D|D]; [|exact D]. exfalso. destruct (Qlt_le_dec lo' up) as [F|F].
        - assert (I := B2 _ (proj1 (E ((lo + lo') * (1 # 2))) (A3 ((lo + lo') * (1 # 2)) ltac:(lra) ltac:(lra)))). lra.
        - assert (I := B2 _ (proj1 (E ((lo + up) * (1 # 2))) (A3 ((lo + up) * (1 # 2)) ltac:(lra) ltac:(lra)))). lra. }
      assert (K2 : up <= up'). { destruct (Qlt_le_dec up' up) as [D|D]; [|exact D]. exfalso. destruct (Qlt_le_dec lo up') as [F|F].
        - assert (I := B2 _ (proj1 (E ((up + up') * (1 # 2))) (A3 ((up + up') * (1 # 2)) ltac:(lra) ltac:(lra)))). lra.
        - assert (I := B2 _ (proj1 (E ((lo + up) * (1 # 2))) (A3 ((lo + up) * (1 # 2)) ltac:(lra) ltac:(lra)))). lra. }
      assert (K3 : lo <= lo'). { destruct (Qlt_le_dec lo' lo) as [D|D]; [|exact D]. exfalso.
        assert (I := A2 _ (proj2 (E ((lo' + lo) * (1 # 2))) (B3 ((lo' + lo) * (1 # 2)) ltac:(lra) ltac:(lra)))). lra. }
      assert (K4 : up' <= up). { destruct (Qlt_le_dec up up') as [D|D]; [|exact D]. exfalso.
        assert (I := A2 _ (proj2 (E ((up' + up) * (1 # 2))) (B3 ((up' + up) * (1 # 2)) ltac:(lra) ltac:(lra)))). lra. }
      split; lra.
    - assert (C' : lo == t0 /\ up == t0) by (split; lra). destruct (Qlt_le_dec lo' up') as [D|D]; [|split; lra]. exfalso.
      assert (I := A2 _ (proj2 (E ((lo' + up') * (1 # 2))) (B3 ((lo' + up') * (1 # 2)) ltac:(lra) ltac:(lra)))).
      destruct (Qlt_le_dec lo' t0) as [F|F].
      + assert (J := A2 _ (proj2 (E ((lo' + (lo' + up') * (1 # 2)) * (1 # 2))) (B3 ((lo' + (lo' + up') * (1 # 2)) * (1 # 2)) ltac:(lra) ltac:(lra)))). lra.
      + assert (J := A2 _ (proj2 (E ((up' + (lo' + up') * (1 # 2)) * (1 # 2))) (B3 ((up' + (lo' + up') * (1 # 2)) * (1 # 2)) ltac:(lra) ltac:(lra)))). lra. }
  rewrite A1, B1. destruct L as [-> ->]. reflexivity.
Qed.
Lemma sampleAt_middle m d : okCond m -> boundedCond m -> (length d < tcSize m)%nat -> partialIn m d ->
  middleOf (fun t => partialIn m (d ++ [t])) (sampleAt m d (length d)).
Proof.
  intros O B L P. set (i := length d) in *. unfold sampleAt.
  destruct (boundedCond_fin m i i B (le_n i) L) as [u [us [l [ls [EU EL]]]]].
  assert (A0 : accd d i == 0) by (rewrite accd_end; [reflexivity|unfold i; lia]).
  assert (PS := fun t => partial_snoc m d t L P). fold i in PS.
  rewrite EU, EL. unfold isPoint. cbn [bval]. destruct (Qeq_bool (- l) u && us && ls) eqn:EP.
  - apply andb_true_iff in EP. destruct EP as [EP E3]. apply andb_true_iff in EP. destruct EP as [E1 E2]. apply Qeq_bool_iff in E1. subst us ls.
    exists u, u. split; [lra|]. split; [|intros; lra]. intros t H. assert (H1 := proj1 (PS t) H). clear H; rename H1 into H. assert (Z := H i (le_n i)). rewrite EU, EL in Z. cbn [bsat] in Z. lra.
  - assert (R := sampleRange_spec m d i i (- l) u 0 (le_n i) ltac:(rewrite A0; reflexivity)). cbv zeta in R.
    destruct (sampleRange m d i i (- l) u 0) as [lo up]. cbn [fst snd] in R. destruct R as [R1 [R2 [R3 R4]]]. exists lo, up. split; [reflexivity|]. split.
    + intros t0 H. assert (H1 := proj1 (PS t0) H). clear H; rename H1 into H. apply R4.
      * assert (Z := H i (le_n i)). rewrite EU, EL in Z. destruct us, ls; cbn [bsat] in Z; lra.
      * assert (Z := H i (le_n i)). rewrite EU, EL in Z. destruct us, ls; cbn [bsat] in Z; lra.
      * intros k Hk. assert (Z := H k ltac:(lia)). destruct (boundedCond_fin m k i B ltac:(lia) L) as [u' [us' [l' [ls' [EU' EL']]]]]. rewrite EU', EL' in *. cbn [bval]. destruct us', ls'; cbn [bsat] in Z; lra.
    + intros t X1 X2. apply (proj2 (PS t)). intros k Hk. destruct (boundedCond_fin m k i B Hk L) as [u' [us' [l' [ls' [EU' EL']]]]].
      assert (R3' : - bval (getLowerBound m k i) - accd d k <= lo /\ up <= bval (getUpperBound m k i) - accd d k).
      { destruct (Nat.eq_dec k i) as [->|]; [|apply R3; lia]. rewrite EU, EL. cbn [bval]. lra. }
      rewrite EU', EL' in *. cbn [bval] in R3'. destruct us', ls'; cbn [bsat]; lra.
Qed.
Lemma partial_extends m : okCond m -> forall k d, (length d + k = tcSize m)%nat -> partialIn m d -> exists e, length e = k /\ inCond m (d ++ e).
Proof.
  intro O. induction k as [|k IH]; intros d L P.
  - exists []. split; [reflexivity|]. rewrite app_nil_r. split; [lia|]. intros i j Hij Hj. apply P; lia.
  - destruct (sample_next m d O ltac:(lia) P) as [t Ht]. assert (P' : partialIn m (d ++ [t])) by (apply partial_snoc; auto; lia).
    destruct (IH (d ++ [t]) ltac:(rewrite app_length; cbn; lia) P') as (e & Le & I). exists (t :: e). split; [cbn; lia|]. rewrite <- app_assoc in I. exact I.
Qed.
Lemma sampleDurs_step m n : sampleDurs m (S n) = sampleDurs m n ++ [sampleAt m (sampleDurs m n) n].
Proof. unfold sampleDurs. rewrite seq_S, fold_left_app. reflexivity. Qed.
Lemma sampleDurs_prefix m : forall k n, exists r, length r = k /\ sampleDurs m (n + k) = sampleDurs m n ++ r.
Proof.
  induction k as [|k IH]; intro n; [exists []; rewrite Nat.add_0_r, app_nil_r; split; reflexivity|].
  destruct (IH n) as (r & Lr & E). rewrite Nat.add_succ_r, sampleDurs_step, E. exists (r ++ [sampleAt m (sampleDurs m n ++ r) (n + k)]). split; [rewrite app_length; cbn; lia|]. rewrite <- app_assoc. reflexivity.
Qed.
