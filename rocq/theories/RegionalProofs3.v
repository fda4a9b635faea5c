From Coq Require Import QArith ZArith Bool List Lia Lqa Qround Arith Sorted Permutation.
From Verif Require Import BoundsModel BoundsProofs ConstraintModel ZoneModel ZoneSpec ZoneProofs
  AutomatonModel TimedWordModel TimedWordSpec TimedConditionModel TimedConditionSpec TimedConditionProofs TimedConditionProofs2
  TimedConditionProofs3 TimedConditionProofs4 ElementaryModel ElementarySpec ElementaryProofs ElementaryProofs2 RegionalModel RegionalSpec RegionalProofs RegionalProofs2.
Import ListNotations.
Open Scope Q_scope.

(** * the constructor of fractional orders *)
Definition pairLE (a b : Q * nat) : Prop := fst a < fst b \/ (fst a == fst b /\ (snd a <= snd b)%nat).
Lemma pairLt_spec a b : if pairLt a b then pairLE a b else pairLE b a.
Proof.
  destruct a as [p i], b as [q j]. unfold pairLt, pairLE. cbn [fst snd]. destruct (Qltb p q) eqn:E1.
  - cbn. left. apply Qltb_true; auto.
  - apply Qltb_false in E1. cbn [orb]. destruct (Qltb q p) eqn:E2; cbn [negb andb].
    + left. apply Qltb_true; auto.
    + apply Qltb_false in E2. destruct (i <? j)%nat eqn:E3; [apply Nat.ltb_lt in E3|apply Nat.ltb_ge in E3]; right; split; first [lra|lia].
Qed.
Lemma pairLE_trans a b c : pairLE a b -> pairLE b c -> pairLE a c.
Proof. unfold pairLE. intros [A|[A A']] [B|[B B']]; [left; lra|left; lra|left; lra|right; split; [lra|lia]]. Qed.
Lemma insertPair_perm x l : Permutation (insertPair x l) (x :: l).
Proof. induction l as [|y r IH]; cbn; [auto|]. destruct (pairLt x y); [auto|]. eapply Permutation_trans; [apply perm_skip; exact IH|apply perm_swap]. Qed.
Lemma sortPairs_perm l : Permutation (sortPairs l) l.
Proof. induction l as [|x r IH]; cbn; [auto|]. eapply Permutation_trans; [apply insertPair_perm|]. apply perm_skip. exact IH. Qed.
Lemma insertPair_sorted x l : StronglySorted pairLE l -> StronglySorted pairLE (insertPair x l).
Proof.
  induction 1 as [|y r S IH F]; cbn; [constructor; constructor|]. assert (P := pairLt_spec x y). destruct (pairLt x y).
  - constructor; [constructor; auto|]. constructor; [auto|]. eapply Forall_impl; [|exact F]. intros b Hb. eapply pairLE_trans; eauto.
  - constructor; [auto|]. apply (Permutation_Forall (Permutation_sym (insertPair_perm x r))). constructor; auto.
Qed.
Lemma sortPairs_sorted l : StronglySorted pairLE (sortPairs l).
Proof. induction l; cbn; [constructor|]. apply insertPair_sorted; auto. Qed.

Lemma group_spec : forall l done cur val f, StronglySorted pairLE l -> (forall q i, In (q, i) l -> val <= q) -> (forall q i, In (q, i) l -> f i == q) ->
  exists c rest, groupPairs done cur val l = done ++ (cur ++ c) :: rest /\ c ++ concat rest = map snd l /\
    StronglySorted le c /\ Forall (StronglySorted le) rest /\ (forall i, In i c -> exists q, In (q, i) l /\ q == val) /\ ordAbove val rest f.
Proof.
  induction l as [|[q i] l IH]; intros done cur val f S V F; cbn [groupPairs].
  - exists [], []. rewrite app_nil_r. repeat (split; [first [reflexivity|constructor]|]). split; [intros i []|exact I].
  - inversion S as [|? ? S1 S2]; subst. rewrite Forall_forall in S2. destruct (Qeq_bool val q) eqn:E.
    + apply Qeq_bool_eq in E. destruct (IH done (cur ++ [i]) val f S1) as [c [rest [A [B [C [D [G H]]]]]]].
      { intros. eapply V; cbn; eauto. } { intros. apply F; cbn; auto. }
      exists (i :: c), rest. split; [rewrite A; rewrite <- app_assoc; reflexivity|]. split; [cbn; rewrite B; reflexivity|]. split; [|split; [auto|split; [|auto]]].
      * constructor; [auto|]. apply Forall_forall. intros j Hj. destruct (G j Hj) as [q' [K1 K2]]. destruct (S2 _ K1) as [L|[_ L]]; [cbn in L; lra|exact L].
      * intros j [<-|Hj]; [exists q; split; [cbn; auto|lra]|]. destruct (G j Hj) as [q' [K1 K2]]. exists q'. split; [cbn; auto|auto].
    + apply Qeq_bool_false in E. assert (Vq : val < q). { assert (K := V q i (or_introl eq_refl)). apply Qle_lteq in K. destruct K as [|K]; [auto|]. exfalso; apply E; exact K. }
      destruct (IH (done ++ [cur]) [i] q f S1) as [c [rest [A [B [C [D [G H]]]]]]].
      { intros q' j Hj. destruct (S2 _ Hj) as [L|[L _]]; cbn in L; lra. } { intros. apply F; cbn; auto. }
      exists [], ((i :: c) :: rest). split; [rewrite A; rewrite <- app_assoc, app_nil_r; reflexivity|]. split; [cbn; rewrite B; reflexivity|].
      split; [constructor|]. split; [|split; [intros j []|]].
      * constructor; [|auto]. constructor; [auto|]. apply Forall_forall. intros j Hj. destruct (G j Hj) as [q' [K1 K2]]. destruct (S2 _ K1) as [L|[_ L]]; [cbn in L; lra|exact L].
      * split; [discriminate|]. exists q. split; [auto|]. split; [|auto]. intros j [<-|Hj]; [apply F; cbn; auto|].
        destruct (G j Hj) as [q' [K1 K2]]. rewrite (F q' j) by (cbn; auto). exact K2.
Qed.
Lemma sorted_le_lt l : StronglySorted le l -> NoDup l -> StronglySorted lt l.
Proof.
  induction 1 as [|a r S IH F]; intro N; constructor; inversion N as [|? ? N1 N2]; subst; auto.
  apply Forall_forall. intros x Hx. rewrite Forall_forall in F. assert (a <= x)%nat by auto. assert (a <> x) by (intro; subst; auto). lia.
Qed.
Lemma nodup_block (bs : list (list nat)) b : In b bs -> NoDup (concat bs) -> NoDup b.
Proof.
  induction bs as [|c r IH]; intros I N; [destruct I|]. cbn in N. destruct I as [<-|I].
  - clear IH. induction c as [|x c IH]; [constructor|]. inversion N as [|? ? N1 N2]; subst. constructor; [intro K; apply N1; apply in_app_iff; auto|apply IH; auto].
  - apply IH; auto. clear -N. induction c as [|x c IHc]; [auto|]. inversion N; auto.
Qed.
Lemma combine_seq_nth : forall (fs : list Q) s q i, In (q, i) (combine fs (seq s (length fs))) -> q = nth (i - s) fs 0 /\ (s <= i)%nat.
Proof.
  induction fs as [|x r IH]; intros s q i H; [destruct H|]. cbn in H. destruct H as [E|H].
  - injection E as -> ->. rewrite Nat.sub_diag. split; [reflexivity|lia].
  - apply IH in H. destruct H as [H L]. split; [|lia]. rewrite H. replace (i - s)%nat with (S (i - S s)) by lia. reflexivity.
Qed.
Lemma map_snd_combine : forall (fs : list Q) s, map snd (combine fs (seq s (length fs))) = seq s (length fs).
Proof. induction fs as [|x r IH]; intro s; cbn; [reflexivity|]. rewrite IH. reflexivity. Qed.
Lemma foOf_order fs : (forall q, In q fs -> 0 <= q) -> orderOf (foOf fs) (length fs) (fun i => nth i fs 0).
Proof.
  intro P. unfold foOf. set (l := combine fs (seq 0 (length fs))).
  assert (Pl := sortPairs_perm l).
  assert (Fl : forall q i, In (q, i) (sortPairs l) -> q = nth i fs 0).
  { intros q i H. apply (Permutation_in _ Pl) in H. apply combine_seq_nth in H. destruct H as [H _]. rewrite Nat.sub_0_r in H. exact H. }
  destruct (group_spec (sortPairs l) [] [] 0 (fun i => nth i fs 0) (sortPairs_sorted l)) as [c [rest [A [B [C [D [G H]]]]]]].
  { intros q i K. apply P. apply (Permutation_in _ Pl) in K. apply in_combine_l in K. exact K. }
  { intros q i K. rewrite (Fl q i K). reflexivity. }
  cbn [app] in A. unfold orderOf. cbn [blocks fsize]. rewrite A. split; [reflexivity|].
  assert (PM : Permutation (concat (c :: rest)) (seq 0 (length fs))).
  { cbn [concat]. rewrite B. replace (seq 0 (length fs)) with (map snd l) by (apply map_snd_combine). apply Permutation_map. exact Pl. }
  split; [exact PM|]. split; [|split].
  - assert (ND : NoDup (concat (c :: rest))) by (apply (Permutation_NoDup (Permutation_sym PM)); apply seq_NoDup).
    apply Forall_forall. intros b Hb. apply sorted_le_lt; [|eapply nodup_block; eauto].
    destruct Hb as [<-|Hb]; [exact C|]. rewrite Forall_forall in D. auto.
  - intros i Hi. destruct (G i Hi) as [q [K1 K2]]. rewrite <- (Fl q i K1). exact K2.
  - exact H.
Qed.

(** * how the bounds move with the durations *)
Lemma isPoint_unit u l q : unitBounds u l q -> (isPoint u l = true <-> exists z, q == inject_Z z).
Proof.
  intros [z [c [e [[-> [-> [C [E H]]]]|[-> [-> [C [E [H H']]]]]]]]]; unfold isPoint.
  - split; [exists z; auto|]. intros _. rewrite !andb_true_r. apply Qeq_bool_iff. lra.
  - split; [rewrite !andb_false_r; discriminate|]. intros [z' K]. exfalso. 
    assert (A : inject_Z z < inject_Z z') by lra. assert (B : inject_Z z' < inject_Z (z + 1)) by (rewrite inject_Z_plus; change (inject_Z 1) with 1; lra).
    rewrite <- Zlt_Qlt in A, B. lia.
Qed.
Lemma unit_same_z u l q q' : unitBounds u l q -> unitUp q q' ->
  (exists z c e, u = Fin c true /\ l = Fin e true /\ c == inject_Z z /\ e == - inject_Z z /\ inject_Z z < q' /\ q' < inject_Z z + 1) \/
  (exists z c e, u = Fin c false /\ l = Fin e false /\ c == inject_Z z + 1 /\ e == - inject_Z z /\ q' == inject_Z z + 1).
Proof.
  intros [z [c [e [[-> [-> [C [E H]]]]|[-> [-> [C [E [H H']]]]]]]]] [y [[A [B D]]|[A [B D]]]].
  - left. exists z, c, e. repeat (split; [first [reflexivity|lra]|]). lra.
  - exfalso. assert (K := proj1 (sameUnit_open q y A B q) (sameUnit_refl q)). rewrite H in K.
    destruct K as [K1 K2]. rewrite <- Zlt_Qlt in K1. assert (B' : inject_Z z < inject_Z (y + 1)) by (rewrite inject_Z_plus; change (inject_Z 1) with 1; lra). rewrite <- Zlt_Qlt in B'. lia.
  - exfalso. rewrite A in H, H'. rewrite <- Zlt_Qlt in H. assert (B' : inject_Z y < inject_Z (z + 1)) by (rewrite inject_Z_plus; change (inject_Z 1) with 1; lra). rewrite <- Zlt_Qlt in B'. lia.
  - right. assert (Y : y = z). { assert (F1 : Qfloor q = z) by (apply floor_unique; lra). assert (F2 : Qfloor q = y) by (apply floor_unique; lra). congruence. }
    subst y. exists z, c, e. repeat (split; [first [reflexivity|lra]|]). lra.
Qed.
Lemma succG_unit u l q q' : unitBounds u l q -> unitUp q q' -> unitBounds (fst (succG u l)) (snd (succG u l)) q'.
Proof.
  intros U M. destruct (unit_same_z u l q q' U M) as [[z [c [e [-> [-> [C [E [P1 P2]]]]]]]]|[z [c [e [-> [-> [C [E P]]]]]]]]; cbn.
  - exists z, (c + 1), e. right. repeat (split; [first [reflexivity|lra]|]). lra.
  - exists (z + 1)%Z, c, (e + - (1)). left. rewrite inject_Z_plus. change (inject_Z 1) with 1. repeat (split; [first [reflexivity|lra]|]). lra.
Qed.
Lemma predG_unit u l q q' : unitBounds u l q -> unitUp q q' -> unitBounds (fst (predG u l)) (snd (predG u l)) q'.
Proof.
  intros U M. destruct (unit_same_z u l q q' U M) as [[z [c [e [-> [-> [C [E [P1 P2]]]]]]]]|[z [c [e [-> [-> [C [E P]]]]]]]]; unfold predG.
  - assert (IP : isPoint (Fin c true) (Fin e true) = true) by (unfold isPoint; rewrite !andb_true_r; apply Qeq_bool_iff; lra). rewrite IP. cbn.
    exists z, (c + 1), e. right. repeat (split; [first [reflexivity|lra]|]). lra.
  - assert (IP : isPoint (Fin c false) (Fin e false) = false) by (unfold isPoint; rewrite !andb_false_r; reflexivity). rewrite IP. cbn.
    exists (z + 1)%Z, c, (e + - (1)). left. rewrite inject_Z_plus. change (inject_Z 1) with 1. repeat (split; [first [reflexivity|lra]|]). lra.
Qed.
Lemma prefG_unit u l q q' : unitBounds u l q -> unitUp q' q -> unitBounds (fst (prefG u l)) (snd (prefG u l)) q'.
Proof.
  intros [z [c [e [[-> [-> [C [E H]]]]|[-> [-> [C [E [H H']]]]]]]]] [y [[A [B D]]|[A [B D]]]]; unfold prefG.
  - exfalso. rewrite H in B, D. rewrite <- Zlt_Qlt in B. assert (B' : inject_Z z < inject_Z (y + 1)) by (rewrite inject_Z_plus; change (inject_Z 1) with 1; lra). rewrite <- Zlt_Qlt in B'. lia.
  - assert (IP : isPoint (Fin c true) (Fin e true) = true) by (unfold isPoint; rewrite !andb_true_r; apply Qeq_bool_iff; lra). rewrite IP. cbn.
    exists y, c, (e + 1). right. repeat (split; [first [reflexivity|lra]|]). lra.
  - assert (IP : isPoint (Fin c false) (Fin e false) = false) by (unfold isPoint; rewrite !andb_false_r; reflexivity). rewrite IP. cbn.
    assert (Y : y = z). { assert (F1 : Qfloor q = z) by (apply floor_unique; lra). assert (F2 : Qfloor q = y) by (apply floor_unique; lra). congruence. }
    subst y. exists z, (c + - (1)), e. left. repeat (split; [first [reflexivity|lra]|]). lra.
  - exfalso. assert (K : inject_Z z < inject_Z (y + 1)) by (rewrite inject_Z_plus; change (inject_Z 1) with 1; lra).
    assert (K' : inject_Z (y + 1) < inject_Z (z + 1)) by (rewrite !inject_Z_plus; change (inject_Z 1) with 1; lra).
    rewrite <- Zlt_Qlt in K, K'. lia.
Qed.

Lemma natpair_dec (p q : nat * nat) : {p = q} + {p <> q}.
Proof. decide equality; apply Nat.eq_dec. Qed.
(** updating the bounds of some of the T_{i,j} *)
Definition entry (m : tcond) (p : nat * nat) : nat * nat := ((fst p + 1)%nat, colOf m (snd p)).
Lemma region_update g ps m d d' : regionCond m d -> length d' = length d -> NoDup ps ->
  (forall i j, In (i, j) ps -> (i <= j)%nat /\ (j < tcSize m)%nat) ->
  (forall i j u l, In (i, j) ps -> unitBounds u l (T d i j) -> unitBounds (fst (g u l)) (snd (g u l)) (T d' i j)) ->
  (forall i j, (i <= j)%nat -> (j < tcSize m)%nat -> ~ In (i, j) ps -> sameUnit (T d i j) (T d' i j)) ->
  regionCond (fold_left (updPair g) (map (entry m) ps) m) d'.
Proof.
  intros [L [[D DG] H]] L' ND V U S.
  assert (N : (1 <= tcSize m)%nat) by (unfold tcSize; lia).
  assert (CO : forall j, (j < tcSize m)%nat -> colOf m j = 0%nat /\ j = (tcSize m - 1)%nat \/ colOf m j = (j + 2)%nat /\ (j < tcSize m - 1)%nat).
  { intros j Hj. unfold colOf. destruct (j =? tcSize m - 1)%nat eqn:E; [apply Nat.eqb_eq in E; left; lia|apply Nat.eqb_neq in E; right; split; [auto|lia]]. }
  assert (EI : forall i j i' j', (j < tcSize m)%nat -> (j' < tcSize m)%nat -> entry m (i, j) = entry m (i', j') -> i = i' /\ j = j').
  { intros i j i' j' Hj Hj' E. unfold entry in E. cbn [fst snd] in E. injection E as E1 E2. split; [lia|]. destruct (CO j Hj), (CO j' Hj'); lia. }
  destruct (upd_fold g (map (entry m) ps) m) as [DD F].
  { intros p Hp. apply in_map_iff in Hp. destruct Hp as [[i j] [<- Hp]]. destruct (V i j Hp) as [V1 V2]. unfold entry. cbn [fst snd].
    assert (Hc := colOf_lt m j D V2). split; [unfold tcSize in *; lia|]. split; [auto|]. destruct (CO j V2); lia. }
  { clear -ND V EI. induction ps as [|[i j] ps IH]; cbn; [constructor|]. inversion ND as [|? ? N1 N2]; subst. constructor.
    - intro K. apply in_map_iff in K. destruct K as [[i' j'] [E K]]. apply EI in E; [|apply (V i' j'); cbn; auto|apply (V i j); cbn; auto].
      destruct E as [-> ->]. auto.
    - apply IH; auto. intros. apply V. cbn. auto. }
  { intros p q Hp Hq K. apply in_map_iff in Hp. destruct Hp as [[i j] [<- Hp]]. apply in_map_iff in Hq. destruct Hq as [[i' j'] [<- Hq]].
    destruct (V i j Hp) as [V1 V2]. destruct (V i' j' Hq) as [V3 V4]. unfold entry in K. cbn [fst snd] in K. injection K as K1 K2.
    destruct (CO j V2), (CO j' V4); lia. }
  set (m' := fold_left (updPair g) (map (entry m) ps) m) in *.
  assert (SZ : tcSize m' = tcSize m) by (unfold tcSize; rewrite DD; auto).
  assert (CC : forall j, colOf m' j = colOf m j) by (intro j; unfold colOf; rewrite SZ; auto).
  split; [rewrite SZ; congruence|]. split.
  { split; [rewrite DD; auto|]. rewrite DD. intros k Hk. destruct (F k k Hk Hk) as [_ F1].
    assert (X : ~ In (k, k) (map (entry m) ps)).
    { intro X. apply in_map_iff in X. destruct X as [[i j] [E X]]. unfold entry in E. cbn [fst snd] in E. injection E as E1 E2.
      destruct (V i j X) as [V3 V4]. destruct (CO j V4); lia. }
    rewrite F1 by auto. auto. }
  rewrite SZ. intros i j Hij Hj. unfold getUpperBound, getLowerBound. rewrite CC.
  assert (Hc := colOf_lt m j D Hj). assert (Hi : (i + 1 < dim m)%nat) by (unfold tcSize in *; lia).
  assert (UB := H i j Hij Hj). unfold getUpperBound, getLowerBound in UB.
  destruct (In_dec natpair_dec (i, j) ps) as [K|K].
  - destruct (F (i + 1)%nat (colOf m j) Hi Hc) as [F1 _]. destruct F1 as [E1 E2].
    { apply in_map_iff. exists (i, j). split; [reflexivity|auto]. }
    rewrite E1, E2. apply U; auto.
  - assert (X1 : ~ In ((i + 1)%nat, colOf m j) (map (entry m) ps)).
    { intro X. apply in_map_iff in X. destruct X as [[i' j'] [E X]]. change ((i + 1)%nat, colOf m j) with (entry m (i, j)) in E.
      apply EI in E; [|apply (V i' j'); auto|auto]. destruct E as [-> ->]. auto. }
    assert (X2 : ~ In (colOf m j, (i + 1)%nat) (map (entry m) ps)).
    { intro X. apply in_map_iff in X. destruct X as [[i' j'] [E X]]. unfold entry in E. cbn [fst snd] in E. injection E as E1 E2.
      destruct (V i' j' X) as [V3 V4]. destruct (CO j Hj), (CO j' V4); lia. }
    destruct (F (i + 1)%nat (colOf m j) Hi Hc) as [_ F1]. destruct (F (colOf m j) (i + 1)%nat Hc Hi) as [_ F2].
    rewrite F1, F2 by auto. eapply unitBounds_same; [exact UB|]. apply S; auto.
Qed.

(** ** sums after a delay *)
Lemma T_addBack d q i j : (i <= j)%nat -> (j < length d)%nat -> T (addBack d q) i j == T d i j + (if (j =? length d - 1)%nat then q else 0).
Proof.
  intros Hij Hj. assert (N : d <> []) by (intro; subst; cbn in Hj; lia).
  rewrite !T_acc by auto. rewrite accd_addBack by (auto; lia). destruct (j =? length d - 1)%nat eqn:E.
  - apply Nat.eqb_eq in E. replace (S j) with (length d) by lia.
    assert (Z1 : accd d (length d) == 0) by (unfold accd; rewrite skipn_all; reflexivity).
    assert (Z2 : accd (addBack d q) (length d) == 0) by (rewrite <- (addBack_length d q); unfold accd; rewrite skipn_all; reflexivity).
    rewrite Z1, Z2. lra.
  - apply Nat.eqb_neq in E. rewrite accd_addBack by (auto; lia). lra.
Qed.
Lemma since_addBack d q i : (i < length d)%nat -> since (addBack d q) i == since d i + q.
Proof. intro H. unfold since. rewrite addBack_length, T_addBack by lia. rewrite Nat.eqb_refl. reflexivity. Qed.
Lemma T_predelayed d q i j : (i <= j)%nat -> (j < length d)%nat -> T (predelayed d q) i j == T d i j + (if (i =? 0)%nat then q else 0).
Proof.
  intros Hij Hj. destruct d as [|x r]; [cbn in Hj; lia|]. cbn [predelayed]. unfold T. destruct i as [|i]; cbn [Nat.eqb].
  - rewrite Nat.sub_0_r. cbn [skipn firstn sumQ]. lra.
  - cbn [skipn]. lra.
Qed.
Lemma predelayed_length d q : length (predelayed d q) = length d.
Proof. destruct d; reflexivity. Qed.

Lemma entry_succ m vars : (1 <= tcSize m)%nat -> map (entry m) (map (fun i => (i, tcSize m - 1)%nat) vars) = map (fun i => ((i + 1)%nat, 0%nat)) vars.
Proof. intro N. rewrite map_map. apply map_ext. intro i. unfold entry, colOf. cbn [fst snd]. rewrite Nat.eqb_refl. reflexivity. Qed.
Lemma fold_map_l {A B C} (h : A -> B -> A) (k : C -> B) : forall l a, fold_left h (map k l) a = fold_left (fun x y => h x (k y)) l a.
Proof. induction l as [|c l IH]; intro a; cbn; auto. Qed.
Lemma tcSuccessor_upd m vars : (1 <= tcSize m)%nat ->
  tcSuccessor m vars = fold_left (updPair succG) (map (entry m) (map (fun i => (i, tcSize m - 1)%nat) vars)) m.
Proof.
  intro N. rewrite (entry_succ m vars N). unfold tcSuccessor. rewrite fold_map_l. clear N. revert m. induction vars as [|i vars IH]; intro m; cbn; [auto|]. rewrite succ1_upd. apply IH.
Qed.
Lemma tcPrefix_upd m vars : (1 <= tcSize m)%nat ->
  tcPrefix m vars = fold_left (updPair prefG) (map (entry m) (map (fun i => (i, tcSize m - 1)%nat) vars)) m.
Proof.
  intro N. rewrite (entry_succ m vars N). unfold tcPrefix. rewrite fold_map_l. clear N. revert m. induction vars as [|i vars IH]; intro m; cbn; [auto|]. rewrite prefix1_upd. apply IH.
Qed.
Lemma tcPredecessor_upd m vars : (2 <= dim m)%nat -> (forall i, In i vars -> (i < tcSize m)%nat) ->
  tcPredecessor m vars = fold_left (updPair predG) (map (entry m) (map (fun i => (0, i)%nat) vars)) m.
Proof.
  intros D V. rewrite map_map, fold_map_l. unfold tcPredecessor. set (m0 := m) in |- * at 2. 
  assert (E : dim m0 = dim m) by reflexivity. clearbody m0. revert m E D V. induction vars as [|i vars IH]; intros m E D V; cbn; [auto|].
  rewrite pred1_upd. unfold entry at 2. cbn [fst snd Nat.add].
  assert (Ec : ((i + 2) mod dim m)%nat = colOf m0 i).
  { assert (Hi : (i < tcSize m)%nat) by (apply V; cbn; auto). unfold colOf, tcSize in *. rewrite E. destruct (i =? Nat.pred (dim m) - 1)%nat eqn:K.
    - apply Nat.eqb_eq in K. replace (i + 2)%nat with (dim m) by lia. apply Nat.mod_same. lia.
    - apply Nat.eqb_neq in K. apply Nat.mod_small. lia. }
  rewrite Ec. apply IH.
  - rewrite dim_updPair. auto.
  - rewrite dim_updPair. auto.
  - intros k Hk. unfold tcSize. rewrite dim_updPair. apply V. cbn; auto.
Qed.
Lemma tcSuffix_upd m vars : tcSuffix m vars = fold_left (updPair prefG) (map (entry m) (map (fun i => (0, i)%nat) vars)) m.
Proof.
  rewrite map_map, fold_map_l. unfold tcSuffix. set (m0 := m) in |- * at 2. 
  assert (E : dim m0 = dim m) by reflexivity. clearbody m0. revert m E. induction vars as [|i vars IH]; intros m E; cbn; [auto|].
  rewrite suffix1_upd. unfold entry at 2. cbn [fst snd Nat.add]. replace (colOf m i) with (colOf m0 i) by (unfold colOf, tcSize; rewrite E; auto).
  apply IH. rewrite dim_updPair. auto.
Qed.

Lemma nodup_map_pair {A B} (k : A -> B) l : (forall a b, k a = k b -> a = b) -> NoDup l -> NoDup (map k l).
Proof. intros K N. induction N; cbn; constructor; auto. intro X. apply in_map_iff in X. destruct X as [y [E Y]]. apply K in E. subst. auto. Qed.

Section Forward.
  Variables (m : tcond) (d d' : list Q) (vars : list nat).
  Hypothesis R : regionCond m d.
  Hypothesis L : length d' = length d.
  Hypothesis N : NoDup vars.
  Hypothesis Same : forall i j, (i <= j)%nat -> (j < length d - 1)%nat -> T d' i j == T d i j.
  Lemma fwd_same ps : (forall i j, (i <= j)%nat -> (j < tcSize m)%nat -> ~ In (i, j) ps -> j = (tcSize m - 1)%nat -> sameUnit (T d i j) (T d' i j)) ->
    forall i j, (i <= j)%nat -> (j < tcSize m)%nat -> ~ In (i, j) ps -> sameUnit (T d i j) (T d' i j).
  Proof using R L Same.
    intros H i j Hij Hj K. destruct (Nat.eq_dec j (tcSize m - 1)) as [E|E]; [apply H; auto|].
    eapply sameUnit_ext; [reflexivity| |apply sameUnit_refl]. symmetry. apply Same; auto. destruct R as [RL _]. lia.
  Qed.
  Lemma regionCond_succ : moveUp (length d) (since d) (since d') vars -> regionCond (tcSuccessor m vars) d'.
  Proof using R L N Same.
    intros [M1 M2]. assert (RL : length d = tcSize m) by apply R. assert (D : (2 <= dim m)%nat) by apply R.
    rewrite tcSuccessor_upd by (unfold tcSize; lia). apply region_update with d; auto.
    - apply nodup_map_pair; auto. intros a b E. congruence.
    - intros i j K. apply in_map_iff in K. destruct K as [k [E K]]. injection E as <- <-. apply M1 in K. unfold tcSize in *. lia.
    - intros i j u l K U. apply in_map_iff in K. destruct K as [k [E K]]. injection E as <- <-. apply M1 in K. destruct K as [_ K].
      eapply succG_unit; [exact U|]. unfold since in K. rewrite L, RL in K. exact K.
    - apply fwd_same. intros i j Hij Hj K E. subst j. assert (S : sameUnit (since d i) (since d' i)).
      { apply M2; [lia|]. intro X. apply K. apply in_map_iff. exists i. auto. }
      unfold since in S. rewrite L, RL in S. exact S.
  Qed.
  Lemma regionCond_prefix : moveUp (length d) (since d') (since d) vars -> regionCond (tcPrefix m vars) d'.
  Proof using R L N Same.
    intros [M1 M2]. assert (RL : length d = tcSize m) by apply R. assert (D : (2 <= dim m)%nat) by apply R.
    rewrite tcPrefix_upd by (unfold tcSize; lia). apply region_update with d; auto.
    - apply nodup_map_pair; auto. intros a b E. congruence.
    - intros i j K. apply in_map_iff in K. destruct K as [k [E K]]. injection E as <- <-. apply M1 in K. unfold tcSize in *. lia.
    - intros i j u l K U. apply in_map_iff in K. destruct K as [k [E K]]. injection E as <- <-. apply M1 in K. destruct K as [_ K].
      eapply prefG_unit; [exact U|]. unfold since in K. rewrite L, RL in K. exact K.
    - apply fwd_same. intros i j Hij Hj K E. subst j. assert (S : sameUnit (since d' i) (since d i)).
      { apply M2; [lia|]. intro X. apply K. apply in_map_iff. exists i. auto. }
      unfold since in S. rewrite L, RL in S. apply sameUnit_sym. exact S.
  Qed.
End Forward.

Section Backward.
  Variables (m : tcond) (d d' : list Q) (vars : list nat).
  Hypothesis R : regionCond m d.
  Hypothesis L : length d' = length d.
  Hypothesis N : NoDup vars.
  Hypothesis Same : forall i j, (1 <= i)%nat -> (i <= j)%nat -> (j < length d)%nat -> T d' i j == T d i j.
  Lemma bwd_same ps : (forall j, (j < tcSize m)%nat -> ~ In (0%nat, j) ps -> sameUnit (T d 0 j) (T d' 0 j)) ->
    forall i j, (i <= j)%nat -> (j < tcSize m)%nat -> ~ In (i, j) ps -> sameUnit (T d i j) (T d' i j).
  Proof using R L Same.
    intros H i j Hij Hj K. destruct i as [|i]; [apply H; auto|].
    eapply sameUnit_ext; [reflexivity| |apply sameUnit_refl]. symmetry. apply Same; auto; [lia|]. destruct R as [RL _]. lia.
  Qed.
  Lemma regionCond_pred : moveUp (length d) (upto d) (upto d') vars -> regionCond (tcPredecessor m vars) d'.
  Proof using R L N Same.
    intros [M1 M2]. assert (RL : length d = tcSize m) by apply R. assert (D : (2 <= dim m)%nat) by apply R.
    rewrite tcPredecessor_upd by (auto; intros i K; apply M1 in K; rewrite <- RL; apply K). apply region_update with d; auto.
    - apply nodup_map_pair; auto. intros a b E. congruence.
    - intros i j K. apply in_map_iff in K. destruct K as [k [E K]]. injection E as <- <-. apply M1 in K. lia.
    - intros i j u l K U. apply in_map_iff in K. destruct K as [k [E K]]. injection E as <- <-. apply M1 in K. destruct K as [_ K].
      eapply predG_unit; [exact U|]. exact K.
    - apply bwd_same. intros j Hj K. apply M2; [lia|]. intro X. apply K. apply in_map_iff. exists j. auto.
  Qed.
  Lemma regionCond_suffix : moveUp (length d) (upto d') (upto d) vars -> regionCond (tcSuffix m vars) d'.
  Proof using R L N Same.
    intros [M1 M2]. assert (RL : length d = tcSize m) by apply R. assert (D : (2 <= dim m)%nat) by apply R.
    rewrite tcSuffix_upd. apply region_update with d; auto.
    - apply nodup_map_pair; auto. intros a b E. congruence.
    - intros i j K. apply in_map_iff in K. destruct K as [k [E K]]. injection E as <- <-. apply M1 in K. lia.
    - intros i j u l K U. apply in_map_iff in K. destruct K as [k [E K]]. injection E as <- <-. apply M1 in K. destruct K as [_ K].
      eapply prefG_unit; [exact U|]. exact K.
    - apply bwd_same. intros j Hj K. apply sameUnit_sym. apply M2; [lia|]. intro X. apply K. apply in_map_iff. exists j. auto.
  Qed.
End Backward.
