(** C80: making a state deterministic by merging transitions whose guards
    overlap (TAState::mergeNondeterministicBranching, with and without precise
    clocks, and mergeNondeterministicBranchingWithSameTarget). *)
From Coq Require Import QArith ZArith Bool List Arith Lia Lqa Permutation Sorted.
From Verif Require Import BoundsModel ConstraintModel GuardSpec ConstraintProofs ConstraintProofs3 ZoneModel AutomatonModel TimedConditionModel HypothesisModel NeighborModel NeighborProofs NeighborProofs4 ImpreciseModel MergeModel MergeProofs.
Import ListNotations.
Open Scope Q_scope.

(** no valuation enables two elements of the list *)
Definition onlyOne (ts : list trans) : Prop :=
  forall i j t u v, nth_error ts i = Some t -> nth_error ts j = Some u -> nonneg v -> gsat (tgrd t) v -> gsat (tgrd u) v -> i = j.
(** constants of int, at most one bound for each side of a clock, not empty *)
Definition usual (g : guard) : Prop := nonRedundant g /\ smallConsts g /\ exists v, nonneg v /\ gsat g v.

Lemma fop_onlyOne ts : ForallOrdPairs (fun t u => forall v, nonneg v -> gsat (tgrd t) v -> gsat (tgrd u) v -> False) ts <-> onlyOne ts.
Proof.
  unfold onlyOne. split.
  - induction 1 as [|t ts F _ IH]; intros i j x y v Hi Hj N G1 G2; [destruct i; discriminate|]. rewrite Forall_forall in F. destruct i as [|i], j as [|j]; cbn [nth_error] in *; [reflexivity| | |f_equal; eapply IH; eauto].
    + injection Hi as ->. apply nth_error_In in Hj. exfalso. eapply F; eauto.
    + injection Hj as ->. apply nth_error_In in Hi. exfalso. eapply F; eauto.
  - induction ts as [|t ts IH]; intro H; constructor.
    + apply Forall_forall. intros u Hu v N G1 G2. apply In_nth_error in Hu. destruct Hu as [j Hj]. specialize (H 0%nat (S j) t u v eq_refl Hj N G1 G2). discriminate.
    + apply IH. intros i j x y v Hi Hj N G1 G2. specialize (H (S i) (S j) x y v Hi Hj N G1 G2). congruence.
Qed.
Lemma overlap_onlyOne ts : (forall t, In t ts -> smallConsts (tgrd t)) -> (ForallOrdPairs (fun t u => overlap t u = false) ts <-> onlyOne ts).
Proof.
  intro SM. rewrite <- fop_onlyOne. induction ts as [|t ts IH]; [split; constructor|]. assert (IH' := IH (fun u Hu => SM u (or_intror Hu))). clear IH. split; intro H; inversion H as [|? ? F1 F2]; subst; constructor; try (apply IH'; exact F2); apply Forall_forall; intros u Hu; rewrite Forall_forall in F1; specialize (F1 u Hu).
  - intros v N G1 G2. assert (K : overlap t u = true) by (apply overlap_iff; [apply SM; left; reflexivity|apply SM; right; exact Hu|eauto]). congruence.
  - destruct (overlap t u) eqn:E; [|reflexivity]. apply overlap_iff in E; [|apply SM; left; reflexivity|apply SM; right; exact Hu]. destruct E as (v & N & G1 & G2). exfalso. eauto.
Qed.

(** every valuation a transition was enabled for enables some transition afterwards *)
Theorem C80_no_valuation_is_lost :
  forall (prefer : trans -> trans -> bool) (ts : list trans) (t : trans),
    In t ts -> exists t', In t' (mergeND prefer (length ts) ts) /\ forall v, gsat (tgrd t) v -> gsat (tgrd t') v.
Proof.
  intros prefer ts t I. rewrite mergeND_W. apply (mergeW_cover overlap (mergeTransitions prefer) (fun t t' => forall v, gsat (tgrd t) v -> gsat (tgrd t') v)); auto.
  - intros x it u H _ v G. rewrite merge_guard. apply hull_left. auto.
  - intros it u _ v G. rewrite merge_guard. apply hull_right. exact G.
Qed.
Print Assumptions C80_no_valuation_is_lost.
(** every transition afterwards leads where one of before leads, with the same
    assignments, and is enabled whenever that one was *)
Theorem C80_origin :
  forall (prefer : trans -> trans -> bool) (P : list nat) (ts : list trans) (t' : trans),
    In t' (mergeND prefer (length ts) ts) \/ In t' (mergeNDP prefer P ts) ->
    exists t, In t ts /\ ttgt t' = ttgt t /\ trst t' = trst t /\ forall v, gsat (tgrd t) v -> gsat (tgrd t') v.
Proof.
  intros prefer P ts t' H. set (Q := fun t' => exists t, In t ts /\ ttgt t' = ttgt t /\ trst t' = trst t /\ forall v, gsat (tgrd t) v -> gsat (tgrd t') v).
  assert (B : forall u, In u ts -> Q u) by (intros u Hu; exists u; auto). destruct H as [H|H].
  - rewrite mergeND_W in H. apply (mergeW_inv overlap (mergeTransitions prefer) Q) with (3 := H); [|exact B]. intros it u (t & A1 & A2 & A3 & A4) (t0 & B1 & B2 & B3 & B4) _. unfold mergeTransitions. destruct (prefer it u); [exists t|exists t0]; cbn; repeat split; auto; intros v G; [apply hull_left|apply hull_right]; auto.
  - apply (mergeW_inv overlap (mergeP prefer P) Q) with (3 := H); [|exact B]. intros it u (t & A1 & A2 & A3 & A4) (t0 & B1 & B2 & B3 & B4) _.
    destruct (mergeP_cases prefer P it u) as (x & X & E1 & E2 & E3). destruct X as [->| ->]; [exists t|exists t0]; (split; [assumption|]); (split; [congruence|]); (split; [congruence|]); intros v G; destruct E3 as [E3|E3]; rewrite E3; auto; [apply hull_left|apply hull_right]; auto.
Qed.
Print Assumptions C80_origin.
(** a deterministic list is not changed, and if nothing has been merged the list
    was deterministic: repeating the pass until nothing changes, which happens
    because each pass that merges makes the list shorter, makes it deterministic *)
Theorem C80_unchanged_iff_deterministic :
  forall (prefer : trans -> trans -> bool) (P : list nat) (ts : list trans),
    (forall t, In t ts -> smallConsts (tgrd t)) ->
    (onlyOne ts <-> mergeND prefer (length ts) ts = ts) /\ (onlyOne ts <-> length (mergeND prefer (length ts) ts) = length ts) /\
    (onlyOne ts <-> mergeNDP prefer P ts = ts) /\ (onlyOne ts <-> length (mergeNDP prefer P ts) = length ts) /\
    (length (mergeND prefer (length ts) ts) <= length ts)%nat /\ (length (mergeNDP prefer P ts) <= length ts)%nat.
Proof.
  intros prefer P ts SM. rewrite mergeND_W. unfold mergeNDP. rewrite <- (overlap_onlyOne ts SM).
  assert (A : forall m, ForallOrdPairs (fun t u => overlap t u = false) ts -> mergeW overlap m (length ts) ts = ts) by (intros m F; apply mergeW_id; exact F).
  assert (B : forall m, length (mergeW overlap m (length ts) ts) = length ts -> ForallOrdPairs (fun t u => overlap t u = false) ts) by (intros m L; apply (mergeW_fix overlap m (length ts) ts (le_n _) L)).
  assert (C : forall m, mergeW overlap m (length ts) ts = ts -> length (mergeW overlap m (length ts) ts) = length ts) by (intros m E; rewrite E; reflexivity).
  assert (D : forall m, (length (mergeW overlap m (length ts) ts) <= length ts)%nat) by (intro m; apply mergeW_length). split; [|split; [|split; [|split]]]; split; auto; try (intro L; rewrite A; auto); eauto.
Qed.
Print Assumptions C80_unchanged_iff_deterministic.
(** one pass is enough if the transitions come in classes: those of one class
    overlap pairwise, and the classes have disjoint regions *)
Theorem C80_classes_become_deterministic :
  forall (prefer : trans -> trans -> bool) (P : list nat) (L : list (trans * nat)) (region : nat -> guard),
    (forall i j v, i <> j -> nonneg v -> gsat (region i) v -> gsat (region j) v -> False) ->
    (forall t i, In (t, i) L -> usual (tgrd t) /\ forall v, nonneg v -> gsat (tgrd t) v -> gsat (region i) v) ->
    (forall t u i, In (t, i) L -> In (u, i) L -> exists v, nonneg v /\ gsat (tgrd t) v /\ gsat (tgrd u) v) ->
    onlyOne (mergeND prefer (length L) (map fst L)) /\ onlyOne (mergeNDP prefer P (map fst L)).
Proof.
  intros prefer P L h HD HC HO. rewrite mergeND_W. unfold mergeNDP. rewrite map_length.
  assert (F : Forall (fun p => inClass h (fst p) (snd p)) L) by (apply Forall_forall; intros [t i] Hp; exact (HC t i Hp)).
  assert (O : ForallOrdPairs (fun p q => snd p = snd q -> overlap (fst p) (fst q) = true) L).
  { assert (K : forall p q, In p L -> In q L -> snd p = snd q -> overlap (fst p) (fst q) = true).
    { intros [t i] [u j] Hp Hq E. cbn in E. subst j. apply overlap_iff; [apply (HC t i Hp)|apply (HC u i Hq)|]. exact (HO t u i Hp Hq). }
    clear - K. induction L as [|p L IH]; constructor; [|apply IH; intros; apply K; auto; right; auto]. apply Forall_forall. intros q Hq. apply K; [left; reflexivity|right; exact Hq]. }
  assert (R : forall m, (forall it u, tgrd (m it u) = tgrd it \/ tgrd (m it u) = tgrd u \/ tgrd (m it u) = unionHull2 (tgrd it) (tgrd u)) -> onlyOne (mergeW overlap m (length L) (map fst L))).
  { intros m HM. destruct (merge_class m HM h HD (length L) L (le_n _) F O) as (L' & E & A & B & _). rewrite E. apply fop_onlyOne. exact (class_disjoint h HD L' A B). }
  split; apply R; intros it u.
  - right. right. apply merge_guard.
  - destruct (mergeP_cases prefer P it u) as (x & [-> | ->] & _ & _ & [E|E]); auto.
Qed.
Print Assumptions C80_classes_become_deterministic.
(** without precise clocks the two functions are the same *)
Theorem C80_no_precise_clocks :
  forall (prefer : trans -> trans -> bool) (ts : list trans), mergeNDP prefer [] ts = mergeND prefer (length ts) ts.
Proof. intros prefer ts. rewrite mergeND_W. apply mergeW_ext. intros; apply mergeP_nil. Qed.
Print Assumptions C80_no_precise_clocks.
(** merging transitions with the same target: each target keeps the valuations
    that lead to it; the assignments have one entry for each clock, which for
    integer constants is that of the one with more other constants, or else that
    of the other one *)
Theorem C80_same_target :
  forall (ord : resets -> resets) (ts : list trans), (forall l, Permutation (ord l) l) ->
    (forall t, In t ts -> exists t', In t' (mergeSameTarget ord ts) /\ ttgt t' = ttgt t /\ forall v, gsat (tgrd t) v -> gsat (tgrd t') v) /\
    (forall t', In t' (mergeSameTarget ord ts) -> exists t, In t ts /\ ttgt t' = ttgt t /\ forall v, gsat (tgrd t) v -> gsat (tgrd t') v) /\
    (forall rs other x,
       NoDup (map fst (addPreciseConsts ord rs other)) /\
       resetAt (addPreciseConsts ord rs other) x =
         match resetAt rs x with Some r => if isIntegral r then Some r else match firstIntegral other x with Some r' => Some r' | None => Some r end
                               | None => firstIntegral other x end).
Proof.
  intros ord ts HO. unfold mergeSameTarget. split; [|split].
  - intros t I. apply (mergeW_cover sameTarget (mergeSame ord) (fun t t' => ttgt t' = ttgt t /\ forall v, gsat (tgrd t) v -> gsat (tgrd t') v)); auto.
    + intros x it u [E H] _. split; [exact E|]. intros v G. apply hull_left. auto.
    + intros it u C. unfold sameTarget in C. apply andb_true_iff in C. destruct C as [C _]. apply Nat.eqb_eq in C. split; [exact C|]. intros v G. apply hull_right. exact G.
  - intros t' H. apply (mergeW_inv sameTarget (mergeSame ord) (fun t' => exists t, In t ts /\ ttgt t' = ttgt t /\ forall v, gsat (tgrd t) v -> gsat (tgrd t') v)) with (3 := H); [|eauto].
    intros it u (t & A & B & C) _ _. exists t. split; [exact A|]. split; [exact B|]. intros v G. apply hull_left. auto.
  - intros rs other x. destruct (addPreciseConsts_at ord rs other x HO) as [A B]. split; [exact A|]. rewrite B. unfold integralAt. destruct (resetAt rs x) as [r|]; [destruct (isIntegral r)|]; destruct (firstIntegral other x); reflexivity.
Qed.
Print Assumptions C80_same_target.

(** the transition that is kept is the first one if its vector of imprecise clocks
    is not after that of the second one in the order of words; a clock of the
    target is imprecise unless its value is known from the guard and the
    assignments *)
Definition wordLe (l r : list nat) : Prop :=
  (exists q, r = l ++ q) \/ exists p a b l' r', l = p ++ a :: l' /\ r = p ++ b :: r' /\ (a < b)%nat.
Lemma lexLe_ok : forall l r, lexLe l r = true <-> wordLe l r.
Proof.
  induction l as [|a l IH]; intros r; cbn [lexLe].
  - split; [intros _; left; exists r; reflexivity|reflexivity].
  - destruct r as [|b r].
    + split; [discriminate|]. intros [[q E]|(p & x & y & l' & r' & E1 & E2 & _)]; [discriminate|destruct p; discriminate].
    + rewrite orb_true_iff, andb_true_iff, IH, Nat.ltb_lt, Nat.eqb_eq. split.
      * intros [L|[-> [[q ->]|(p & x & y & l' & r' & -> & -> & L)]]]; [right; exists [], a, b, l, r; auto|left; exists q; reflexivity|right; exists (b :: p), x, y, l', r'; auto].
      * intros [[q E]|(p & x & y & l' & r' & E1 & E2 & L)].
        -- injection E as -> ->. right. split; [reflexivity|]. left. exists q. reflexivity.
        -- destruct p as [|z p]; [injection E1 as -> ->; injection E2 as -> ->; left; exact L|]. injection E1 as -> ->. injection E2 as -> ->. right. split; [reflexivity|]. right. exists p, x, y, l', r'. auto.
Qed.
Theorem C80_choice :
  forall (sts : states) (l r : trans),
    (wordLe (impreciseAfter sts l) (impreciseAfter sts r) -> mergeTransitions (preferLeft sts) l r = mkT (ttgt l) (trst l) (unionHull2 (tgrd l) (tgrd r))) /\
    (~ wordLe (impreciseAfter sts l) (impreciseAfter sts r) -> mergeTransitions (preferLeft sts) l r = mkT (ttgt r) (trst r) (unionHull2 (tgrd l) (tgrd r))) /\
    (forall t, StronglySorted lt (impreciseAfter sts t)) /\
    forall t k, In k (impreciseAfter sts t) <-> (k < clockSizeAt sts (ttgt t))%nat /\
      ~ ((exists y, In (k, RVar y) (trst t) /\ In y (simpleVariables (tgrd t))) \/ (exists q, In (k, RConst q) (trst t) /\ q == inject_Z (Qround.Qfloor q)) \/
         (In k (simpleVariables (tgrd t)) /\ ~ In k (map fst (trst t)))).
Proof.
  intros sts l r. unfold mergeTransitions, preferLeft. split; [|split; [|split]].
  - intro H. apply lexLe_ok in H. rewrite H. reflexivity.
  - intro H. destruct (lexLe _ _) eqn:E; [apply lexLe_ok in E; contradiction|reflexivity].
  - intro t. unfold impreciseAfter. apply filter_sorted. apply seq_sorted.
  - intros t k. unfold impreciseAfter. rewrite filter_In, in_seq, negb_true_iff. set (P := preciseAfterReset _ _ _).
    assert (K : isPrecise P k = false <-> ~ In k P) by (rewrite <- isPrecise_iff; destruct (isPrecise P k); split; congruence). rewrite K. unfold P. rewrite preciseAfter_iff. clear. split; [intros [A B]; split; [lia|tauto]|intros [A B]; split; [lia|tauto]].
Qed.
Print Assumptions C80_choice.

(** which of two transitions is kept, given the precise clocks [P] *)
Theorem C80_choice_with_precise_clocks :
  forall (prefer : trans -> trans -> bool) (P : list nat) (it t : trans),
    let simple u := fun c => In c (simpleVariables (tgrd u)) in
    let all u := forall c, In c P -> simple u c in
    let hull u := mkT (ttgt u) (trst u) (unionHull2 (tgrd it) (tgrd t)) in
    let firstDiff c := exists p q, P = p ++ c :: q /\ (forall d, In d p -> (simple it d <-> simple t d)) /\ ~ (simple it c <-> simple t c) in
    (all it -> ~ all t -> mergeP prefer P it t = it) /\
    (~ all it -> all t -> mergeP prefer P it t = t) /\
    (all it -> all t -> mergeP prefer P it t = mergeTransitions prefer it t) /\
    (~ all it -> ~ all t -> isWeaker (tgrd t) (tgrd it) = true -> mergeP prefer P it t = t) /\
    (~ all it -> ~ all t -> isWeaker (tgrd t) (tgrd it) = false -> isWeaker (tgrd it) (tgrd t) = true -> mergeP prefer P it t = it) /\
    (~ all it -> ~ all t -> isWeaker (tgrd t) (tgrd it) = false -> isWeaker (tgrd it) (tgrd t) = false ->
       ((forall c, In c P -> (simple it c <-> simple t c)) -> mergeP prefer P it t = mergeTransitions prefer it t) /\
       (forall c, firstDiff c -> simple t c -> mergeP prefer P it t = hull t) /\
       (forall c, firstDiff c -> simple it c -> mergeP prefer P it t = hull it)).
Proof.
  intros prefer P it t simple all hull firstDiff.
  assert (SI : forall u c, isPrecise (simpleVariables (tgrd u)) c = true <-> simple u c) by (intros; apply isPrecise_iff).
  assert (AL : forall u, forallb (isPrecise (simpleVariables (tgrd u))) P = true <-> all u) by (intro u; rewrite forallb_forall; split; intros H c I; apply SI; auto).
  assert (AF : forall u, ~ all u -> forallb (isPrecise (simpleVariables (tgrd u))) P = false) by (intros u H; destruct (forallb _ P) eqn:E; [apply AL in E; contradiction|reflexivity]).
  assert (XO : forall c, xorb (isPrecise (simpleVariables (tgrd it)) c) (isPrecise (simpleVariables (tgrd t)) c) = false <-> (simple it c <-> simple t c)).
  { intro c. rewrite <- !SI. destruct (isPrecise (simpleVariables (tgrd it)) c), (isPrecise (simpleVariables (tgrd t)) c); cbn; split; intuition congruence. }
  assert (FD : forall c, firstDiff c -> find (fun c => xorb (isPrecise (simpleVariables (tgrd it)) c) (isPrecise (simpleVariables (tgrd t)) c)) P = Some c).
  { intros c (p & q & -> & H1 & H2). clear AL AF all. induction p as [|d p IH]; cbn [find app].
    - destruct (xorb _ _) eqn:E; [reflexivity|]. apply XO in E. contradiction.
    - rewrite (proj2 (XO d) (H1 d (or_introl eq_refl))). apply IH. intros e I. apply H1. right. exact I. }
  assert (FN : (forall c, In c P -> (simple it c <-> simple t c)) -> find (fun c => xorb (isPrecise (simpleVariables (tgrd it)) c) (isPrecise (simpleVariables (tgrd t)) c)) P = None).
  { intro H. destruct (find _ P) as [c|] eqn:E; [|reflexivity]. apply find_some in E. destruct E as [E1 E2]. rewrite (proj2 (XO c) (H c E1)) in E2. discriminate. }
  unfold mergeP. cbn zeta. split; [|split; [|split; [|split; [|split]]]].
  - intros H1 H2. apply AL in H1. rewrite H1, (AF t H2). reflexivity.
  - intros H1 H2. apply AL in H2. rewrite H2, (AF it H1). reflexivity.
  - intros H1 H2. apply AL in H1, H2. rewrite H1, H2. reflexivity.
  - intros H1 H2 W. rewrite (AF it H1), (AF t H2). cbn [andb negb]. rewrite W. destruct (find _ P); reflexivity.
  - intros H1 H2 W1 W2. rewrite (AF it H1), (AF t H2). cbn [andb negb]. rewrite W1, W2. destruct (find _ P); reflexivity.
  - intros H1 H2 W1 W2. rewrite (AF it H1), (AF t H2). cbn [andb negb]. rewrite W1, W2. split; [|split].
    + intro H. rewrite (FN H). reflexivity.
    + intros c F S3. rewrite (FD c F), (proj2 (SI t c) S3). reflexivity.
    + intros c F S2. rewrite (FD c F). destruct (isPrecise (simpleVariables (tgrd t)) c) eqn:E; [|reflexivity]. apply SI in E. destruct F as (p & q & _ & _ & F). exfalso. apply F. tauto.
Qed.
Print Assumptions C80_choice_with_precise_clocks.
(** of two transitions with the same target, the assignments are those of the one
    with more constants that are not integers, completed by the integers the other
    one assigns *)
Theorem C80_same_target_choice :
  forall (ord : resets -> resets) (it t : trans),
    let nonInt rs i := exists x q, nth_error rs i = Some (x, RConst q) /\ ~ exists z, q == inject_Z z in
    let count rs n := exists L : list nat, NoDup L /\ (forall i, In i L <-> nonInt rs i) /\ length L = n in
    forall n m, count (trst it) n -> count (trst t) m ->
      mergeSame ord it t = mkT (ttgt it) (if (n <? m)%nat then addPreciseConsts ord (trst t) (trst it) else addPreciseConsts ord (trst it) (trst t)) (unionHull2 (tgrd it) (tgrd t)).
Proof.
  intros ord it t nonInt count n m Hn Hm.
  assert (C : forall rs k, count rs k -> k = impreciseConsts rs).
  { intros rs k (L & L1 & L2 & <-). clear -L1 L2.
    set (f := fun p : clock * rhs => match snd p with RConst q => negb (Qeq_bool q (qfloor q)) | RVar _ => false end).
    set (L' := filter (fun i => match nth_error rs i with Some p => f p | None => false end) (seq 0 (length rs))).
    assert (E : length L' = impreciseConsts rs).
    { unfold L', impreciseConsts. fold f. clear. assert (G : forall b l, length (filter (fun i => match nth_error l (i - b) with Some p => f p | None => false end) (seq b (length l))) = length (filter f l)).
      { intros b l. revert b. induction l as [|p l IH]; intro b; [reflexivity|]. cbn [length seq filter]. rewrite Nat.sub_diag. cbn [nth_error].
        rewrite (filter_ext_in _ (fun i => match nth_error l (i - S b) with Some p => f p | None => false end) (seq (S b) (length l))).
        2: { intros i I. apply in_seq in I. replace (i - b)%nat with (S (i - S b)) by lia. reflexivity. }
        destruct (f p); cbn [length]; rewrite IH; reflexivity. }
      rewrite <- (G 0%nat rs). f_equal. apply filter_ext. intro i. rewrite Nat.sub_0_r. reflexivity. }
    rewrite <- E. apply Permutation_length. apply NoDup_Permutation; [exact L1|apply NoDup_filter; apply seq_NoDup|]. intro i. rewrite L2. unfold L', nonInt. rewrite filter_In, in_seq.
    split.
    - intros (x & q & H & Z). split; [split; [lia|]; cbn; apply nth_error_Some; intro Y; rewrite Y in H; discriminate|]. rewrite H. unfold f. cbn [snd]. apply negb_true_iff. destruct (Qeq_bool q _) eqn:B; [|reflexivity]. apply Qeq_bool_eq in B. exfalso. apply Z. unfold qfloor in B. eexists; exact B.
    - intros [_ H]. destruct (nth_error rs i) as [[x [q|y]]|] eqn:X; [|discriminate|discriminate]. exists x, q. split; [reflexivity|]. intros [z Z]. unfold f in H. cbn [snd] in H. apply negb_true_iff in H. apply Qeq_bool_neq in H. apply H. unfold qfloor. rewrite Z. rewrite Qround.Qfloor_Z. reflexivity. }
  rewrite (C _ _ Hn), (C _ _ Hm). reflexivity.
Qed.
Print Assumptions C80_same_target_choice.

(** ** concrete cases *)
Definition meT (i : loc) (a b : Z) : trans := mkT i [] [mkC 0%nat Oge a; mkC 0%nat Ole b].
Example C80_satisfiable :
  let L := [(meT 0%nat 0 1, 0%nat); (meT 1%nat 3 4, 1%nat); (meT 2%nat 1 2, 0%nat)] in
  let region := fun i => match i with 0%nat => [mkC 0%nat Ole 2] | 1%nat => [mkC 0%nat Oge 3] | _ => [mkC 0%nat Olt 0] end in
  (forall i j v, i <> j -> nonneg v -> gsat (region i) v -> gsat (region j) v -> False) /\
  (forall t i, In (t, i) L -> usual (tgrd t) /\ forall v, nonneg v -> gsat (tgrd t) v -> gsat (region i) v) /\
  (forall t u i, In (t, i) L -> In (u, i) L -> exists v, nonneg v /\ gsat (tgrd t) v /\ gsat (tgrd u) v) /\
  mergeND (fun _ _ => true) 3%nat (map fst L) = [meT 0%nat 0 2; meT 1%nat 3 4].
Proof.
  cbn zeta. split; [|split; [|split]].
  - intros i j v N NN G1 G2. specialize (NN 0%nat). destruct i as [|[|i]], j as [|[|j]]; try congruence; assert (K1 := G1 _ (or_introl eq_refl)); assert (K2 := G2 _ (or_introl eq_refl)); cbn in K1, K2; change (inject_Z 2) with 2 in *; change (inject_Z 3) with 3 in *; change (inject_Z 0) with 0 in *; lra.
  - intros t i [E|[E|[E|[]]]]; injection E as <- <-; (split; [split; [repeat constructor; cbn; intuition congruence|split; [intros d [<-|[<-|[]]]; unfold INT_MAX; cbn; lia|]]|]).
    + exists (fun _ => 1). split; [intro; lra|]. intros d [<-|[<-|[]]]; cbn; change (inject_Z 0) with 0; change (inject_Z 1) with 1; lra.
    + intros v N G d [<-|[]]. assert (K := G (mkC 0%nat Ole 1) (or_intror (or_introl eq_refl))). cbn in *. change (inject_Z 1) with 1 in K. change (inject_Z 2) with 2. lra.
    + exists (fun _ => 3). split; [intro; lra|]. intros d [<-|[<-|[]]]; cbn; change (inject_Z 3) with 3; change (inject_Z 4) with 4; lra.
    + intros v N G d [<-|[]]. exact (G (mkC 0%nat Oge 3) (or_introl eq_refl)).
    + exists (fun _ => 1). split; [intro; lra|]. intros d [<-|[<-|[]]]; cbn; change (inject_Z 2) with 2; change (inject_Z 1) with 1; lra.
    + intros v N G d [<-|[]]. exact (G (mkC 0%nat Ole 2) (or_intror (or_introl eq_refl))).
  - intros t u i H1 H2. exists (fun _ => match i with 0%nat => 1 | _ => 3 end). split; [intro; destruct i; lra|].
    destruct H1 as [E1|[E1|[E1|[]]]]; injection E1 as <- <-; destruct H2 as [E2|[E2|[E2|[]]]]; injection E2; try discriminate; intros <-; split; intros d [<-|[<-|[]]]; cbn; change (inject_Z 0) with 0; change (inject_Z 1) with 1; change (inject_Z 2) with 2; change (inject_Z 3) with 3; change (inject_Z 4) with 4; lra.
  - vm_compute. reflexivity.
Qed.
(** one pass does not make every state deterministic: the first guard grows over
    the second after it has been compared with it *)
Example C80_one_pass_is_not_enough :
  let ts := [meT 0%nat 0 2; meT 1%nat 5 6; meT 2%nat 1 7] in
  mergeND (fun _ _ => true) (length ts) ts = [meT 0%nat 0 7; meT 1%nat 5 6] /\ overlap (meT 0%nat 0 7) (meT 1%nat 5 6) = true.
Proof. split; vm_compute; reflexivity. Qed.
(** with precise clocks, valuations can be lost: [1, 2] is dropped because [1, 1]
    is simple and it is not *)
Example C80_precise_clocks_lose :
  mergeNDP (fun _ _ => true) [0%nat] [meT 0%nat 1 1; meT 1%nat 1 2] = [meT 0%nat 1 1].
Proof. vm_compute. reflexivity. Qed.
(** "We basically use the transition with less imprecise clocks": the vectors are
    compared, not their sizes.  The transition preferred here has clocks 0 and 1
    imprecise afterwards, the other one only clock 1 *)
Example C80_more_imprecise_clocks_are_preferred :
  let sts := [(0%nat, mkS false [(1%nat, [mkT 0%nat [] [mkC 1%nat Ole 1]])])] in
  let l := mkT 0%nat [] [mkC 0%nat Ole 3] in
  let r := mkT 0%nat [(0%nat, RConst 0)] [mkC 0%nat Ole 2] in
  impreciseAfter sts l = [0%nat; 1%nat] /\ impreciseAfter sts r = [1%nat] /\ preferLeft sts l r = true /\
  trst (mergeTransitions (preferLeft sts) l r) = [].
Proof. repeat split; vm_compute; reflexivity. Qed.
