(** C82: splitting states by the sets of precise clocks
    (ObservationTable::splitStates). *)
From Coq Require Import QArith Qround ZArith Bool List Arith Lia Lqa.
From Verif Require Import BoundsModel ConstraintModel GuardSpec ConstraintProofs ZoneModel AutomatonModel AutomatonSpec AutomatonProofs RegionalModel HypothesisModel NeighborModel NeighborProofs NeighborProofs4 ImpreciseModel MergeModel MergeProofs SplitModel SplitProofs SplitProofs2 SplitProofs3 SplitProofs4.
Import ListNotations.

(** the value the assignments give to clock [k] is known precisely if the clocks
    [P] are *)
Definition assignedPrecisely (rs : resets) (P : list nat) (k : nat) : Prop :=
  (exists y, In (k, RVar y) rs /\ In y P) \/ (exists q, In (k, RConst q) rs /\ q == inject_Z (Qfloor q)) \/ (In k P /\ ~ In k (map fst rs)).

Lemma init_in (B : ta) init : tinit B = [init] -> wfTA B -> exists s, In (init, s) (tstates B).
Proof. intros E (_ & _ & _ & W). specialize (W init). rewrite E in W. specialize (W (or_introl eq_refl)). apply in_map_iff in W. destruct W as ([l s] & <- & W). eauto. Qed.

(** the loop ends, and find() is never used on what it has not found, if and only
    if clock 0 is the only clock the guards of the initial state mention, and one
    of them mentions it *)
Theorem C82_returns :
  forall (ordC : list nat -> list nat) (prefer : smap -> enh -> trans -> trans -> bool) (B : ta) (init : loc) (s : tastate),
    wfTA B -> In (init, s) (tstates B) ->
    let oneClock := (forall a ts t c, In (a, ts) (snext s) -> In t ts -> In c (tgrd t) -> cx c = 0%nat) /\ (exists a ts t c, In (a, ts) (snext s) /\ In t ts /\ In c (tgrd t)) in
    (oneClock -> exists n0, forall n, (n0 <= n)%nat -> exists A, splitStates ordC prefer (tstates B) n init = Some A) /\
    ((exists n A, splitStates ordC prefer (tstates B) n init = Some A) -> oneClock).
Proof.
  intros ordC prefer B init s (W1 & W2 & W3 & W4) IS oneClock.
  assert (ONE : oneClock <-> computeClockSize s = 1%nat).
  { unfold oneClock. split.
    - intros [H (a & ts & t & c & X & Y & Z)]. assert (K := clockSize_bound s a ts t c X Y Z). destruct (clockSize_tight s) as [E|(a' & ts' & t' & c' & X' & Y' & Z' & E)]; [lia|]. rewrite (H a' ts' t' c' X' Y' Z') in E. exact E.
    - intro E. split; [intros a ts t c X Y Z; assert (K := clockSize_bound s a ts t c X Y Z); lia|]. destruct (clockSize_tight s) as [E0|(a & ts & t & c & X & Y & Z & _)]; [lia|]. exists a, ts, t, c. auto. }
  assert (CL : forall o s a ts t, In (o, s) (tstates B) -> In (a, ts) (snext s) -> In t ts -> In (ttgt t) (map fst (tstates B))) by (intros o s1 a ts t X Y Z; apply (W3 o a t); exists s1, ts; auto).
  rewrite ONE. clear oneClock ONE. split.
  - intro E1. destruct (newMap_runs (tstates B) CL) as [m0 E0]. set (N := list_max (map (fun p => computeClockSize (snd p)) (tstates B))).
    assert (HN : forall o s, In (o, s) (tstates B) -> (computeClockSize s <= N)%nat).
    { intros o s1 I. unfold N. apply (proj1 (Forall_forall _ _) (proj1 (list_max_le _ _) (le_n _))). apply in_map_iff. exists (o, s1). auto. }
    destruct (newMap_inv (tstates B) (below N) (fun o s0 a ts => below_refl (tstates B) N HN o s0 a ts) W1 m0 E0) as [I0 K0].
    destruct (posOf_in (fun p : nat * tastate => (fst p =? init)%nat) (tstates B) (init, s) IS) as [l0 EP]; [apply Nat.eqb_refl|].
    destruct (splitLoop_runs ordC prefer (tstates B) N W1 (unvis (univ (tstates B) N) []) [] m0 [(init, [0%nat])] (le_n _) I0) as [n0 H].
    + intros f [].
    + intros f [<-|[]]. split.
      * rewrite K0. apply in_map_iff. exists (init, s). split; [|exact IS]. cbn [fst snd]. rewrite E1. reflexivity.
      * unfold univ. apply in_prod; [apply (in_map fst) in IS; exact IS|]. specialize (HN init s IS). rewrite E1 in HN. replace [0%nat] with (filter (fun x => (x <? 1)%nat) (seq 0 N)); [apply subl_filter|].
        assert (F := filter_below (fun _ => true) 1 N HN). cbn [andb] in F. symmetry. exact F.
    + exists n0. intros n Hn. destruct (H n Hn) as [m' EL]. unfold splitStates. rewrite E0. match goal with |- context [posOf ?f ?l] => replace (posOf f l) with (Some l0) by (symmetry; exact EP) end. match goal with |- context [match ?X with Some _ => _ | None => None end] => replace X with (Some m') by (symmetry; exact EL) end. eauto.
  - intros (n & A & H). destruct (splitStates_ok ordC prefer (tstates B) fromOrig (fun _ _ _ _ _ _ => fromOrig_refl _) (fun K ts0 pr P ts => fromOrig_merge K ts0 pr P ts) W1 n init A H) as (m & vis & l0 & _ & _ & HK & _).
    unfold splitStates in H. destruct (newMap (tstates B)) as [m0|] eqn:E0; [|discriminate]. destruct (newMap_inv (tstates B) fromOrig (fun _ _ _ _ _ _ => fromOrig_refl _) W1 m0 E0) as [_ K0].
    match type of H with context [posOf ?f ?l] => destruct (posOf f l) as [l1|] eqn:EP end; [|discriminate]. destruct (splitLoop ordC prefer (tstates B) n [] (m0, [(init, [0%nat])])) as [m1|] eqn:EL; [|discriminate].
    assert (KI : In (init, [0%nat]) (smKey m0)).
    { destruct n; cbn [splitLoop snd fst] in EL; [discriminate|]. destruct (mapE m0 (init, [0%nat])) as [l|] eqn:El; [|discriminate]. eapply nth_error_In. apply mapE_some. exact El. }
    rewrite K0 in KI. apply in_map_iff in KI. destruct KI as ([o s1] & Q1 & Q2). cbn [fst snd] in Q1. injection Q1 as -> Q1. assert (s1 = s) by (eapply in_unique; eauto). subst s1.
    destruct (computeClockSize s) as [|[|k]]; [discriminate|reflexivity|discriminate].
Qed.
Print Assumptions C82_returns.

(** where a transition is to be merged, one is left *)
Definition fromOrig2 (ts0 ts : list trans) : Prop := fromOrig ts0 ts /\ (ts0 <> [] -> ts <> []).
Lemma fromOrig2_refl ts : fromOrig2 ts ts.
Proof. split; [apply fromOrig_refl|auto]. Qed.
Lemma fromOrig2_merge K ts0 pr P ts : fromOrig2 ts0 (map (proj K) ts) -> fromOrig2 ts0 (map (proj K) (mergeNDP pr P ts)).
Proof.
  intros [H N]. split; [apply fromOrig_merge; exact H|]. intros N0 E. specialize (N N0). destruct ts as [|t ts]; [contradiction|].
  destruct (mergeW_cover overlap (mergeP pr P) (fun _ _ => True)) with (n := length (t :: ts)) (ts := t :: ts) (t := t) as (t' & I & _); auto; [left; reflexivity|].
  apply map_eq_nil in E. unfold mergeNDP in E. rewrite E in I. destruct I.
Qed.

(** what is made: each state stands for an original state and a set of precise
    clocks, no two for the same; each transition leads where one of the original
    ones leads, with the same assignments, and is enabled whenever that one was;
    an action that has a transition keeps one;
    from a reachable state, it leads to the state whose clocks are those that are
    known precisely afterwards *)
Theorem C82_what_is_made :
  forall (ordC : list nat -> list nat) (prefer : smap -> enh -> trans -> trans -> bool) (B : ta) (init : loc) (n : nat) (A : ta),
    wfTA B -> tinit B = [init] -> splitStates ordC prefer (tstates B) n init = Some A ->
    exists (org : loc -> loc) (prec : loc -> list nat),
      (exists l0, tinit A = [l0] /\ org l0 = init /\ prec l0 = [0%nat]) /\
      (forall l l', In l (map fst (tstates A)) -> In l' (map fst (tstates A)) -> org l = org l' -> prec l = prec l' -> l = l') /\
      (forall l, In l (map fst (tstates A)) -> (accepting A l <-> accepting B (org l))) /\
      (forall l a t, edge A l a t -> In (ttgt t) (map fst (tstates A)) /\
         exists t0, edge B (org l) a t0 /\ org (ttgt t) = ttgt t0 /\ trst t = trst t0 /\ forall v, gsat (tgrd t0) v -> gsat (tgrd t) v) /\
      (forall l a t0, In l (map fst (tstates A)) -> edge B (org l) a t0 -> exists t, edge A l a t) /\
      (forall l a t, areach A l -> edge A l a t ->
         exists size, forall k, In k (prec (ttgt t)) <-> (k < size)%nat /\ assignedPrecisely (trst t) (prec l) k).
Proof.
  intros ordC prefer B init n A (W1 & W2 & W3 & W4) EI H.
  destruct (splitStates_ok ordC prefer (tstates B) fromOrig2 (fun _ _ _ _ _ _ => fromOrig2_refl _) (fun K ts0 pr P ts => fromOrig2_merge K ts0 pr P ts) W1 n init A H) as (m & vis & l0 & EA & EI' & HK & LI & HV).
  exists (orgOf m), (precOf m). split; [|split; [|split; [|split; [|split]]]].
  - exists l0. split; [exact EI'|]. unfold orgOf, precOf. rewrite (nth_error_nth (smKey m) l0 (0%nat, []) HK). auto.
  - intros l l'. apply (res_inj _ _ m vis A EA LI).
  - intros l I. apply (res_acc (tstates B) fromOrig2 W1 m vis A EA LI B l eq_refl I).
  - intros l a t E. destruct (res_edge _ _ m vis A EA LI l a t E) as (s0 & ts0 & ts & X1 & X2 & X3 & X4 & X5). split; [exact X4|]. destruct (proj1 X5 _ (in_map (proj (smKey m)) _ _ X3)) as (t0 & Y1 & Y2 & Y3 & Y4). exists t0. split; [exists s0, ts0; auto|]. split; [exact Y2|]. split; [exact Y3|exact Y4].
  - intros l a t0 I E. destruct (res_edge_back (tstates B) fromOrig2 W1 m vis A EA LI B l a t0 eq_refl I E) as (ts0 & ts & X1 & X2 & _ & X3). destruct ts as [|t ts]; [exfalso; apply X3; [intros ->; destruct X1|reflexivity]|]. exists t. apply X2. left. reflexivity.
  - intros l a t R E. destruct (res_prec (tstates B) fromOrig2 m vis A EA LI l a t) as (s0 & K & s' & _ & _ & P); [|exact R|exact E|].
    + intros l1 I. rewrite EI' in I. destruct I as [<-|[]]. eauto.
    + exists (computeClockSize s'). intro k. rewrite P, filter_In, isPrecise_iff, in_seq. rewrite preciseAfter_iff. unfold assignedPrecisely. split; [intros [_ X]; exact X|intros X; split; [lia|exact X]].
Qed.
Print Assumptions C82_what_is_made.

(** a deterministic automaton keeps its language, and its transitions *)
Theorem C82_deterministic :
  forall (ordC : list nat -> list nat) (prefer : smap -> enh -> trans -> trans -> bool) (B : ta) (init : loc) (n : nat) (A : ta),
    wfTA B -> smallTA B -> detTA B -> tinit B = [init] -> splitStates ordC prefer (tstates B) n init = Some A ->
    sameLang A B /\
    exists (org : loc -> loc) (prec : loc -> list nat),
      (exists l0, tinit A = [l0] /\ org l0 = init /\ prec l0 = [0%nat]) /\
      (forall l a t, edge A l a t -> edge B (org l) a (mkT (org (ttgt t)) (trst t) (tgrd t))) /\
      (forall l a t, areach A l -> edge A l a t -> forall s0, In (org (ttgt t), s0) (tstates B) ->
         forall k, In k (prec (ttgt t)) <-> (k < computeClockSize s0)%nat /\ assignedPrecisely (trst t) (prec l) k).
Proof.
  intros ordC prefer B init n A (W1 & W2 & W3 & W4) SM DET EI H.
  assert (REFL : forall o s0 a ts, In (o, s0) (tstates B) -> In (a, ts) (snext s0) -> sameDet ts ts).
  { intros o s0 a ts I J. split; [reflexivity|]. assert (D := DET o s0 a ts I J). assert (SMT : forall t, In t ts -> smallConsts (tgrd t)) by (intros t K; apply (SM o a t); exists s0, ts; auto). clear - D SMT.
    induction ts as [|t ts IH]; constructor.
    - apply Forall_forall. intros u Hu. destruct (overlap t u) eqn:E; [|reflexivity]. apply overlap_iff in E; [|apply SMT; left; reflexivity|apply SMT; right; exact Hu]. destruct E as (v & V1 & V2 & V3). apply In_nth_error in Hu. destruct Hu as [j Hj]. exfalso. apply (D 0%nat (S j) t u v); auto. lia.
    - apply IH; [|intros u Hu; apply SMT; right; exact Hu]. intros i j ti tj v L Hi Hj. apply (D (S i) (S j) ti tj v); auto. lia. }
  destruct (splitStates_ok ordC prefer (tstates B) sameDet REFL (fun K ts0 pr P ts => sameDet_merge K ts0 pr P ts) W1 n init A H) as (m & vis & l0 & EA & EI' & HK & LI & HV).
  assert (O0 : orgOf m l0 = init /\ precOf m l0 = [0%nat]) by (unfold orgOf, precOf; rewrite (nth_error_nth (smKey m) l0 (0%nat, []) HK); auto).
  assert (FWD : forall l a t, edge A l a t -> In (ttgt t) (map fst (tstates A)) /\ edge B (orgOf m l) a (mkT (orgOf m (ttgt t)) (trst t) (tgrd t))).
  { intros l a t E. destruct (res_edge _ _ m vis A EA LI l a t E) as (s0 & ts0 & ts & X1 & X2 & X3 & X4 & (X5 & _)). split; [exact X4|]. exists s0, ts0. split; [exact X1|]. split; [exact X2|]. rewrite <- X5. apply (in_map (proj (smKey m)) _ _ X3). }
  assert (ACC : forall l, In l (map fst (tstates A)) -> (accepting A l <-> accepting B (orgOf m l))) by (intros l I; apply (res_acc (tstates B) sameDet W1 m vis A EA LI B l eq_refl I)).
  assert (SRC : forall l a t, edge A l a t -> In l (map fst (tstates A))) by (intros l a t (s & ts & I & _); apply (in_map fst) in I; exact I).
  assert (L0 : In l0 (map fst (tstates A))) by (apply (res_in _ _ m vis A EA LI); apply nth_error_Some; congruence).
  split.
  - intros d0 w. split.
    + apply (sim_accepts A B (fun c c' => snd c = snd c' /\ In (fst c) (map fst (tstates A)) /\ fst c' = orgOf m (fst c)) (fun _ => False)).
      * intros l v l' w0 d v1 (E1 & E2 & E3) _ Hv. cbn [fst snd] in *. subst w0. exists v1. auto.
      * intros a [l v] [l2 v2] [l' v'] (E1 & E2 & E3) (t & T1 & T2 & T3 & T4). cbn [fst snd] in *. subst v' l' l2. left. destruct (FWD l a t T1) as [F1 F2]. exists (orgOf m (ttgt t), v2). split; [exists (mkT (orgOf m (ttgt t)) (trst t) (tgrd t)); cbn [fst snd ttgt trst tgrd]; auto|cbn [fst snd]; auto].
      * intros l a t [].
      * intros l [].
      * intros l I. rewrite EI' in I. destruct I as [<-|[]]. left. exists init. rewrite EI. split; [left; reflexivity|]. cbn [fst snd]. destruct O0 as [O0 _]. auto.
      * intros [l v] [l' v'] (E1 & E2 & E3) X. cbn [fst snd] in *. subst l'. apply ACC; auto.
    + apply (sim_accepts B A (fun c c' => snd c = snd c' /\ In (fst c') (map fst (tstates A)) /\ fst c = orgOf m (fst c')) (fun _ => False)).
      * intros l v l' w0 d v1 (E1 & E2 & E3) _ Hv. cbn [fst snd] in *. subst w0. exists v1. auto.
      * intros a [l v] [l2 v2] [l' v'] (E1 & E2 & E3) (t & T1 & T2 & T3 & T4). cbn [fst snd] in *. subst v' l l2. left.
        destruct (res_edge_back (tstates B) sameDet W1 m vis A EA LI B l' a t eq_refl E2 T1) as (ts0 & ts & X1 & X2 & (X3 & _)). rewrite <- X3 in X1. apply in_map_iff in X1. destruct X1 as (u & Y1 & Y2). destruct (X2 u Y2) as [Z1 Z2].
        exists (ttgt u, v2). split; [|cbn [fst snd]; split; [reflexivity|]; split; [exact Z2|rewrite <- Y1; reflexivity]]. exists u. rewrite <- Y1 in T2, T4. cbn [proj trst tgrd] in T2, T4. cbn [fst snd]. auto.
      * intros l a t [].
      * intros l [].
      * intros l I. rewrite EI in I. destruct I as [<-|[]]. left. exists l0. rewrite EI'. split; [left; reflexivity|]. cbn [fst snd]. destruct O0 as [O0 _]. auto.
      * intros [l v] [l' v'] (E1 & E2 & E3) X. cbn [fst snd] in *. subst l. apply ACC; auto.
  - exists (orgOf m), (precOf m). split; [exists l0; destruct O0; auto|]. split; [intros l a t E; apply FWD; exact E|].
    intros l a t R E s0 I0 k. destruct (res_prec (tstates B) sameDet m vis A EA LI l a t) as (s1 & K & s' & X1 & X2 & P); [|exact R|exact E|].
    + intros l1 I. rewrite EI' in I. destruct I as [<-|[]]. eauto.
    + assert (s1 = s0) by (eapply in_unique; eauto). subst s1. rewrite <- (sameDet_size _ _ _ X2). rewrite P, filter_In, isPrecise_iff, in_seq. rewrite preciseAfter_iff. unfold assignedPrecisely. split; [intros [_ X]; exact X|intros X; split; [lia|exact X]].
Qed.
Print Assumptions C82_deterministic.

(** ** concrete cases *)
(** state 0 leads to state 1 with clock 1 precise (reset to 0) for x0 <= 1, and not
    precise (1/2) for x0 > 1; state 1 compares clocks 0 and 1 *)
Definition spB : ta :=
  mkTA [(0%nat, mkS false [(1%nat, [mkT 1%nat [(1%nat, RConst 0)] [mkC 0%nat Ole 1]; mkT 1%nat [(1%nat, RConst (1 # 2))] [mkC 0%nat Ogt 1]])]);
        (1%nat, mkS true [(2%nat, [mkT 0%nat [(0%nat, RConst 0)] [mkC 1%nat Ole 1]; mkT 1%nat [(0%nat, RVar 1%nat)] [mkC 1%nat Ogt 1]])])] [0%nat] [].
Example C82_satisfiable :
  wfTA spB /\ smallTA spB /\ detTA spB /\ tinit spB = [0%nat] /\
  exists A, splitStates (fun l => l) (fun _ _ _ _ => true) (tstates spB) 20 0%nat = Some A /\ length (tstates A) = 4%nat.
Proof.
  split; [|split; [|split; [|split; [reflexivity|]]]].
  - split; [repeat constructor; cbn; intuition congruence|]. split; [|split].
    + intros l s [E|[E|[]]]; injection E as <- <-; cbn; repeat constructor; cbn; intuition congruence.
    + intros l a t (s & ts & [E|[E|[]]] & I & J); injection E as <- <-; destruct I as [E|[]]; injection E as <- <-; destruct J as [<-|[<-|[]]]; cbn; auto.
    + intros l [<-|[]]. cbn. auto.
  - intros l a t (s & ts & [E|[E|[]]] & I & J); injection E as <- <-; destruct I as [E|[]]; injection E as <- <-; destruct J as [<-|[<-|[]]]; intros c [<-|[]]; unfold INT_MAX; cbn; lia.
  - intros l s a ts [E|[E|[]]] I i j ti tj v L Hi Hj N [G1 G2]; injection E as <- <-; destruct I as [E|[]]; injection E as <- <-;
      (destruct j as [|[|j]]; [lia| |destruct j; discriminate]); (destruct i as [|i]; [|lia]); injection Hi as <-; injection Hj as <-;
      assert (K1 := G1 _ (or_introl eq_refl)); assert (K2 := G2 _ (or_introl eq_refl)); cbn in K1, K2; change (inject_Z 1) with 1%Q in *; lra.
  - destruct (splitStates (fun l => l) (fun _ _ _ _ => true) (tstates spB) 20 0%nat) as [A|] eqn:E; [exists A; split; [reflexivity|]|]; vm_compute in E; [|discriminate]. injection E as <-. reflexivity.
Qed.
(** if the initial state has a guard on clock 1, the pair of the initial state and
    clock 0 is not among those the constructor makes, and the result of find() is
    dereferenced although it is end() *)
Example C82_initial_state_with_two_clocks :
  forall n, splitStates (fun l => l) (fun _ _ _ _ => true) [(0%nat, mkS true [(1%nat, [mkT 0%nat [] [mkC 1%nat Ole 1]])])] n 0%nat = None.
Proof. intros [|n]; vm_compute; reflexivity. Qed.
(** the initial state is never merged: "originalState->mergeNondeterministicBranching"
    changes the original, which is not used any more *)
Example C82_initial_state_is_not_merged :
  let s := mkS true [(1%nat, [mkT 0%nat [] [mkC 0%nat Ole 2]; mkT 0%nat [(0%nat, RConst 0)] [mkC 0%nat Oge 1]])] in
  exists A s', splitStates (fun l => l) (fun _ _ _ _ => true) [(0%nat, s)] 20 0%nat = Some A /\ tstates A = [(0%nat, s')] /\ stDeterministic s' = false.
Proof.
  cbn zeta. destruct (splitStates _ _ _ 20 0%nat) as [A|] eqn:E; vm_compute in E; [|discriminate]. injection E as <-. eexists. eexists. split; [reflexivity|]. split; [reflexivity|]. vm_compute. reflexivity.
Qed.
(** a state that is reached is merged *)
Example C82_target_is_merged :
  let s0 := mkS false [(1%nat, [mkT 1%nat [(0%nat, RConst 0)] [mkC 0%nat Ole 2]])] in
  let s1 := mkS true [(1%nat, [mkT 1%nat [] [mkC 0%nat Ole 2]; mkT 0%nat [(0%nat, RConst 0)] [mkC 0%nat Oge 1]])] in
  stDeterministic s1 = false /\
  exists A, splitStates (fun l => l) (fun _ _ _ _ => true) [(0%nat, s0); (1%nat, s1)] 20 0%nat = Some A /\ forall l s, In (l, s) (tstates A) -> stDeterministic s = true.
Proof.
  cbn zeta. split; [vm_compute; reflexivity|]. destruct (splitStates _ _ _ 20 0%nat) as [A|] eqn:E; vm_compute in E; [|discriminate]. injection E as <-. eexists. split; [reflexivity|].
  intros l s H. cbn [tstates In] in H. repeat (destruct H as [H|H]; [injection H as <- <-; vm_compute; reflexivity|]). destruct H.
Qed.
