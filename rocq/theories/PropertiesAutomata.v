(** Properties of timed automata and the runner (include/timed_automaton.hh,
    include/timed_automaton_runner.hh, include/membership_oracle.hh):
    C08, C23, C24, C27, C28, C39. *)
From Coq Require Import QArith ZArith Bool List Arith Lqa Lia.
From Verif Require Import BoundsModel ConstraintModel GuardSpec ZoneModel AutomatonModel AutomatonSpec.
From Verif Require Import BoundsProofs ConstraintProofs AutomatonProofs AutomatonProofs2 AutomatonProofs3 AutomatonProofs4.
Import ListNotations.
Open Scope Q_scope.
Arguments mkT _%nat_scope _ _.

(** *** deciding the side conditions on concrete automata (for the examples) *)
Definition edgesOf (A : ta) : list (loc * letter * trans) :=
  flat_map (fun p => flat_map (fun e => map (fun t => (fst p, fst e, t)) (snd e)) (snext (snd p))) (tstates A).
Lemma edgesOf_iff A l a t : In (l, a, t) (edgesOf A) <-> edge A l a t.
Proof.
  unfold edgesOf, edge. rewrite in_flat_map. split.
  - intros ([l0 s] & H & K). apply in_flat_map in K. destruct K as ([b ts] & K1 & K2).
    apply in_map_iff in K2. destruct K2 as (u & E & K2). cbn in E. injection E as <- <- <-. exists s, ts. auto.
  - intros (s & ts & H & K & I). exists (l, s). split; auto. apply in_flat_map. exists (a, ts). split; auto.
    apply in_map_iff. exists t. auto.
Qed.
Fixpoint nodupb (l : list nat) : bool := match l with [] => true | x :: r => negb (memb x r) && nodupb r end.
Lemma nodupb_ok l : nodupb l = true -> NoDup l.
Proof.
  induction l as [|x r IH]; cbn; intro H; constructor; apply andb_true_iff in H; destruct H as [H1 H2]; auto.
  intro K. apply memb_in in K. rewrite K in H1. discriminate.
Qed.
Definition wfb (A : ta) : bool :=
  nodupb (map fst (tstates A)) && forallb (fun p => nodupb (map fst (snext (snd p)))) (tstates A)
  && forallb (fun e => memb (ttgt (snd e)) (map fst (tstates A))) (edgesOf A)
  && forallb (fun l => memb l (map fst (tstates A))) (tinit A).
Lemma wfb_ok A : wfb A = true -> wfTA A.
Proof.
  unfold wfb. rewrite !andb_true_iff, !forallb_forall. intros [[[H1 H2] H3] H4]. split; [|split; [|split]].
  - apply nodupb_ok, H1.
  - intros l s H. apply nodupb_ok. exact (H2 (l, s) H).
  - intros l a t H. apply edgesOf_iff in H. apply memb_in. exact (H3 _ H).
  - intros l H. apply memb_in. exact (H4 _ H).
Qed.
Definition edgeAll (P : loc * letter * trans -> bool) (A : ta) : bool := forallb P (edgesOf A).
Lemma edgeAll_ok P A l a t : edgeAll P A = true -> edge A l a t -> P (l, a, t) = true.
Proof. unfold edgeAll. rewrite forallb_forall. intros H K. apply H, edgesOf_iff, K. Qed.
Definition smallb (A : ta) := edgeAll (fun e => forallb (fun k => Z.ltb (cc k) INT_MAX) (tgrd (snd e))) A.
Lemma smallb_ok A : smallb A = true -> smallTA A.
Proof.
  intros H l a t K k I. apply (edgeAll_ok _ _ _ _ _ H) in K. cbn in K. rewrite forallb_forall in K.
  apply Z.ltb_lt. exact (K k I).
Qed.
Definition noSilentb (A : ta) := edgeAll (fun e => negb (Nat.eqb (snd (fst e)) UNOBSERVABLE)) A.
Lemma noSilentb_ok A : noSilentb A = true -> noSilent A.
Proof. intros H l t K. apply (edgeAll_ok _ _ _ _ _ H) in K. discriminate K. Qed.
Definition nnResetsb (A : ta) := edgeAll (fun e => forallb (fun p => match snd p with RConst q => Qle_bool 0 q | _ => true end) (trst (snd e))) A.
Lemma nnResetsb_ok A : nnResetsb A = true -> nonnegResets A.
Proof.
  intros H l a t x q K I. apply (edgeAll_ok _ _ _ _ _ H) in K. cbn in K. rewrite forallb_forall in K.
  specialize (K _ I). cbn in K. apply Qle_bool_iff. exact K.
Qed.

(** a running example: two states, two clocks, letters 1 and 2 *)
Definition exA : ta := mkTA
  [ (1%nat, mkS false [ (1%nat, [ mkT 2 [(0%nat, RConst 0)] [mkC 0 Ole 3];
                                  mkT 1 [] [mkC 0 Ogt 3; mkC 1 Oge 5] ]) ]);
    (2%nat, mkS true  [ (1%nat, [ mkT 1 [] [mkC 0 Ogt 1; mkC 1 Olt 5] ]);
                        (2%nat, [ mkT 2 [(1%nat, RVar 0%nat)] [] ]) ]) ]
  [1%nat] [3%Z; 5%Z].
Lemma exA_ok : wfTA exA /\ smallTA exA /\ noSilent exA /\ nonnegResets exA /\ detTA exA /\ (length (tinit exA) <= 1)%nat.
Proof.
  assert (SM : smallTA exA) by (apply smallb_ok; reflexivity).
  split; [apply wfb_ok; reflexivity|]. split; [exact SM|]. split; [apply noSilentb_ok; reflexivity|].
  split; [apply nnResetsb_ok; reflexivity|]. split; [apply deterministic_exact; [exact SM|reflexivity]|cbn; lia].
Qed.

(** *** C08 *)
Theorem C08_deterministic_exact :
  forall A : ta, smallTA A -> (deterministic A = true <-> detTA A).
Proof. exact deterministic_exact. Qed.
Print Assumptions C08_deterministic_exact.
Example C08_meets : smallTA exA /\ deterministic exA = true /\
  deterministic (mkTA [(1%nat, mkS false [(1%nat, [mkT 1 [] [mkC 0 Ole 3]; mkT 1 [] [mkC 0 Oge 3; mkC 1 Olt 2]])])] [1%nat] []) = false.
Proof. split; [apply exA_ok|]. split; reflexivity. Qed.

(** *** C23 *)
Theorem C23_makeComplete_keeps_language :
  forall (A : ta) (alphabet : list letter), wfTA A -> sameLang (makeComplete A alphabet) A.
Proof. intros A al W d0 w. apply mc_lang, W. Qed.
Print Assumptions C23_makeComplete_keeps_language.

Theorem C23_makeComplete_wellformed :
  forall (A : ta) (alphabet : list letter), wfTA A -> wfTA (makeComplete A alphabet).
Proof. intros A al W. apply mc_wf, W. Qed.
Print Assumptions C23_makeComplete_wellformed.

Theorem C23_makeComplete_total :
  forall (A : ta) (alphabet : list letter), wfTA A -> noSilent A -> smallTA A ->
  forall l a v, In l (map fst (tstates (makeComplete A alphabet))) -> In a alphabet -> nonneg v ->
    exists t, edge (makeComplete A alphabet) l a t /\ gsat (tgrd t) v.
Proof. intros A al W NS SM l a v. apply mc_total; auto. Qed.
Print Assumptions C23_makeComplete_total.

(** a deterministic automaton stays deterministic in the sense that a
    configuration has one successor per letter *)
Theorem C23_makeComplete_deterministic_partial :
  forall (A : ta) (alphabet : list letter), wfTA A -> noSilent A -> smallTA A -> detTA A ->
  forall l a v c1 c2, nonneg v ->
    fire (makeComplete A alphabet) a (l, v) c1 -> fire (makeComplete A alphabet) a (l, v) c2 ->
    fst c1 = fst c2 /\ veq (snd c1) (snd c2).
Proof. intros A al W NS SM DT l a v c1 c2 Nn. apply mc_fire_det; auto. Qed.
Print Assumptions C23_makeComplete_deterministic_partial.

(** but not in the sense of [deterministic]: two of the added transitions can
    be enabled together *)
Definition exOverlap : ta := mkTA [(1%nat, mkS true [(1%nat, [mkT 1 [] [mkC 0 Ogt 1; mkC 1 Ogt 1]])])] [1%nat] [1%Z; 1%Z].
Theorem C23_makeComplete_stays_deterministic_refuted :
  exists (A : ta) (alphabet : list letter), wfTA A /\ noSilent A /\ smallTA A /\
    deterministic A = true /\ deterministic (makeComplete A alphabet) = false.
Proof.
  exists exOverlap, [1%nat]. split; [apply wfb_ok; reflexivity|]. split; [apply noSilentb_ok; reflexivity|].
  split; [apply smallb_ok; reflexivity|]. split; reflexivity.
Qed.
Print Assumptions C23_makeComplete_stays_deterministic_refuted.

(** with an unobservable transition the result need not be total *)
Definition exSilent : ta := mkTA [(1%nat, mkS true [(UNOBSERVABLE, [mkT 1 [] [mkC 0 Oge 5]])])] [1%nat] [5%Z].
Theorem C23_total_with_unobservable_refuted :
  exists (A : ta) (alphabet : list letter) l a, wfTA A /\ smallTA A /\
    In l (map fst (tstates (makeComplete A alphabet))) /\ In a alphabet /\ a <> UNOBSERVABLE /\
    (exists v, nonneg v /\ (forall t, edge A l UNOBSERVABLE t -> ~ gsat (tgrd t) v)
               /\ forall t, ~ (edge (makeComplete A alphabet) l a t /\ gsat (tgrd t) v)).
Proof.
  exists exSilent, [1%nat], 1%nat, 1%nat. split; [apply wfb_ok; reflexivity|]. split; [apply smallb_ok; reflexivity|].
  split; [left; reflexivity|]. split; [left; reflexivity|]. split; [discriminate|].
  exists (fun _ => 0). split; [intro; apply Qle_refl|]. split.
  - intros t H G. apply edgesOf_iff in H. cbn in H. destruct H as [H|[]]. injection H as <-.
    specialize (G _ (or_introl eq_refl)). vm_compute in G. apply G. reflexivity.
  - intros t [H _]. apply edgesOf_iff in H. cbn in H. destruct H as [H|[H|[]]]; discriminate H.
Qed.
Print Assumptions C23_total_with_unobservable_refuted.

Example C23_meets : wfTA exA /\ noSilent exA /\ smallTA exA /\ detTA exA /\
  length (edgesOf (makeComplete exA [1%nat; 2%nat])) <> length (edgesOf exA).
Proof. destruct exA_ok as (H1 & H2 & H3 & _ & H5 & _). repeat (split; auto). vm_compute. discriminate. Qed.

(** *** C24 *)
Theorem C24_complement_exact :
  forall (A : ta) (alphabet : list letter),
    wfTA A -> noSilent A -> smallTA A -> nonnegResets A -> detTA A -> (length (tinit A) <= 1)%nat ->
    ~ In UNOBSERVABLE alphabet ->
  forall d0 w, wordOver alphabet d0 w ->
    (accepts (complement A alphabet) d0 w <-> ~ accepts A d0 w).
Proof. intros A al W NS SM NR DT Li Na d0 w Hw. apply complement_exact; auto. Qed.
Print Assumptions C24_complement_exact.

(** the same with the executable determinism test as hypothesis *)
Theorem C24_complement_exact_checked :
  forall (A : ta) (alphabet : list letter),
    wfTA A -> noSilent A -> smallTA A -> nonnegResets A -> deterministic A = true -> (length (tinit A) <= 1)%nat ->
    ~ In UNOBSERVABLE alphabet ->
  forall d0 w, wordOver alphabet d0 w ->
    (accepts (complement A alphabet) d0 w <-> ~ accepts A d0 w).
Proof. intros A al W NS SM NR DT Li Na d0 w Hw. apply complement_exact; auto. apply deterministic_exact; auto. Qed.
Print Assumptions C24_complement_exact_checked.

Example C24_meets : wfTA exA /\ noSilent exA /\ smallTA exA /\ nonnegResets exA /\ detTA exA /\
  (length (tinit exA) <= 1)%nat /\ ~ In UNOBSERVABLE [1%nat; 2%nat] /\
  wordOver [1%nat; 2%nat] (5 # 2) [(1%nat, 1); (2%nat, 7 # 3)].
Proof.
  destruct exA_ok as (H1 & H2 & H3 & H4 & H5 & H6). do 6 (split; auto). split.
  - intros [H|[H|[]]]; discriminate H.
  - split; [discriminate|]. intros a d [H|[H|[]]]; injection H as <- <-; (split; [|discriminate]); cbn; auto.
Qed.

(** *** C27 *)
Theorem C27_runner_exact :
  forall (A : ta) (fuel : nat), wfTA A -> noSilent A -> nonnegResets A -> detTA A ->
  forall (r : runner) d0 w l0, rta r = A -> tinit A = [l0] -> 0 <= d0 -> (forall a d, In (a, d) w -> 0 <= d) ->
    exists r' b, answerQuery fuel r d0 w = Some (r', b) /\ rta r' = A /\ rnum r' = S (rnum r) /\
      (b = true <-> accepts A d0 w).
Proof. intros A fuel W NS NR DT r d0 w l0. apply answerQuery_exact; auto. Qed.
Print Assumptions C27_runner_exact.

(** the answer does not depend on what the runner did before (pre() resets
    it), for every automaton, with or without unobservable transitions *)
Theorem C27_runner_independent_of_past :
  forall (fuel : nat) (r1 r2 : runner) d0 w, rta r1 = rta r2 -> tstates (rta r1) <> [] ->
  match answerQuery fuel r1 d0 w, answerQuery fuel r2 d0 w with
  | Some (_, b1), Some (_, b2) => b1 = b2
  | None, None => True
  | _, _ => False
  end.
Proof.
  intros fuel r1 r2 d0 w E N. assert (K := answerQuery_same fuel r1 r2 d0 w E N).
  destruct (answerQuery fuel r1 d0 w) as [[? ?]|], (answerQuery fuel r2 d0 w) as [[? ?]|]; tauto.
Qed.
Print Assumptions C27_runner_independent_of_past.

(** once stuck it stays rejecting *)
Theorem C27_runner_stuck_rejects :
  forall (fuel : nat) w (r : runner) res, rstate r = None -> w <> [] -> feed fuel r w res = Some (r, false).
Proof. exact stuck_forever. Qed.
Print Assumptions C27_runner_stuck_rejects.

Example C27_meets :
  (wfTA exA /\ noSilent exA /\ nonnegResets exA /\ detTA exA /\ tinit exA = [1%nat]) /\
  (exists r, answerQuery 0 (mkRunner exA) (5 # 2) [(1%nat, 1); (2%nat, 7 # 3)] = Some (r, true)) /\
  (exists r, answerQuery 0 (mkRunner exA) (7 # 2) [(1%nat, 1)] = Some (r, false) /\ rstate r = None).
Proof.
  destruct exA_ok as (H1 & H2 & H3 & H4 & H5 & H6). split; [repeat (split; auto)|]. split.
  - eexists. vm_compute. reflexivity.
  - eexists. split; vm_compute; reflexivity.
Qed.

(** *** C28 *)
(** [applyReset] is the runner's parallel assignment *)
Theorem C28_applyReset_is_parallel_assignment :
  forall (rs : resets) (v : valuation), isReset rs v (applyReset v rs).
Proof. intros. apply applyReset_isReset. Qed.
Print Assumptions C28_applyReset_is_parallel_assignment.

Theorem C28_composition_is_function_composition :
  forall (left right : resets) (v v1 v2 : valuation),
    isReset right v v1 -> isReset left v1 v2 -> isReset (composition left right) v v2.
Proof.
  intros l r v v1 v2 H1 H2. apply isReset_applyReset. apply isReset_applyReset in H1. apply isReset_applyReset in H2.
  intro x. rewrite (H2 x), composition_applies.
  assert (K : isReset l v1 (applyReset (applyReset v r) l)).
  { apply (isReset_veq l (applyReset v r) (applyReset (applyReset v r) l)); [intro y; symmetry; apply H1|intro; reflexivity|apply applyReset_isReset]. }
  apply isReset_applyReset in K. symmetry. apply K.
Qed.
Print Assumptions C28_composition_is_function_composition.

(** addDefault: the original assignments win, the default ones fill the gaps *)
Theorem C28_addDefault :
  forall (orig dflt : resets) (v : valuation) (x : clock),
    (In x (map fst orig) -> applyReset v (addDefault orig dflt) x = applyReset v orig x) /\
    (~ In x (map fst orig) -> applyReset v (addDefault orig dflt) x = applyReset v dflt x).
Proof.
  intros o d v x. rewrite addDefault_applies. destruct (in_dec Nat.eq_dec x (map fst o)); split; intro; tauto.
Qed.
Print Assumptions C28_addDefault.

(** clean: no trivial assignment is left and the effect is the same *)
Theorem C28_clean_same_effect_partial :
  forall (rs : resets) (v : valuation) (x : clock),
    NoDup (map fst rs) -> applyReset v (clean rs) x = applyReset v rs x.
Proof. exact clean_applies. Qed.
Print Assumptions C28_clean_same_effect_partial.
Theorem C28_clean_removes_trivial :
  forall (rs : resets) (x y : clock), In (x, RVar y) (clean rs) -> x <> y.
Proof.
  intros rs x y H E. subst y. unfold clean in H. apply filter_In in H. destruct H as [_ H]. cbn in H.
  rewrite Nat.eqb_refl in H. discriminate H.
Qed.
Print Assumptions C28_clean_removes_trivial.
Theorem C28_clean_duplicates_refuted :
  exists (rs : resets) (v : valuation) (x : clock), ~ applyReset v (clean rs) x == applyReset v rs x.
Proof. exists [(0%nat, RConst 1); (0%nat, RVar 0%nat)], (fun _ => 0), 0%nat. vm_compute. discriminate. Qed.
Print Assumptions C28_clean_duplicates_refuted.
Example C28_meets :
  isReset [(0%nat, RVar 1%nat); (1%nat, RConst 2)] (fun x => inject_Z (Z.of_nat x) + 5)
          (applyReset (fun x => inject_Z (Z.of_nat x) + 5) [(0%nat, RVar 1%nat); (1%nat, RConst 2)])
  /\ composition [(2%nat, RVar 0%nat)] [(0%nat, RVar 1%nat); (1%nat, RConst 2)]
     = [(2%nat, RVar 1%nat); (0%nat, RVar 1%nat); (1%nat, RConst 2)]
  /\ NoDup (map fst (composition [(2%nat, RVar 0%nat)] [(0%nat, RVar 1%nat); (1%nat, RConst 2)])).
Proof.
  split; [apply applyReset_isReset|]. split; [reflexivity|]. apply nodupb_ok. reflexivity.
Qed.

(** *** C39: the runner with unobservable transitions *)
(** every acceptance is backed by a run when unobservable guards only have
    inclusive lower bounds *)
Theorem C39_runner_unobservable_sound_partial :
  forall (A : ta) (fuel : nat) (r : runner) d0 w r',
    wfTA A -> (forall l t k, edge A l UNOBSERVABLE t -> In k (tgrd t) -> codr k = Oge) ->
    rta r = A -> tinit A <> [] -> 0 <= d0 -> (forall a d, In (a, d) w -> 0 <= d) ->
    answerQuery fuel r d0 w = Some (r', true) -> accepts A d0 w.
Proof.
  intros A fuel r d0 w r' W SG. apply answerQuery_sound; auto. intros l t H k K. apply (SG l t k); auto.
Qed.
Print Assumptions C39_runner_unobservable_sound_partial.
Definition exGe : ta := mkTA
  [ (1%nat, mkS false [ (UNOBSERVABLE, [ mkT 2 [(0%nat, RConst 0)] [mkC 0 Oge 3] ]) ]);
    (2%nat, mkS true  [ (1%nat, [ mkT 1 [] [mkC 0 Ogt 1] ]) ]) ]
  [1%nat] [3%Z].
Example C39_meets : wfTA exGe /\ (forall l t k, edge exGe l UNOBSERVABLE t -> In k (tgrd t) -> codr k = Oge) /\
  exists r, answerQuery 5 (mkRunner exGe) 5 [(1%nat, 4)] = Some (r, true).
Proof.
  split; [apply wfb_ok; reflexivity|]. split.
  - intros l t k H I. apply edgesOf_iff in H. cbn in H. destruct H as [H|[H|[]]]; [|discriminate H].
    injection H as <- <-. destruct I as [<-|[]]. reflexivity.
  - eexists. vm_compute. reflexivity.
Qed.

(** with an upper bound in an unobservable guard the runner fires a transition
    whose guard is violated and accepts a word the automaton rejects *)
Definition exBad : ta := mkTA
  [ (1%nat, mkS false [ (UNOBSERVABLE, [ mkT 2 [] [mkC 0 Oge 5; mkC 1 Ole 3] ]) ]); (2%nat, mkS true []) ]
  [1%nat] [5%Z; 3%Z].
Lemma exBad_flow c d c' : flow exBad c d c' -> fst c = 1%nat -> snd c 0%nat == snd c 1%nat ->
  fst c' = 1%nat /\ snd c' 0%nat == snd c' 1%nat.
Proof.
  induction 1 as [l v d v' Hd Hv | c d1 c1 c2 d2 c3 d F1 IH1 Fi F2 IH2 E]; intros E1 E2; cbn [fst snd] in *.
  - split; auto. rewrite (Hv 0%nat), (Hv 1%nat). unfold delay. lra.
  - destruct (IH1 E1 E2) as [K1 K2]. exfalso. destruct Fi as (t & He & G & _). rewrite K1 in He.
    apply edgesOf_iff in He. cbn in He. destruct He as [He|[]]. injection He as <-.
    assert (G1 := G _ (or_introl eq_refl)). assert (G2 := G _ (or_intror (or_introl eq_refl))).
    unfold holds in G1, G2. cbn in G1, G2. change (inject_Z 5) with 5 in *. change (inject_Z 3) with 3 in *. lra.
Qed.
Theorem C39_runner_violates_guard_refuted :
  exists (A : ta) (fuel : nat) d0 r', wfTA A /\ smallTA A /\ nonnegResets A /\ detTA A /\ 0 <= d0 /\
    answerQuery fuel (mkRunner A) d0 [] = Some (r', true) /\ ~ accepts A d0 [].
Proof.
  exists exBad, 3%nat, 6. eexists. assert (SM : smallTA exBad) by (apply smallb_ok; reflexivity).
  split; [apply wfb_ok; reflexivity|]. split; [exact SM|]. split; [apply nnResetsb_ok; reflexivity|].
  split; [apply deterministic_exact; [exact SM|reflexivity]|]. split; [discriminate|]. split; [vm_compute; reflexivity|].
  intros (l0 & c0 & c & I & F & R & Ac). destruct I as [<-|[]]. inversion R; subst.
  destruct (exBad_flow _ _ _ F eq_refl (Qeq_refl _)) as [K _]. rewrite K in Ac.
  destruct Ac as (s & [H|[H|[]]] & M); injection H; intros; subst; discriminate.
Qed.
Print Assumptions C39_runner_violates_guard_refuted.

(** and with two of them it waits for the later one only, so it rejects a word
    the automaton accepts *)
Definition exTwo : ta := mkTA
  [ (1%nat, mkS false [ (UNOBSERVABLE, [ mkT 2 [] [mkC 0 Oge 1; mkC 0 Ole 2]; mkT 3 [] [mkC 0 Oge 5] ]) ]);
    (2%nat, mkS true []); (3%nat, mkS false []) ]
  [1%nat] [5%Z].
Theorem C39_runner_misses_run_refuted :
  exists (A : ta) (fuel : nat) d0 r', wfTA A /\ smallTA A /\ nonnegResets A /\ detTA A /\ 0 <= d0 /\
    answerQuery fuel (mkRunner A) d0 [] = Some (r', false) /\ accepts A d0 [].
Proof.
  exists exTwo, 3%nat, 3. eexists. assert (SM : smallTA exTwo) by (apply smallb_ok; reflexivity).
  split; [apply wfb_ok; reflexivity|]. split; [exact SM|]. split; [apply nnResetsb_ok; reflexivity|].
  split; [apply deterministic_exact; [exact SM|reflexivity]|]. split; [discriminate|]. split; [vm_compute; reflexivity|].
  exists 1%nat, (2%nat, delay (delay (fun _ => 0) 1) 2), (2%nat, delay (delay (fun _ => 0) 1) 2).
  split; [left; reflexivity|]. split; [|split; [constructor|]].
  - apply (flow_silent exTwo _ 1 (1%nat, delay (fun _ => 0) 1) (2%nat, delay (fun _ => 0) 1) 2).
    + constructor; [discriminate|intro; reflexivity].
    + exists (mkT 2 [] [mkC 0 Oge 1; mkC 0 Ole 2]). split; [apply edgesOf_iff; left; reflexivity|].
      split; [|split; [reflexivity|apply (applyReset_isReset [])]].
      intros k [<-|[<-|[]]]; vm_compute; discriminate.
    + constructor; [discriminate|intro; reflexivity].
    + reflexivity.
  - exists (mkS true []). split; [right; left; reflexivity|reflexivity].
Qed.
Print Assumptions C39_runner_misses_run_refuted.
