(** C79: ImpreciseClockHandler::run, which adds relaxed transitions to the
    hypothesis. *)
From Coq Require Import QArith ZArith Bool List Arith Lia Lqa Qround Permutation.
From Verif Require RenamingProofs2.
From Verif Require Import BoundsModel ConstraintModel GuardSpec ConstraintProofs ZoneModel AutomatonModel AutomatonSpec TimedWordModel TimedWordSpec TimedConditionModel TimedConditionSpec ElementaryModel ElementarySpec RegionalModel RegionalSpec
  RenamingModel TableModel HypothesisModel NeighborModel NeighborSpec NeighborProofs4 TargetResetModel ImpreciseModel ImpreciseSpec ImpreciseProofs ImpreciseProofs2 ImpreciseProofs3 PropertiesNeighbors.
Import ListNotations.
Open Scope Q_scope.

(** ** the whole run, for every order of the work list and of the containers *)
Theorem C79_run_only_relaxes :
  forall (f : nat) (ord : list frel -> list frel) (k : nat) (keys : list letter -> list letter) (pick : list (loc * nbr) -> nat) (hsh : loc * nbr -> nat)
         (ns : neighbours) (sts sts' : states) (ws : list (loc * nbr)),
    NoDup (map fst sts) -> runImprecise f ord k keys pick hsh ns sts = Done sts' ws -> onlyRelaxes sts sts'.
Proof.
  intros f ord k keys pick hsh ns sts sts' ws ND H. unfold runImprecise in H. destruct (pushed ord k ns); [|discriminate]. eapply runLoop_rel; eauto.
Qed.
Print Assumptions C79_run_only_relaxes.
(** ... so every word accepted before is accepted after ... *)
Theorem C79_no_word_is_lost :
  forall (f : nat) (ord : list frel -> list frel) (k : nat) (keys : list letter -> list letter) (pick : list (loc * nbr) -> nat) (hsh : loc * nbr -> nat)
         (ns : neighbours) (sts sts' : states) (ws : list (loc * nbr)) (init : list loc) (mx mx' : list Z) (d0 : Q) (w : list (letter * Q)),
    NoDup (map fst sts) -> runImprecise f ord k keys pick hsh ns sts = Done sts' ws ->
    accepts (mkTA sts init mx) d0 w -> accepts (mkTA sts' init mx') d0 w.
Proof.
  intros f ord k keys pick hsh ns sts sts' ws init mx mx' d0 w ND H. eapply onlyRelaxes_accepts, C79_run_only_relaxes; eauto.
Qed.
Print Assumptions C79_no_word_is_lost.
(** ... and no letter, state or acceptance is new: every transition after is
    one from before with, possibly, a weaker guard and other resets *)
Theorem C79_no_new_path :
  forall (f : nat) (ord : list frel -> list frel) (k : nat) (keys : list letter -> list letter) (pick : list (loc * nbr) -> nat) (hsh : loc * nbr -> nat)
         (ns : neighbours) (sts sts' : states) (ws : list (loc * nbr)) (init : list loc) (mx mx' : list Z),
    NoDup (map fst sts) -> runImprecise f ord k keys pick hsh ns sts = Done sts' ws ->
    (forall l a t', edge (mkTA sts' init mx') l a t' -> exists t, edge (mkTA sts init mx) l a t /\ ttgt t' = ttgt t /\ forall v, gsat (tgrd t) v -> gsat (tgrd t') v) /\
    (forall l a t, edge (mkTA sts init mx) l a t -> edge (mkTA sts' init mx') l a t) /\
    (forall l, accepting (mkTA sts init mx) l <-> accepting (mkTA sts' init mx') l) /\
    map fst sts' = map fst sts.
Proof.
  intros f ord k keys pick hsh ns sts sts' ws init mx mx' ND H. assert (O := C79_run_only_relaxes f ord k keys pick hsh ns sts sts' ws ND H). split; [|split; [|split]].
  - intros l a t' E. exact (onlyRelaxes_back sts sts' init mx init mx' l a t' O E).
  - intros l a t E. exact (onlyRelaxes_edge sts sts' init mx init mx' l a t O E).
  - intro l. exact (onlyRelaxes_accepting sts sts' init mx init mx' l O).
  - exact (onlyRelaxes_addr _ _ O).
Qed.
Print Assumptions C79_no_new_path.

(** ** one element of the work list *)
(** every transition of the state afterwards is one from before, or relaxes one
    from before and, for the neighbours after some delay, fires for all of
    them; if it has an upper bound it fires only while the precise clocks are
    where they are after that delay *)
Theorem C79_added_transitions :
  forall (f : nat) (ord : list frel -> list frel) (k : nat) (keys : list letter -> list letter) (q : loc) (sts sts' : states) (c : nbr) (ws ws' : list (loc * nbr)) (w : tword),
    (forall l, Permutation (ord l) l) -> NoDup (map fst sts) -> describes (nOrig c) (nPrec c) (nNbrs c) w -> nPrec c <> [] ->
    rounds f ord k keys q sts c ws false = Done sts' ws' ->
    forall t, leaves sts' q t -> exists t0, leaves sts q t0 /\ relaxation t0 t /\
      (t = t0 \/ exists n c' u e,
         nbSuccs ord k n c = Some c' /\ describes (nOrig c') (nPrec c') (nNbrs c') u /\ later w u e /\
         (forall u1 v, covers (nNbrs c') u1 -> looksLike u1 v -> gsat (tgrd t) v) /\
         (existsb isUpper (tgrd t) = true -> forall v, nonneg v -> gsat (tgrd t) v -> forall i, In i (nPrec c') -> sameUnit (clocksOf u i) (v i))).
Proof.
  intros f ord k keys q sts sts' c ws ws' w HO ND D NP H. refine (rounds_added ord k keys q w c (leaves sts q) HO NP f sts c w 0 0%nat ws false sts' ws' ND D (later_0 w) (fun j => eq_refl) eq_refl _ H).
  intros t L. exists t. split; [exact L|]. split; [apply relaxation_refl|auto].
Qed.
Print Assumptions C79_added_transitions.
(** the loop ends if some transition of the state fires in the whole situation
    (clock by clock) at some time to come; nothing else than a call inside can
    keep it from ending, and those return when the fuel is enough (C73, C78) *)
Theorem C79_loop_returns :
  forall (ord : list frel -> list frel) (k : nat) (keys : list letter -> list letter) (q : loc) (sts : states) (c : nbr) (w : tword) (ws : list (loc * nbr)) (t : trans) (e : Q),
    (forall l, Permutation (ord l) l) -> (forall l, Permutation (keys l) l) -> NoDup (map fst sts) ->
    describes (nOrig c) (nPrec c) (nNbrs c) w -> nPrec c <> [] -> (forall i, (i < length (td w))%nat -> 0 <= since (td w) i) ->
    leaves sts q t -> (forall d, In d (tgrd t) -> nonTrivial d) -> 0 <= e -> (forall v, looksLike (wait w e) v -> gsat (tgrd t) v) ->
    exists n, forall f, (n <= f)%nat -> rounds f ord k keys q sts c ws false <> Going.
Proof. exact rounds_return. Qed.
Print Assumptions C79_loop_returns.
(** if none does, for example if there is no transition, it never ends *)
Theorem C79_loop_never_returns :
  forall (ord : list frel -> list frel) (k : nat) (keys : list letter -> list letter) (q : loc) (sts : states) (c : nbr) (w : tword) (ws : list (loc * nbr)),
    (forall l, Permutation (ord l) l) -> describes (nOrig c) (nPrec c) (nNbrs c) w -> nPrec c <> [] ->
    (forall t e, leaves sts q t -> 0 <= e -> ~ forall v, looksLike (wait w e) v -> gsat (tgrd t) v) ->
    forall f sts' ws', rounds f ord k keys q sts c ws false <> Done sts' ws'.
Proof. intros ord k keys q sts c w ws HO D NP N f sts' ws'. exact (rounds_never ord k keys q w HO f sts c w 0 ws D (later_0 w) NP N sts' ws'). Qed.
Print Assumptions C79_loop_never_returns.

(** ** the work list *)
Lemma handleActions_queue ord k q c (Q : loc * nbr -> Prop) : (forall l c', nPrec c' <> [] -> nbPrecise c' = false -> Q (l, c')) -> forall acts s s', Forall Q (rWs s) -> handleActions ord k q c s acts = Some s' -> Forall Q (rWs s').
Proof.
  intro HQ. induction acts as [|a acts IH]; intros s s' F H; cbn [handleActions] in H; [injection H as <-; exact F|]. destruct (handleAction ord k q c s a) as [s1|] eqn:E; [|discriminate]. apply (IH s1 s'); [|exact H].
  unfold handleAction in E. destruct (handleAll _ _ _ _ _ _) as [[new ws]|] eqn:A; [|discriminate]. injection E as <-. cbn [rWs]. apply Forall_app. split; [exact F|]. apply Forall_forall. intros [l c'] I.
  destruct (handleAll_queue _ _ _ _ _ _ _ _ A l c' I) as (t & _ & _ & _ & _ & P & N). auto.
Qed.
(** a pair waiting in the list always has a precise clock, so successorAssign
    (which otherwise never returns, C73) is safe; it holds of what push makes
    and of what the loop puts on the list *)
Theorem C79_queue_has_precise_clocks :
  forall (ord : list frel -> list frel) (k : nat),
    (forall (ns : neighbours) (sts : states) (st : loc) (r : renaming) (x : frel) (ws : list (loc * nbr)),
       Forall (fun p => nPrec (snd p) <> []) ws -> forall c, newNbr ord k x (rightVariables r) = Some c -> pushN ns st r x <> ns -> Forall (fun p => nPrec (snd p) <> []) ((st, c) :: ws)) /\
    (forall (f : nat) (keys : list letter -> list letter) (q : loc) (sts sts' : states) (c : nbr) (ws ws' : list (loc * nbr)) (b : bool),
       Forall (fun p => nPrec (snd p) <> []) ws -> rounds f ord k keys q sts c ws b = Done sts' ws' -> Forall (fun p => nPrec (snd p) <> []) ws').
Proof.
  intros ord k. split.
  - intros ns sts st r x ws F c H P. constructor; [|exact F]. cbn [snd]. unfold pushN in P. destruct (hasImpreciseClocks r (ec (fel x))) eqn:E; [|congruence]. destruct r as [|[i j] r]; [discriminate|].
    assert (J : In j (rightVariables ((i, j) :: r))) by (unfold rightVariables; apply (RenamingProofs2.sortUniq_in _ j); left; reflexivity). intro Z. assert (X := newNbr_prec _ _ _ _ _ H j J). rewrite Z in X. destruct X.
  - intros f keys q. induction f as [|f IH]; intros sts sts' c ws ws' b F H; cbn [rounds] in H; [discriminate|].
    destruct (handleActions ord k q c (mkR sts ws false b) (keys (map fst (nextOf sts q)))) as [s|] eqn:E; [|discriminate].
    assert (F' : Forall (fun p => nPrec (snd p) <> []) (rWs s)) by (refine (handleActions_queue ord k q c (fun p => nPrec (snd p) <> []) _ _ (mkR sts ws false b) s F E); intros l c' N _; exact N).
    destruct (nbSucc ord k c) as [c1|]; [|discriminate]. destruct (_ || _); [eapply IH; [exact F'|exact H]|injection H as _ <-; exact F'].
Qed.
Print Assumptions C79_queue_has_precise_clocks.

(** ** everything that can be relaxed is *)
(** one element: when the loop ends, the state has been gone through for the
    regions up to one for which no match has an upper bound, every transition
    that could be relaxed for one of them has been, and the pairs for the
    targets are on the work list *)
Theorem C79_loop_relaxes :
  forall (f : nat) (ord : list frel -> list frel) (k : nat) (keys : list letter -> list letter) (q : loc) (sts sts' : states) (c : nbr) (ws ws' : list (loc * nbr)),
    (forall l, Permutation (keys l) l) -> NoDup (map fst sts) -> rounds f ord k keys q sts c ws false = Done sts' ws' ->
    (forall p, In p ws -> In p ws') /\ explored ord k q c sts sts' (fun p => In p ws').
Proof. intros f ord k keys q sts sts' c ws ws' HK ND H. exact (explored_of_rounds ord k keys HK q f sts c ws sts' ws' ND H). Qed.
Print Assumptions C79_loop_relaxes.
(** the run: a set of pairs, closed under what exploring them puts on the work
    list, which has, for every pair pushed, one with the same hash, and all of
    which have been explored *)
Theorem C79_every_pair_is_explored :
  forall (f : nat) (ord : list frel -> list frel) (k : nat) (keys : list letter -> list letter) (pick : list (loc * nbr) -> nat) (hsh : loc * nbr -> nat)
         (ns : neighbours) (sts sts' : states) (ws : list (loc * nbr)),
    (forall l, Permutation (keys l) l) -> NoDup (map fst sts) -> runImprecise f ord k keys pick hsh ns sts = Done sts' ws ->
    exists V : list (loc * nbr),
      (forall st r x, In (st, r, x) ns -> exists c, newNbr ord k x (rightVariables r) = Some c /\ exists y, In y V /\ hsh y = hsh (st, c)) /\
      (forall y, In y V -> explored ord k (fst y) (snd y) sts sts' (fun p => exists z, In z V /\ hsh z = hsh p)).
Proof.
  intros f ord k keys pick hsh ns sts sts' ws HK ND H. unfold runImprecise in H. destruct (pushed ord k ns) as [ws0|] eqn:P; [|discriminate].
  destruct (runLoop_explored ord k keys pick hsh HK f sts ws0 [] sts' ws ND H sts [] eq_refl (onlyRelaxes_refl sts) ltac:(intros ? [])) as (V & _ & B & C). exists V. split; [|exact C].
  intros st r x I. assert (K : exists c, newNbr ord k x (rightVariables r) = Some c /\ In (st, c) ws0).
  { clear - P I. revert ws0 P. induction ns as [|[[st' r'] x'] ns IH]; intros ws0 P; [destruct I|]. cbn [pushed] in P. destruct (newNbr ord k x' (rightVariables r')) as [c'|] eqn:E; [|discriminate]. destruct (pushed ord k ns) as [l|]; [|discriminate]. injection P as <-.
    destruct I as [I|I]; [injection I as -> -> ->; exists c'; split; [exact E|left; reflexivity]|]. destruct (IH I l eq_refl) as (c & A & B). exists c. split; [exact A|right; exact B]. }
  destruct K as (c & A & I'). exists c. split; [exact A|]. apply B. exact I'.
Qed.
Print Assumptions C79_every_pair_is_explored.

(** nothing else goes to the work list: a pair put there is that of a matched
    transition of the state in one of the regions, it is not precise, and it has
    a precise clock *)
Theorem C79_what_is_queued :
  forall (f : nat) (ord : list frel -> list frel) (k : nat) (keys : list letter -> list letter) (q : loc) (sts sts' : states) (c : nbr) (ws ws' : list (loc * nbr)),
    NoDup (map fst sts) -> rounds f ord k keys q sts c ws false = Done sts' ws' ->
    forall l c', In (l, c') ws' -> In (l, c') ws \/
      exists j cj a t N, nbSuccs ord k j c = Some cj /\ In t (nfind (nextOf sts' q) a) /\ nbMatch cj (tgrd t) = true /\ l = ttgt t /\
        makeAfter ord k cj a t N = Some c' /\ nbPrecise c' = false /\ nPrec c' <> [].
Proof. intros f ord k keys q sts sts' c ws ws' ND H l c' I. exact (rounds_queue ord k keys q f sts c ws false sts' ws' ND H l c' I). Qed.
Print Assumptions C79_what_is_queued.
(** the work list comes to its end, since a hash is a number of bounded size
    and each is explored once: the loop over it can only fail to return because
    something called in it does not *)
Theorem C79_work_list_ends :
  forall (ord : list frel -> list frel) (k : nat) (keys : list letter -> list letter) (pick : list (loc * nbr) -> nat) (hsh : loc * nbr -> nat)
         (ns : neighbours) (sts : states) (H : nat),
    (forall p, (hsh p < H)%nat) -> exists n, forall f, (n <= f)%nat -> runImprecise f ord k keys pick hsh ns sts <> Waiting.
Proof.
  intros ord k keys pick hsh ns sts H HB. unfold runImprecise. destruct (pushed ord k ns) as [ws|]; [|exists 0%nat; discriminate].
  apply (runLoop_ends ord k keys pick hsh H HB H (length ws) sts ws []); [lia|constructor|intros ? []|cbn; lia].
Qed.
Print Assumptions C79_work_list_ends.

(** ** concrete cases: clock 0 is known to be 7/8, clocks 1 and 2 are below 1 *)
Definition imG : guard := [mkC 0%nat Oge 1; mkC 0%nat Ole 1; mkC 1%nat Ogt 0; mkC 1%nat Olt 1; mkC 2%nat Ogt 0; mkC 2%nat Olt 1].
Definition imEnd : loc * tastate := (1%nat, mkS true [(3%nat, [mkT 1%nat [] [mkC 0%nat Ole 1; mkC 1%nat Ole 1; mkC 2%nat Ole 1]])]).
Definition imSts (g : guard) : states := [(0%nat, mkS false [(3%nat, [mkT 1%nat [(2%nat, RConst 0)] g])]); imEnd].
Definition imWeak : trans := mkT 1%nat [(2%nat, RConst 0); (1%nat, RConst (1 # 2))] [mkC 0%nat Oge 1; mkC 0%nat Ole 1; mkC 1%nat Ogt 0; mkC 1%nat Olt 2; mkC 2%nat Ogt 0; mkC 2%nat Olt 2].
Example C79_satisfiable :
  (exists sts', rounds 10 (fun l => l) 20 (fun l => l) 0%nat (imSts imG) nbC [] false = Done sts' [] /\ leaves sts' 0%nat imWeak /\ ~ leaves (imSts imG) 0%nat imWeak) /\
  (forall i, (i < length (td nbWord))%nat -> 0 <= since (td nbWord) i) /\ leaves (imSts imG) 0%nat (mkT 1%nat [(2%nat, RConst 0)] imG) /\
  (forall d, In d imG -> nonTrivial d) /\ (forall v, looksLike (wait nbWord (1 # 8)) v -> gsat imG v).
Proof.
  split; [|split; [|split; [|split]]].
  - eexists. split; [vm_compute; reflexivity|]. split.
    + apply leaves_iff. exists 3%nat. cbn. right. left. reflexivity.
    + intro L. apply leaves_in in L. cbn in L. destruct L as [L|[]]. discriminate.
  - intros i Hi. cbn in Hi. destruct i as [|[|[|i]]]; [vm_compute; discriminate|vm_compute; discriminate|vm_compute; discriminate|lia].
  - apply leaves_iff. exists 3%nat. cbn. left. reflexivity.
  - intros d Hd. cbn in Hd. destruct Hd as [<-|[<-|[<-|[<-|[<-|[<-|[]]]]]]]; [exists 0|exists 2|exists 0|exists 1|exists 0|exists 1]; (split; [lra|]); cbn; change (inject_Z 1) with 1; change (inject_Z 0) with 0; lra.
  - intros v [N H]. cbn [wait nbWord td delayed] in H.
    assert (U : forall (a b : Q) z, Qfloor a = z -> sameUnit a b -> inject_Z z <= b /\ b < inject_Z z + 1).
    { intros a b z E [F _]. rewrite <- E, F. split; [apply Qfloor_le|]. assert (X := Qlt_floor b). rewrite inject_Z_plus in X. exact X. }
    assert (I : forall (a b : Q) z, a == inject_Z z -> sameUnit a b -> b == inject_Z z).
    { intros a b z E [F G]. assert (Z : Qfloor a = z) by (rewrite (Qfloor_comp _ _ E); apply Qfloor_Z). rewrite <- F, Z in G. apply G. exact E. }
    assert (J : forall (a b : Q) z, ~ a == inject_Z (Qfloor a) -> Qfloor a = z -> sameUnit a b -> ~ b == inject_Z z).
    { intros a b z E F G H1. destruct G as [G1 G2]. rewrite <- G1, F in G2. apply E. rewrite F. apply G2. exact H1. }
    assert (H0 := H 0%nat ltac:(cbn; lia)). assert (H1 := H 1%nat ltac:(cbn; lia)). assert (H2 := H 2%nat ltac:(cbn; lia)).
    assert (V0 : v 0%nat == 1) by (apply (I _ _ 1%Z) in H0; [exact H0|vm_compute; reflexivity]).
    assert (F1 : Qfloor (clocksOf (wait nbWord (1 # 8)) 1) = 0%Z) by (vm_compute; reflexivity). assert (F2 : Qfloor (clocksOf (wait nbWord (1 # 8)) 2) = 0%Z) by (vm_compute; reflexivity).
    assert (G1 : ~ clocksOf (wait nbWord (1 # 8)) 1 == inject_Z (Qfloor (clocksOf (wait nbWord (1 # 8)) 1))) by (vm_compute; discriminate).
    assert (G2 : ~ clocksOf (wait nbWord (1 # 8)) 2 == inject_Z (Qfloor (clocksOf (wait nbWord (1 # 8)) 2))) by (vm_compute; discriminate).
    assert (V1 := U _ _ _ F1 H1). assert (W1 := J _ _ _ G1 F1 H1). assert (V2 := U _ _ _ F2 H2). assert (W2 := J _ _ _ G2 F2 H2).
    change (inject_Z 0) with 0 in *. intros d Hd. cbn in Hd. destruct Hd as [<-|[<-|[<-|[<-|[<-|[<-|[]]]]]]]; cbn; change (inject_Z 1) with 1; change (inject_Z 0) with 0; try lra.
Qed.
(** a guard that the relaxed guard is not comparable with is not relaxed: here
    the matched guard has no lower bound on clock 2; the neighbours for which
    clock 1 has passed 1 are left without transition *)
Example C79_incomparable_guard_is_not_relaxed :
  let g := [mkC 0%nat Oge 1; mkC 0%nat Ole 1; mkC 1%nat Ogt 0; mkC 1%nat Olt 1; mkC 2%nat Olt 1] in
  rounds 10 (fun l => l) 20 (fun l => l) 0%nat (imSts g) nbC [] false = Done (imSts g) [] /\
  exists c', nbSucc (fun l => l) 20 nbC = Some c' /\ nbMatch c' g = true /\
    let v := fun i => match i with 1%nat => 5 # 4 | 2%nat => 1 # 4 | _ => 1 end in gsatb (toRelaxedGuard c') v = true /\ gsatb g v = false.
Proof. split; [vm_compute; reflexivity|]. eexists. split; [vm_compute; reflexivity|]. split; [vm_compute; reflexivity|]. split; vm_compute; reflexivity. Qed.
(** a state without transitions: the loop has no end *)
Example C79_no_transition_no_end : forall f sts' ws', rounds f (fun l => l) 20 (fun l => l) 0%nat [(0%nat, mkS true [])] nbC [] false <> Done sts' ws'.
Proof.
  destruct C73_satisfiable as (D & NP & _). apply (C79_loop_never_returns (fun l => l) 20 (fun l => l) 0%nat _ nbC nbWord [] (fun l => Permutation_refl l) D NP). intros t e L. apply leaves_in in L. destruct L.
Qed.
(** the run for one pair pushed: the guard is relaxed for it *)
Example C79_run_satisfiable :
  let ns := [(0%nat, [(0%nat, 0%nat)], nbRegion)] in
  pushN [] 0%nat [(0%nat, 0%nat)] nbRegion = ns /\
  (exists sts', runImprecise 10 (fun l => l) 20 (fun l => l) (fun _ => 0%nat) fst ns (imSts imG) = Done sts' [] /\ leaves sts' 0%nat imWeak) /\
  exists c, nbSucc (fun l => l) 20 nbC = Some c /\ relaxable c (mkT 1%nat [(2%nat, RConst 0)] imG).
Proof.
  split; [vm_compute; reflexivity|]. split.
  - eexists. split; [vm_compute; reflexivity|]. apply leaves_iff. exists 3%nat. cbn. right. left. reflexivity.
  - eexists. split; [vm_compute; reflexivity|]. split; [vm_compute; reflexivity|]. split; vm_compute; reflexivity.
Qed.
(** bounded hashes, and two pairs on the list: it comes to its end *)
Example C79_bounded_hash_satisfiable :
  (forall p : loc * nbr, (Nat.modulo (fst p) 7 < 7)%nat) /\ exists sts', runImprecise 20 (fun l => l) 20 (fun l => l) (fun _ => 0%nat) (fun p => Nat.modulo (fst p) 7) [(0%nat, [(0%nat, 0%nat)], nbRegion); (0%nat, [(0%nat, 0%nat)], nbRegion)] (imSts imG) = Done sts' [].
Proof. split; [intro p; apply Nat.mod_upper_bound; discriminate|]. eexists. vm_compute. reflexivity. Qed.
