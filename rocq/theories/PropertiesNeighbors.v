(** C72-C75: the neighbours of a situation in which only some clocks are
    known precisely (NeighborConditions), and the relaxed transitions made
    from them (ImpreciseClockHandler). *)
From Coq Require Import QArith ZArith Bool List Arith Lia Lqa Qround Permutation.
From Verif Require Import BoundsModel ConstraintModel GuardSpec ConstraintProofs ConstraintProofs2 ZoneModel ZoneSpec AutomatonModel AutomatonSpec TimedWordModel TimedWordSpec TimedConditionModel TimedConditionSpec
  ElementaryModel ElementarySpec RegionalModel RegionalSpec RegionalProofs RegionalProofs4 TableModel NeighborModel NeighborSpec NeighborProofs NeighborProofs2 NeighborProofs3 NeighborProofs4.
Import ListNotations.
Open Scope Q_scope.

(** the words of the neighbours made, before time passes *)
Theorem C72_make_neighbors :
  forall (x : frel) (w : tword) (P : list nat),
    regionalF x w -> visible (fel x) ->
    regions (makeNeighbors x P) /\ forall u, covers (makeNeighbors x P) u <-> relaxedLike P w u.
Proof. exact makeNeighbors_spec. Qed.
Print Assumptions C72_make_neighbors.

(** the constructor returns, for every order of the hash values, and says which words are covered *)
Theorem C72_constructor :
  forall (ord : list frel -> list frel) (x : frel) (w : tword) (P0 : list nat),
    (forall l, Permutation (ord l) l) -> regionalF x w -> visible (fel x) ->
    (forall k, In k P0 -> (k < length (td w))%nat) ->
    exists (c : nbr) (enough : nat),
      (forall fuel, (enough <= fuel)%nat -> newNbr ord fuel x P0 = Some c) /\
      nOrig c = x /\ nSize c = length (td w) /\
      (forall k, In k (nPrec c) <-> In k P0 \/ ((k < length (td w))%nat /\ exists z, since (td w) k == inject_Z z)) /\
      describes (nOrig c) (nPrec c) (nNbrs c) w /\
      (forall u', covers (nNbrs c) u' <->
         match nPrec c with
         | [] => relaxedLike P0 w u'
         | _ => agreeOn (nPrec c) w u' /\ exists u q, relaxedLike P0 w u /\ 0 <= q /\ sameClass (wait u q) u'
         end).
Proof. exact newNbr_spec. Qed.
Print Assumptions C72_constructor.

(** reconstruct: the neighbours for other precise clocks; those the word does
    not have are dropped, as are the neighbours known before *)
Theorem C72_reconstruct :
  forall (ord : list frel -> list frel) (c : nbr) (w : tword) (P : list nat),
    (forall l, Permutation (ord l) l) -> regionalF (nOrig c) w -> visible (fel (nOrig c)) ->
    exists (P0 : list nat) (c' : nbr) (enough : nat),
      (forall k, In k P0 <-> In k P /\ (k < length (td w))%nat) /\
      (forall fuel, (enough <= fuel)%nat -> reconstruct ord fuel c P = Some c' /\ newNbr ord fuel (nOrig c) P0 = Some c') /\
      nOrig c' = nOrig c /\ describes (nOrig c') (nPrec c') (nNbrs c') w /\
      (forall k, In k (nPrec c') <-> (k < length (td w))%nat /\ (In k P \/ exists z, since (td w) k == inject_Z z)).
Proof.
  intros ord c w P HO R V. set (P0 := filter (fun k => (k <=? length (ew (fel (nOrig c))))%nat) P). assert (W : wfTW w) by apply R. unfold wfTW in W. rewrite (proj1 R) in W.
  assert (B : forall k, In k P0 <-> In k P /\ (k < length (td w))%nat) by (intro k; unfold P0; rewrite filter_In, Nat.leb_le; intuition lia).
  destruct (newNbr_spec ord (nOrig c) w P0 HO R V (fun k H => proj2 (proj1 (B k) H))) as (c' & N & H1 & H2 & _ & H3 & H4 & _). exists P0, c', N. split; [exact B|]. split; [intros fuel Hf; split; apply H1; exact Hf|]. split; [exact H2|]. split; [exact H4|].
  intro k. rewrite H3, B. tauto.
Qed.
Print Assumptions C72_reconstruct.

(** if every clock or no clock is precise, relaxing changes nothing *)
Theorem C72_nothing_to_relax :
  forall (w u : tword) (P : list nat), wfTW w ->
    (forall i j, (i < length (td w))%nat -> (j < length (td w))%nat -> (In i P <-> In j P)) ->
    (relaxedLike P w u <-> wfTW u /\ sameClass w u).
Proof.
  intros w u P W A. destruct (relaxedLike_nil w u) as [H|H]; [|tauto]. assert (E : relaxedLike P w u <-> relaxedLike [] w u).
  { unfold relaxedLike. split; intros (H1 & H2 & H3 & H4); (split; [exact H1|]; split; [exact H2|]; split; [exact H3|]; intros i j Hij Hj K; apply (H4 i j Hij Hj)).
    - apply A; lia.
    - split; intros []. }
  rewrite E, H. tauto.
Qed.
Print Assumptions C72_nothing_to_relax.

(** time passing: the original moves to the next region, the neighbours to
    exactly the delayed words whose precise clocks agree with it *)
Theorem C73_continuous_successor :
  forall (ord : list frel -> list frel) (c : nbr) (w : tword),
    (forall l, Permutation (ord l) l) -> describes (nOrig c) (nPrec c) (nNbrs c) w -> nPrec c <> [] ->
    exists (q : Q) (c' : nbr) (enough : nat),
      nextRegion delayed (td w) q /\ (forall fuel, (enough <= fuel)%nat -> nbSucc ord fuel c = Some c') /\
      nOrig c' = frSucc (nOrig c) /\ nPrec c' = nPrec c /\ nSize c' = nSize c /\
      describes (nOrig c') (nPrec c') (nNbrs c') (wait w q) /\
      (forall u', covers (nNbrs c') u' <-> agreeOn (nPrec c) (wait w q) u' /\ exists u e, covers (nNbrs c) u /\ 0 <= e /\ sameClass (wait u e) u').
Proof. exact nbSucc_spec. Qed.
Print Assumptions C73_continuous_successor.
(** with no precise clock it never returns *)
Theorem C73_no_precise_clock_never_returns :
  forall (ord : list frel -> list frel) (c : nbr) (w : tword),
    describes (nOrig c) (nPrec c) (nNbrs c) w -> nPrec c = [] -> forall fuel, nbSucc ord fuel c = None.
Proof.
  intros ord c w (_ & _ & C & _) E fuel. unfold nbSucc. rewrite E. rewrite updateNeighbors_diverges; [reflexivity|]. destruct C as (n & Hn & _). destruct (nNbrs c); [destruct Hn|discriminate].
Qed.
Print Assumptions C73_no_precise_clock_never_returns.
(** an event happens: the new clock is precise *)
Theorem C73_discrete_successor :
  forall (c : nbr) (w : tword) (a : letter),
    describes (nOrig c) (nPrec c) (nNbrs c) w -> nSize c = length (td w) ->
    let c' := nbSuccAct c a in
    describes (nOrig c') (nPrec c') (nNbrs c') (concatChar w a) /\ nSize c' = length (td (concatChar w a)) /\
    (forall k, In k (nPrec c') <-> In k (nPrec c) \/ k = length (td w)) /\
    (forall u', covers (nNbrs c') u' <-> exists u, covers (nNbrs c) u /\ sameClass (concatChar u a) u').
Proof. exact nbSuccAct_spec. Qed.
Print Assumptions C73_discrete_successor.

(** match: the guard holds in the whole region of the original *)
Theorem C74_match :
  forall (c : nbr) (g : guard) (w : tword),
    regionalF (nOrig c) w ->
    (nbMatch c g = true -> forall v, nonneg v -> (forall k, (k < length (td w))%nat -> sameUnit (clocksOf w k) (v k)) -> gsat g v) /\
    ((forall k, 0 <= clocksOf w k) -> (forall k, In k g -> nonTrivial k) ->
     (forall v, nonneg v -> (forall k, (k < length (td w))%nat -> sameUnit (clocksOf w k) (v k)) -> gsat g v) -> nbMatch c g = true).
Proof. intros c g w R. split; [exact (nbMatch_sound c g w R)|exact (nbMatch_complete c g w R)]. Qed.
Print Assumptions C74_match.
(** the relaxed guard lets every neighbour pass ... *)
Theorem C74_relaxed_guard_covers :
  forall (c : nbr), regions (nNbrs c) -> forall (u : tword) (v : valuation),
    covers (nNbrs c) u -> nonneg v -> (forall k, (k < length (td u))%nat -> sameUnit (clocksOf u k) (v k)) -> gsat (toRelaxedGuard c) v.
Proof. exact relaxedGuard_sound. Qed.
Print Assumptions C74_relaxed_guard_covers.
(** ... and, clock by clock, nothing beyond the neighbours *)
Theorem C74_relaxed_guard_tight :
  forall (c : nbr) (w : tword),
    describes (nOrig c) (nPrec c) (nNbrs c) w -> forall v, nonneg v -> gsat (toRelaxedGuard c) v -> forall k, (k < length (td w))%nat ->
    (exists u, covers (nNbrs c) u /\ (clocksOf u k <= v k \/ sameUnit (clocksOf u k) (v k))) /\
    (exists u, covers (nNbrs c) u /\ (v k <= clocksOf u k \/ sameUnit (clocksOf u k) (v k))).
Proof. exact relaxedGuard_tight. Qed.
Print Assumptions C74_relaxed_guard_tight.
(** so a precise clock is still known *)
Theorem C74_relaxed_guard_precise :
  forall (c : nbr) (w : tword),
    describes (nOrig c) (nPrec c) (nNbrs c) w -> forall v, nonneg v -> gsat (toRelaxedGuard c) v -> forall k, In k (nPrec c) -> sameUnit (clocksOf w k) (v k).
Proof.
  intros c w D v NN H k Hk. assert (B : (k < length (td w))%nat) by (apply D; exact Hk). destruct (relaxedGuard_tight c w D v NN H k B) as [(u1 & C1 & H1) (u2 & C2 & H2)].
  destruct D as (_ & _ & _ & A & _). assert (A1 := proj2 (A u1 C1) k Hk). assert (A2 := proj2 (A u2 C2) k Hk). fold (clocksOf w k) in *. fold (clocksOf u1 k) in A1. fold (clocksOf u2 k) in A2.
  destruct H1 as [H1|H1]; [|exact (sameUnit_trans _ _ _ A1 H1)]. destruct H2 as [H2|H2]; [|exact (sameUnit_trans _ _ _ A2 H2)].
  apply RegionalProofs5.uidx_same. apply RegionalProofs5.uidx_same in A1. apply RegionalProofs5.uidx_same in A2. apply RegionalProofs5.uidx_mono in H1. apply RegionalProofs5.uidx_mono in H2. lia.
Qed.
Print Assumptions C74_relaxed_guard_precise.
Theorem C74_precise :
  forall (c : nbr) (w : tword),
    describes (nOrig c) (nPrec c) (nNbrs c) w -> nbPrecise c = true -> forall u, covers (nNbrs c) u <-> sameClass w u.
Proof. exact nbPrecise_spec. Qed.
Print Assumptions C74_precise.
(** the transition added: same target, fires whenever the matched one does and
    for every neighbour, and the matched transition does not fire that often *)
Theorem C74_relaxed_transition :
  forall (c : nbr) (w : tword) (n : nat) (v : list Q) (t t' : trans),
    describes (nOrig c) (nPrec c) (nNbrs c) w -> relaxOne c n v t = Some t' ->
    ttgt t' = ttgt t /\ trst t' = embedIfImprecise (trst t) (preciseAfterReset (nPrec c) n (trst t)) v /\
    (forall z, nonneg z -> (forall k, (k < length (td w))%nat -> sameUnit (clocksOf w k) (z k)) -> gsat (tgrd t) z) /\
    (forall z, gsat (tgrd t) z -> gsat (tgrd t') z) /\
    (forall u z, covers (nNbrs c) u -> nonneg z -> (forall k, (k < length (td u))%nat -> sameUnit (clocksOf u k) (z k)) -> gsat (tgrd t') z) /\
    isWeaker (tgrd t) (tgrd t') = false /\
    ((exists d, In d (tgrd t) /\ isUpper d = true) -> tgrd t' = toRelaxedGuard c) /\
    ((forall d, In d (tgrd t) -> isUpper d = false) -> forall d, In d (tgrd t') <-> In d (toRelaxedGuard c) /\ isUpper d = false).
Proof.
  intros c w n v t t' D H. destruct (relaxOne_spec c n v t t' H) as (M & E1 & E2 & W1 & W2 & G & B1 & B2). split; [exact E1|]. split; [exact E2|]. split; [exact (nbMatch_sound c (tgrd t) w (proj1 D) M)|]. split; [intros z Hz; eapply isWeaker_sound; eauto|]. split; [|auto].
  intros u z Cu NN Hz. apply G. apply (relaxedGuard_sound c (proj1 (proj2 D)) u z Cu NN Hz).
Qed.
Print Assumptions C74_relaxed_transition.

(** the clocks called precise after a reset are determined by the precise ones before ... *)
Theorem C75_precise_after_reset :
  forall (P : list nat) (n : nat) (rs : resets) (v v' w w' : valuation),
    NoDup (map fst rs) -> isReset rs v w -> isReset rs v' w' -> (forall k, In k P -> sameUnit (v k) (v' k)) ->
    forall k, In k (preciseAfterReset P n rs) -> (k < n)%nat /\ sameUnit (w k) (w' k).
Proof. intros P n rs v v' w w' ND R R' A k Hk. split; [apply preciseAfter_iff in Hk; apply Hk|eapply preciseAfter_sound; eauto]. Qed.
Print Assumptions C75_precise_after_reset.
(** ... and every other clock of the target really is unknown, or was set to a fraction *)
Theorem C75_precise_after_reset_maximal :
  forall (P : list nat) (n : nat) (rs : resets) (k : nat),
    NoDup (map fst rs) -> (k < n)%nat -> ~ In k (preciseAfterReset P n rs) ->
    (exists q, In (k, RConst q) rs /\ ~ q == inject_Z (Qfloor q)) \/
    (exists v v' w w', nonneg v /\ nonneg v' /\ (forall j, In j P -> v j == v' j) /\ isReset rs v w /\ isReset rs v' w' /\ ~ sameUnit (w k) (w' k)).
Proof. exact preciseAfter_max. Qed.
Print Assumptions C75_precise_after_reset_maximal.
(** the resets of the new transition: precise clocks as before, the others
    get their value of the original situation *)
Theorem C75_embed_if_imprecise :
  forall (rs : resets) (P : list nat) (v : list Q) (z z' w : valuation),
    NoDup (map fst rs) -> isReset (embedIfImprecise rs P v) z z' -> isReset rs z w ->
    (forall k, In k P -> z' k == w k) /\ (forall k, ~ In k P -> (k < length v)%nat -> z' k == nth k v 0) /\ (forall k, ~ In k P -> (length v <= k)%nat -> z' k == z k).
Proof.
  intros rs P v z z' w ND R W. assert (E := embed_sem rs P v z z' w ND R W).
  assert (NP : forall k, ~ In k P -> isPrecise P k = false) by (intros k Hk; destruct (isPrecise P k) eqn:X; [apply isPrecise_iff in X; tauto|reflexivity]).
  split; [|split]; intros k Hk; [|intro L|intro L]; rewrite (E k).
  - rewrite (proj2 (isPrecise_iff P k) Hk). reflexivity.
  - rewrite (NP k Hk). apply Nat.ltb_lt in L. rewrite L. reflexivity.
  - rewrite (NP k Hk). apply Nat.ltb_ge in L. rewrite L. reflexivity.
Qed.
Print Assumptions C75_embed_if_imprecise.
(** the clock size of a state is the least that covers the clocks its guards read *)
Theorem C75_clock_size :
  forall (s : tastate),
    (forall a ts t c, In (a, ts) (snext s) -> In t ts -> In c (tgrd t) -> (cx c < computeClockSize s)%nat) /\
    (forall n, (forall a ts t c, In (a, ts) (snext s) -> In t ts -> In c (tgrd t) -> (cx c < n)%nat) -> (computeClockSize s <= n)%nat).
Proof.
  intro s. split; [exact (clockSize_bound s)|]. intros n H. destruct (clockSize_tight s) as [->|(a & ts & t & c & H1 & H2 & H3 & ->)]; [lia|]. specialize (H a ts t c H1 H2 H3). lia.
Qed.
Print Assumptions C75_clock_size.

Theorem C75_imprecise_clocks :
  forall (c : nbr) (k : nat), In k (impreciseClocks c) <-> (k < nSize c)%nat /\ ~ In k (nPrec c).
Proof.
  intros c k. unfold impreciseClocks. rewrite filter_In, in_seq, negb_true_iff, <- isPrecise_iff. destruct (isPrecise (nPrec c) k); split; intros [A B]; split; try lia; auto; congruence.
Qed.
Print Assumptions C75_imprecise_clocks.

(** ** examples *)
Definition nbWord : tword := mkTW [1%nat; 2%nat] [1 # 2; 1 # 4; 1 # 8].
Definition nbRegion : frel := frFromTimedWord nbWord.
Definition nbC : nbr := match newNbr (fun l => l) 20 nbRegion [0%nat] with Some c => c | None => mkNb nbRegion [] [] 0 end.
(** clock 0 is known, clocks 1 and 2 are not: three neighbours *)
Example C72_satisfiable :
  regionalF nbRegion nbWord /\ visible (fel nbRegion) /\ newNbr (fun l => l) 20 nbRegion [0%nat] = Some nbC /\ (1 < length (nNbrs nbC))%nat.
Proof.
  split; [apply frFromTimedWord_regional; reflexivity|]. split; [repeat constructor; discriminate|]. split; [vm_compute; reflexivity|]. vm_compute. lia.
Qed.
Example C73_satisfiable : describes (nOrig nbC) (nPrec nbC) (nNbrs nbC) nbWord /\ nPrec nbC <> [] /\ nSize nbC = length (td nbWord).
Proof.
  destruct C72_satisfiable as (A & B & C & _). destruct (newNbr_result (fun l => l) 20 nbRegion nbWord [0%nat] nbC (fun l => Permutation_refl l) A B) as [D Z].
  - intros k [<-|[]]. cbn. lia.
  - exact C.
  - split; [exact D|]. split; [|exact Z]. assert (X : In 0%nat (nPrec nbC)) by (vm_compute; auto). intro Y. rewrite Y in X. destruct X.
Qed.
Definition nbTrans : trans := mkT 7%nat [(0%nat, RConst 0); (1%nat, RVar 1%nat)] [mkC 1%nat Olt 1; mkC 2%nat Olt 1].
Example C74_C75_satisfiable :
  nbMatch nbC (tgrd nbTrans) = true /\ toRelaxedGuard nbC <> [] /\ preciseAfterReset (nPrec nbC) 2 (trst nbTrans) = [0%nat] /\
  NoDup (map fst (trst nbTrans)) /\ embedIfImprecise (trst nbTrans) [0%nat] [1 # 2; 1 # 4] = [(0%nat, RConst 0); (1%nat, RConst (1 # 4))].
Proof.
  split; [vm_compute; reflexivity|]. split; [vm_compute; discriminate|]. split; [vm_compute; reflexivity|]. split; [|vm_compute; reflexivity].
  cbn. apply NoDup_cons; [intros [X|[]]; discriminate|]. apply NoDup_cons; [intros []|apply NoDup_nil].
Qed.
(** neighbours can be words that never occur: the first duration is negative *)
Example C72_impossible_neighbor : exists u, covers (makeNeighbors nbRegion [0%nat]) u /\ nth 0 (td u) 0 < 0.
Proof.
  exists (mkTW [1%nat; 2%nat] [- (1 # 4); 1 # 2; 1 # 4]). split; [|reflexivity]. apply (proj2 (C72_make_neighbors nbRegion nbWord [0%nat] (proj1 C72_satisfiable) (proj1 (proj2 C72_satisfiable)))).
  assert (U : forall p q, Qfloor p = Qfloor q -> Qeq_bool p (inject_Z (Qfloor p)) = Qeq_bool q (inject_Z (Qfloor q)) -> sameUnit p q) by (intros p q A B; split; [exact A|]; rewrite <- !Qeq_bool_iff, B; tauto).
  split; [reflexivity|]. split; [reflexivity|]. split.
  - intros i Hi. cbn [nbWord td length] in Hi. destruct i as [|[|[|]]]; try lia; apply U; vm_compute; reflexivity.
  - intros i j Hij Hj K. cbn [nbWord td length] in Hj. destruct i as [|[|[|]]], j as [|[|[|]]]; try lia; try (apply U; vm_compute; reflexivity).
    all: exfalso; assert (X := proj1 K (or_introl eq_refl)); destruct X as [X|[]]; discriminate.
Qed.
