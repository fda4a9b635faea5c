(** C76-C78: the assignments of a transition applied to a condition and to a
    regional language, when the target has another number of clocks
    (TimedCondition::applyResets, ForwardRegionalElementaryLanguage::applyResets
    with a target size, NeighborConditions::makeAfterTransition). *)
From Coq Require Import QArith ZArith Bool List Arith Lia Lqa Qround Permutation.
From Verif Require Import BoundsModel ConstraintModel GuardSpec ZoneModel ZoneSpec AutomatonModel AutomatonSpec AutomatonProofs TimedWordModel TimedWordSpec TimedConditionModel TimedConditionSpec TimedConditionProofs TimedConditionProofs3
  ElementaryModel ElementarySpec RegionalModel RegionalSpec RegionalProofs RegionalProofs4 CexProofs NeighborModel NeighborSpec TargetResetModel TargetResetSpec TargetResetProofs TargetResetProofs2 TargetResetProofs3.
Import ListNotations.
Open Scope Q_scope.

(** the members are the values after the assignments, up to the units of the
    constants and of their differences; the result is canonical and satisfiable *)
Theorem C76_apply_resets_exact :
  forall (m : tcond) (rs : resets) (N : nat),
    (2 <= dim m)%nat -> nonemptyZ m -> (1 <= N)%nat -> resetsInto (tcSize m) rs N ->
    okCond (tcApplyResetsTo m rs N) /\ tcSize (tcApplyResetsTo m rs N) = N /\
    forall d, inCond (tcApplyResetsTo m rs N) d <->
      length d = N /\ exists d0 z, inCond m d0 /\ isReset rs (since d0) z /\ likeReset rs N z (since d).
Proof.
  intros m rs N D NE HN RI. destruct (tcApplyResetsTo_exact m rs N D NE HN RI) as (O & T & _). split; [exact O|]. split; [exact T|]. exact (tcApplyResetsTo_durations m rs N D NE HN RI).
Qed.
Print Assumptions C76_apply_resets_exact.
(** in particular no valuation is lost (the documented post-condition asks for one) *)
Theorem C76_no_valuation_is_lost :
  forall (m : tcond) (rs : resets) (N : nat) (d0 d : list Q) (z : valuation),
    (2 <= dim m)%nat -> nonemptyZ m -> (1 <= N)%nat -> resetsInto (tcSize m) rs N ->
    inCond m d0 -> isReset rs (since d0) z -> length d = N -> (forall k, (k < N)%nat -> since d k == z k) ->
    inCond (tcApplyResetsTo m rs N) d.
Proof.
  intros m rs N d0 d z D NE HN RI Hd Z L H. apply (tcApplyResetsTo_durations m rs N D NE HN RI). split; [exact L|]. exists d0, z. split; [exact Hd|]. split; [exact Z|]. apply likeReset_exact. exact H.
Qed.
Print Assumptions C76_no_valuation_is_lost.
(** bounds stay integers, and finite ones stay finite *)
Theorem C76_keeps_integer_and_finite_bounds :
  forall (m : tcond) (rs : resets) (N : nat),
    (2 <= dim m)%nat -> nonemptyZ m -> (1 <= N)%nat -> resetsInto (tcSize m) rs N ->
    (intCond m -> intCond (tcApplyResetsTo m rs N)) /\ (boundedCond m -> boundedCond (tcApplyResetsTo m rs N)).
Proof. intros m rs N D NE HN RI. split; [apply tcApplyResetsTo_int; auto|apply tcApplyResetsTo_bounded; auto]. Qed.
Print Assumptions C76_keeps_integer_and_finite_bounds.
(** constants for all clocks: one region, that of the constants *)
Theorem C76_constants_one_region :
  forall (m : tcond) (rs : resets) (N : nat) (z : valuation),
    (2 <= dim m)%nat -> nonemptyZ m -> (1 <= N)%nat -> NoDup (map fst rs) ->
    (forall k, (k < N)%nat -> constAt rs k) -> (forall k q, In (k, RConst q) rs -> z k == q) ->
    isSimple (tcApplyResetsTo m rs N) = true /\
    forall d, inCond (tcApplyResetsTo m rs N) d <-> sameRegion (durs N z) d.
Proof. intros m rs N z D NE HN ND CA Z. split; [apply constants_simple; auto|apply constants_region; auto]. Qed.
Print Assumptions C76_constants_one_region.
(** the order of the clocks is not checked: increasing constants give a
    condition with negative durations only *)
Theorem C76_order_is_not_checked :
  forall (m : tcond) (d : list Q), (2 <= dim m)%nat -> nonemptyZ m ->
    inCond (tcApplyResetsTo m [(0%nat, RConst 0); (1%nat, RConst 1)] 2) d -> nth 0 d 0 < 0.
Proof.
  intros m d D NE H. set (rs := [(0%nat, RConst 0); (1%nat, RConst 1)]) in *. set (z := fun k : nat => match k with O => 0 | _ => 1 end).
  apply (constants_region m rs 2 z D NE ltac:(lia)) in H.
  - destruct H as [L H]. specialize (H 0%nat 0%nat ltac:(lia) ltac:(vm_compute; lia)).
    destruct d as [|a d]; [cbn in L; discriminate|]. apply (sameUnit_point (T (durs 2 z) 0 0) (-1)%Z) in H; [|vm_compute; reflexivity].
    assert (E : T (a :: d) 0 0 == a) by (unfold T; cbn; ring). rewrite E in H. cbn [nth]. rewrite H. reflexivity.
  - cbn. repeat constructor; cbn; intuition discriminate.
  - intros k Hk. destruct k as [|[|k]]; [exists 0|exists 1|lia]; cbn; auto.
  - intros k q [K|[K|[]]]; injection K as <- <-; reflexivity.
Qed.
Print Assumptions C76_order_is_not_checked.

(** the result for a regional language is a region of values after the
    assignments, up to the units of the constants *)
Theorem C77_regional_resets :
  forall (x : frel) (w : tword) (word : list letter) (rs : resets),
    regionalF x w -> Forall (fun a => a <> UNOBSERVABLE) word -> resetsInto (length (td w)) rs (S (length word)) ->
    (exists u, regionalF (frApplyResetsTo x word rs (S (length word))) u) /\
    forall u, inElem (fel (frApplyResetsTo x word rs (S (length word)))) u ->
      tw u = word /\ length (td u) = S (length word) /\
      exists w' z, inElem (fel x) w' /\ isReset rs (since (td w')) z /\ likeReset rs (S (length word)) z (since (td u)).
Proof.
  intros x w word rs R V RI. split; [|intros u; exact (fr_reset_sound x w word rs R V RI u)]. destruct (fr_reset_region x w word rs R V RI) as [u [Hu _]]. exists u. exact Hu.
Qed.
Print Assumptions C77_regional_resets.
(** with integer constants: exactly the values after the assignments *)
Theorem C77_integer_resets_exact :
  forall (x : frel) (w : tword) (word : list letter) (rs : resets),
    regionalF x w -> Forall (fun a => a <> UNOBSERVABLE) word -> resetsInto (length (td w)) rs (S (length word)) ->
    (forall k q, In (k, RConst q) rs -> (k < S (length word))%nat -> exists i, q == inject_Z i) ->
    forall u, inElem (fel (frApplyResetsTo x word rs (S (length word)))) u <->
      tw u = word /\ length (td u) = S (length word) /\
      exists w' z, inElem (fel x) w' /\ isReset rs (since (td w')) z /\ forall k, (k < S (length word))%nat -> since (td u) k == z k.
Proof. intros x w word rs R V RI IC u. exact (fr_reset_exact x w word rs R V RI IC u). Qed.
Print Assumptions C77_integer_resets_exact.
(** with fractions no region holds all of them: the result is a choice *)
Theorem C77_fractions_split_a_region :
  exists (rs : resets) (d1 d2 : list Q) (z1 z2 : valuation),
    resetsInto 1 rs 2 /\ length d1 = 1%nat /\ sameRegion d1 d2 /\ isReset rs (since d1) z1 /\ isReset rs (since d2) z2 /\
    (forall k, (S k < 2)%nat -> z1 (S k) <= z1 k /\ z2 (S k) <= z2 k) /\
    forall x w u1 u2, regionalF x w -> (forall k, (k < 2)%nat -> since (td u1) k == z1 k) -> (forall k, (k < 2)%nat -> since (td u2) k == z2 k) ->
      length (td u1) = 2%nat -> ~ (inElem (fel x) u1 /\ inElem (fel x) u2).
Proof. exact fraction_splits. Qed.
Print Assumptions C77_fractions_split_a_region.

(** the neighbours after a transition: the constructor returns, for every order
    of the hash values; the new original holds values after the transition of
    values of the old one; the precise clocks are those that are assigned a
    precise value, or have one already *)
Theorem C78_after_transition :
  forall (ord : list frel -> list frel) (c : nbr) (a : letter) (t : trans) (N : nat) (w : tword),
    (forall l, Permutation (ord l) l) -> regionalF (nOrig c) w -> visible (fel (nOrig c)) -> nSize c = length (td w) ->
    a <> UNOBSERVABLE -> tw w <> [] -> resetsInto (length (td w)) (trst t) N -> (1 <= N)%nat ->
    (nbInternal c t = true -> (N <= nSize c + 1)%nat) ->
    exists (c' : nbr) (w' : tword) (enough : nat),
      (forall fuel, (enough <= fuel)%nat -> makeAfter ord fuel c a t N = Some c') /\
      describes (nOrig c') (nPrec c') (nNbrs c') w' /\ nSize c' = length (td w') /\
      (if nbInternal c t then tw w' = tw w ++ [a] else length (td w') = N) /\
      (forall u, inElem (fel (nOrig c')) u ->
         exists w0 z, inElem (fel (nOrig c)) w0 /\ isReset (trst t) (since (td w0)) z /\ likeReset (trst t) N z (since (td u))) /\
      (forall k, In k (nPrec c') <-> In k (preciseAfterReset (nPrec c) N (trst t)) \/ ((k < length (td w'))%nat /\ exists i, since (td w') k == inject_Z i)).
Proof. exact makeAfter_spec. Qed.
Print Assumptions C78_after_transition.
(** the shortcut for internal transitions gives what the general case gives *)
Theorem C78_internal_agrees :
  forall (x : frel) (w : tword) (a : letter) (q : Q),
    regionalF x w -> visible (fel x) -> a <> UNOBSERVABLE -> q == 0 ->
    forall u, inElem (fel (frSuccAct x a)) u <->
      inElem (fel (frApplyResetsTo x (ew (fel x) ++ [a]) [(length (td w), RConst q)] (S (length (ew (fel x) ++ [a]))))) u.
Proof. exact internal_members. Qed.
Print Assumptions C78_internal_agrees.
(** the general case reads the last letter of the word and needs a clock in the
    target: without either it goes wrong *)
Theorem C78_needs_a_letter_and_a_clock :
  forall (c : nbr) (a : letter) (t : trans) (N : nat),
    nbInternal c t = false -> (originalAfter c a t N = None <-> ew (fel (nOrig c)) = [] \/ N = 0%nat).
Proof.
  intros c a t N I. unfold originalAfter. rewrite I. destruct N as [|n]; [split; auto|].
  destruct (rev (ew (fel (nOrig c)))) as [|b l] eqn:E.
  - split; [intros _; left; rewrite <- (rev_involutive (ew (fel (nOrig c)))), E; reflexivity|reflexivity].
  - split; [discriminate|]. intros [H|H]; [rewrite H in E; discriminate|discriminate].
Qed.
Print Assumptions C78_needs_a_letter_and_a_clock.

(** ** concrete cases *)
(** the word  0.5 a 0.75: clocks 1.25 and 0.75; the target gets the second
    clock and the constant 0.5 *)
Definition exWord : tword := mkTW [5%nat] [1#2; 3#4].
Definition exResets : resets := [(0%nat, RVar 1%nat); (1%nat, RConst (1#2))].
Example C76_C77_satisfiable :
  (2 <= dim (ec (fel (frFromTimedWord exWord))))%nat /\ nonemptyZ (ec (fel (frFromTimedWord exWord))) /\
  regionalF (frFromTimedWord exWord) exWord /\ resetsInto (length (td exWord)) exResets 2 /\
  inCond (tcApplyResetsTo (ec (fel (frFromTimedWord exWord))) exResets 2) [1#4; 1#2] /\
  ~ inCond (tcApplyResetsTo (ec (fel (frFromTimedWord exWord))) exResets 2) [1#4; 1].
Proof.
  assert (R : regionalF (frFromTimedWord exWord) exWord) by (apply frFromTimedWord_regional; reflexivity). destruct (region_ok _ _ (proj1 (proj2 (proj2 R)))) as (D & NE & B).
  assert (RI : resetsInto (length (td exWord)) exResets 2).
  { split; [cbn; repeat constructor; cbn; intuition discriminate|]. split; [intros x y [H|[H|[]]] _; [injection H as <- <-; cbn; lia|discriminate]|]. intros k Hk H. exfalso. apply H. destruct k as [|[|k]]; cbn; auto. lia. }
  assert (SZ : tcSize (ec (fel (frFromTimedWord exWord))) = length (td exWord)) by (symmetry; apply R).
  split; [exact D|]. split; [exact NE|]. split; [exact R|]. split; [exact RI|]. split.
  - apply (C76_no_valuation_is_lost _ exResets 2 (td exWord) _ (applyReset (since (td exWord)) exResets) D NE ltac:(lia)).
    + rewrite SZ. exact RI.
    + apply (proj2 (regionCond_exact _ _ (proj1 (proj2 (proj2 R))) (td exWord))). apply sameRegion_refl.
    + apply applyReset_isReset.
    + reflexivity.
    + intros k Hk. destruct k as [|[|k]]; [vm_compute; reflexivity|vm_compute; reflexivity|lia].
  - intro H. apply (tcApplyResetsTo_durations _ exResets 2 D NE ltac:(lia) ltac:(rewrite SZ; exact RI)) in H. destruct H as [_ [d0 [z [_ [Z (_ & H2 & _)]]]]].
    assert (X := H2 1%nat ltac:(lia) (ex_intro _ (1#2) (or_intror (or_introl eq_refl)))). assert (Zk := reset_val exResets _ z 1%nat _ (proj1 RI) Z (or_intror (or_introl eq_refl))). cbn beta iota in Zk.
    destruct X as [X _]. rewrite (Qfloor_comp _ _ Zk) in X. vm_compute in X. discriminate.
Qed.
Example C78_satisfiable :
  exists c w t, regionalF (nOrig c) w /\ visible (fel (nOrig c)) /\ nSize c = length (td w) /\ tw w <> [] /\ resetsInto (length (td w)) (trst t) 2 /\ nbInternal c t = false /\ nNbrs c <> [].
Proof.
  exists (mkNb (frFromTimedWord exWord) [0%nat] [frFromTimedWord exWord] 2), exWord, (mkT 0%nat exResets []).
  split; [apply frFromTimedWord_regional; reflexivity|]. split; [repeat constructor; discriminate|]. split; [reflexivity|]. split; [discriminate|]. split; [apply C76_C77_satisfiable|]. split; [reflexivity|discriminate].
Qed.
