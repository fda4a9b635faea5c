(** Properties of guards (include/constraint.hh): C01-C07.
    Only statements, [exact], and non-vacuity examples. *)
From Coq Require Import QArith ZArith Bool List Lqa Lia Sorted.
From Verif Require Import BoundsModel ConstraintModel GuardSpec.
From Verif Require Import BoundsProofs ConstraintProofs ConstraintProofs2 ConstraintProofs3 ConstraintProofs4.
Import ListNotations.
Open Scope Q_scope.

(** C01: the negation of an inequality is satisfied exactly where the
    inequality is not. *)
Theorem C01_negate_is_complement :
  forall (k : constraint) (d : Q),
    cx (cnegate k) = cx k /\ (holds (cnegate k) d <-> ~ holds k d).
Proof. intros k d; split; [destruct k as [x [] c]; reflexivity | exact (cnegate_exact k d)]. Qed.
Print Assumptions C01_negate_is_complement.

(** C01: the executable test decides [holds]. *)
Theorem C01_satisfy_decides :
  forall (k : constraint) (d : Q), satisfy k d = true <-> holds k d.
Proof. exact satisfy_holds. Qed.
Print Assumptions C01_satisfy_decides.

Theorem C01_guard_satisfaction_decides :
  forall (g : guard) (v : valuation), gsatb g v = true <-> gsat g v.
Proof. exact gsatb_gsat. Qed.
Print Assumptions C01_guard_satisfaction_decides.

(** C02: soundness of the weakness test, and completeness for guards whose
    constraints are not trivially true. *)
Theorem C02_isWeaker_sound :
  forall (left right : guard),
    isWeaker left right = true -> forall v, gsat right v -> gsat left v.
Proof. intros l r H v; exact (isWeaker_sound l r v H). Qed.
Print Assumptions C02_isWeaker_sound.

Theorem C02_isWeaker_complete :
  forall (left right : guard),
    (exists v, nonneg v /\ gsat right v) ->
    (forall k, In k left -> nonTrivial k) ->
    (forall v, nonneg v -> gsat right v -> gsat left v) ->
    isWeaker left right = true.
Proof. exact isWeaker_complete. Qed.
Print Assumptions C02_isWeaker_complete.

Example C02_nonvacuous :
  isWeaker [mkC 0 Ogt 1; mkC 1 Olt 5] [mkC 1 Ole 4; mkC 0 Oge 2; mkC 0 Ole 9] = true
  /\ isWeaker [mkC 0 Ogt 1] [mkC 0 Oge 1] = false.
Proof. vm_compute. auto. Qed.

(** C03 *)
Theorem C03_satisfiable_exact :
  forall g : guard,
    smallConsts g ->
    (satisfiable g = true <-> exists v, nonneg v /\ gsat g v).
Proof. exact satisfiable_exact. Qed.
Print Assumptions C03_satisfiable_exact.

Example C03_nonvacuous :
  smallConsts [mkC 0 Ogt 1; mkC 0 Olt 2; mkC 1 Oge 3]
  /\ satisfiable [mkC 0 Ogt 1; mkC 0 Olt 2; mkC 1 Oge 3] = true
  /\ satisfiable [mkC 0 Ogt 1; mkC 0 Ole 1] = false.
Proof. split; [|vm_compute; auto]. intros k [<-|[<-|[<-|[]]]]; reflexivity. Qed.

(** C04 *)
Theorem C04_simplify_same_meaning :
  forall (g : guard) (v : valuation),
    smallConsts g -> nonneg v -> (gsat (simplify g) v <-> gsat g v).
Proof. exact simplify_ok. Qed.
Print Assumptions C04_simplify_same_meaning.

Theorem C04_simplify_non_redundant : forall g : guard, nonRedundant (simplify g).
Proof. exact simplify_nonRedundant. Qed.
Print Assumptions C04_simplify_non_redundant.

Example C04_nonvacuous :
  simplify [mkC 1 Ole 7; mkC 0 Ogt 1; mkC 1 Olt 7; mkC 0 Oge 1; mkC 0 Oge 0]
  = [mkC 0 Ogt 1; mkC 1 Olt 7].
Proof. reflexivity. Qed.

(** C05 *)
Theorem C05_negation_of_guards_is_complement :
  forall (gs : list guard) (v : valuation),
    gs <> [] -> (forall g, In g gs -> g <> []) -> (forall g, In g gs -> smallConsts g) ->
    nonneg v ->
    (dnfsat (negateDNF gs) v <-> ~ dnfsat gs v)
    /\ (forall g, In g (negateDNF gs) -> smallConsts g).
Proof. exact negateDNF_ok. Qed.
Print Assumptions C05_negation_of_guards_is_complement.

Example C05_nonvacuous :
  let gs := [[mkC 0 Ogt 1; mkC 0 Ole 2]; [mkC 1 Oge 3]] in
  gs <> [] /\ (forall g, In g gs -> g <> []) /\ (forall g, In g gs -> smallConsts g)
  /\ negateDNF gs = [[mkC 0 Ole 1; mkC 1 Olt 3]; [mkC 0 Ogt 2; mkC 1 Olt 3]].
Proof.
  repeat split; try discriminate.
  - intros g [<-|[<-|[]]]; discriminate.
  - intros g [<-|[<-|[]]] k Hk; repeat (destruct Hk as [<-|Hk]; [reflexivity|]); destruct Hk.
Qed.

(** The precondition on empty guards is real: the empty guard (always true)
    is skipped by the CNF loop (constraint.hh:399-401) instead of making the
    negation unsatisfiable. *)
Theorem C05_empty_guard_refuted :
  exists (gs : list guard) (v : valuation),
    nonneg v /\ dnfsat gs v /\ dnfsat (negateDNF gs) v.
Proof.
  exists [[]; [mkC 0 Ogt 1]], (fun _ => 0). split; [intro; apply Qle_refl|]. split.
  - exists []. split; [left; reflexivity|intros k []].
  - exists [mkC 0 Ole 1]. split; [left; reflexivity|].
    intros k [<-|[]]; vm_compute; discriminate.
Qed.
Print Assumptions C05_empty_guard_refuted.

(** C06 *)
Theorem C06_union_hull_implied_by_each :
  forall (gs : list guard) (g : guard),
    In g gs ->
    isWeaker (unionHull gs) g = true /\ forall v, gsat g v -> gsat (unionHull gs) v.
Proof.
  intros gs g H; split; [exact (unionHull_weaker gs g H) | intros v; exact (unionHull_sound gs g v H)].
Qed.
Print Assumptions C06_union_hull_implied_by_each.

Theorem C06_union_hull_strongest :
  forall (gs : list guard) (d : constraint),
    gs <> [] ->
    (forall g, In g gs -> nonRedundant g /\ exists v, nonneg v /\ gsat g v) ->
    (forall g v, In g gs -> nonneg v -> gsat g v -> holds d (v (cx d))) ->
    forall v, nonneg v -> gsat (unionHull gs) v -> holds d (v (cx d)).
Proof. exact unionHull_strongest. Qed.
Print Assumptions C06_union_hull_strongest.

Example C06_nonvacuous :
  unionHull [[mkC 0 Ogt 1; mkC 0 Ole 2; mkC 1 Oge 1]; [mkC 0 Ogt 2; mkC 0 Olt 3]]
  = [mkC 0 Ogt 1; mkC 0 Olt 3].
Proof. reflexivity. Qed.

(** C07.  Full property: [adjacent l r = true -> (merged <-> l \/ r)].  It is
    false of the code in two ways; what does hold is the case of a single
    differing clock where the two guards agree on which clocks are bounded. *)
Theorem C07_merge_exact_partial :
  forall (x : clock) (l r : guard) (v : valuation),
    smallConsts l -> smallConsts r -> nonRedundant l -> nonRedundant r ->
    sameBoundedness l r -> agreeOff x l r ->
    adjacent l r = true -> nonneg v ->
    (gsat (unionHull2 l r) v <-> gsat l v \/ gsat r v).
Proof. exact merge_exact_one_clock. Qed.
Print Assumptions C07_merge_exact_partial.

Example C07_nonvacuous :
  let l := [mkC 0 Ogt 1; mkC 0 Ole 2; mkC 1 Oge 1] in
  let r := [mkC 0 Ogt 2; mkC 0 Olt 3; mkC 1 Oge 1] in
  adjacent l r = true /\ agreeOff 0%nat l r /\ sameBoundedness l r /\ nonRedundant l /\ nonRedundant r
  /\ unionHull2 l r = [mkC 0 Ogt 1; mkC 0 Olt 3; mkC 1 Oge 1].
Proof.
  cbv zeta. split; [reflexivity|]. split.
  - intros y N. unfold conjunctsOn. cbn [filter cx]. destruct (Nat.eqb 0 y) eqn:E; [apply Nat.eqb_eq in E; congruence|]. destruct (Nat.eqb 1 y); reflexivity.
  - split; [|split; [repeat constructor; cbn; intuition congruence|split; [repeat constructor; cbn; intuition congruence|reflexivity]]].
    intro x. split; intros (k & [<-|[<-|[<-|[]]]] & E & U); try discriminate U; cbn in E; subst x;
      [exists (mkC 0 Olt 3)|exists (mkC 0 Ole 2)]; repeat split; auto; right; left; reflexivity.
Qed.

(** Two clocks differ: the merged guard is strictly weaker than the union. *)
Theorem C07_two_clocks_refuted :
  exists (l r : guard) (v : valuation),
    nonRedundant l /\ nonRedundant r /\ nonneg v /\
    adjacent l r = true /\ gsat (unionHull2 l r) v /\ ~ gsat l v /\ ~ gsat r v.
Proof.
  exists ex_l1, ex_r1, ex_v1.
  split; [repeat constructor; cbn; intuition congruence|].
  split; [repeat constructor; cbn; intuition congruence|].
  split; [intro x; unfold ex_v1; destruct x as [|[|x]]; cbn; lra|].
  destruct adjacent_two_clocks_inexact as (H1 & H2 & H3 & H4).
  rewrite <- !gsatb_gsat, H2, H3, H4. repeat split; auto; discriminate.
Qed.
Print Assumptions C07_two_clocks_refuted.

(** One clock differs but only one of the guards bounds it from above. *)
Theorem C07_unbounded_refuted :
  exists (l r : guard) (v : valuation),
    nonRedundant l /\ nonRedundant r /\ nonneg v /\ length (differing l r) = 1%nat /\
    adjacent l r = true /\ gsat (unionHull2 l r) v /\ ~ gsat l v /\ ~ gsat r v.
Proof.
  exists ex_l2, ex_r2, ex_v2.
  split; [repeat constructor; cbn; intuition congruence|].
  split; [repeat constructor; cbn; intuition congruence|].
  split; [intro x; unfold ex_v2; try (destruct x as [|[|x]]); cbn; lra|].
  destruct adjacent_unbounded_inexact as (H1 & H1' & H2 & H3 & H4).
  rewrite <- !gsatb_gsat, H2, H3, H4. repeat split; auto; discriminate.
Qed.
Print Assumptions C07_unbounded_refuted.
