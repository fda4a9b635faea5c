(** Conditions that are canonical off the diagonal only, as the predecessors of
    backward regional languages are: concatenation does not depend on the
    diagonal of its second operand. *)
From Coq Require Import QArith ZArith Bool List Arith Lia Lqa.
From Verif Require Import BoundsModel BoundsProofs ConstraintModel ZoneModel ZoneSpec ZoneProofs ZoneProofs2 AutomatonModel TimedWordModel TimedWordSpec
  TimedConditionModel TimedConditionSpec TimedConditionProofs TimedConditionProofs2 TimedConditionProofs3 TimedConditionProofs4 ElementaryModel ElementarySpec ElementaryProofs.
Import ListNotations.
Open Scope Q_scope.

Definition closedOff (m : tcond) : Prop :=
  forall i j k, (i < dim m)%nat -> (j < dim m)%nat -> (k < dim m)%nat -> i <> j -> ble (get m i j) (badd (get m i k) (get m k j)) = true.
(** at least one duration, inhabited, canonical off the diagonal, the diagonal
    admits 0 *)
Definition looseCond (m : tcond) : Prop := (2 <= dim m)%nat /\ closedOff m /\ diagOK m /\ exists d, inCond m d.
Definition looseElem (x : elem) : Prop := looseCond (ec x) /\ tcSize (ec x) = S (length (ew x)).
Definition fixDiag (m : tcond) : tcond := mk (dim m) (fun i j => if (i =? j)%nat then bz else get m i j).

Lemma dim_fix m : dim (fixDiag m) = dim m.
Proof. apply dim_mk. Qed.
Lemma get_fix m i j : (i < dim m)%nat -> (j < dim m)%nat -> get (fixDiag m) i j = if (i =? j)%nat then bz else get m i j.
Proof. intros. unfold fixDiag. apply get_mk; auto. Qed.
Lemma colOf_lt m j : (2 <= dim m)%nat -> (j < tcSize m)%nat -> (colOf m j < dim m)%nat.
Proof. intros D H. unfold colOf, tcSize in *. destruct (j =? _)%nat eqn:E; [lia|]. apply Nat.eqb_neq in E. lia. Qed.
Lemma inCond_fix m d : (2 <= dim m)%nat -> (inCond (fixDiag m) d <-> inCond m d).
Proof.
  intro D. assert (S1 : tcSize (fixDiag m) = tcSize m) by (unfold tcSize; rewrite dim_fix; reflexivity).
  unfold inCond. rewrite S1. split; intros [L H]; (split; [auto|]); intros i j Hij Hj; specialize (H i j Hij Hj);
  assert (C := colOf_lt m j D Hj); assert (I : (i + 1 < dim m)%nat) by (unfold tcSize in *; lia);
  assert (N : (i + 1)%nat <> colOf m j) by (unfold colOf; destruct (j =? tcSize m - 1)%nat; lia);
  assert (CF : colOf (fixDiag m) j = colOf m j) by (unfold colOf; rewrite S1; reflexivity);
  unfold getUpperBound, getLowerBound in *; rewrite CF, !get_fix in * by auto;
  (replace ((i + 1 =? colOf m j)%nat) with false in * by (symmetry; apply Nat.eqb_neq; auto));
  (replace ((colOf m j =? i + 1)%nat) with false in * by (symmetry; apply Nat.eqb_neq; auto)); exact H.
Qed.
Lemma loose_nonempty m : looseCond m -> nonemptyZ m.
Proof. intros [D [_ [G [d H]]]]. exists (accd d). apply inCond_inZone; auto. Qed.
Lemma okCond_loose m : okCond m -> looseCond m.
Proof.
  intros [D [C N]]. split; [auto|]. split; [intros i j k Hi Hj Hk _; apply C; auto|]. split; [apply nonempty_diag; auto|].
  destruct N as [v Hv]. exists (durs (tcSize m) v). apply inZone_durs; auto.
Qed.
Lemma wfElem_loose x : wfElem x -> looseElem x.
Proof. intros [O S]. split; [apply okCond_loose; auto|auto]. Qed.
Lemma okCond_fix m : looseCond m -> okCond (fixDiag m).
Proof.
  intros Lm. assert (N := loose_nonempty m Lm). assert (N2 := nonempty_nonneg2 m N). destruct Lm as [D [C [G [d Hd]]]].
  assert (NZ : nonemptyZ (fixDiag m)).
  { destruct N as [v Hv]. exists v. intros i j Hi Hj. rewrite dim_fix in Hi, Hj. rewrite get_fix by auto. destruct (i =? j)%nat eqn:E.
    - apply Nat.eqb_eq in E. subst. cbn. lra.
    - apply Hv; auto. }
  split; [rewrite dim_fix; auto|]. split; [|auto]. intros i j k Hi Hj Hk. rewrite dim_fix in Hi, Hj, Hk. rewrite !get_fix by auto.
  destruct (i =? j)%nat eqn:E.
  - apply Nat.eqb_eq in E. subst j. rewrite (Nat.eqb_sym k i). destruct (i =? k)%nat eqn:F; [reflexivity|]. apply N2; auto.
  - apply Nat.eqb_neq in E. destruct (i =? k)%nat eqn:F.
    + apply Nat.eqb_eq in F. subst k. replace ((i =? j)%nat) with false by (symmetry; apply Nat.eqb_neq; auto). apply badd_zero_le_l. reflexivity.
    + destruct (k =? j)%nat eqn:F2; [|apply C; auto]. apply Nat.eqb_eq in F2. subst k. apply badd_zero_le. reflexivity.
Qed.

Lemma tcSize_fix m : tcSize (fixDiag m) = tcSize m.
Proof. unfold tcSize. rewrite dim_fix. reflexivity. Qed.
Lemma concatSem_fix a b u : (2 <= dim b)%nat -> diagOK b -> (concatSem a b u <-> concatSem a (fixDiag b) u).
Proof.
  intros D G. assert (SZ : dim b = S (tcSize b)) by (unfold tcSize; lia).
  assert (OFF : forall i j, (i < dim b)%nat -> (j < dim b)%nat -> i <> j -> get (fixDiag b) i j = get b i j).
  { intros i j Hi Hj N. rewrite get_fix by auto. apply Nat.eqb_neq in N. rewrite N. reflexivity. }
  unfold concatSem. cbv zeta. rewrite !tcSize_fix. split; intros [A [B [C [D1 [E F]]]]]; (split; [exact A|]).
  - split; [intros i Hi; rewrite !OFF by lia; apply B; auto|]. split; [intros i k Hi Hk; rewrite !OFF by lia; apply C; auto|].
    split; [|split; [intros k Hk; rewrite !OFF by lia; apply E; auto|exact F]].
    intros k l Hk Hl. rewrite get_fix by lia. destruct (k =? l)%nat eqn:K; [|apply D1; auto]. apply Nat.eqb_eq in K. subst l. cbn. lra.
  - split; [intros i Hi; specialize (B i Hi); rewrite !OFF in B by lia; exact B|]. split; [intros i k Hi Hk; specialize (C i k Hi Hk); rewrite !OFF in C by lia; exact C|].
    split; [|split; [intros k Hk; specialize (E k Hk); rewrite !OFF in E by lia; exact E|exact F]].
    intros k l Hk Hl. specialize (D1 k l Hk Hl). rewrite get_fix in D1 by lia. destruct (k =? l)%nat eqn:K; [|exact D1].
    apply Nat.eqb_eq in K. subst l. eapply bsat_ext; [|apply G; lia]. ring.
Qed.
Lemma okCond_concatL a b : okCond a -> looseCond b -> okCond (tcConcat a b).
Proof.
  intros Oa Lb. assert (Of := okCond_fix b Lb). destruct (okCond_concat_nonempty a (fixDiag b) Oa Of) as [w Hw]. assert (Db := proj1 Lb).
  assert (NE : nonemptyZ (tcConcat a b)).
  { exists w. apply inZone_Z. apply tcConcat_Z; [apply Oa|auto|]. apply concatSem_fix; [auto|apply Lb|]. apply tcConcat_Z; [apply Oa|apply Of|exact Hw]. }
  split; [rewrite dim_tcConcat; destruct Oa as [Da _]; unfold tcSize; lia|]. split; [|auto].
  unfold tcConcat in *. apply canonize_closed_sat. destruct NE as [v H]. exists v. apply canonize_inZone. exact H.
Qed.
Lemma tcConcat_exactL a b d : okCond a -> looseCond b -> (inCond (tcConcat a b) d <-> exists d1 d2, inCond a d1 /\ inCond b d2 /\ joined d1 d2 d).
Proof.
  intros Oa Lb. assert (Of := okCond_fix b Lb). assert (Db := proj1 Lb).
  assert (E : inCond (tcConcat a b) d <-> inCond (tcConcat a (fixDiag b)) d).
  { rewrite (inCond_iff _ d (okCond_concatL a b Oa Lb)), (inCond_iff _ d (okCond_concat a _ Oa Of)).
    assert (SZ : tcSize (tcConcat a (fixDiag b)) = tcSize (tcConcat a b)) by (change (pred (dim (tcConcat a (fixDiag b))) = pred (dim (tcConcat a b))); rewrite !dim_tcConcat, tcSize_fix; reflexivity). rewrite SZ.
    assert (K : inZone (tcConcat a b) (accd d) <-> inZone (tcConcat a (fixDiag b)) (accd d)); [|tauto].
    rewrite !inZone_Z. rewrite !tcConcat_Z by (first [apply Oa|apply Of|auto]). apply concatSem_fix; [auto|apply Lb]. }
  rewrite E, tcConcat_exact by auto. split; intros [d1 [d2 [H1 [H2 J]]]]; exists d1, d2; (split; [auto|]); (split; [|auto]); apply inCond_fix; auto.
Qed.
Lemma wfElem_concatL x y : wfElem x -> looseElem y -> wfElem (elConcat x y).
Proof.
  intros [Ox Sx] [Oy Sy]. split; [apply okCond_concatL; auto|]. cbn [elConcat ew ec].
  rewrite tcSize_concat by (try apply Ox; apply Oy). rewrite app_length. lia.
Qed.
Lemma elConcat_exactL x y w : wfElem x -> looseElem y ->
  (inElem (elConcat x y) w <-> exists w1 w2, inElem x w1 /\ inElem y w2 /\ sameTW w (concatTW w1 w2)).
Proof.
  intros [Ox Sx] [Oy Sy]. unfold inElem, elConcat. cbn [ew ec]. rewrite tcConcat_exactL by auto. split.
  - intros [A [d1 [d2 [B [C J]]]]]. exists (mkTW (ew x) d1), (mkTW (ew y) d2). cbn [tw td].
    split; [auto|]. split; [auto|]. split; [exact A|].
    apply (joined_concat (mkTW (ew x) d1) (mkTW (ew y) d2)); [..|exact J]; unfold wfTW; cbn [tw td];
      [destruct B as [-> _]|destruct C as [-> _]]; auto.
  - intros [w1 [w2 [[A1 B1] [[A2 B2] [A B]]]]]. cbn [tw] in A. split; [unfold concatTW in A; cbn [tw] in A; congruence|].
    exists (td w1), (td w2). split; [auto|]. split; [auto|]. apply joined_concat; auto; unfold wfTW.
    + rewrite A1. destruct B1 as [-> _]. auto.
    + rewrite A2. destruct B2 as [-> _]. auto.
Qed.
