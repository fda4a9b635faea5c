(** Merging guards that agree on all clocks but one. *)
From Coq Require Import QArith ZArith Bool List Arith Lia Lqa.
From Verif Require Import BoundsModel ConstraintModel GuardSpec BoundsProofs ConstraintProofs ConstraintProofs2.
Import ListNotations.
Open Scope Q_scope.

Lemma conjunctsOn_in g x k : In k (conjunctsOn g x) <-> In k g /\ cx k = x.
Proof. unfold conjunctsOn. rewrite filter_In, Nat.eqb_eq. reflexivity. Qed.

Definition rowStep (ul : ibounds * ibounds) (k : constraint) : ibounds * ibounds :=
  let b := toBound k in
  if isUpper k then (if ib_ltb b (fst ul) then b else fst ul, snd ul)
  else (fst ul, if ib_ltb (ib_neg b) (ib_neg (snd ul)) then b else snd ul).
Lemma nth_toBounds_fold g : forall t y,
  nth y (fold_left toBoundsStep g t) defB = fold_left rowStep (conjunctsOn g y) (nth y t defB).
Proof.
  induction g as [|k g IH]; intros t y; [reflexivity|]. cbn [fold_left]. rewrite IH, nth_toBoundsStep.
  unfold conjunctsOn. cbn [filter]. rewrite (Nat.eqb_sym y). destruct (Nat.eqb (cx k) y); reflexivity.
Qed.
Lemma agreeOff_row x l r y : agreeOff x l r -> y <> x -> nth y (toBounds l) defB = nth y (toBounds r) defB.
Proof. intros H N. unfold toBounds. rewrite !nth_toBounds_fold, (H y N). reflexivity. Qed.

Lemma ib_eqb_refl a : ib_eqb a a = true.
Proof. unfold ib_eqb. destruct a as [c []]; cbn; rewrite Z.eqb_refl; reflexivity. Qed.
Lemma rowKind_same a : rowKind (a, a) = Some false.
Proof.
  destruct a as [u lo]. unfold rowKind, fillRow, fillUB, ib_neqb.
  assert (E : ib_eqb u maxUB && negb (ib_eqb u maxUB) = false) by (destruct (ib_eqb u maxUB); reflexivity).
  rewrite !E, !ib_eqb_refl. reflexivity.
Qed.
Lemma filter_one {X} (f : X -> bool) (d : X) x (l : list X) :
  (forall i, (i < length l)%nat -> i <> x -> f (nth i l d) = false) -> (length (filter f l) <= 1)%nat.
Proof.
  revert x. induction l as [|a l IH]; intros x H; cbn [filter length]; [lia|].
  assert (Z : (forall i, (i < length l)%nat -> f (nth i l d) = false) -> length (filter f l) = 0%nat).
  { clear. induction l as [|a l IH]; intro H; cbn [filter]; auto. assert (f a = false) as -> by (apply (H 0%nat); cbn; lia). apply IH. intros i Hi. apply (H (S i)). cbn; lia. }
  destruct x as [|x].
  - destruct (f a); cbn [length]; rewrite Z; auto; intros i Hi; apply (H (S i)); cbn; lia.
  - assert (f a = false) as -> by (apply (H 0%nat); cbn; lia). apply (IH x). intros i Hi N. apply (H (S i)); cbn; lia.
Qed.
Lemma agreeOff_differing x l r : agreeOff x l r -> length (toBounds l) = length (toBounds r) -> (length (differing l r) <= 1)%nat.
Proof.
  intros H E. unfold differing. apply (filter_one _ (defB, defB) x). intros i Hi N.
  rewrite nth_adjRows by auto. rewrite (agreeOff_row x l r i H N), rowKind_same. reflexivity.
Qed.
Lemma adjacent_len l r : adjacent l r = true -> length (toBounds l) = length (toBounds r).
Proof. unfold adjacent. destruct (Nat.eqb_spec (length (toBounds l)) (length (toBounds r))); [auto|discriminate]. Qed.

Lemma merge_exact_one_clock x l r v :
  smallConsts l -> smallConsts r -> nonRedundant l -> nonRedundant r ->
  sameBoundedness l r -> agreeOff x l r -> adjacent l r = true -> nonneg v ->
  (gsat (unionHull2 l r) v <-> gsat l v \/ gsat r v).
Proof. intros. apply adjacent_merge_exact; auto. eapply agreeOff_differing; eauto using adjacent_len. Qed.

Lemma hull2_comm l r v : nonRedundant l -> nonRedundant r -> (gsat (unionHull2 l r) v <-> gsat (unionHull2 r l) v).
Proof.
  intros Hl Hr. rewrite !hull2_sem by auto. split; intros H x; destruct (H x) as [H1 H2]; tauto.
Qed.
Lemma hull_nonRedundant gs : nonRedundant (unionHull gs).
Proof.
  unfold nonRedundant, unionHull. rewrite map_map.
  assert (E : forall kb : hkey * ibounds, (cx (hullConstraint kb), isUpper (hullConstraint kb)) = fst kb).
  { intros [[x []] [c []]]; reflexivity. }
  rewrite (map_ext _ fst E). assert (U := hullGuards_uniq gs true []). 
  first [apply U; constructor | apply U].
Qed.
Lemma hull2_small l r : smallConsts l -> smallConsts r -> smallConsts (unionHull2 l r).
Proof.
  intros Sl Sr c Hc. unfold unionHull2 in Hc. apply unionHull_In in Hc. destruct Hc as (k & b & -> & Hf).
  assert (C := hull_char [l; r] k ltac:(discriminate)). rewrite Hf in C. destruct C as [_ (g & c & C1 & C2 & C3 & ->)].
  assert (S : (cc c < INT_MAX)%Z) by (destruct C1 as [<-|[<-|[]]]; auto).
  subst k. unfold keyOf, toDBMBoundZ, toBound, hullConstraint, isUpper. destruct (codr c); cbn; rewrite ?Z.opp_involutive; exact S.
Qed.
Lemma hull2_boundedOn x l r : boundedOn x l -> boundedOn x r -> boundedOn x (unionHull2 l r).
Proof.
  intros [Hl (kl & Il & Ul)] [Hr (kr & Ir & Ur)]. split.
  - intros c Hc. unfold unionHull2 in Hc. apply unionHull_In in Hc. destruct Hc as (k & b & -> & Hf).
    assert (C := hull_char [l; r] k ltac:(discriminate)). rewrite Hf in C. destruct C as [_ (g & c & C1 & C2 & C3 & ->)].
    rewrite hullConstraint_cx. subst k. cbn. destruct C1 as [<-|[<-|[]]]; auto.
  - assert (C := hull_char [l; r] (x, true) ltac:(discriminate)).
    destruct (hfind (hullGuards true [] [l; r]) (x, true)) as [b|] eqn:Hf.
    + exists (hullConstraint ((x, true), b)). split; [|apply hullConstraint_up].
      unfold unionHull2, unionHull. apply in_map. apply uniq_hfind; auto. apply hullGuards_uniq. constructor.
    + destruct C as (g & [<-|[<-|[]]] & K); exfalso; [apply (K kl Il)|apply (K kr Ir)]; unfold keyOf; f_equal; auto.
Qed.
Lemma boundedOn_agree x l r : boundedOn x l -> boundedOn x r -> agreeOff x l r /\ sameBoundedness l r.
Proof.
  intros [Hl (kl & Il & Ul)] [Hr (kr & Ir & Ur)]. split.
  - intros y N. unfold conjunctsOn.
    assert (E : forall g, (forall k, In k g -> cx k = x) -> filter (fun k => Nat.eqb (cx k) y) g = []).
    { intros g H. induction g as [|k g IH]; auto. cbn [filter]. rewrite (H k (or_introl eq_refl)).
      destruct (Nat.eqb x y) eqn:E; [apply Nat.eqb_eq in E; congruence|]. apply IH. intros; apply H; right; auto. }
    rewrite !E; auto.
  - intro y. split; intros (k & I & E & U); [exists kr|exists kl]; repeat split; auto.
    + rewrite (Hr kr Ir), <- E. symmetry. auto.
    + rewrite (Hl kl Il), <- E. symmetry. auto.
Qed.
