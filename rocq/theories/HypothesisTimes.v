(** The regions met by letting time pass, as the rows of a chain. *)
From Coq Require Import QArith Qround ZArith Bool List Arith Lia Lqa.
From Verif Require Import BoundsModel ConstraintModel GuardSpec
  ZoneModel AutomatonModel AutomatonSpec TimedWordModel TimedWordSpec TimedWordProofs TimedConditionModel TimedConditionSpec TimedConditionProofs TimedConditionProofs3
  ElementaryModel ElementarySpec ElementaryProofs2 RegionalModel RegionalSpec RegionalProofs RegionalProofs3 RegionalProofs4 RegionalProofs5 HypothesisModel HypothesisBox HypothesisChain HypothesisGuard.
Import ListNotations.
Open Scope Q_scope.

Lemma code_unit p q : code p = code q <-> sameUnit p q.
Proof.
  rewrite code_eq_iff. split.
  - intros [(n & A & B)|(n & A & B & C & D)].
    + apply (proj2 (sameUnit_point p n A q) B).
    + apply (proj2 (sameUnit_open p n ltac:(auto) ltac:(rewrite <- inj_succ; auto) q)). rewrite <- inj_succ. auto.
  - intro S. destruct (code_cases p) as [(n & A & _)|(n & A & B & _)].
    + left. exists n. split; [auto|]. apply (proj1 (sameUnit_point p n A q) S).
    + right. exists n. rewrite inj_succ in *. assert (X := proj1 (sameUnit_open p n A B q) S). tauto.
Qed.
Lemma frSuccs_S k : forall x, frSuccs (S k) x = frSucc (frSuccs k x).
Proof. induction k as [|k IH]; intro x; [reflexivity|]. cbn [frSuccs]. cbn [frSuccs] in IH. apply IH. Qed.
Lemma since_delayed d q i : (i < length d)%nat -> since (delayed d q) i == since d i + q.
Proof. apply since_addBack. Qed.

Lemma chain_times e x w : regionalF x w -> exists tm : nat -> Q, tm 0%nat = 0 /\ (forall i, 0 <= tm i) /\
  (forall i j, (i < j)%nat -> (j <= e)%nat -> tm i < tm j) /\
  (forall i, (i <= e)%nat -> regionalF (frSuccs i x) (mkTW (tw w) (delayed (td w) (tm i)))) /\
  forall i j, (i < j)%nat -> (j <= e)%nat -> exists s, (s < length (td w))%nat /\ (KK (since (td w)) tm i s < KK (since (td w)) tm j s)%Z.
Proof.
  intro R. assert (P : (0 < length (td w))%nat) by (apply wfTW_pos; apply R). induction e as [|e (tm & T0 & Tn & Ti & Tr & Ts)].
  - exists (fun _ => 0). split; [auto|]. split; [intros; lra|]. split; [intros; lia|]. split; [|intros; lia].
    intros i Hi. assert (i = 0)%nat by lia. subst i. cbn [frSuccs]. apply (regionalF_same x w); auto. apply sameDurs_region, addBack_zero.
  - destruct (frSucc_regional _ _ (Tr e (le_n e))) as (q & (Q0 & Q1 & _) & Q3). cbn [td tw] in *.
    set (tm' := fun i => if (i =? S e)%nat then tm e + q else tm i).
    assert (Told : forall i, (i <= e)%nat -> tm' i = tm i) by (intros i Hi; unfold tm'; destruct (Nat.eqb_spec i (S e)); [lia|auto]).
    assert (Tnew : tm' (S e) = tm e + q) by (unfold tm'; rewrite Nat.eqb_refl; auto).
    assert (Tmono : forall i, (i <= e)%nat -> tm i <= tm e) by (intros i Hi; destruct (Nat.eq_dec i e) as [->|]; [lra|]; assert (tm i < tm e) by (apply Ti; lia); lra).
    exists tm'. split; [rewrite Told by lia; auto|]. split; [intro i; unfold tm'; assert (A := Tn i); assert (B := Tn e); destruct (i =? S e)%nat; lra|]. split; [|split].
    + intros i j Hij Hj. rewrite (Told i) by lia. destruct (Nat.eq_dec j (S e)) as [->|Ne].
      * rewrite Tnew. assert (A := Tmono i ltac:(lia)). lra.
      * rewrite Told by lia. apply Ti; lia.
    + intros i Hi. destruct (Nat.eq_dec i (S e)) as [->|Ne].
      * rewrite Tnew, frSuccs_S. apply (regionalF_same _ _ (mkTW (tw w) (delayed (td w) (tm e + q))) Q3); [reflexivity|]. cbn [td]. apply sameDurs_region, addBack_add.
      * rewrite Told by lia. apply Tr. lia.
    + intros i j Hij Hj. unfold KK. rewrite (Told i) by lia. destruct (Nat.eq_dec j (S e)) as [->|Ne].
      * rewrite Tnew. assert (D : exists s, (s < length (td w))%nat /\ (code (since (td w) s + tm e) < code (since (td w) s + (tm e + q)))%Z).
        { destruct (Forall_Exists_dec (fun s => ~ (code (since (td w) s + tm e) < code (since (td w) s + (tm e + q)))%Z) ltac:(intro s; destruct (Z_lt_dec (code (since (td w) s + tm e)) (code (since (td w) s + (tm e + q)))); [right|left]; auto) (seq 0 (length (td w)))) as [A|A].
          - exfalso. apply Q1. rewrite Forall_forall in A.
            eapply sameRegion_trans; [|apply sameRegion_sym, sameDurs_region, addBack_add]. apply addBack_same_region; [auto|]. intros s Hs. apply code_unit.
            assert (B := A s ltac:(apply in_seq; lia)). assert (C : (code (since (td w) s + tm e) <= code (since (td w) s + (tm e + q)))%Z) by (apply code_mono; lra). lia.
          - apply Exists_exists in A. destruct A as (s & Hs & A). apply in_seq in Hs. exists s. split; [lia|]. lia. }
        destruct D as (s & Hs & D). exists s. split; [auto|]. assert (C : (code (since (td w) s + tm i) <= code (since (td w) s + tm e))%Z) by (apply code_mono; assert (A := Tmono i ltac:(lia)); lra). lia.
      * rewrite Told by lia. apply Ts; lia.
Qed.

(** the words of the region x are those that differ from the representative
    only inside the units *)
Lemma region_word x w v : regionalF x w -> (inElem (fel x) v <-> tw v = tw w /\ sameRegion (td w) (td v)).
Proof.
  intros R. assert (RC := proj1 (proj2 (proj2 R))). assert (EW : tw w = ew (fel x)) by apply R. unfold inElem. rewrite (regionCond_exact _ _ RC (td v)).
  split; intros [A B]; (split; [congruence|exact B]).
Qed.
Lemma region_elem x w v : regionalF x w -> inElem (fel x) v -> regionalF x v.
Proof. intros R I. destruct (proj1 (region_word x w v R) I) as [E S]. apply (regionalF_same x w v R); auto. Qed.
Lemma region_self x w : regionalF x w -> inElem (fel x) w.
Proof. intro R. apply (region_word x w w R). split; [auto|apply sameRegion_refl]. Qed.
Lemma region_code x w v s : regionalF x w -> inElem (fel x) v -> (s < length (td w))%nat -> code (since (td v) s) = code (since (td w) s).
Proof.
  intros R I Hs. destruct (proj1 (region_word x w v R) I) as [E [L S]]. symmetry. apply code_unit. unfold since. rewrite <- L. apply S; lia.
Qed.
