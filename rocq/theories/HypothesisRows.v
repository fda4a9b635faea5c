(** The rows of one state of the hypothesis, as regions met by one delay. *)
From Coq Require Import QArith Qround ZArith Bool List Arith Lia Lqa.
From Verif Require Import BoundsModel ConstraintModel GuardSpec BoundsProofs ConstraintProofs
  ZoneModel AutomatonModel AutomatonSpec TimedWordModel TimedWordSpec TimedWordProofs TimedConditionModel TimedConditionSpec TimedConditionProofs
  ElementaryModel ElementarySpec RegionalModel RegionalSpec RegionalProofs RegionalProofs4 RegionalProofs5
  OracleModel SymbolicModel CexModel RenamingModel TableModel CexSpec ShapeProofs TableProofs2 TableProofs3
  HypothesisModel HypothesisBox HypothesisChain HypothesisGuard HypothesisTimes HypothesisBfs HypothesisBfs2 HypothesisBfs3.
Import ListNotations.
Open Scope Q_scope.

Lemma sbox_ext N g lo hi lo' hi' : (forall x, (x < N)%nat -> lo x = lo' x) -> (match hi, hi' with None, None => True | Some h, Some h' => forall x, (x < N)%nat -> h x = h' x | _, _ => False end) ->
  sbox N g lo hi -> sbox N g lo' hi'.
Proof.
  intros E F (A & B & C & D). split; [auto|]. split; [auto|]. split; [auto|]. intros x d Hd. destruct (D x d Hd) as [D1 D2]. split.
  - rewrite D1. destruct hi, hi'; cbn [capZ] in *; try tauto. split; intros K Hx; specialize (K Hx); [rewrite <- F by auto|rewrite F by auto]; auto.
  - rewrite D2. split; intros K Hx; specialize (K Hx); [rewrite <- E by auto|rewrite E by auto]; auto.
Qed.

Section Rows.
Context {St : Type}.
Notation tbl := (ot St).
Context (t : tbl) (T : tree t).
Context (GP : forall i, goodPre (preAt t i)).
Context (SM : forall i w, (i < length (otPre t))%nat -> inElem (fel (preAt t i)) w -> smallTW w).

Lemma chain_pre r L : isChain t r L -> forall m, (m < length L)%nat -> preAt t (nth m L 0%nat) = frSuccs m (preAt t r).
Proof using T.
  assert (K : forall p k, contAt t p = Some k -> preAt t k = frSucc (preAt t p)).
  { intros p k C. destruct (tr_contP t T p k C) as [Pp _]. destruct (tr_cont t T p Pp) as (k' & C' & _ & E). congruence. }
  induction 1 as [r k C I|r k l C I H IH]; intros m Hm.
  - destruct m as [|[|m]]; [reflexivity| |cbn in Hm; lia]. cbn [nth frSuccs]. apply K; auto.
  - destruct m as [|m]; [reflexivity|]. cbn [nth length] in *. rewrite IH by lia. cbn [frSuccs]. rewrite (K r k C). reflexivity.
Qed.
Lemma row_word i : exists w, properTW w /\ regionalF (preAt t i) w.
Proof using GP. destruct (GP i) as [H _]. exact H. Qed.
Lemma row_len i w : inElem (fel (preAt t i)) w -> length (td w) = tcSize (condAt t i).
Proof using. intros [_ [L _]]. exact L. Qed.
Lemma row_regional i w : inElem (fel (preAt t i)) w -> regionalF (preAt t i) w.
Proof using GP. intro I. destruct (row_word i) as (u & _ & Ru). apply (region_elem _ _ _ Ru I). Qed.
Lemma row_nonneg i w : inElem (fel (preAt t i)) w -> Forall (fun q => 0 <= q) (td w).
Proof using GP. intro I. destruct (goodPre_proper _ (GP i)) as [[_ [_ H]] _]. apply H; auto. Qed.

Context (R : list nat) (RO : roots t R).
Definition ch (l : loc) : list nat := chain t (nth l R 0%nat).
Definition lastRow (l : loc) : nat := (length (ch l) - 1)%nat.
Definition rowOf (l : loc) (m : nat) : nat := nth m (ch l) 0%nat.

Lemma ch_ok l : (l < length R)%nat -> isChain t (nth l R 0%nat) (ch l).
Proof using T RO. intro L. destruct (ro_P t R RO _ (nth_In R 0%nat L)) as [P _]. apply chain_ok; auto. Qed.
Lemma ch_len l : (l < length R)%nat -> length (ch l) = S (lastRow l) /\ (0 < lastRow l)%nat.
Proof using T RO. intro L. destruct (isChain_hd t _ _ (ch_ok l L)) as (l' & E & N). unfold lastRow. rewrite E. destruct l'; [contradiction|]. cbn [length]. lia. Qed.
Lemma row_pre l m : (l < length R)%nat -> (m <= lastRow l)%nat -> preAt t (rowOf l m) = frSuccs m (preAt t (nth l R 0%nat)).
Proof using T RO. intros L M. apply (chain_pre _ _ (ch_ok l L)). rewrite (proj1 (ch_len l L)). lia. Qed.
Lemma row_lt l m : (l < length R)%nat -> (m <= lastRow l)%nat -> (rowOf l m < length (otPre t))%nat.
Proof using T RO. intros L M. apply (chain_lt t _ _ T (ch_ok l L)). apply nth_In. rewrite (proj1 (ch_len l L)). lia. Qed.
Lemma row_root l : (l < length R)%nat -> rowOf l 0 = nth l R 0%nat.
Proof using T RO. intro L. unfold rowOf. destruct (isChain_hd t _ _ (ch_ok l L)) as (l' & E & N). rewrite E. reflexivity. Qed.
Lemma row_ext l : (l < length R)%nat -> rowOf l (lastRow l) = extOf t l R.
Proof using T RO.
  intro L. unfold rowOf, extOf, ch. destruct (ended_ok t T R l RO L) as [E _ _ _ _]. assert (K := ch_len l L). unfold ch in K. rewrite E in *. rewrite last_last. rewrite app_length in K. cbn [length] in K.
  rewrite app_nth2 by lia. replace (lastRow l - length (front t l R))%nat with 0%nat by lia. reflexivity.
Qed.
Lemma row_front l m : (l < length R)%nat -> (m < lastRow l)%nat -> rowOf l m = nth m (front t l R) 0%nat.
Proof using T RO.
  intros L M. unfold rowOf, ch. destruct (ended_ok t T R l RO L) as [E _ _ _ _]. assert (K := ch_len l L). unfold ch in K. rewrite E in *. rewrite app_length in K. cbn [length] in K. rewrite app_nth1 by lia. reflexivity.
Qed.
Lemma front_len l : (l < length R)%nat -> length (front t l R) = lastRow l.
Proof using T RO. intro L. destruct (ended_ok t T R l RO L) as [E _ _ _ _]. assert (K := ch_len l L). unfold ch in K. rewrite E, app_length in K. cbn [length] in K. lia. Qed.
Lemma row_prev l : (l < length R)%nat -> rowOf l (lastRow l - 1) = prevOf t l R.
Proof using T RO.
  intro L. destruct (ch_len l L) as [_ P]. rewrite row_front by lia. destruct (ended_ok t T R l RO L) as [_ (f & E & _) _ _ _]. assert (K := front_len l L). rewrite E in K at 1. rewrite app_length in K. cbn [length] in K.
  rewrite E at 1. rewrite app_nth2 by lia. replace (lastRow l - 1 - length f)%nat with 0%nat by lia. reflexivity.
Qed.
Lemma row_P l m : (l < length R)%nat -> (m < lastRow l)%nat -> In (rowOf l m) (otP t).
Proof using T RO. intros L M. rewrite row_front by auto. apply (en_P t R l (ended_ok t T R l RO L)). apply nth_In. rewrite front_len; auto. Qed.
Lemma row_of_mem l c : (l < length R)%nat -> In c (ch l) -> exists m, (m <= lastRow l)%nat /\ c = rowOf l m.
Proof using T RO. intros L I. destruct (In_nth _ _ 0%nat I) as (m & M & E). exists m. rewrite (proj1 (ch_len l L)) in M. split; [lia|]. symmetry. exact E. Qed.

(** the geometry of one state *)
Record geo (l : loc) (N : nat) (X tm : nat -> Q) : Prop := {
  ge_X : forall s, 0 <= X s;
  ge_t : forall i, 0 <= tm i;
  ge_inc : forall i j, (i < j)%nat -> (j <= lastRow l)%nat -> tm i < tm j;
  ge_sep : forall i j, (i < j)%nat -> (j <= lastRow l)%nat -> exists s, (s < N)%nat /\ (KK X tm i s < KK X tm j s)%Z;
  ge_N : forall m, (m <= lastRow l)%nat -> tcSize (condAt t (rowOf l m)) = N;
  ge_box : forall m, (m < lastRow l)%nat -> grp N (lastRow l) X tm (toGuard (condAt t (rowOf l m))) m m;
  ge_open : grp N (lastRow l) X tm (toGuard (removeUpperBound (condAt t (rowOf l (lastRow l))))) (lastRow l) (lastRow l);
  ge_code : forall m w s, (m <= lastRow l)%nat -> inElem (fel (preAt t (rowOf l m))) w -> (s < N)%nat -> code (since (td w) s) = KK X tm m s;
  ge_reach : forall u q, inElem (fel (preAt t (nth l R 0%nat))) u -> 0 <= q -> exists m, (m <= lastRow l)%nat /\
    (forall s, (s < N)%nat -> (KK X tm m s <= code (since (td u) s + q))%Z) /\
    (m <> lastRow l -> inElem (fel (preAt t (rowOf l m))) (mkTW (tw u) (delayed (td u) q))) }.

Lemma geo_ok l : (l < length R)%nat -> exists N X tm, geo l N X tm.
Proof using T GP SM RO.
  intro L. destruct (row_word (nth l R 0%nat)) as (u0 & P0 & R0). set (e := lastRow l). destruct (chain_times e _ _ R0) as (tm & T0 & Tn & Ti & Tr & Ts).
  set (N := length (td u0)). set (X := since (td u0)).
  assert (RW : forall m, (m <= e)%nat -> regionalF (preAt t (rowOf l m)) (mkTW (tw u0) (delayed (td u0) (tm m)))). { intros m M. rewrite row_pre by auto. apply Tr; auto. }
  assert (LD : forall q, length (delayed (td u0) q) = N) by (intro; apply addBack_len).
  assert (CD : forall m s, (s < N)%nat -> code (since (delayed (td u0) (tm m)) s) = KK X tm m s) by (intros m s Hs; unfold KK, X; apply code_ext; apply since_delayed; auto).
  assert (Xn : forall s, 0 <= X s) by (intro s; apply since_nonneg; apply P0).
  assert (GC : forall m w s, (m <= e)%nat -> inElem (fel (preAt t (rowOf l m))) w -> (s < N)%nat -> code (since (td w) s) = KK X tm m s).
  { intros m w s M I Hs. rewrite (region_code _ _ w s (RW m M) I) by (cbn [td]; rewrite LD; auto). apply CD; auto. }
  exists N, X, tm. constructor; auto; fold e.
  - intros m M. rewrite <- (row_len _ _ (region_self _ _ (RW m M))). apply LD.
  - intros m M. split; [lia|]. split; [lia|]. unfold top. destruct (Nat.eqb_spec m e); [lia|].
    assert (B := row_box _ _ (RW m ltac:(lia)) (SM _ _ (row_lt l m L ltac:(fold e; lia)) (region_self _ _ (RW m ltac:(lia))))). cbn [td] in B. rewrite LD in B.
    refine (sbox_ext _ _ _ _ _ _ _ _ B); [intros x Hx; apply CD; auto|intros x Hx; apply CD; auto].
  - split; [lia|]. split; [lia|]. unfold top. rewrite Nat.eqb_refl.
    assert (B := row_openBox _ _ (RW e ltac:(lia)) (SM _ _ (row_lt l e L ltac:(fold e; lia)) (region_self _ _ (RW e ltac:(lia))))). cbn [td] in B. rewrite LD in B.
    refine (sbox_ext _ _ _ _ _ _ _ _ B); [intros x Hx; apply CD; auto|exact I].
  - intros u q Iu Hq. assert (Ru := row_regional _ _ Iu).
    destruct (frSuccs_reach (Z.to_nat (vol (addBack (td u) q) - vol (td u))) _ u q Ru Hq ltac:(lia)) as (k & Rk).
    assert (Lu : length (td u) = N). { assert (A := row_len _ _ Iu). assert (B := row_len _ _ (region_self _ _ R0)). unfold N. congruence. }
    destruct (Nat.lt_ge_cases k e) as [K|K].
    + exists k. split; [lia|]. assert (Ik : inElem (fel (preAt t (rowOf l k))) (mkTW (tw u) (delayed (td u) q))). { rewrite row_pre by (auto; fold e; lia). apply region_self; auto. }
      split; [|auto]. intros s Hs. rewrite <- (GC k _ s ltac:(lia) Ik Hs). cbn [td]. rewrite (code_ext _ _ (since_delayed (td u) q s ltac:(lia))). lia.
    + exists e. split; [lia|]. split; [|congruence]. intros s Hs. destruct (chain_times k _ _ R0) as (tm' & _ & Tn' & Ti' & Tr' & Ts').
      assert (A : code (since (td u) s + q) = KK X tm' k s).
      { rewrite <- (code_ext _ _ (since_delayed (td u) q s ltac:(lia))). assert (B := region_code _ _ _ s Rk (region_self _ _ (Tr' k (le_n k)))). cbn [td] in B. unfold delayed in B at 2. rewrite addBack_len in B. rewrite <- B by lia. unfold KK, X. apply code_ext. apply since_delayed; auto. }
      rewrite A. assert (B : KK X tm' e s = KK X tm e s).
      { assert (I' := region_self _ _ (Tr' e K)). assert (P := row_pre l e L (le_n e)). rewrite <- P in I'. assert (G := GC e _ s (le_n e) I' Hs). cbn [td] in G. rewrite <- G. unfold KK, X. apply code_ext. symmetry. apply since_delayed; auto. }
      rewrite <- B. apply (Kmono k X tm' Ti'); auto.
Qed.
End Rows.
