(** Proofs about ForwardRegionalElementaryLanguage::suffix, continued: it
    covers the language with the given prefix. *)
From Coq Require Import QArith ZArith Bool List Lia Lqa Qround Arith Sorted Permutation.
From Verif Require Import BoundsModel BoundsProofs ConstraintModel ZoneModel ZoneSpec ZoneProofs
  AutomatonModel TimedWordModel TimedWordSpec TimedWordProofs TimedConditionModel TimedConditionSpec TimedConditionProofs TimedConditionProofs2
  TimedConditionProofs3 TimedConditionProofs4 ElementaryModel ElementarySpec ElementaryProofs ElementaryProofs2 RegionalModel RegionalSpec RegionalProofs RegionalProofs2 RegionalProofs3
  RegionalProofs4 RegionalProofs5 RegionalProofs6 RegionInvariance CexProofs SuffixModel SuffixProofs.
Import ListNotations.
Open Scope Q_scope.

Lemma T_app_lt a b i j : (i <= j)%nat -> (j < length a)%nat -> T (a ++ b) i j == T a i j.
Proof. intros H L. rewrite !T_acc by auto. rewrite !accd_app by lia. ring. Qed.
Lemma partial_app m a b : partialIn m (a ++ b) -> partialIn m a.
Proof.
  intros H i j Hij Hj. destruct (H i j Hij ltac:(rewrite app_length; lia)) as [X Y]. split; (eapply bsat_ext; [|eassumption]); rewrite T_app_lt by auto; reflexivity.
Qed.
Lemma inCond_partial m d : inCond m d -> partialIn m d.
Proof. intros [L H] i j Hij Hj. apply H; lia. Qed.
Lemma partial_inCond m d : length d = tcSize m -> partialIn m d -> inCond m d.
Proof. intros L H. split; [auto|]. intros i j Hij Hj. apply H; lia. Qed.
Lemma partial_ext m d d' : sameDurs d d' -> partialIn m d -> partialIn m d'.
Proof.
  intros E H i j Hij Hj. rewrite <- (Forall2_len _ _ _ E) in Hj. destruct (H i j Hij Hj) as [X Y]. assert (Z := T_ext d d' i j E). split; (eapply bsat_ext; [|eassumption]); rewrite Z; reflexivity.
Qed.
Lemma bsat_between b p q r : bsat b p -> bsat b r -> p <= q -> q <= r -> bsat b q.
Proof. destruct b as [c [|]|]; cbn [bsat]; intros; auto; lra. Qed.

(** ** the constrained language can be sampled *)
Lemma restrictEq'_ok m i q : (2 <= dim m)%nat -> nonemptyZ (restrictEq' m i q) -> okCond (restrictEq' m i q).
Proof. intros D N. unfold restrictEq' in *. apply okCond_restrictUpper; [rewrite dim_restrictLower; auto|exact N]. Qed.
Lemma fix_fold_ok (g : nat -> Q) : forall l m, okCond m -> (forall i, In i l -> (i < tcSize m)%nat) ->
  nonemptyZ (fold_left (fun m i => restrictEq' m i (g i)) l m) -> okCond (fold_left (fun m i => restrictEq' m i (g i)) l m).
Proof.
  induction l as [|i l IH]; intros m O Hl N; cbn [fold_left] in *; [exact O|].
  assert (D : (2 <= dim m)%nat) by apply O. assert (F : fixes restrictEq') by (intros m' i' q; apply restrictEq'_spec).
  destruct (restrictEq'_spec m i (g i) D (Hl i (or_introl eq_refl))) as (A & _ & _ & _).
  assert (S1 : tcSize (restrictEq' m i (g i)) = tcSize m) by (unfold tcSize; rewrite A; reflexivity).
  assert (Hl' : forall k, In k l -> (k < tcSize (restrictEq' m i (g i)))%nat) by (intros k Hk; rewrite S1; apply Hl; right; auto).
  apply IH; [|exact Hl'|exact N]. apply restrictEq'_ok; [exact D|]. destruct (fix_fold restrictEq' F g l (restrictEq' m i (g i)) ltac:(rewrite A; exact D) Hl') as (_ & _ & _ & Z).
  destruct N as [u N]. exists u. apply Z. exact N.
Qed.
Lemma elConstrain_shape x p v : wfElem x -> (wordSize p <= tcSize (ec x))%nat -> boundedCond (ec x) -> inElem (elConstrain x p) v ->
  wfElem (elConstrain x p) /\ boundedCond (ec (elConstrain x p)) /\ tcSize (ec (elConstrain x p)) = tcSize (ec x).
Proof.
  intros [O S] W B IC. apply (elConstrain_exact x p v (conj O S) W) in IC. destruct IC as [[Ev Iv] Fv].
  assert (D : (2 <= dim (ec x))%nat) by apply O. assert (F : fixes restrictEq') by (intros m' i' q; apply restrictEq'_spec).
  assert (Hl : forall i, In i (seq 0 (wordSize p)) -> (i < tcSize (ec x))%nat) by (intros i Hi; apply in_seq in Hi; lia).
  destruct (fix_fold restrictEq' F (fun i => nth i (td p) 0) _ (ec x) D Hl) as (A & M & _ & Z). unfold elConstrain. cbn [ec ew].
  set (r := fold_left _ _ _) in *. assert (SR : tcSize r = tcSize (ec x)) by (unfold tcSize; rewrite A; reflexivity). split; [|split; [|exact SR]].
  - split; cbn [ec ew]; [|rewrite SR; exact S]. apply fix_fold_ok; [exact O|exact Hl|]. exists (accd (td v)). apply inZone_Z. apply Z. split.
    + apply inZone_Z. apply (inCond_iff (ec x) (td v) O). exact Iv.
    + intros i Hi. assert (L : length (td v) = tcSize (ec x)) by apply Iv. rewrite (ext_col (ec x) (td v) i i L (le_n i) (Hl i Hi)). rewrite T_diag by (rewrite L; auto). apply Fv. apply in_seq in Hi. lia.
  - intros i j Hij Hj. rewrite SR in Hj. destruct (B i j Hij Hj) as [X Y].
    assert (Hc := colOf_lt (ec x) j D Hj). assert (Hi : (i + 1 < dim (ec x))%nat) by (unfold tcSize in *; lia).
    unfold getUpperBound, getLowerBound in *. assert (C : colOf r j = colOf (ec x) j) by (unfold colOf; rewrite SR; reflexivity). rewrite C.
    destruct M as [DM M]. assert (M1 := M (i + 1)%nat (colOf (ec x) j) ltac:(lia) ltac:(lia)). assert (M2 := M (colOf (ec x) j) (i + 1)%nat ltac:(lia) ltac:(lia)).
    split; intro E; [rewrite E in M1|rewrite E in M2]; [destruct (get (ec x) (i + 1) (colOf (ec x) j))|destruct (get (ec x) (colOf (ec x) j) (i + 1))]; try congruence; discriminate.
Qed.
Lemma elSample_td x : wfElem x -> boundedCond (ec x) -> visible x -> td (elSample x) = sampleDurs (ec x) (S (length (ew x))) /\ tw (elSample x) = ew x.
Proof.
  intros [O S] B V. destruct (elSample_in x (conj O S) B V) as [[E _] _]. split; [|exact E]. unfold elSample. rewrite Nat.add_1_r.
  assert (L : length (sampleDurs (ec x) (Datatypes.S (length (ew x)))) = Datatypes.S (length (ew x))) by (apply sampleDurs_ok; auto; lia).
  destruct (sampleDurs (ec x) (Datatypes.S (length (ew x)))) as [|q ds]; [discriminate|]. unfold mkTimedWord. injection L as L. rewrite absorb_id; [reflexivity|exact L|].
  unfold visible in V. rewrite Forall_forall in V. intro H. apply (V _ H). reflexivity.
Qed.

(** fractional parts summed step by step *)
Lemma frac_plus a b : frac (frac a + b) == frac (a + b).
Proof.
  destruct (frac_dec (a + b)) as [z Z]. destruct (frac_dec a) as [y Y]. assert (X := frac_bounds (a + b)).
  apply (frac_of (z - y) (frac (a + b))); try apply X. unfold Z.sub. rewrite inject_Z_plus, inject_Z_opp. lra.
Qed.
Lemma fracsFrom_nth : forall l f a i, f == frac a -> (i < length l)%nat -> nth i (fracsFrom f l) 0 == frac (a + T l 0 i).
Proof.
  induction l as [|q l IH]; intros f a i E H; [cbn in H; lia|]. cbn [fracsFrom]. assert (G : frac (f + q) == frac (a + q)) by (rewrite <- (frac_plus a q); apply frac_ext; rewrite E; reflexivity).
  destruct i as [|i]; cbn [nth].
  - rewrite G. apply frac_ext. unfold T. cbn. lra.
  - rewrite (IH _ (a + q) i G) by (cbn in H; lia). apply frac_ext. rewrite (T_cons_0 q l (S i)) by lia. replace (S i - 1)%nat with i by lia. lra.
Qed.
Lemma suffixFracs_nth d i : (i < length d)%nat -> nth i (suffixFracs d) 0 == frac (upto d i).
Proof.
  destruct d as [|q l]; intro H; [cbn in H; lia|]. cbn [suffixFracs]. unfold upto. destruct i as [|i]; cbn [nth].
  - apply frac_ext. unfold T. cbn. lra.
  - rewrite (fracsFrom_nth l (frac q) q i ltac:(reflexivity)) by (cbn in H; lia). apply frac_ext. rewrite (T_cons_0 q l (S i)) by lia. replace (S i - 1)%nat with i by lia. lra.
Qed.
Lemma fracsFrom_length : forall l f, length (fracsFrom f l) = length l.
Proof. induction l as [|q l IH]; intro f; cbn; [reflexivity|rewrite IH; reflexivity]. Qed.
Lemma suffixFracs_length d : length (suffixFracs d) = length d.
Proof. destruct d as [|q l]; [reflexivity|]. cbn. rewrite fracsFrom_length. reflexivity. Qed.
Lemma suffixFracs_order d : orderOf (foOf (suffixFracs d)) (length d) (fun i => frac (upto d i)).
Proof.
  assert (P : forall i, (i < length d)%nat -> 0 <= nth i (suffixFracs d) 0) by (intros i Hi; rewrite suffixFracs_nth by auto; apply frac_bounds).
  assert (O : orderOf (foOf (suffixFracs d)) (length (suffixFracs d)) (fun i => nth i (suffixFracs d) 0)).
  { apply foOf_order. intros q Hq. apply (In_nth _ _ 0) in Hq. destruct Hq as (i & Hi & <-). rewrite suffixFracs_length in Hi. apply P. auto. }
  rewrite suffixFracs_length in O. apply orderOf_ext with (fun i => nth i (suffixFracs d) 0); [exact O|intros i Hi; symmetry; apply suffixFracs_nth; auto|exact P].
Qed.
