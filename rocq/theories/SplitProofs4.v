(** Proofs about SplitModel: what the states made are, in general and for
    deterministic automata. *)
From Coq Require Import QArith ZArith Bool List Arith Lia.
From Verif Require Import BoundsModel ConstraintModel GuardSpec ZoneModel AutomatonModel AutomatonSpec AutomatonProofs RegionalModel HypothesisModel NeighborModel NeighborProofs4 ImpreciseModel MergeModel MergeProofs SplitModel SplitProofs SplitProofs2 SplitProofs3.
Import ListNotations.
Open Scope nat_scope.

Lemma combine_seq {T} : forall (l : list T) b i x, In (i, x) (combine (seq b (length l)) l) <-> b <= i /\ nth_error l (i - b) = Some x.
Proof.
  induction l as [|y l IH]; intros b i x; cbn [length seq combine].
  - split; [intros []|]. intros [_ H]. destruct (i - b); discriminate.
  - cbn [In]. rewrite IH. split.
    + intros [E|[A B]]; [injection E as <- <-; split; [lia|]; rewrite Nat.sub_diag; reflexivity|]. split; [lia|]. replace (i - b) with (S (i - S b)) by lia. exact B.
    + intros [A B]. destruct (Nat.eq_dec i b) as [->|N]; [left; rewrite Nat.sub_diag in B; cbn in B; congruence|right]. split; [lia|]. replace (i - b) with (S (i - S b)) in B by lia. exact B.
Qed.
Lemma fst_combine_seq {T} (l : list T) b : map fst (combine (seq b (length l)) l) = seq b (length l).
Proof. revert b. induction l as [|x l IH]; intro b; cbn; [reflexivity|]. f_equal. apply IH. Qed.

(** every transition comes from one of the original ones *)
Definition fromOrig (ts0 ts : list trans) : Prop := forall t, In t ts -> exists t0, In t0 ts0 /\ ttgt t = ttgt t0 /\ trst t = trst t0 /\ forall v, gsat (tgrd t0) v -> gsat (tgrd t) v.
Lemma fromOrig_refl ts : fromOrig ts ts.
Proof. intros t H. exists t. auto. Qed.
Lemma fromOrig_merge K ts0 pr P ts : fromOrig ts0 (map (proj K) ts) -> fromOrig ts0 (map (proj K) (mergeNDP pr P ts)).
Proof.
  intros H t Ht. apply in_map_iff in Ht. destruct Ht as (t' & <- & Ht).
  apply (mergeW_inv overlap (mergeP pr P) (fun u => exists t0, In t0 ts0 /\ ttgt (proj K u) = ttgt t0 /\ trst u = trst t0 /\ forall v, gsat (tgrd t0) v -> gsat (tgrd u) v)) with (3 := Ht).
  - intros it u (a & A1 & A2 & A3 & A4) (b & B1 & B2 & B3 & B4) _. destruct (mergeP_cases pr P it u) as (x & X & E1 & E2 & E3).
    assert (PX : ttgt (proj K (mergeP pr P it u)) = ttgt (proj K x)) by (unfold proj; cbn [ttgt]; rewrite E1; reflexivity).
    destruct X as [-> | ->]; [exists a|exists b]; (split; [assumption|]); (split; [congruence|]); (split; [congruence|]); intros v V; destruct E3 as [E3|E3]; rewrite E3; auto; [apply hull_left|apply hull_right]; auto.
  - intros u Hu. destruct (H (proj K u) (in_map _ _ _ Hu)) as (t0 & A & B & C & D). exists t0. auto.
Qed.
(** the transitions are the original ones, which do not overlap *)
Definition sameDet (ts0 ts : list trans) : Prop := ts = ts0 /\ ForallOrdPairs (fun t u => overlap t u = false) ts0.
Lemma sameDet_merge K ts0 pr P ts : sameDet ts0 (map (proj K) ts) -> sameDet ts0 (map (proj K) (mergeNDP pr P ts)).
Proof.
  intros [E F]. split; [|exact F]. rewrite <- E in F |- *. f_equal. unfold mergeNDP. apply mergeW_id. clear E.
  induction ts as [|t ts IH]; [constructor|]. cbn [map] in F. inversion F as [|? ? F1 F2]; subst. constructor; [|apply IH; exact F2]. rewrite Forall_forall in *. intros u Hu. exact (F1 (proj K u) (in_map _ _ _ Hu)).
Qed.
Lemma fold_map_same {S T} (f : T -> S -> T) (g : S -> S) : (forall n x, f n (g x) = f n x) -> forall l n, fold_left f (map g l) n = fold_left f l n.
Proof. intros H. induction l as [|x l IH]; intro n; [reflexivity|]. cbn [map fold_left]. rewrite H. apply IH. Qed.
Lemma clockSize_proj K b b' (nx : nextmap) : computeClockSize (mkS b (map (fun p => (fst p, map (proj K) (snd p))) nx)) = computeClockSize (mkS b' nx).
Proof.
  unfold computeClockSize. cbn [snext]. apply (fold_map_same _ (fun p : letter * list trans => (fst p, map (proj K) (snd p)))). intros n [a ts]. cbn [fst snd]. apply (fold_map_same _ (proj K)). reflexivity.
Qed.
Lemma sameDet_size K s0 s : okState sameDet K s0 s -> computeClockSize s = computeClockSize s0.
Proof.
  intros [_ F]. assert (E : snext s0 = map (fun p => (fst p, map (proj K) (snd p))) (snext s)).
  { clear -F. induction F as [|p0 p l r (A & _ & (B & _)) F IH]; [reflexivity|]. cbn [map]. rewrite <- IH. f_equal. destruct p0 as [a ts]. cbn [fst snd] in *. rewrite A, B. reflexivity. }
  destruct s0 as [b0 n0], s as [b n]. cbn [snext] in E. subst n0. symmetry. apply clockSize_proj.
Qed.

(** the states of the result *)
Section Result.
Context (sts : states) (G : list trans -> list trans -> Prop) (ND : NoDup (map fst sts)) (m : smap) (vis : list enh) (A : ta).
Context (EA : tstates A = combine (seq 0 (length (smSt m))) (smSt m)) (LI : LInv sts G m vis []).
Definition orgOf (l : loc) : loc := fst (nth l (smKey m) (0, [])).
Definition precOf (l : loc) : list nat := snd (nth l (smKey m) (0, [])).
Lemma res_state l s : In (l, s) (tstates A) -> exists e s0, nth_error (smKey m) l = Some e /\ nth_error (smSt m) l = Some s /\ e = (orgOf l, precOf l) /\ In (orgOf l, s0) sts /\ okState G (smKey m) s0 s.
Proof using EA LI.
  rewrite EA, combine_seq, Nat.sub_0_r. intros [_ H]. destruct LI as ((IA & IB & IC) & _). destruct (nth_error (smKey m) l) as [e|] eqn:E.
  2: { exfalso. apply nth_error_None in E. assert (l < length (smSt m)) by (apply nth_error_Some; congruence). lia. }
  destruct (IC l e s E H) as (s0 & X & Y). assert (N := nth_error_nth (smKey m) l (0, []) E). unfold orgOf, precOf. rewrite N. exists e, s0. repeat split; auto; [destruct e; reflexivity|apply Y|apply Y].
Qed.
Lemma res_in l : l < length (smKey m) <-> In l (map fst (tstates A)).
Proof using EA LI. rewrite EA, fst_combine_seq, in_seq. destruct LI as ((IA & _) & _). rewrite IA. lia. Qed.
Lemma res_inj l l' : In l (map fst (tstates A)) -> In l' (map fst (tstates A)) -> orgOf l = orgOf l' -> precOf l = precOf l' -> l = l'.
Proof using EA LI.
  intros H H' E1 E2. apply res_in in H, H'. destruct LI as ((_ & NK & _) & _). apply (proj1 (NoDup_nth (smKey m) (0, [])) NK); [exact H|exact H'|]. unfold orgOf, precOf in *. destruct (nth l (smKey m) (0, [])), (nth l' (smKey m) (0, [])). cbn in *. congruence.
Qed.
Lemma res_acc B l : tstates B = sts -> In l (map fst (tstates A)) -> (accepting A l <-> accepting B (orgOf l)).
Proof using EA LI ND.
  intros EB H. split.
  - intros (s & I & M). destruct (res_state l s I) as (e & s0 & _ & _ & _ & X & Y). exists s0. rewrite EB. split; [exact X|]. destruct Y as [Y _]. congruence.
  - intros (s & I & M). apply in_map_iff in H. destruct H as ([l1 s1] & <- & H). cbn [fst] in *. destruct (res_state l1 s1 H) as (e & s0 & _ & _ & _ & X & Y). rewrite EB in I. assert (s0 = s) by (eapply in_unique; eauto). subst s0. exists s1. split; [exact H|]. destruct Y as [Y _]. congruence.
Qed.
Lemma res_edge l a t : edge A l a t -> exists s0 ts0 ts, In (orgOf l, s0) sts /\ In (a, ts0) (snext s0) /\ In t ts /\ In (ttgt t) (map fst (tstates A)) /\ G ts0 (map (proj (smKey m)) ts).
Proof using EA LI.
  intros (s & ts & I & J & K). destruct (res_state l s I) as (e & s0 & _ & _ & _ & X & (_ & F)). apply In_nth_error in J. destruct J as [i J]. change (nth_error (snext s) i = Some (a, ts)) in J.
  destruct (F2_nth_r _ _ _ F i (a, ts) J) as ([a0 ts0] & P & (Q1 & Q2 & Q3)). cbn [fst snd] in *. subst a0. exists s0, ts0, ts. split; [exact X|]. split; [eapply nth_error_In; exact P|]. split; [exact K|]. split; [apply res_in; auto|exact Q3].
Qed.
Lemma res_edge_back B l a t0 : tstates B = sts -> In l (map fst (tstates A)) -> edge B (orgOf l) a t0 -> exists ts0 ts, In t0 ts0 /\ (forall t, In t ts -> edge A l a t /\ In (ttgt t) (map fst (tstates A))) /\ G ts0 (map (proj (smKey m)) ts).
Proof using EA LI ND.
  intros EB H (s1 & ts0 & I & J & K). rewrite EB in I. apply in_map_iff in H. destruct H as ([l1 s] & <- & H). cbn [fst] in *. destruct (res_state l1 s H) as (e & s0 & _ & _ & _ & X & (_ & F)). assert (s0 = s1) by (eapply in_unique; eauto). subst s0.
  apply In_nth_error in J. destruct J as [i J]. change (nth_error (snext s1) i = Some (a, ts0)) in J. destruct (F2_nth_l _ _ _ F i (a, ts0) J) as ([a1 ts] & P & (Q1 & Q2 & Q3)). cbn [fst snd] in *. subst a1. exists ts0, ts. split; [exact K|]. split; [|exact Q3].
  intros t Ht. split; [|apply res_in; auto]. exists s, ts. split; [exact H|]. split; [eapply nth_error_In; exact P|exact Ht].
Qed.
Lemma res_visited l : (forall l0, In l0 (tinit A) -> exists e, nth_error (smKey m) l0 = Some e /\ In e vis) -> areach A l -> exists e, nth_error (smKey m) l = Some e /\ In e vis.
Proof using EA LI.
  intros HI. induction 1 as [l H|l a t R IH H]; [auto|]. destruct IH as (e & E & V). destruct H as (s & ts & I & J & K). rewrite EA, combine_seq, Nat.sub_0_r in I. destruct I as [_ I]. destruct (entry_at s a ts t J K) as (i & j & T).
  destruct LI as (_ & _ & LC). destruct (LC e l s i j t V E I T) as (o & s0 & K0 & s' & _ & _ & X & [Y|[]]). eauto.
Qed.
Lemma res_prec l a t : (forall l0, In l0 (tinit A) -> exists e, nth_error (smKey m) l0 = Some e /\ In e vis) -> areach A l -> edge A l a t ->
  exists s0 K s', In (orgOf (ttgt t), s0) sts /\ okState G K s0 s' /\ precOf (ttgt t) = filter (isPrecise (preciseAfterReset (precOf l) (computeClockSize s') (trst t))) (seq 0 (computeClockSize s')).
Proof using EA LI.
  intros HI R H. destruct (res_visited l HI R) as (e & E & V). destruct H as (s & ts & I & J & K). rewrite EA, combine_seq, Nat.sub_0_r in I. destruct I as [_ I]. destruct (entry_at s a ts t J K) as (i & j & T).
  destruct LI as (_ & _ & LC). destruct (LC e l s i j t V E I T) as (o & s0 & K0 & s' & X1 & X2 & X & _). assert (N := nth_error_nth (smKey m) _ (0, []) X). assert (N' := nth_error_nth (smKey m) _ (0, []) E). exists s0, K0, s'. unfold orgOf, precOf. rewrite N, N'. cbn [fst snd afterPair]. auto.
Qed.
End Result.
