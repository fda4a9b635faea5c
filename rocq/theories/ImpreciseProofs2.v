(** The do-while loop of ImpreciseClockHandler::run: when it ends. *)
From Coq Require Import QArith ZArith Bool List Arith Lia Lqa Qround Permutation.
From Verif Require ElementaryProofs2 HypothesisTimes.
From Verif Require Import BoundsModel ConstraintModel GuardSpec ConstraintProofs ZoneModel AutomatonModel TimedWordModel TimedWordSpec TimedConditionModel TimedConditionSpec TimedConditionProofs3 ElementaryModel ElementarySpec RegionalModel RegionalSpec RegionalProofs RegionalProofs3 RegionalProofs4 RegionalProofs5
  TableModel HypothesisModel NeighborModel NeighborSpec NeighborProofs NeighborProofs2 NeighborProofs3 NeighborProofs4 TargetResetModel ImpreciseModel ImpreciseSpec ImpreciseProofs.
Import ListNotations.
Open Scope Q_scope.

(** ** more fuel does not change a result *)
Lemma advance_more P x : forall f n l, advance f P x n = Some l -> forall f', (f <= f')%nat -> advance f' P x n = Some l.
Proof.
  induction f as [|f IH]; intros n l H f' L; [discriminate|]. destruct f' as [|f']; [lia|]. cbn [advance] in *. destruct (notPassed P x n); [|exact H].
  destruct (advance f P x (frSucc n)) as [l0|] eqn:E; [|discriminate]. rewrite (IH _ _ E f' ltac:(lia)). exact H.
Qed.
Lemma advanceAll_more P x f f' : (f <= f')%nat -> forall ns l, advanceAll f P x ns = Some l -> advanceAll f' P x ns = Some l.
Proof.
  intro L. induction ns as [|n ns IH]; intros l H; cbn [advanceAll] in *; [exact H|]. destruct (advance f P x n) as [a|] eqn:A; [|discriminate]. destruct (advanceAll f P x ns) as [b|]; [|discriminate].
  rewrite (advance_more P x f n a A f' L), (IH b eq_refl). exact H.
Qed.
Lemma nbSucc_more ord f f' c c1 : (f <= f')%nat -> nbSucc ord f c = Some c1 -> nbSucc ord f' c = Some c1.
Proof.
  intros L H. unfold nbSucc, updateNeighbors in *. destruct (advanceAll f _ _ _) as [l|] eqn:E; [|discriminate]. rewrite (advanceAll_more _ _ f f' L _ _ E). exact H.
Qed.
Lemma nbSucc_step ord f c c1 w : (forall l, Permutation (ord l) l) -> describes (nOrig c) (nPrec c) (nNbrs c) w -> nPrec c <> [] -> nbSucc ord f c = Some c1 ->
  exists q, 0 <= q /\ nOrig c1 = frSucc (nOrig c) /\ nPrec c1 = nPrec c /\ describes (nOrig c1) (nPrec c1) (nNbrs c1) (wait w q).
Proof.
  intros HO D NP H. destruct (nbSucc_spec ord c w HO D NP) as (q & c' & N & NR & A & E1 & E2 & _ & D' & _). assert (E : c1 = c').
  { assert (H1 := nbSucc_more ord f (Nat.max f N) c c1 ltac:(lia) H). rewrite (A (Nat.max f N)) in H1 by lia. congruence. }
  subst c'. exists q. split; [apply Qlt_le_weak; apply NR|auto].
Qed.
Lemma unit_below a b z : sameUnit a b -> a <= inject_Z z -> b <= inject_Z z.
Proof.
  intros [F I] H. destruct (Qlt_le_dec (inject_Z z) b) as [G|G]; [|exact G]. exfalso. assert (FA := Qfloor_resp_le _ _ H). rewrite Qfloor_Z in FA. assert (FB := Qfloor_resp_le _ _ (Qlt_le_weak _ _ G)). rewrite Qfloor_Z in FB.
  assert (E : Qfloor a = z) by lia. assert (K := Qfloor_le a). rewrite E in K. assert (EA : a == inject_Z z) by lra. rewrite E in I. assert (EB := proj1 I EA). rewrite <- F, E in EB. lra.
Qed.
Lemma precise_guard c w : describes (nOrig c) (nPrec c) (nNbrs c) w -> forall v, nonneg v -> gsat (toRelaxedGuard c) v -> forall k, In k (nPrec c) -> sameUnit (clocksOf w k) (v k).
Proof.
  intros D v NN H k Hk. assert (B : (k < length (td w))%nat) by (apply D; exact Hk). destruct (relaxedGuard_tight c w D v NN H k B) as [(u1 & C1 & H1) (u2 & C2 & H2)].
  destruct D as (_ & _ & _ & A & _). assert (A1 := proj2 (A u1 C1) k Hk). assert (A2 := proj2 (A u2 C2) k Hk). fold (clocksOf w k) in *. fold (clocksOf u1 k) in A1. fold (clocksOf u2 k) in A2.
  destruct H1 as [H1|H1]; [|exact (sameUnit_trans _ _ _ A1 H1)]. destruct H2 as [H2|H2]; [|exact (sameUnit_trans _ _ _ A2 H2)].
  apply uidx_same. apply uidx_same in A1. apply uidx_same in A2. apply uidx_mono in H1. apply uidx_mono in H2. lia.
Qed.

Lemma later_0 w : later w w 0.
Proof. split; [lra|]. split; [reflexivity|]. intros. lra. Qed.
Lemma later_wait w u e q : later w u e -> 0 <= q -> later w (wait u q) (e + q).
Proof.
  intros (A & B & C) Q. split; [lra|]. cbn [wait td]. unfold delayed. rewrite ElementaryProofs2.addBack_length. split; [exact B|]. intros k Hk. rewrite since_addBack by lia. rewrite (C k Hk). lra.
Qed.
(** the values of clocks beyond those of the word are free *)
Definition extend (u : tword) (b : Q) : valuation := fun k => if (k <? length (td u))%nat then since (td u) k else b.
Lemma extend_looks u b : 0 <= b -> (forall k, (k < length (td u))%nat -> 0 <= since (td u) k) -> looksLike u (extend u b).
Proof.
  intros B H. unfold looksLike, nonneg, extend, clocksOf. split.
  - intro k. destruct (Nat.ltb_spec k (length (td u))); auto.
  - intros k Hk. apply Nat.ltb_lt in Hk. rewrite Hk. apply sameUnit_refl.
Qed.

Section Loop.
Context (ord : list frel -> list frel) (HO : forall l, Permutation (ord l) l) (k : nat) (keys : list letter -> list letter) (HK : forall l, Permutation (keys l) l) (q : loc)
  (w : tword) (NNw : forall i, (i < length (td w))%nat -> 0 <= since (td w) i).
Definition look (c : nbr) (u : tword) : Prop := describes (nOrig c) (nPrec c) (nNbrs c) u /\ exists e, later w u e.
Lemma look_nonneg c u : look c u -> forall i, (i < length (td u))%nat -> 0 <= since (td u) i.
Proof using NNw. intros (_ & e & L1 & L2 & L3) i Hi. rewrite L2 in Hi. rewrite (L3 i Hi). specialize (NNw i Hi). lra. Qed.
Lemma look_step c u c1 : look c u -> nPrec c <> [] -> nbSucc ord k c = Some c1 -> nOrig c1 = frSucc (nOrig c) /\ nPrec c1 = nPrec c /\ exists q, 0 <= q /\ look c1 (wait u q).
Proof using HO.
  intros (D & e & L) NP H. destruct (nbSucc_step ord k c c1 u HO D NP H) as (q0 & Q0 & E1 & E2 & D1). split; [exact E1|]. split; [exact E2|]. exists q0. split; [exact Q0|]. split; [exact D1|]. exists (e + q0). apply later_wait; auto.
Qed.
Lemma look_match c u g : look c u -> nbMatch c g = true -> forall b, 0 <= b -> gsat g (extend u b).
Proof using NNw.
  intros L M b B. assert (E := extend_looks u b B (look_nonneg c u L)). exact (nbMatch_sound c g u (proj1 (proj1 L)) M _ (proj1 E) (proj2 E)).
Qed.

(** *** no transition of [q] has an upper bound far beyond the constants *)
Context (p : nat) (Hp : (p < length (td w))%nat) (M : Q) (C : Z) (HC : since (td w) p + M <= inject_Z C).
Definition capped (t : trans) : Prop :=
  existsb isUpper (tgrd t) = false \/
  exists x y, (y <= M \/ (x = p /\ y <= inject_Z C)) /\ forall v, nonneg v -> gsat (tgrd t) v -> v x <= y.
Lemma capped_match c u t : look c u -> capped t -> nbMatch c (tgrd t) = true -> existsb isUpper (tgrd t) = true -> since (td u) p <= inject_Z C.
Proof using NNw Hp HC.
  intros L [N|(x & y & Y & H)] Mt U; [congruence|]. assert (NN := look_nonneg c u L). destruct L as (D & e & L1 & L2 & L3).
  assert (X : (x < length (td u))%nat).
  { destruct (Nat.lt_ge_cases x (length (td u))) as [G|G]; [exact G|]. exfalso. set (b := if Qlt_le_dec y 0 then 0 else y + 1). assert (B : 0 <= b /\ y < b) by (unfold b; destruct (Qlt_le_dec y 0); lra).
    assert (G1 := look_match c u (tgrd t) (conj D (ex_intro _ e (conj L1 (conj L2 L3)))) Mt b (proj1 B)). assert (G2 := H _ (proj1 (extend_looks u b (proj1 B) NN)) G1). unfold extend in G2. apply Nat.ltb_ge in G. rewrite G in G2. lra. }
  assert (G1 := look_match c u (tgrd t) (conj D (ex_intro _ e (conj L1 (conj L2 L3)))) Mt 0 (Qle_refl 0)). assert (G2 := H _ (proj1 (extend_looks u 0 (Qle_refl 0) NN)) G1). unfold extend in G2. assert (X' := X). apply Nat.ltb_lt in X'. rewrite X' in G2.
  rewrite (L3 p Hp). rewrite L2 in X. rewrite (L3 x X) in G2. specialize (NNw x X). destruct Y as [Y|[-> Y]]; lra.
Qed.
Lemma capped_relax c u : look c u -> In p (nPrec c) -> forall t0 n v t, capped t0 -> relaxOne c n v t0 = Some t -> capped t.
Proof using NNw Hp HC.
  intros L Pp t0 n v t Ct H. destruct (relaxOne_spec c n v t0 t H) as (Mt & _ & _ & _ & _ & _ & B1 & B2). destruct (existsb isUpper (tgrd t0)) eqn:U.
  - assert (K := capped_match c u t0 L Ct Mt U). right. exists p, (inject_Z C). split; [right; split; [reflexivity|lra]|]. intros z NZ G. apply existsb_exists in U. destruct U as (d & I & U). rewrite (B1 (ex_intro _ d (conj I U))) in G.
    eapply unit_below; [|exact K]. exact (precise_guard c u (proj1 L) z NZ G p Pp).
  - left. destruct (existsb isUpper (tgrd t)) eqn:E; [|reflexivity]. apply existsb_exists in E. destruct E as (d & I & E). apply B2 in I; [destruct I; congruence|].
    intros d0 I0. destruct (isUpper d0) eqn:U0; [|reflexivity]. rewrite <- U. symmetry. apply existsb_exists. eauto.
Qed.

Lemma nfind_key nx a (t : trans) : In t (nfind nx a) -> In a (map fst nx).
Proof using. unfold nfind. destruct (find (fun p => (fst p =? a)%nat) nx) as [[b ts]|] eqn:F; [|intros []]. intros _. destruct (find_some _ _ F) as [I E]. apply Nat.eqb_eq in E. cbn in E. subst b. change a with (fst (a, ts)). apply in_map. exact I. Qed.

(** the loop ends after [n] more rounds *)
Lemma rounds_end (t0 : trans) : forall n f sts c ws some u, (n < f)%nat -> NoDup (map fst sts) -> look c u -> In p (nPrec c) -> (forall t, leaves sts q t -> capped t) -> leaves sts q t0 ->
  (some = true \/ exists a, (a <= n)%nat /\ forall c', nOrig c' = frSuccs a (nOrig c) -> nbMatch c' (tgrd t0) = true) ->
  (inject_Z C < since (td u) p \/ exists b, (b <= n)%nat /\ forall u', regionalF (frSuccs b (nOrig c)) u' -> inject_Z C < since (td u') p) ->
  rounds f ord k keys q sts c ws some <> Going.
Proof using HO HK NNw Hp HC.
  induction n as [|n IH]; intros f sts c ws some u F ND L Pp Cp L0 HA HB; (destruct f as [|f]; [lia|]); cbn [rounds];
    (destruct (handleActions ord k q c (mkR sts ws false some) (keys (map fst (nextOf sts q)))) as [s|] eqn:E; [|discriminate]);
    destruct (handleActions_inv ord k q c capped (capped_relax c u L Pp) _ (mkR sts ws false some) s ND Cp E) as (J1 & J2 & J3 & J4); cbn [rSts rBounded rMatched] in J2, J3, J4;
    (assert (MT : nbMatch c (tgrd t0) = true -> rMatched s = true) by (intro Mt; apply leaves_iff in L0; destruct L0 as [a I]; apply (J4 a t0); [eapply Permutation_in; [apply Permutation_sym; apply HK|]; eapply nfind_key; eauto|exact I|exact Mt]));
    (assert (BD : inject_Z C < since (td u) p -> rBounded s = false) by (intro G; destruct (rBounded s); [|reflexivity]; destruct (J2 eq_refl) as [X|(t & Ct & Mt & U)]; [discriminate|]; assert (X := capped_match c u t L Ct Mt U); lra));
    (destruct (nbSucc ord k c) as [c1|] eqn:S1; [|discriminate]).
  - assert (B : rBounded s = false) by (apply BD; destruct HB as [HB|(b & Hb & HB)]; [exact HB|]; replace b with 0%nat in HB by lia; apply HB; apply L).
    assert (R : rMatched s = true) by (destruct HA as [HA|(a & Ha & HA)]; [auto|]; replace a with 0%nat in HA by lia; apply MT; apply HA; reflexivity). rewrite B, R. cbn. discriminate.
  - destruct (rBounded s || negb (rMatched s)) eqn:W; [|discriminate]. destruct (look_step c u c1 L ltac:(intro Z; rewrite Z in Pp; destruct Pp) S1) as (E1 & E2 & q0 & Q0 & L1).
    assert (O : onlyRelaxes sts (rSts s)) by (exact (handleActions_rel ord k q c _ (mkR sts ws false some) s ND E)).
    apply (IH f (rSts s) c1 (rWs s) (rMatched s) (wait u q0)).
    + lia.
    + rewrite (onlyRelaxes_addr _ _ O). exact ND.
    + exact L1.
    + rewrite E2. exact Pp.
    + exact J1.
    + apply leaves_iff in L0. destruct L0 as [a I]. apply leaves_iff. exists a. eapply at_rel; eauto.
    + destruct HA as [HA|(a & Ha & HA)]; [left; auto|]. destruct a as [|a]; [left; apply MT; apply HA; reflexivity|]. right. exists a. split; [lia|]. intros c' Hc'. apply HA. cbn [frSuccs]. rewrite <- E1. exact Hc'.
    + assert (GR : inject_Z C < since (td u) p -> inject_Z C < since (td (wait u q0)) p).
      { intro G. cbn [wait td]. unfold delayed. destruct L as (_ & e & _ & L2 & _). rewrite since_addBack by lia. lra. }
      destruct HB as [HB|(b & Hb & HB)]; [left; auto|]. destruct b as [|b]; [left; apply GR; apply HB; apply L|]. right. exists b. split; [lia|]. intros u' Hu'. apply HB. cbn [frSuccs]. rewrite <- E1. exact Hu'.
Qed.
End Loop.

Lemma upper_const g v d : gsat g v -> In d g -> isUpper d = true -> v (cx d) <= inject_Z (cc d).
Proof. intros G I U. specialize (G d I). unfold holds in G. unfold isUpper in U. destruct (codr d); try discriminate; [apply Qlt_le_weak|]; exact G. Qed.
Lemma consts_bounded (ts : list trans) : exists M : Z, forall t d, In t ts -> In d (tgrd t) -> (cc d <= M)%Z.
Proof.
  assert (K : forall g : guard, exists M, forall d, In d g -> (cc d <= M)%Z).
  { induction g as [|d g [M H]]; [exists 0%Z; intros ? []|]. exists (Z.max (cc d) M). intros d' [<-|I]; [lia|]. specialize (H d' I). lia. }
  induction ts as [|t ts [M H]]; [exists 0%Z; intros ? ? []|]. destruct (K (tgrd t)) as [M' H']. exists (Z.max M' M). intros t' d [<-|I] J; [specialize (H' d J)|specialize (H t' d I J)]; lia.
Qed.
Lemma leaves_in sts q t : leaves sts q t -> In t (flat_map snd (nextOf sts q)).
Proof.
  rewrite leaves_iff. intros (a & I). unfold nfind in I. destruct (find (fun p => (fst p =? a)%nat) (nextOf sts q)) as [e|] eqn:F; [|destruct I]. apply find_some in F. apply in_flat_map. exists e. tauto.
Qed.

(** if some transition of [q] fires in a whole situation to come, the loop ends *)
Lemma rounds_return ord k keys q sts c w ws t0 e :
  (forall l, Permutation (ord l) l) -> (forall l, Permutation (keys l) l) -> NoDup (map fst sts) -> describes (nOrig c) (nPrec c) (nNbrs c) w -> nPrec c <> [] ->
  (forall i, (i < length (td w))%nat -> 0 <= since (td w) i) -> leaves sts q t0 -> (forall d, In d (tgrd t0) -> nonTrivial d) -> 0 <= e -> (forall v, looksLike (wait w e) v -> gsat (tgrd t0) v) ->
  exists n, forall f, (n <= f)%nat -> rounds f ord k keys q sts c ws false <> Going.
Proof.
  intros HO HK ND D NP NN L0 NT He FT. destruct (nPrec c) as [|p P] eqn:EP; [congruence|]. clear NP. assert (Pp : In p (nPrec c)) by (rewrite EP; left; reflexivity). rewrite <- EP in D. assert (Hp : (p < length (td w))%nat) by (apply D; exact Pp).
  assert (R : regionalF (nOrig c) w) by apply D. destruct (consts_bounded (flat_map snd (nextOf sts q))) as [M HM].
  set (C := Qceiling (since (td w) p + inject_Z M)). assert (HC : since (td w) p + inject_Z M <= inject_Z C) by apply Qle_ceiling.
  destruct (frSuccs_reach (Z.to_nat (vol (addBack (td w) e) - vol (td w))) (nOrig c) w e R He ltac:(lia)) as [a Ra].
  assert (ET : exists t, 0 <= t /\ inject_Z C < since (td w) p + t) by (destruct (Qlt_le_dec (inject_Z C) (since (td w) p)); [exists 0; split; lra|exists (inject_Z C - since (td w) p + 1); split; lra]). destruct ET as (t & T0 & T1).
  destruct (frSuccs_reach (Z.to_nat (vol (addBack (td w) t) - vol (td w))) (nOrig c) w t R T0 ltac:(lia)) as [b Rb].
  exists (S (Nat.max a b)). intros f Hf. refine (rounds_end ord HO k keys HK q w NN p Hp (inject_Z M) C HC t0 (Nat.max a b) f sts c ws false w Hf ND _ Pp _ L0 _ _).
  - split; [exact D|]. exists 0. apply later_0.
  - intros t' L'. unfold capped. destruct (existsb isUpper (tgrd t')) eqn:U; [right|left; reflexivity]. apply existsb_exists in U. destruct U as (d & I & U). exists (cx d), (inject_Z (cc d)). split.
    + left. rewrite <- Zle_Qle. apply (HM t' d); [apply leaves_in; exact L'|exact I].
    + intros v _ G. eapply upper_const; eauto.
  - right. exists a. split; [lia|]. intros c' E. change (mkTW (tw w) (delayed (td w) e)) with (wait w e) in Ra. rewrite <- E in Ra. apply (nbMatch_complete c' (tgrd t0) (wait w e) Ra).
    + intro i. unfold clocksOf. cbn [wait td]. unfold delayed. destruct (Nat.lt_ge_cases i (length (td w))) as [G|G]; [rewrite since_addBack by exact G; specialize (NN i G); lra|].
      unfold since, T. replace (S (length (addBack (td w) e) - 1) - i)%nat with 0%nat by (rewrite ElementaryProofs2.addBack_length; lia). cbn. lra.
    + exact NT.
    + intros v N1 N2. apply FT. split; auto.
  - right. exists b. split; [lia|]. intros u' Ru. change (mkTW (tw w) (delayed (td w) t)) with (wait w t) in Rb. assert (X := proj2 (proj1 (regionalF_members _ _ u' Rb) (HypothesisTimes.region_self _ _ Ru))).
    destruct (Qlt_le_dec (inject_Z C) (since (td u') p)) as [G|G]; [exact G|]. exfalso.
    assert (SU : sameUnit (since (td (wait w t)) p) (since (td u') p)).
    { unfold since. destruct X as [X1 X2]. rewrite <- X1. apply X2; cbn [wait td]; unfold delayed; rewrite ElementaryProofs2.addBack_length; lia. }
    assert (K := unit_below _ _ C (sameUnit_sym _ _ SU) G). cbn [wait td] in K. unfold delayed in K. rewrite since_addBack in K by exact Hp. lra.
Qed.

(** if none does, it never ends *)
Lemma looks_later w u e : later w u e -> forall v, looksLike u v <-> looksLike (wait w e) v.
Proof.
  intros (E & L & H) v. unfold looksLike, clocksOf. cbn [wait td]. unfold delayed. rewrite ElementaryProofs2.addBack_length, L. split; intros (N & A); (split; [exact N|]); intros i Hi; specialize (A i Hi).
  - eapply sameUnit_trans; [|exact A]. eapply TimedConditionProofs3.sameUnit_ext; [|reflexivity|apply sameUnit_refl]. rewrite since_addBack by exact Hi. rewrite (H i Hi). reflexivity.
  - eapply sameUnit_trans; [|exact A]. eapply TimedConditionProofs3.sameUnit_ext; [|reflexivity|apply sameUnit_refl]. rewrite since_addBack by exact Hi. rewrite (H i Hi). reflexivity.
Qed.
Lemma rounds_never ord k keys q w : (forall l, Permutation (ord l) l) -> forall f sts c u e ws,
  describes (nOrig c) (nPrec c) (nNbrs c) u -> later w u e -> nPrec c <> [] ->
  (forall t e, leaves sts q t -> 0 <= e -> ~ forall v, looksLike (wait w e) v -> gsat (tgrd t) v) ->
  forall sts' ws', rounds f ord k keys q sts c ws false <> Done sts' ws'.
Proof.
  intro HO. induction f as [|f IH]; intros sts c u e ws D L NP N sts' ws'; cbn [rounds]; [discriminate|].
  destruct (handleActions_idle ord k q c (keys (map fst (nextOf sts q))) (mkR sts ws false false)) as (s & E & E1 & E2).
  - intros t Lt. destruct (nbMatch c (tgrd t)) eqn:Mt; [|reflexivity]. exfalso. apply (N t e Lt (proj1 L)). intros v V. apply (looks_later w u e L) in V. exact (nbMatch_sound c (tgrd t) u (proj1 D) Mt v (proj1 V) (proj2 V)).
  - rewrite E. destruct (nbSucc ord k c) as [c1|] eqn:S1; [|discriminate]. cbn [rMatched rSts] in E1, E2. rewrite E2. cbn [negb]. rewrite orb_true_r, E1. destruct (nbSucc_step ord k c c1 u HO D NP S1) as (q0 & Q0 & _ & P1 & D1).
    apply (IH sts c1 (wait u q0) (e + q0)); [exact D1|apply later_wait; auto|congruence|exact N].
Qed.

(** ** what one loop adds *)
Definition added (c : nbr) (u : tword) (t : trans) : Prop :=
  (forall u1 v, covers (nNbrs c) u1 -> looksLike u1 v -> gsat (tgrd t) v) /\
  (existsb isUpper (tgrd t) = true -> forall v, nonneg v -> gsat (tgrd t) v -> forall i, In i (nPrec c) -> sameUnit (clocksOf u i) (v i)).
Lemma relaxOne_added c u n x t0 t : describes (nOrig c) (nPrec c) (nNbrs c) u -> relaxOne c n x t0 = Some t -> added c u t.
Proof.
  intros D H. destruct (relaxOne_spec c n x t0 t H) as (_ & _ & _ & _ & _ & G & B1 & B2). split.
  - intros u1 v Cv [N L]. apply G. exact (relaxedGuard_sound c (proj1 (proj2 D)) u1 v Cv N L).
  - intros U v N Gv i Hi. destruct (existsb isUpper (tgrd t0)) eqn:U0.
    + apply existsb_exists in U0. destruct U0 as (d & I & U0). rewrite (B1 (ex_intro _ d (conj I U0))) in Gv. exact (precise_guard c u D v N Gv i Hi).
    + exfalso. apply existsb_exists in U. destruct U as (d & I & U). apply B2 in I; [destruct I; congruence|]. intros d0 I0. destruct (isUpper d0) eqn:X; [|reflexivity]. rewrite <- U0. symmetry. apply existsb_exists. eauto.
Qed.
Lemma rounds_added ord k keys q w c0 (S0 : trans -> Prop) : (forall l, Permutation (ord l) l) -> nPrec c0 <> [] -> forall f sts c u e m ws some sts' ws',
  NoDup (map fst sts) -> describes (nOrig c) (nPrec c) (nNbrs c) u -> later w u e -> (forall j, nbSuccs ord k (m + j) c0 = nbSuccs ord k j c) -> nPrec c = nPrec c0 ->
  let Inv := fun t => exists t0, S0 t0 /\ relaxation t0 t /\ (t = t0 \/ exists j c' u' e', nbSuccs ord k j c0 = Some c' /\ describes (nOrig c') (nPrec c') (nNbrs c') u' /\ later w u' e' /\ added c' u' t) in
  (forall t, leaves sts q t -> Inv t) -> rounds f ord k keys q sts c ws some = Done sts' ws' -> forall t, leaves sts' q t -> Inv t.
Proof.
  intros HO NP. induction f as [|f IH]; intros sts c u e m ws some sts' ws' ND D L CH EP Inv HI H; cbn [rounds] in H; [discriminate|].
  destruct (handleActions ord k q c (mkR sts ws false some) (keys (map fst (nextOf sts q)))) as [s|] eqn:E; [|discriminate].
  assert (CL : forall t0 n v t, Inv t0 -> relaxOne c n v t0 = Some t -> Inv t).
  { intros t0 n v t (t1 & A & B & _) R. exists t1. split; [exact A|]. split; [eapply relaxation_trans; [exact B|eapply relaxOne_relaxation; eauto]|]. right. exists m, c, u, e.
    split; [specialize (CH 0%nat); rewrite Nat.add_0_r in CH; exact CH|]. split; [exact D|]. split; [exact L|eapply relaxOne_added; eauto]. }
  destruct (handleActions_inv ord k q c Inv CL _ (mkR sts ws false some) s ND HI E) as (J1 & _). assert (O : onlyRelaxes sts (rSts s)) by (exact (handleActions_rel ord k q c _ (mkR sts ws false some) s ND E)).
  destruct (nbSucc ord k c) as [c1|] eqn:S1; [|discriminate]. destruct (_ || _).
  - destruct (nbSucc_step ord k c c1 u HO D ltac:(congruence) S1) as (q0 & Q0 & _ & P1 & D1). eapply (IH (rSts s) c1 (wait u q0) (e + q0) (S m)); [|exact D1|apply later_wait; auto| |congruence|exact J1|exact H].
    + rewrite (onlyRelaxes_addr _ _ O). exact ND.
    + intro j. specialize (CH (S j)). cbn [nbSuccs] in CH. rewrite S1 in CH. rewrite <- CH. f_equal. lia.
  - injection H as <- _. exact J1.
Qed.
