(** Proofs about SplitModel: the main loop returns. *)
From Coq Require Import QArith ZArith Bool List Arith Lia.
From Verif Require Import BoundsModel ConstraintModel GuardSpec ConstraintProofs2 ConstraintProofs4 ZoneModel AutomatonModel AutomatonSpec RegionalModel HypothesisModel NeighborModel NeighborProofs4 ImpreciseModel MergeModel MergeProofs SplitModel SplitProofs SplitProofs2.
Import ListNotations.
Open Scope nat_scope.

Lemma hull_cx l r c : In c (unionHull2 l r) -> exists c', In c' l /\ cx c' = cx c.
Proof.
  intro Hc. unfold unionHull2 in Hc. apply unionHull_In in Hc. destruct Hc as (k & b & -> & Hf).
  assert (C := hull_char [l; r] k ltac:(discriminate)). rewrite Hf in C. destruct C as [A _].
  rewrite hullConstraint_cx. destruct (A l (or_introl eq_refl)) as ((c' & X & Y) & _). exists c'. split; [exact X|]. rewrite <- Y. reflexivity.
Qed.

(** all sublists *)
Fixpoint subl (l : list nat) : list (list nat) := match l with [] => [[]] | x :: r => map (cons x) (subl r) ++ subl r end.
Lemma subl_filter f : forall l, In (filter f l) (subl l).
Proof. induction l as [|x r IH]; cbn; [auto|]. apply in_or_app. destruct (f x); [left; apply in_map; exact IH|right; exact IH]. Qed.
Lemma filter_below f : forall k N, k <= N -> filter f (seq 0 k) = filter (fun x => f x && (x <? k)) (seq 0 N).
Proof.
  intros k N H. replace N with (k + (N - k)) by lia. rewrite seq_app, filter_app. cbn [plus].
  rewrite (filter_ext_in (fun x => f x && (x <? k)) f (seq 0 k)).
  2: { intros x I. apply in_seq in I. destruct (Nat.ltb_spec x k); [apply andb_true_r|lia]. }
  replace (filter (fun x => f x && (x <? k)) (seq k (N - k))) with (@nil nat); [symmetry; apply app_nil_r|]. symmetry.
  assert (A : forall l, (forall x, In x l -> k <= x) -> filter (fun x => f x && (x <? k)) l = []).
  { induction l as [|x l IH]; intros K; [reflexivity|]. cbn [filter]. destruct (Nat.ltb_spec x k); [specialize (K x (or_introl eq_refl)); lia|]. rewrite andb_false_r. apply IH. intros y I. apply K. right. exact I. }
  apply A. intros x I. apply in_seq in I. lia.
Qed.

(** how many of [U] have not been visited *)
Fixpoint unvis (U vis : list enh) : nat := match U with [] => 0 | e :: r => (if visitedE vis e then 0 else 1) + unvis r vis end.
Lemma unvis_le e vis : forall U, unvis U (e :: vis) <= unvis U vis.
Proof. induction U as [|f U IH]; cbn [unvis]; [lia|]. unfold visitedE. cbn [existsb]. destruct (enhEqb f e); cbn [orb]; destruct (existsb (enhEqb f) vis); lia. Qed.
Lemma unvis_lt e vis : forall U, In e U -> visitedE vis e = false -> unvis U (e :: vis) < unvis U vis.
Proof.
  induction U as [|f U IH]; intros I V; [destruct I|]. assert (L := unvis_le e vis U). cbn [unvis]. unfold visitedE in *. cbn [existsb]. destruct I as [->|I].
  - assert (X : enhEqb e e = true) by (apply enhEqb_ok; reflexivity). rewrite X, V. cbn. lia.
  - specialize (IH I V). destruct (enhEqb f e); cbn [orb]; destruct (existsb (enhEqb f) vis); lia.
Qed.

Section Term.
Context (ordC : list nat -> list nat) (prefer : smap -> enh -> trans -> trans -> bool) (sts : states) (N : nat).
Context (ND : NoDup (map fst sts)).
Context (HN : forall o s, In (o, s) sts -> computeClockSize s <= N).
(** the clocks of the guards are below [N] *)
Definition below (_ ts : list trans) : Prop := forall t c, In t ts -> In c (tgrd t) -> cx c < N.
Lemma below_refl o s0 a ts : In (o, s0) sts -> In (a, ts) (snext s0) -> below ts ts.
Proof using HN. intros A B t c Ht Hc. assert (K := clockSize_bound s0 a ts t c B Ht Hc). specialize (HN o s0 A). lia. Qed.
Lemma below_merge K ts0 pr P ts : below ts0 (map (proj K) ts) -> below ts0 (map (proj K) (mergeNDP pr P ts)).
Proof using.
  intros H t c Ht Hc. apply in_map_iff in Ht. destruct Ht as (t' & <- & Ht). cbn [tgrd proj] in Hc. revert c Hc.
  apply (mergeW_inv overlap (mergeP pr P) (fun t => forall c, In c (tgrd t) -> cx c < N)) with (3 := Ht).
  - intros it u H1 H2 _ c Hc. destruct (mergeP_cases pr P it u) as (x & [-> | ->] & _ & _ & [E|E]); rewrite E in Hc; auto; apply hull_cx in Hc; destruct Hc as (c' & X & <-); auto.
  - intros u Hu c Hc. apply (H (proj K u) c); [apply in_map; exact Hu|exact Hc].
Qed.
Lemma below_size K s0 s : okState below K s0 s -> computeClockSize s <= N.
Proof using.
  intros [_ F]. destruct (clockSize_tight s) as [->|(a & ts & t & c & A & B & C & ->)]; [lia|]. apply In_nth_error in A. destruct A as [i A]. change (nth_error (snext s) i = Some (a, ts)) in A.
  destruct (F2_nth_r _ _ _ F i (a, ts) A) as (p0 & _ & (_ & _ & D)). cbn [snd] in D. specialize (D (proj K t) c (in_map _ _ _ B) C). lia.
Qed.
Notation Inv := (Inv sts below).
Definition univ : list enh := list_prod (map fst sts) (subl (seq 0 N)).
Lemma pair_univ o s0 k P t : In (o, s0) sts -> k <= N -> In (afterPair k o P t) univ.
Proof using. intros A B. unfold afterPair, univ. apply in_prod; [apply (in_map fst) in A; exact A|]. rewrite (filter_below _ k N B). apply subl_filter. Qed.

Lemma mapE_in m e : In e (smKey m) -> exists l, mapE m e = Some l.
Proof using. intro H. destruct (mapE m e) as [l|] eqn:E; [eauto|]. exfalso. exact (mapE_none _ _ E H). Qed.
Lemma stepPos_runs vis l e m q i j : Inv m -> nth_error (smKey m) l = Some e -> In e vis -> (forall f, In f vis -> In f (smKey m)) ->
  exists m' q2, stepPos ordC prefer sts vis l (snd e) (m, q) (i, j) = Some (m', q ++ q2) /\ forall f, In f q2 -> In f (smKey m') /\ In f univ.
Proof using ND.
  intros I HK Hv Hvk. assert (I' := I). destruct I' as (IA & IB & IC).
  assert (SOME : forall k, k < length (smKey m) -> exists e s, nth_error (smKey m) k = Some e /\ nth_error (smSt m) k = Some s).
  { intros k L. destruct (nth_error (smKey m) k) as [e1|] eqn:E1; [|apply nth_error_None in E1; lia]. destruct (nth_error (smSt m) k) as [s1|] eqn:E2; [eauto|apply nth_error_None in E2; lia]. }
  destruct (SOME l) as (e1 & s & E1 & Hs); [apply nth_error_Some; congruence|]. unfold stepPos. rewrite Hs. destruct (transAt s i j) as [t|] eqn:Ht.
  2: { exists m, []. rewrite app_nil_r. split; [reflexivity|intros f []]. }
  assert (LT : ttgt t < length (smKey m)).
  { destruct (IC l e s HK Hs) as (s0 & _ & [_ F]). unfold transAt in Ht. destruct (nth_error (snext s) i) as [p|] eqn:Hp; [|discriminate]. destruct (F2_nth_r _ _ _ F i p Hp) as (p0 & _ & (_ & D & _)). apply D. eapply nth_error_In; eauto. }
  destruct (SOME _ LT) as ([o P0] & s' & Hk & Hs'). rewrite Hk, Hs'. destruct (IC _ _ _ Hk Hs') as (s0 & J1 & J2). cbn [fst] in J1.
  set (e2 := afterPair (computeClockSize s') o (snd e) t). change (o, filter (isPrecise (preciseAfterReset (snd e) (computeClockSize s') (trst t))) (seq 0 (computeClockSize s'))) with e2.
  assert (U : In e2 univ) by (apply (pair_univ o s0); [exact J1|exact (below_size _ _ _ J2)]). cbn zeta.
  destruct (visitedE vis e2) eqn:Ev.
  - destruct (mapE_in m e2) as [l1 ->]; [apply Hvk; apply visited_ok; exact Ev|]. rewrite Hs. eexists. exists []. rewrite app_nil_r. split; [reflexivity|intros f []].
  - assert (MK : exists m1 l1, makeState ordC prefer sts m e2 s' = Some (m1, l1)).
    { unfold makeState. destruct (mapE m e2) as [l1|] eqn:El.
      - assert (X := mapE_some _ _ _ El). destruct (SOME l1) as (e3 & s3 & _ & ->); [apply nth_error_Some; congruence|]. eauto.
      - match goal with |- context [find ?f ?l] => destruct (find f l) as [p|] eqn:Hf end; [eauto|]. exfalso. assert (Z := find_none _ _ Hf (o, s0) J1). cbn in Z. rewrite Nat.eqb_refl in Z. discriminate. }
    destruct MK as (m1 & l1 & MK). rewrite MK. destruct (makeState_ok ordC prefer sts below below_merge ND m e2 s' o s0 m1 l1 MK I eq_refl J1 J2) as ((X0 & _) & X2 & X3 & _).
    assert (L1 : l < length (smKey m1)) by (assert (Y := extends_nth _ _ _ _ X2 HK); apply nth_error_Some; congruence). destruct (nth_error (smSt m1) l) as [s1|] eqn:Hs1; [|apply nth_error_None in Hs1; lia].
    eexists. exists [e2]. split; [reflexivity|]. cbn [smKey]. intros f [<-|[]]. split; [eapply nth_error_In; exact X3|exact U].
Qed.
Lemma stepAll_runs vis l e : forall ps m q, Inv m -> nth_error (smKey m) l = Some e -> In e vis -> (forall f, In f vis -> In f (smKey m)) ->
  (forall f, In f q -> In f (smKey m) /\ In f univ) ->
  exists m' q', stepAll ordC prefer sts vis l (snd e) (m, q) ps = Some (m', q') /\ forall f, In f q' -> In f (smKey m') /\ In f univ.
Proof using ND.
  induction ps as [|[i j] ps IH]; intros m q I HK Hv Hvk Hq; cbn [stepAll]; [eauto|].
  destruct (stepPos_runs vis l e m q i j I HK Hv Hvk) as (m1 & q2 & E & X). rewrite E. destruct (stepPos_ok ordC prefer sts below below_merge ND vis l e m q i j m1 _ I HK Hv E) as (A1 & A2 & _).
  assert (EX : forall f, In f (smKey m) -> In f (smKey m1)) by (intros f V; destruct A2 as [K ->]; apply in_or_app; auto).
  apply IH; auto; [eapply extends_nth; eauto|]. intros f V. apply in_app_or in V. destruct V as [V|V]; [destruct (Hq f V); auto|auto].
Qed.
Lemma splitLoop_runs : forall c vis m q, unvis univ vis <= c -> Inv m -> (forall f, In f vis -> In f (smKey m)) -> (forall f, In f q -> In f (smKey m) /\ In f univ) ->
  exists n0, forall n, n0 <= n -> exists m', splitLoop ordC prefer sts n vis (m, q) = Some m'.
Proof using ND.
  induction c as [c IHc] using lt_wf_ind. intros vis m q. induction q as [|e q IHq]; intros Hc I Hvk Hq.
  - exists 0. intros [|n] _; cbn; eauto.
  - destruct (Hq e (or_introl eq_refl)) as [Hek Heu]. destruct (mapE_in m e Hek) as [l El]. assert (HK := mapE_some _ _ _ El). destruct (visitedE vis e) eqn:Ev.
    + destruct (IHq Hc I Hvk) as [n0 H0]; [intros f V; apply Hq; right; exact V|]. exists (S n0). intros [|n] Hn; [lia|]. cbn [splitLoop fst snd]. rewrite El, Ev. apply H0. lia.
    + assert (I' := I). destruct I' as (IA & IB & IC). destruct (nth_error (smSt m) l) as [s|] eqn:Hs.
      2: { exfalso. apply nth_error_None in Hs. assert (l < length (smKey m)) by (apply nth_error_Some; congruence). lia. }
      destruct (stepAll_runs (e :: vis) l e (positions s) m q I HK (or_introl eq_refl)) as (m1 & q1 & E1 & X1); [intros f [<-|V]; auto|intros f V; apply Hq; right; exact V|].
      destruct (stepAll_ok ordC prefer sts below below_merge ND (e :: vis) l e (positions s) m q m1 q1 I HK (or_introl eq_refl) E1) as (A1 & A2 & _).
      assert (L := unvis_lt e vis univ Heu Ev). destruct (IHc (unvis univ (e :: vis)) ltac:(lia) (e :: vis) m1 q1 (le_n _) A1) as [n0 H0]; [|exact X1|].
      * intros f V. assert (In f (smKey m)) by (destruct V as [<-|V]; auto). destruct A2 as [K ->]. apply in_or_app. auto.
      * exists (S n0). intros [|n] Hn; [lia|]. cbn [splitLoop fst snd]. rewrite El, Ev, Hs, E1. apply H0. lia.
Qed.
End Term.

(** the constructor finds every target of a closed automaton *)
Lemma allSome_all {S T} (f : S -> option T) : forall l, (forall x, In x l -> exists y, f x = Some y) -> exists r, allSome (map f l) = Some r.
Proof.
  induction l as [|x l IH]; intro H; cbn; [eauto|]. destruct (H x (or_introl eq_refl)) as [y ->]. destruct IH as [r ->]; [intros z I; apply H; right; exact I|eauto].
Qed.
Lemma posOf_in {T} (f : T -> bool) l x : In x l -> f x = true -> exists i, posOf f l = Some i.
Proof. intros I E. destruct (posOf f l) as [i|] eqn:P; [eauto|]. rewrite (posOf_none _ _ P x I) in E. discriminate. Qed.
Lemma newMap_runs (sts : states) : (forall o s a ts t, In (o, s) sts -> In (a, ts) (snext s) -> In t ts -> In (ttgt t) (map fst sts)) -> exists m, newMap sts = Some m.
Proof.
  intro H. unfold newMap. destruct (allSome_all (fun p => copyState sts (snd p)) sts) as [ss E]; [|rewrite E; eauto]. intros [o s] I. cbn [snd]. unfold copyState.
  destruct (allSome_all (copyEntry sts) (snext s)) as [nx E]; [|rewrite E; eauto]. intros [a ts] J. unfold copyEntry. cbn [fst snd].
  destruct (allSome_all (copyTrans sts) ts) as [us E]; [|rewrite E; eauto]. intros t K. unfold copyTrans. specialize (H o s a ts t I J K). apply in_map_iff in H. destruct H as (p & E & P).
  match goal with |- context [posOf ?f ?l] => destruct (posOf_in f l p P) as [i Hi] end; [cbn; apply Nat.eqb_eq; exact E|]. rewrite Hi. eauto.
Qed.
