(** simplifyWithZones keeps the language. *)
From Coq Require Import QArith Bool List Arith Lia Lqa.
From Verif Require Import BoundsModel ConstraintModel GuardSpec ZoneModel ZoneSpec AutomatonModel AutomatonSpec TimedWordModel TimedWordSpec ZoneGraphModel ZoneGraphSpec SimplifyZonesModel.
From Verif Require Import BoundsProofs ZoneProofs AutomatonProofs AutomatonProofs5 ZoneProofs2 ZoneGraphProofs PropertiesZoneGraph EquivProofs.
Import ListNotations.
Open Scope nat_scope.

(** ** the live states of the zone automaton *)
Lemma existsb_eqb k l : existsb (Nat.eqb k) l = true <-> In k l.
Proof. rewrite existsb_exists. split; [intros (j & H & E); apply Nat.eqb_eq in E; subst; auto|intro H; exists k; split; [auto|apply Nat.eqb_refl]]. Qed.
Lemma predsOf_in es k p : In p (ZoneGraphModel.predsOf es k) <-> exists e, In e es /\ zeSrc e = p /\ zeTgt e = k.
Proof.
  unfold ZoneGraphModel.predsOf. rewrite in_map_iff. split.
  - intros (e & E & H). apply filter_In in H. destruct H as [H K]. apply Nat.eqb_eq in K. exists e. auto.
  - intros (e & H & E & K). exists e. split; [auto|]. apply filter_In. split; [auto|apply Nat.eqb_eq; auto].
Qed.
Lemma bounded_len (l : list nat) N : NoDup l -> (forall k, In k l -> k < N) -> length l <= N.
Proof. intros ND B. rewrite <- (seq_length N 0). apply NoDup_incl_length; [auto|]. intros k H. apply in_seq. specialize (B k H). lia. Qed.
Definition newLive (es : list zedge) (live : list nat) (k : nat) : list nat :=
  nodup Nat.eq_dec (filter (fun p => negb (existsb (Nat.eqb p) live)) (ZoneGraphModel.predsOf es k)).
Lemma newLive_in es live k p : In p (newLive es live k) <-> ~ In p live /\ exists e, In e es /\ zeSrc e = p /\ zeTgt e = k.
Proof.
  unfold newLive. rewrite nodup_In, filter_In, negb_true_iff, predsOf_in. split; intros [H K].
  - split; [|auto]. intro X. apply existsb_eqb in X. congruence.
  - split; [auto|]. destruct (existsb (Nat.eqb p) live) eqn:E; [|auto]. apply existsb_eqb in E. contradiction.
Qed.
Lemma NoDup_app2 (a b : list nat) : NoDup a -> NoDup b -> (forall x, In x b -> ~ In x a) -> NoDup (a ++ b).
Proof.
  intros A B D. induction a as [|x a IH]; [auto|]. inversion A; subst. cbn [app]. constructor.
  - intro H. apply in_app_or in H. destruct H as [H|H]; [contradiction|]. apply (D x H). left. auto.
  - apply IH; auto. intros y H K. apply (D y H). right. auto.
Qed.
Lemma liveLoop_ok es N (SB : forall e, In e es -> zeSrc e < N) : forall fuel live queue,
  NoDup live -> (forall k, In k live -> k < N) -> incl queue live ->
  (forall e, In e es -> In (zeTgt e) live -> In (zeTgt e) queue \/ In (zeSrc e) live) ->
  N - length live + length queue <= fuel ->
  incl live (liveLoop fuel es live queue) /\ forall e, In e es -> In (zeTgt e) (liveLoop fuel es live queue) -> In (zeSrc e) (liveLoop fuel es live queue).
Proof.
  induction fuel as [|n IH]; intros live queue ND B IQ C L.
  - assert (queue = []) by (destruct queue; [auto|cbn in L; lia]). subst. cbn [liveLoop]. split; [apply incl_refl|]. intros e He Ht. destruct (C e He Ht) as [[]|K]. exact K.
  - destruct queue as [|k q]; cbn [liveLoop]; [split; [apply incl_refl|intros e He Ht; destruct (C e He Ht) as [[]|K]; exact K]|].
    fold (newLive es live k). set (nw := newLive es live k).
    assert (NDn : NoDup nw) by apply NoDup_nodup. assert (Bn : forall p, In p nw -> p < N) by (intros p Hp; apply newLive_in in Hp; destruct Hp as (_ & e & He & <- & _); auto).
    assert (NDa : NoDup (live ++ nw)) by (apply NoDup_app2; auto; intros p Hp; apply newLive_in in Hp; tauto).
    assert (Ba : forall p, In p (live ++ nw) -> p < N) by (intros p Hp; apply in_app_or in Hp; destruct Hp; auto).
    assert (La := bounded_len _ _ NDa Ba). rewrite app_length in La.
    destruct (IH (live ++ nw) (q ++ nw) NDa Ba) as [I1 I2].
    + intros p Hp. apply in_or_app. apply in_app_or in Hp. destruct Hp as [Hp|Hp]; [left; apply IQ; right; auto|right; auto].
    + intros e He Ht. apply in_app_or in Ht. destruct Ht as [Ht|Ht]; [|left; apply in_or_app; auto]. destruct (C e He Ht) as [K|K]; [|right; apply in_or_app; auto]. destruct K as [K|K]; [|left; apply in_or_app; auto].
      right. apply in_or_app. destruct (in_dec Nat.eq_dec (zeSrc e) live) as [X|X]; [auto|right]. apply newLive_in. split; [auto|]. exists e. auto.
    + rewrite !app_length. cbn [length] in L. lia.
    + split; [|exact I2]. intros p Hp. apply I1. apply in_or_app. auto.
Qed.
Lemma liveLoop_sound (P : nat -> Prop) es (C : forall e, In e es -> P (zeTgt e) -> P (zeSrc e)) : forall fuel live queue,
  (forall k, In k live -> P k) -> incl queue live -> forall k, In k (liveLoop fuel es live queue) -> P k.
Proof.
  induction fuel as [|n IH]; intros live queue H IQ k K; [auto|]. destruct queue as [|j q]; cbn [liveLoop] in K; [auto|]. fold (newLive es live j) in K.
  apply (IH (live ++ newLive es live j) (q ++ newLive es live j)); [| |exact K].
  - intros p Hp. apply in_app_or in Hp. destruct Hp as [Hp|Hp]; [auto|]. apply newLive_in in Hp. destruct Hp as (_ & e & He & <- & Ht). apply C; [auto|]. rewrite Ht. apply H. apply IQ. left. auto.
  - intros p Hp. apply in_or_app. apply in_app_or in Hp. destruct Hp as [Hp|Hp]; [left; apply IQ; right; auto|right; auto].
Qed.
Lemma matchNodes_in Z k : In k (matchNodes Z) <-> exists nd, nodeAt Z k nd /\ znMatch nd = true.
Proof.
  unfold matchNodes, nodeAt. rewrite filter_In, in_seq. split.
  - intros [_ H]. destruct (nth_error (zaNodes Z) k) as [nd|]; [exists nd; auto|discriminate].
  - intros (nd & E & M). rewrite E. split; [|auto]. split; [lia|]. cbn. apply nth_error_Some. congruence.
Qed.
Lemma liveNodes_ok Z : (forall e, In e (zaEdges Z) -> zeSrc e < length (zaNodes Z)) ->
  (forall k nd, nodeAt Z k nd -> znMatch nd = true -> In k (liveNodes Z)) /\
  (forall e, In e (zaEdges Z) -> In (zeTgt e) (liveNodes Z) -> In (zeSrc e) (liveNodes Z)).
Proof.
  intro SB. unfold liveNodes. assert (ND : NoDup (matchNodes Z)) by apply NoDup_filter, seq_NoDup.
  assert (B : forall k, In k (matchNodes Z) -> k < length (zaNodes Z)). { intros k H. apply matchNodes_in in H. destruct H as (nd & H & _). apply nth_error_Some. unfold nodeAt in H. congruence. }
  destruct (liveLoop_ok (zaEdges Z) (length (zaNodes Z)) SB (S (length (zaNodes Z))) (matchNodes Z) (matchNodes Z) ND B (incl_refl _)) as [H1 H2].
  - intros e He Ht. left. auto.
  - assert (L := bounded_len _ _ ND B). lia.
  - split; [|exact H2]. intros k nd N M. apply H1. apply matchNodes_in. exists nd. auto.
Qed.
(** a live state leads to an accepting one *)
Inductive zlive (Z : zauto) : nat -> Prop :=
| zl_match k nd : nodeAt Z k nd -> znMatch nd = true -> zlive Z k
| zl_step e : In e (zaEdges Z) -> zlive Z (zeTgt e) -> zlive Z (zeSrc e).
Lemma liveNodes_sound Z k : In k (liveNodes Z) -> zlive Z k.
Proof.
  unfold liveNodes. apply (liveLoop_sound (zlive Z)); [intros e He H; apply zl_step; auto| |apply incl_refl]. intros j H. apply matchNodes_in in H. destruct H as (nd & N & M). apply (zl_match Z j nd); auto.
Qed.

(** ** the automaton that is left *)
Lemma memb_iff l ls : memb l ls = true <-> In l ls.
Proof. apply existsb_eqb. Qed.
Lemma trans_eqb_refl t : trans_eqb t t = true.
Proof.
  unfold trans_eqb, resets_eqb, guard_eqb. rewrite Nat.eqb_refl. cbn [andb].
  assert (G : forall X (e : X -> X -> bool) l, (forall x, e x x = true) -> list_eqb e l l = true) by (intros X e l H; induction l; cbn; [auto|rewrite H; auto]).
  rewrite !G; auto.
  - intro c. unfold constraint_eqb. rewrite Nat.eqb_refl, Z.eqb_refl. destruct (codr c); reflexivity.
  - intros [x [q|y]]; cbn; rewrite Nat.eqb_refl; cbn; [apply Qeq_bool_iff; reflexivity|apply Nat.eqb_refl].
Qed.
Section Prune.
Variables (A : ta) (Z : zauto) (es : list zedge) (locs : list loc).
Let A1 := dropDead A locs.
Let B := keepLive Z es locs A1.
Definition keptT (l : loc) (a : letter) (t : trans) : Prop := exists e, In e es /\ a < CHAR_MAX /\ zeAct e = a /\ locAt Z (zeSrc e) = l /\ trans_eqb t (zeTr e) = true.
Lemma keptT_iff l a t : existsb (trans_eqb t) (liveTrans Z es l a) = true <-> keptT l a t.
Proof.
  unfold liveTrans, keptT. rewrite existsb_exists. split.
  - intros (u & H & E). apply in_map_iff in H. destruct H as (e & <- & H). apply filter_In in H. destruct H as [H K]. apply andb_true_iff in K. destruct K as [K K3]. apply andb_true_iff in K. destruct K as [K1 K2].
    apply Nat.ltb_lt in K1. apply Nat.eqb_eq in K2, K3. exists e. auto.
  - intros (e & H & K1 & K2 & K3 & K4). exists (zeTr e). split; [|auto]. apply in_map. apply filter_In. split; [auto|]. apply andb_true_iff. split; [apply andb_true_iff; split|]; [apply Nat.ltb_lt|apply Nat.eqb_eq|apply Nat.eqb_eq]; auto.
Qed.
Lemma drop_edge l a t : edge A1 l a t <-> edge A l a t /\ (A1 = A \/ In l locs /\ In (ttgt t) locs).
Proof.
  assert (TR : A1 = A -> (edge A1 l a t <-> edge A l a t /\ (A1 = A \/ In l locs /\ In (ttgt t) locs))) by (intro E; rewrite E; tauto). revert TR.
  unfold A1, dropDead. destruct (_ =? _); [tauto|]. intro TR. unfold edge in *. cbn [tstates] in *. split.
  - intros (s & ts & I & J & K). apply in_map_iff in I. destruct I as ([l0 s0] & E & I). cbn [fst snd] in E. injection E as -> <-. apply filter_In in I. destruct I as [I M]. cbn [fst] in M. apply memb_iff in M. cbn [snext] in J.
    assert (N : nedge (eraseTo (fun l => memb l locs) (snext s0)) a t) by (exists ts; auto). apply eraseTo_edge in N. destruct N as [(ts0 & N1 & N2) N3]. apply memb_iff in N3. split; [|auto]. exists s0, ts0. auto.
  - intros [(s & ts & I & J & K) [E|[L1 L2]]].
    + apply (proj2 (TR E)). split; [exists s, ts; auto|auto].
    + assert (N : nedge (eraseTo (fun l => memb l locs) (snext s)) a t) by (apply eraseTo_edge; split; [exists ts; auto|apply memb_iff; auto]). destruct N as (ts' & N1 & N2).
      eexists. exists ts'. split; [apply in_map_iff; exists (l, s); split; [reflexivity|]; apply filter_In; split; [auto|apply memb_iff; auto]|]. split; auto.
Qed.
Lemma keep_edge l a t : edge B l a t <-> edge A1 l a t /\ In l locs /\ keptT l a t.
Proof.
  unfold B, keepLive, edge. cbn [tstates]. split.
  - intros (s & ts & I & J & K). apply in_map_iff in I. destruct I as ([l0 s0] & E & I). cbn [fst snd] in E. injection E as -> <-. cbn [snext] in J. destruct (memb l locs) eqn:M; [|destruct J]. apply filter_In in J. destruct J as [J _].
    apply in_map_iff in J. destruct J as ([a0 ts0] & E & J). cbn [fst snd] in E. injection E as -> <-. apply filter_In in K. destruct K as [K1 K2]. apply keptT_iff in K2. apply memb_iff in M. split; [exists s0, ts0; auto|auto].
  - intros [(s & ts & I & J & K) [M KT]]. apply memb_iff in M. apply keptT_iff in KT. assert (F : In t (filter (fun t => existsb (trans_eqb t) (liveTrans Z es l a)) ts)) by (apply filter_In; auto).
    eexists. exists (filter (fun t => existsb (trans_eqb t) (liveTrans Z es l a)) ts). split; [apply in_map_iff; exists (l, s); split; [reflexivity|auto]|]. cbn [fst snd snext]. rewrite M. split; [|exact F]. apply filter_In. split; [apply in_map_iff; exists (a, ts); auto|].
    cbn [snd]. destruct (filter _ ts); [destruct F|auto].
Qed.
Lemma prune_acc l : accepting B l <-> accepting A l /\ (A1 = A \/ In l locs).
Proof.
  assert (H1 : accepting B l <-> accepting A1 l).
  { unfold B, keepLive, accepting. cbn [tstates]. split.
    - intros (s & I & M). apply in_map_iff in I. destruct I as ([l0 s0] & E & I). cbn [fst snd] in E. injection E as -> <-. exists s0. auto.
    - intros (s & I & M). eexists. split; [apply in_map_iff; exists (l, s); split; [reflexivity|auto]|]. exact M. }
  rewrite H1. assert (TR : A1 = A -> accepting A l -> accepting A1 l) by (intro E; rewrite E; auto). revert TR.
  unfold A1, dropDead. destruct (_ =? _); [tauto|]. intro TR. unfold accepting in *. cbn [tstates] in *. split.
  - intros (s & I & M). apply in_map_iff in I. destruct I as ([l0 s0] & E & I). cbn [fst snd] in E. injection E as -> <-. apply filter_In in I. destruct I as [I K]. apply memb_iff in K. split; [exists s0; auto|auto].
  - intros [(s & I & M) [E|K]]; [apply (TR E); exists s; auto|]. eexists. split; [apply in_map_iff; exists (l, s); split; [reflexivity|]; apply filter_In; split; [auto|apply memb_iff; auto]|exact M].
Qed.
Lemma prune_init l : In l (tinit B) <-> In l (tinit A) /\ (A1 = A \/ In l locs).
Proof.
  unfold B, keepLive. cbn [tinit]. unfold A1, dropDead. destruct (_ =? _); [tauto|]. cbn [tinit]. rewrite filter_In, memb_iff. split; [tauto|]. intros [H [E|K]]; [|auto]. split; [auto|].
  assert (X : tinit (mkTA (map (fun p => (fst p, mkS (isMatch (snd p)) (eraseTo (fun l => memb l locs) (snext (snd p))))) (filter (fun p => memb (fst p) locs) (tstates A))) (filter (fun l => memb l locs) (tinit A)) (tmax A)) = tinit A) by (rewrite E; reflexivity).
  cbn [tinit] in X. rewrite <- X in H. apply filter_In in H. apply memb_iff. tauto.
Qed.
Lemma prune_sub : subTA B A.
Proof. intros l a t H. apply keep_edge in H. destruct H as [H _]. apply drop_edge in H. tauto. Qed.
Lemma prune_states l : In l (map fst (tstates B)) <-> In l (map fst (tstates A)) /\ (A1 = A \/ In l locs).
Proof.
  unfold B, keepLive. cbn [tstates]. rewrite map_map. cbn [fst]. rewrite (map_ext _ fst) by auto. unfold A1, dropDead. destruct (_ =? _); [tauto|]. cbn [tstates]. rewrite map_map. cbn [fst]. rewrite (map_ext _ fst) by auto. rewrite !in_map_iff. split.
  - intros (p & E & H). apply filter_In in H. destruct H as [H K]. apply memb_iff in K. subst. split; [exists p; auto|auto].
  - intros [(p & E & H) [X|K]].
    + assert (Y : In p (map (fun p => (fst p, mkS (isMatch (snd p)) (eraseTo (fun l => memb l locs) (snext (snd p))))) (filter (fun p => memb (fst p) locs) (tstates A)))).
      { change (In p (tstates (mkTA (map (fun p => (fst p, mkS (isMatch (snd p)) (eraseTo (fun l => memb l locs) (snext (snd p))))) (filter (fun p => memb (fst p) locs) (tstates A))) (filter (fun l => memb l locs) (tinit A)) (tmax A)))). rewrite X. exact H. }
      apply in_map_iff in Y. destruct Y as (q & <- & Y). exists q. auto.
    + exists p. split; [auto|]. apply filter_In. split; [auto|]. apply memb_iff. subst. auto.
Qed.
Lemma prune_wf : wfTA A -> (forall l a t, keptT l a t -> In (ttgt t) locs) -> wfTA B.
Proof.
  intros (W1 & W2 & W3 & W4) KL. split; [|split; [|split]].
  - unfold B, keepLive. cbn [tstates]. rewrite map_map. cbn [fst]. rewrite (map_ext _ fst) by auto. unfold A1, dropDead. destruct (_ =? _); [auto|]. cbn [tstates]. rewrite map_map. cbn [fst]. rewrite (map_ext _ fst) by auto.
    clear - W1. induction (tstates A) as [|p l IH]; [constructor|]. cbn [map] in W1. inversion W1 as [|? ? N1 N2]; subst. cbn [filter]. destruct (memb (fst p) locs); [|auto]. cbn [map]. constructor; [|auto].
    intro H. apply N1. apply in_map_iff in H. destruct H as (q & E & H). apply filter_In in H. apply in_map_iff. exists q. tauto.
  - intros l s I. unfold B, keepLive in I. cbn [tstates] in I. apply in_map_iff in I. destruct I as ([l0 s0] & E & I). cbn [fst snd] in E. injection E as -> <-. cbn [snext].
    assert (N : NoDup (map fst (snext s0))).
    { unfold A1, dropDead in I. destruct (_ =? _) in I; [apply (W2 l s0 I)|]. cbn [tstates] in I. apply in_map_iff in I. destruct I as ([l1 s1] & E & I). cbn [fst snd] in E. injection E as -> <-. apply filter_In in I. apply eraseTo_nodup, (W2 l s1). tauto. }
    destruct (memb l locs); [|constructor]. set (g := fun q : letter * list trans => (fst q, filter (fun t => existsb (trans_eqb t) (liveTrans Z es l (fst q))) (snd q))).
    clearbody A1. clear - N. induction (snext s0) as [|p nx IH]; [constructor|]. cbn [map] in N. inversion N as [|? ? N1 N2]; subst. cbn [map filter]. destruct (match snd (g p) with [] => false | _ => true end); [|auto]. cbn [map]. constructor; [|auto].
    intro H. apply N1. apply in_map_iff in H. destruct H as (q & E & H). apply filter_In in H. destruct H as [H _]. apply in_map_iff in H. destruct H as (q' & <- & H). apply in_map_iff. exists q'. auto.
  - intros l a t H. assert (H' := prune_sub l a t H). apply keep_edge in H. destruct H as (_ & _ & H). apply prune_states. split; [apply (W3 l a t H')|right; apply (KL l a t H)].
  - intros l H. apply prune_init in H. apply prune_states. split; [apply W4; tauto|tauto].
Qed.
End Prune.

(** ** following the runs *)
Section Follow2.
Variables (A : ta) (Z : zauto).
Hypothesis (WF : wfTA A) (IV : zinv false A Z) (DN : forall k nd c t, nodeAt Z k nd -> edge A (znLoc nd) c t -> zdone Z k (c, t)).
Hypothesis (SL : forall l a t, edge A l a t -> a < CHAR_MAX).
Let live k := In k (liveNodes Z).
Let ks := fst (fst (removeDead Z)).
Let es := snd (fst (removeDead Z)).
Let locs := liveLocs Z ks.
Let B := keepLive Z es locs (dropDead A locs).
Lemma src_bound e : In e (zaEdges Z) -> zeSrc e < length (zaNodes Z) /\ zeTgt e < length (zaNodes Z).
Proof using IV.
  intro H. destruct (proj1 (proj2 IV) e H) as (ns & nt & N1 & N2 & _). unfold nodeAt in *. split; apply nth_error_Some; congruence.
Qed.
Lemma live_match k nd : nodeAt Z k nd -> znMatch nd = true -> live k.
Proof using IV. apply (liveNodes_ok Z (fun e H => proj1 (src_bound e H))). Qed.
Lemma live_pred e : In e (zaEdges Z) -> live (zeTgt e) -> live (zeSrc e).
Proof using IV. apply (liveNodes_ok Z (fun e H => proj1 (src_bound e H))). Qed.
Lemma zlive_iff k : live k <-> zlive Z k.
Proof using IV.
  split; [apply liveNodes_sound|]. induction 1 as [k nd N M|e He _ IH]; [apply (live_match k nd N M)|apply (live_pred e He IH)].
Qed.
Lemma es_iff e : In e es <-> In e (zaEdges Z) /\ live (zeTgt e).
Proof using IV.
  unfold es, removeDead. cbn [fst snd]. rewrite filter_In, andb_true_iff, !existsb_eqb. split; [tauto|]. intros [H K]. split; [auto|]. split; [apply (live_pred e H K)|exact K].
Qed.
Lemma locs_iff l : In l locs <-> exists k nd, nodeAt Z k nd /\ live k /\ znLoc nd = l.
Proof using.
  unfold locs, liveLocs, ks, removeDead. cbn [fst]. rewrite nodup_In, in_map_iff. split.
  - intros (k & <- & H). apply filter_In in H. destruct H as [H K]. apply existsb_eqb in K. apply in_seq in H. destruct (nth_error (zaNodes Z) k) as [nd|] eqn:E; [|apply nth_error_None in E; lia].
    exists k, nd. split; [exact E|]. split; [exact K|]. unfold locAt. rewrite E. reflexivity.
  - intros (k & nd & N & L & <-). exists k. unfold nodeAt in N. split; [unfold locAt; rewrite N; reflexivity|]. apply filter_In. split; [apply in_seq; split; [lia|]; cbn; apply nth_error_Some; congruence|]. apply existsb_eqb. exact L.
Qed.
Lemma locAt_node k nd : nodeAt Z k nd -> locAt Z k = znLoc nd.
Proof using. intro N. unfold locAt, nodeAt in *. rewrite N. reflexivity. Qed.
(** the edge of the zone automaton is kept *)
Lemma live_edge e ns : In e (zaEdges Z) -> live (zeTgt e) -> nodeAt Z (zeSrc e) ns -> edge B (znLoc ns) (zeAct e) (zeTr e).
Proof using IV SL.
  intros He Lv N. destruct (proj1 (proj2 IV) e He) as (ns' & nt & N1 & N2 & ED & LT & _). assert (ns' = ns) by (unfold nodeAt in *; congruence). subst ns'.
  assert (L1 : In (znLoc ns) locs) by (apply locs_iff; exists (zeSrc e), ns; split; [auto|]; split; [apply (live_pred e He Lv)|auto]).
  assert (L2 : In (ttgt (zeTr e)) locs) by (apply locs_iff; exists (zeTgt e), nt; auto).
  apply keep_edge. split; [apply drop_edge; auto|]. split; [exact L1|]. exists e. split; [apply es_iff; auto|]. split; [apply (SL _ _ _ ED)|]. split; [reflexivity|]. split; [apply locAt_node; auto|apply trans_eqb_refl].
Qed.
Lemma prune_fire k c a c' : isAt Z k c -> fire A a c c' -> exists k', isAt Z k' c' /\ (live k' -> live k /\ fire B a c c').
Proof using IV DN SL.
  intros (nd & v & d & N & L & I & Hd & E) (t & ED & G & LT & R). destruct c as [l v1]. cbn [fst snd] in *. subst l.
  assert (I1 : inZone (elapse (znZone nd)) v1).
  { apply (inZone_ext _ (delay v d)); [intros x _; symmetry; apply E|]. apply elapse_sound; auto. }
  destruct (DN k nd a t N ED nd v1 N I1 G) as [k' Ie]. cbn [fst snd] in Ie.
  destruct (proj1 (proj2 IV) _ Ie) as (ns & nt & N1 & N2 & _ & L2 & _ & PO). cbn [zeSrc zeTgt zeTr] in *.
  assert (ns = nd) by (unfold nodeAt in *; congruence). subst ns. exists k'. split.
  - exists nt, (snd c'), 0%Q. split; [auto|]. split; [congruence|]. split.
    + apply (inZone_ext _ (applyReset v1 (trst t))); [|auto]. intros x _. apply (isReset_fun (trst t) v1); [apply applyReset_isReset|auto].
    + split; [lra|]. intro x. unfold delay. lra.
  - intro Lv. split; [apply (live_pred _ Ie Lv)|]. exists t. split; [|auto]. apply (live_edge _ nd Ie Lv N).
Qed.
Lemma prune_flow c d c' : flow A c d c' -> forall k, isAt Z k c -> exists k', isAt Z k' c' /\ (live k' -> live k /\ flow B c d c').
Proof using IV DN SL.
  induction 1 as [l v d v' Hd E|c d1 c1 c2 d2 c' d F1 IH1 FI F2 IH2 E]; intros k AT.
  - exists k. split; [|intro Lv; split; [auto|constructor; auto]]. destruct AT as (nd & w & d0 & N & L & I & Hd0 & E0). exists nd, w, (d0 + d)%Q. cbn [fst snd] in *. do 3 (split; [auto|]). split; [lra|].
    intro x. rewrite (E x). unfold delay. rewrite (E0 x). unfold delay. lra.
  - destruct (IH1 k AT) as (k1 & A1 & P1). destruct (prune_fire k1 c1 _ c2 A1 FI) as (k2 & A2 & P2). destruct (IH2 k2 A2) as (k3 & A3 & P3). exists k3. split; [auto|].
    intro Lv. destruct (P3 Lv) as [L2 G3]. destruct (P2 L2) as [L1 G2]. destruct (P1 L1) as [L0 G1]. split; [auto|]. apply (flow_silent B c d1 c1 c2 d2 c' d); auto.
Qed.
Lemma prune_run c w c' : run A c w c' -> forall k, isAt Z k c -> exists k', isAt Z k' c' /\ (live k' -> live k /\ run B c w c').
Proof using IV DN SL.
  induction 1 as [c|c a d c1 c2 w c' FI FL R IH]; intros k AT.
  - exists k. split; [auto|]. intro Lv. split; [auto|constructor].
  - destruct (prune_fire k c a c1 AT FI) as (k1 & A1 & P1). destruct (prune_flow c1 d c2 FL k1 A1) as (k2 & A2 & P2). destruct (IH k2 A2) as (k3 & A3 & P3). exists k3. split; [auto|].
    intro Lv. destruct (P3 Lv) as [L2 G3]. destruct (P2 L2) as [L1 G2]. destruct (P1 L1) as [L0 G1]. split; [auto|]. apply (run_cons B c a d c1 c2 w c'); auto.
Qed.
Lemma isAt_loc k c : isAt Z k c -> live k -> In (fst c) locs.
Proof using. intros (nd & v & d & N & L & _) Lv. apply locs_iff. exists k, nd. auto. Qed.
Lemma prune_accepts d0 w : accepts A d0 w -> accepts B d0 w.
Proof using WF IV DN SL.
  intros (l0 & c0 & c & Hl & FL & R & AC).
  destruct (init_node false A Z l0 (fun _ => 0%Q) IV Hl (fun x => Qeq_refl 0)) as (k0 & nd0 & I0 & N0 & L0 & Z0).
  assert (AT : isAt Z k0 (l0, fun _ => 0%Q)).
  { exists nd0, (fun _ => 0%Q), 0%Q. do 3 (split; [auto|]). split; [lra|]. intro x. cbn [snd]. unfold delay. lra. }
  destruct (prune_flow _ _ _ FL k0 AT) as (k1 & A1 & P1). destruct (prune_run _ _ _ R k1 A1) as (k2 & A2 & P2).
  assert (Lv : live k2).
  { destruct A2 as (nd & v & d & N & L & _). apply (live_match k2 nd N). destruct (proj1 IV k2 nd N) as (_ & _ & q & Lq & M). rewrite L in Lq. destruct AC as (st & Hs & AC). rewrite M, (lookup_in A (fst c) st (proj1 WF) Hs) in *. congruence. }
  destruct (P2 Lv) as [L1 G2]. destruct (P1 L1) as [L2 G1].
  exists l0, c0, c. split; [apply prune_init; split; [auto|]; right; apply (isAt_loc k0 _ AT L2)|]. split; [auto|]. split; [auto|]. apply prune_acc. split; [auto|]. right. apply (isAt_loc k2 _ A2 Lv).
Qed.
(** ** nothing useless is left *)
Lemma live_reach : forall k nd, nodeAt Z k nd -> live k -> areach B (znLoc nd).
Proof using IV SL.
  intro k. induction k as [k IH] using lt_wf_ind. intros nd N Lv. destruct IV as (V1 & V2 & V3 & V4 & V5). assert (F := V5 k nd N). destruct (k <? length (tinit A)) eqn:E.
  - destruct F as [F _]. apply ar_init. apply prune_init. split; [eapply nth_error_In; eauto|]. right. apply locs_iff. exists k, nd. auto.
  - destruct F as (e & ns & z0 & I & T & L & Ns & _). assert (Lt : live (zeTgt e)) by (rewrite T; auto). assert (ED := live_edge e ns I Lt Ns). destruct (V2 e I) as (ns' & nt & _ & N2 & _ & LT & _).
    assert (nt = nd) by (rewrite T in N2; unfold nodeAt in *; congruence). subst nt. rewrite LT. apply (ar_step B (znLoc ns) (zeAct e)); [|auto]. apply (IH (zeSrc e) L ns Ns). apply (live_pred e I Lt).
Qed.
Lemma live_alive k : zlive Z k -> forall nd, nodeAt Z k nd -> alive B (znLoc nd).
Proof using IV SL WF.
  induction 1 as [k nd0 N0 M|e He Lt IH]; intros nd N.
  - assert (nd0 = nd) by (unfold nodeAt in *; congruence). subst nd0. apply al_acc. apply prune_acc. destruct (proj1 IV k nd N) as (_ & _ & q & Lq & Mq). split.
    + exists q. split; [apply lookup_some; auto|congruence].
    + right. apply locs_iff. exists k, nd. split; [auto|]. split; [apply (live_match k nd N M)|auto].
  - apply zlive_iff in Lt. destruct (proj1 (proj2 IV) e He) as (ns & nt & _ & N2 & _ & LT & _). apply (al_step B (znLoc nd) (zeAct e) (zeTr e)); [apply (live_edge e nd He Lt N)|]. rewrite <- LT. apply (IH nt N2).
Qed.
Lemma locs_states l : In l locs -> In l (map fst (tstates A)).
Proof using IV.
  intro H. apply locs_iff in H. destruct H as (k & nd & N & _ & <-). destruct (proj1 IV k nd N) as (_ & _ & q & Lq & _). apply lookup_some in Lq. apply in_map_iff. exists (znLoc nd, q). auto.
Qed.
Lemma states_locs l : In l (map fst (tstates B)) <-> In l locs.
Proof using IV WF.
  split.
  - intro H. apply prune_states in H. destruct H as [H [E|K]]; [|auto]. unfold dropDead in E. destruct (length locs =? length (tstates A)) eqn:EL.
    + apply Nat.eqb_eq in EL. assert (ND : NoDup locs) by (unfold locs, liveLocs; apply NoDup_nodup). apply (NoDup_length_incl ND (l' := map fst (tstates A))); [rewrite map_length; lia|intros x Hx; apply locs_states; auto|auto].
    + exfalso. apply Nat.eqb_neq in EL. apply EL. apply Nat.le_antisymm.
      * rewrite <- (map_length fst (tstates A)). apply NoDup_incl_length; [unfold locs, liveLocs; apply NoDup_nodup|intros x Hx; apply locs_states; auto].
      * rewrite <- (map_length fst (tstates A)). apply NoDup_incl_length; [apply (proj1 WF)|]. intros x Hx. rewrite <- E in Hx. cbn [tstates] in Hx. rewrite map_map in Hx. cbn [fst] in Hx. apply in_map_iff in Hx. destruct Hx as (p & <- & Hx). apply filter_In in Hx. apply memb_iff. tauto.
  - intro H. apply prune_states. split; [apply locs_states; auto|auto].
Qed.
Lemma prune_trim l : In l (map fst (tstates B)) -> areach B l /\ alive B l.
Proof using IV WF SL.
  intro H. apply states_locs, locs_iff in H. destruct H as (k & nd & N & Lv & <-). split; [apply (live_reach k nd N Lv)|apply (live_alive k); [apply zlive_iff; auto|auto]].
Qed.
Lemma kept_target l a t : keptT Z es l a t -> In (ttgt t) locs.
Proof using IV.
  intros (e & H & _ & _ & _ & E). apply es_iff in H. destruct H as [H Lv]. destruct (proj1 (proj2 IV) e H) as (ns & nt & _ & N2 & _ & LT & _).
  assert (ttgt t = ttgt (zeTr e)). { unfold trans_eqb in E. apply andb_true_iff in E. destruct E as [E _]. apply andb_true_iff in E. destruct E as [E _]. apply Nat.eqb_eq in E. auto. }
  rewrite H0. apply locs_iff. exists (zeTgt e), nt. auto.
Qed.
End Follow2.
