(** The hypothesis and the recognizable language of the table: reading a suffix
    after a prefix, and clocks that do not matter. *)
From Coq Require Import QArith Qround ZArith Bool List Arith Lia Lqa Permutation Wf_nat.
From Verif Require Import BoundsModel BoundsProofs ConstraintModel GuardSpec ConstraintProofs ZoneModel ZoneSpec ZoneProofs ZoneProofs2 ZoneProofs3 ZoneProofs4 AutomatonModel AutomatonSpec AutomatonProofs AutomatonProofs2
  TimedWordModel TimedWordSpec TimedWordProofs TimedConditionModel TimedConditionSpec TimedConditionProofs TimedConditionProofs4 ElementaryModel
  ElementarySpec ElementaryProofs ElementaryProofs2 LooseProofs RegionalModel RegionalSpec RegionalProofs3 RegionalProofs4 RegionalProofs5 RegionalProofs6 OracleModel OracleSpec SymbolicModel SymbolicSpec CexModel CexSpec CexProofs CexProofs2
  RenamingModel RenamingSpec RenamingProofs RenamingProofs2 RenamingProofs5 RenamingProofs6 ShapeProofs TableModel TableProofs2 TableProofs3 TableProofs4 PropertiesRenaming
  HypothesisModel HypothesisBox HypothesisChain HypothesisGuard HypothesisTimes HypothesisBfs HypothesisBfs3 HypothesisRaw HypothesisRaw2 HypothesisRows HypothesisReset HypothesisStep HypothesisStep2 HypothesisRun HypothesisSample.
Import ListNotations.
Open Scope Q_scope.

(** ** runs *)
Lemma run_app_inv A w : forall c w' c2, run A c (w ++ w') c2 -> exists c1, run A c w c1 /\ run A c1 w' c2.
Proof.
  induction w as [|[a d] w IH]; intros c w' c2 H; [exists c; split; [constructor|exact H]|]. cbn [app] in H. inversion H as [|? ? ? c1 c1' ? ? F1 F2 F3]; subst.
  destruct (IH _ _ _ F3) as (c3 & H1 & H2). exists c3. split; [econstructor; eauto|auto].
Qed.
Lemma run_veq A l v v1 es c : veq v v1 -> run A (l, v) es c -> exists c', run A (l, v1) es c' /\ fst c' = fst c.
Proof.
  intros E H. inversion H as [|? ? ? c1 c2 ? ? F1 F2 F3]; subst; [exists (l, v1); split; [constructor|reflexivity]|]. exists c. split; [|auto]. econstructor; [apply (fire_veq A _ l v v1 c1 E F1)|exact F2|exact F3].
Qed.
Lemma addBack_app d q e : addBack (d ++ [q]) e = d ++ [q + e].
Proof. induction d as [|x d IH]; [reflexivity|]. cbn [app]. destruct (d ++ [q]) as [|y l] eqn:E; [destruct d; discriminate|]. change (addBack (x :: y :: l) e) with (x :: addBack (y :: l) e). rewrite IH. reflexivity. Qed.
Lemma combine_app2 {X Y} (w w' : list X) (d d' : list Y) : length w = length d -> combine (w ++ w') (d ++ d') = combine w d ++ combine w' d'.
Proof. revert d. induction w as [|a w IH]; intros [|x d] H; try discriminate; [reflexivity|]. cbn [app combine]. f_equal. apply IH. injection H as H. exact H. Qed.
(** the events of a word with at least one letter followed by another word *)
Lemma concat_events u a q s : length (td u) = S (length (tw u)) -> firstDur (concatTW (mkTW (tw u ++ [a]) (td u ++ [q])) s) = firstDur u /\
  events (concatTW (mkTW (tw u ++ [a]) (td u ++ [q])) s) = events u ++ (a, q + firstDur s) :: events s.
Proof.
  intro L. unfold concatTW, firstDur, events. cbn [tw td]. rewrite addBack_app. destruct u as [w [|d0 d]]; [discriminate|]. cbn [tw td app hd tl] in *. split; [reflexivity|].
  rewrite <- app_assoc. rewrite <- app_assoc. cbn [length] in L. rewrite combine_app2 by lia. f_equal. 
Qed.
(** acceptance from a configuration *)
Definition acc (A : ta) (l : loc) (v : valuation) (es : list (letter * Q)) : Prop := exists c, run A (l, v) es c /\ accepting A (fst c).
Lemma acc_veq A l v v' es : veq v v' -> acc A l v es -> acc A l v' es.
Proof. intros E (c & H & K). destruct (run_veq A l v v' es c E H) as (c' & H' & E'). exists c'. split; [auto|]. rewrite E'. auto. Qed.
Lemma word_cases u : length (td u) = S (length (tw u)) -> (exists d, u = mkTW [] [d]) \/ exists u' a q, u = mkTW (tw u' ++ [a]) (td u' ++ [q]) /\ length (td u') = S (length (tw u')).
Proof.
  destruct u as [w d]. cbn [tw td]. intro L. destruct (@exists_last _ d) as (d' & q & ->); [intros ->; discriminate|]. rewrite app_length in L. cbn [length] in L. destruct w as [|b w].
  - left. destruct d' as [|x d']; [exists q; reflexivity|cbn in L; lia].
  - right. destruct (@exists_last _ (b :: w)) as (w' & a & E); [discriminate|]. rewrite E in *. exists (mkTW w' d'), a, q. cbn [tw td]. split; [reflexivity|]. rewrite app_length in L. cbn in L. lia.
Qed.
Lemma delay_delay v d e : veq (delay v (d + e)) (delay (delay v d) e).
Proof. intro x. unfold delay. lra. Qed.

(** reading a concatenation *)
Section Concat.
Context (A : ta) (NS : noSilent A) (IA : tinit A = [0%nat]).
Notation reads := (HypothesisRun.reads A).
Lemma reads_concat p s l v : length (td p) = S (length (tw p)) -> reads p (l, v) -> 0 <= firstDur s -> acc A l (delay v (firstDur s)) (events s) -> acceptsTW A (concatTW p s).
Proof using NS IA.
  intros L (c0 & F0 & H0) E0 (c & H & Ac). unfold acceptsTW, accepts. rewrite IA. destruct (word_cases p L) as [(d & ->)|(u & a & q & -> & Lu)].
  - destruct c0 as [l0 v0]. destruct (flow_noSilent A _ _ _ _ NS F0) as (X1 & X2 & X3). unfold events in H0. cbn [tw td tl firstDur hd combine fst snd] in *. inversion H0; subst.
    exists 0%nat, (0%nat, delay v (firstDur s)), c. split; [left; auto|]. unfold concatTW, firstDur at 1, events. cbn [tw td addBack app hd tl]. split; [|split; [exact H|auto]].
    constructor; [unfold firstDur in *; cbn [hd td] in *; lra|]. apply (veq_trans _ (delay (delay (fun _ => 0) d) (firstDur s))); [apply delay_veq; exact X2|]. apply veq_sym, delay_delay.
  - destruct (events_snoc u a q Lu) as [E1 E2]. rewrite E1, E2 in *. destruct (concat_events u a q s Lu) as [E3 E4]. rewrite E3, E4. destruct (run_app_inv _ _ _ _ _ H0) as (c1 & H1 & H2).
    inversion H2 as [|? ? ? [l2 v2] c3 ? ? G1 G2 G3]; subst. inversion G3; subst. destruct (flow_noSilent A _ _ _ _ NS G2) as (X1 & X2 & X3). cbn [fst snd] in *. subst l2.
    exists 0%nat, c0, c. split; [left; auto|]. split; [exact F0|]. split; [|auto]. apply (run_app A c0 _ c1); [auto|]. apply (run_cons A c1 a (q + firstDur s) (l, v2) (l, delay v (firstDur s))); [exact G1| |exact H].
    constructor; [lra|]. apply (veq_trans _ (delay (delay v2 q) (firstDur s))); [apply delay_veq; exact X2|]. apply veq_sym, delay_delay.
Qed.
Lemma reads_concat_inv p s : length (td p) = S (length (tw p)) -> (forall q, In q (td p) -> 0 <= q) -> 0 <= firstDur s -> acceptsTW A (concatTW p s) -> exists l v, reads p (l, v) /\ acc A l (delay v (firstDur s)) (events s).
Proof using NS IA.
  intros L NN E0 (l0 & c0 & c & I & F & H & Ac). rewrite IA in I. destruct I as [<-|[]]. destruct (word_cases p L) as [(d & ->)|(u & a & q & -> & Lu)].
  - destruct c0 as [l0 v0]. destruct (flow_noSilent A _ _ _ _ NS F) as (X1 & X2 & X3). unfold concatTW, firstDur in X2, X3. unfold concatTW, events in H. cbn [tw td addBack app hd tl fst snd] in *. subst l0.
    exists 0%nat, (delay (fun _ => 0) d). split.
    + exists (0%nat, delay (fun _ => 0) d). unfold firstDur, events. cbn [tw td hd tl combine]. split; [|constructor]. constructor; [apply NN; left; auto|apply veq_refl].
    + apply (acc_veq A 0%nat v0); [|exists c; auto]. apply (veq_trans _ _ _ X2). apply delay_delay.
  - destruct (concat_events u a q s Lu) as [E3 E4]. rewrite E3 in F. rewrite E4 in H. destruct (run_app_inv _ _ _ _ _ H) as (c1 & H1 & H2). inversion H2 as [|? ? ? [l2 v2] [l3 v3] ? ? G1 G2 G3]; subst.
    destruct (flow_noSilent A _ _ _ _ NS G2) as (X1 & X2 & X3). cbn [fst snd] in *. subst l3. assert (Q0 : 0 <= q) by (apply NN; cbn [td]; apply in_or_app; right; left; auto).
    exists l2, (delay v2 q). split.
    + destruct (events_snoc u a q Lu) as [E1 E2]. exists c0. rewrite E1, E2. split; [exact F|]. apply (run_app A c0 _ c1); [auto|]. apply (run_cons A c1 a q (l2, v2) (l2, delay v2 q)); [exact G1| |constructor]. constructor; [auto|apply veq_refl].
    + apply (acc_veq A l2 v3); [|exists c; auto]. apply (veq_trans _ _ _ X2). apply delay_delay.
Qed.
End Concat.

(** ** resets that forget *)
Section RenAgree.
Context (x y : elem) (r : list (nat * nat)).
Context (Wx : wfElem x) (Wy : wfElem y) (Sy : isSimple (ec y) = true) (Iy : intCond (ec y)) (RI : renIn r x y).
Context (EX : forall p, inElem x p -> exists p', inElem y p' /\ related r p p').
Notation T0 := (externalT (ec x) (ec y) r).
Lemma ext_allkeys k : (k <= length (ew y))%nat -> In k (map fst (toReset (clos x y r) (ec y))).
Proof using Wy.
  intro Hk. assert (C : tcSize (ec y) = S (length (ew y))) by (destruct Wy; auto).
  destruct (toReset_loop (toValuation (ec y)) (map (fun q => (snd q, RVar (fst q))) (clos x y r)) ltac:(rewrite map_map; cbn [fst]; exact (clos_nodup x y r)) (tcSize (ec y))) as (_ & _ & A & B).
  change (fold_left (toResetStep (toValuation (ec y))) (seq 0 (tcSize (ec y))) (map (fun q => (snd q, RVar (fst q))) (clos x y r))) with (toReset (clos x y r) (ec y)) in *.
  apply in_map_iff. destruct (in_dec Nat.eq_dec k (map fst (map (fun q : nat * nat => (snd q, RVar (fst q))) (clos x y r)))) as [I|I].
  + destruct (Qeq_dec (nth k (toValuation (ec y)) 0) (qfloor (nth k (toValuation (ec y)) 0))) as [D|D].
    * exists (k, RConst (nth k (toValuation (ec y)) 0)). split; [auto|]. apply A; [lia|auto].
    * apply in_map_iff in I. destruct I as ((k' & e) & E & I). cbn in E. subst k'. exists (k, e). split; [auto|]. apply B; [lia|auto|auto].
  + exists (k, RConst (nth k (toValuation (ec y)) 0)). split; [auto|]. apply A; [lia|auto].
Qed.
(** what an external transition leaves in the clocks of its target depends only
    on the clocks of its source *)
Lemma ext_agree l v v' u u' k : (forall k, (k <= length (ew x))%nat -> v k == u k) -> isReset (trst (T0 l)) v v' -> isReset (trst (T0 l)) u u' -> (k <= length (ew y))%nat -> v' k == u' k.
Proof using Wx Wy RI EX.
  intros V Hv Hu Hk. rewrite ext_trst in Hv, Hu. apply isReset_applyReset in Hv, Hu. rewrite (Hv k), (Hu k). assert (K := tr0_keys x y r Wx Wy RI EX). rewrite !clean_applies by exact K.
  apply reset_agree; [exact K|apply ext_allkeys; auto|]. intros z Hz. apply (tr0_entries x y r Wx Wy RI EX) in Hz. destruct Hz as [(i & E & Hi)|(i & _ & E)]; [injection E as <-; apply V; auto|discriminate].
Qed.
Lemma clos_trivial : onlyTrivial r (ec y) = true -> onlyTrivial (clos x y r) (ec y) = true.
Proof using Wx Wy Sy Iy RI EX.
  intro K. assert (C' : tcSize (ec y) = S (length (ew y))) by (destruct Wy; auto).
  unfold onlyTrivial. apply forallb_forall. intros [i k] H. cbn [snd]. apply clos_in in H. apply (make_exact x y r Wx Wy RI EX) in H. cbn [fst snd] in H. destruct H as (Hi & Hk & H).
  destruct (wfElem_inhabited x Wx) as [p Ip]. apply (const_point (ec y) k (since (td p) i)); [apply Wy|auto|lia|]. intros v Hv. destruct (zone_word y v Wy Hv) as (p' & I' & V). rewrite <- (V k Hk). symmetry. apply H; auto.
  intros a b Hab. destruct (RI a b Hab) as [Ha Hb]. unfold onlyTrivial in K. rewrite forallb_forall in K. specialize (K (a, b) Hab). cbn [snd] in K.
  destruct (point_value (ec y) b (proj1 Wy) Iy K ltac:(lia)) as [z Z]. destruct (EX p Ip) as (p0 & I0 & R0). rewrite (R0 a b Hab). rewrite (V b Hb), (Z v Hv).
  rewrite since_acc by (rewrite (word_len y p0); auto; lia). apply Z. apply (word_zone y p0 Wy I0).
Qed.
(** without renamed clocks the clocks get the constants *)
Lemma ext_consts l v v' k : onlyTrivial r (ec y) = true -> isReset (trst (T0 l)) v v' -> (k <= length (ew y))%nat -> v' k == nth k (toValuation (ec y)) 0.
Proof using Wx Wy Sy Iy RI EX.
  intros OT Hv Hk. rewrite ext_trst in Hv. apply isReset_applyReset in Hv. rewrite (Hv k). assert (K := tr0_keys x y r Wx Wy RI EX). rewrite clean_applies by exact K.
  assert (C : tcSize (ec y) = S (length (ew y))) by (destruct Wy; auto). assert (CT := clos_trivial OT).
  destruct (toReset_loop (toValuation (ec y)) (map (fun q => (snd q, RVar (fst q))) (clos x y r)) ltac:(rewrite map_map; cbn [fst]; exact (clos_nodup x y r)) (tcSize (ec y))) as (_ & _ & A & _).
  change (fold_left (toResetStep (toValuation (ec y))) (seq 0 (tcSize (ec y))) (map (fun q => (snd q, RVar (fst q))) (clos x y r))) with (toReset (clos x y r) (ec y)) in *.
  assert (E : In (k, RConst (nth k (toValuation (ec y)) 0)) (toReset (clos x y r) (ec y))).
  { apply A; [lia|]. destruct (in_dec Nat.eq_dec k (map fst (map (fun q : nat * nat => (snd q, RVar (fst q))) (clos x y r)))) as [I|I]; [right|left; auto].
    apply in_map_iff in I. destruct I as ((k' & e) & E & I). cbn in E. subst k'. apply in_map_iff in I. destruct I as ((i & k') & E & I). cbn in E. injection E as -> _.
    unfold onlyTrivial in CT. rewrite forallb_forall in CT. specialize (CT _ I). cbn [snd] in CT. destruct (point_value (ec y) k (proj1 Wy) Iy CT ltac:(lia)) as [z Z].
    destruct (toValuation_in (ec y) (proj1 Wy) (simple_bounded _ (proj1 Wy) Sy)) as [_ ZV]. specialize (Z _ ZV). cbv beta in Z. apply (floor_int _ z). exact Z. }
  rewrite (entry_apply _ v k _ K E). reflexivity.
Qed.
End RenAgree.
