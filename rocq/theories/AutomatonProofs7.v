(** The product automaton. *)
From Coq Require Import QArith ZArith Bool List Arith Lia Lqa Cantor.
From Verif Require Import BoundsModel ConstraintModel GuardSpec ZoneModel AutomatonModel AutomatonSpec.
From Verif Require Import BoundsProofs ConstraintProofs AutomatonProofs AutomatonProofs2.
Import ListNotations.
Open Scope Q_scope.

(** ** flows compose *)
Lemma flow_prepend A c d c' : flow A c d c' -> forall l v v0 e, c = (l, v) -> 0 <= e -> veq v (delay v0 e) -> flow A (l, v0) (e + d) c'.
Proof.
  induction 1 as [l v d v' Hd Hv | c d1 c1 c2 d2 c' d F1 IH1 Fi F2 IH2 E]; intros l0 u u0 e Ec He Eu.
  - injection Ec as -> ->. constructor; [lra|]. intro x. rewrite (Hv x). unfold delay in *. rewrite (Eu x). lra.
  - apply (flow_silent A _ (e + d1) c1 c2 d2); auto; [eapply IH1; eauto|]. lra.
Qed.
Lemma flow_concat A c d1 c1 : flow A c d1 c1 -> forall d2 c2, flow A c1 d2 c2 -> flow A c (d1 + d2) c2.
Proof.
  induction 1 as [l v d v' Hd Hv | c e1 c1 c2 e2 c' d F1 IH1 Fi F2 IH2 E]; intros d2 c3 G.
  - eapply flow_prepend; eauto.
  - apply (flow_silent A _ e1 c1 c2 (e2 + d2)); auto. rewrite E. lra.
Qed.

(** ** simulation where unobservable steps may be ignored *)
Section StSim.
Variables (A B : ta) (R : conf -> conf -> Prop).
Hypothesis Hdelay : forall l v l' w d v1, R (l, v) (l', w) -> 0 <= d -> veq v1 (delay v d) ->
  exists w1, veq w1 (delay w d) /\ R (l, v1) (l', w1).
Hypothesis Hfire : forall a c1 c2 c1', R c1 c1' -> fire A a c1 c2 ->
  (exists c2', fire B a c1' c2' /\ R c2 c2') \/ (a = UNOBSERVABLE /\ R c2 c1').
Hypothesis Hinit : forall l0, In l0 (tinit A) -> exists l0', In l0' (tinit B) /\ R (l0, fun _ => 0) (l0', fun _ => 0).
Hypothesis Hacc : forall c c', R c c' -> accepting A (fst c) -> accepting B (fst c').
Lemma ssim_flow c d c1 : flow A c d c1 -> forall c', R c c' -> exists c1', flow B c' d c1' /\ R c1 c1'.
Proof.
  induction 1 as [l v d v' Hd Hv | c d1 c1 c2 d2 c3 d F1 IH1 Fi F2 IH2 E]; intros c' HR.
  - destruct c' as [l' w]. destruct (Hdelay l v l' w d v' HR Hd Hv) as (w1 & Ew & HR1).
    exists (l', w1). split; auto. constructor; auto.
  - destruct (IH1 c' HR) as (c1' & G1 & R1). destruct (Hfire _ _ _ _ R1 Fi) as [(c2' & G2 & R2)|[_ R2]].
    + destruct (IH2 c2' R2) as (c3' & G3 & R3). exists c3'. split; auto. eapply flow_silent; eauto.
    + destruct (IH2 c1' R2) as (c3' & G3 & R3). exists c3'. split; auto.
      apply (flow_Q B c' (d1 + d2)); [|symmetry; exact E]. eapply flow_concat; eauto.
Qed.
Lemma ssim_run c w c1 : run A c w c1 -> observable w -> forall c', R c c' -> exists c1', run B c' w c1' /\ R c1 c1'.
Proof.
  induction 1 as [c | c a d c1 c2 w c3 Fi F Rn IH]; intros Ow c' HR.
  - exists c'. split; [constructor|auto].
  - destruct (Hfire _ _ _ _ HR Fi) as [(c1' & G1 & R1)|[E _]]; [|exfalso; apply (Ow a d); [left; reflexivity|auto]].
    destruct (ssim_flow _ _ _ F c1' R1) as (c2' & G2 & R2).
    destruct (IH (fun b e I => Ow b e (or_intror I)) c2' R2) as (c3' & G3 & R3). exists c3'. split; auto. econstructor; eauto.
Qed.
Lemma ssim_accepts d0 w : observable w -> accepts A d0 w -> accepts B d0 w.
Proof.
  intros Ow (l0 & c0 & c & Hi & F & Rn & Ac). destruct (Hinit l0 Hi) as (l0' & Hi' & HR).
  destruct (ssim_flow _ _ _ F _ HR) as (c0' & G0 & R0). destruct (ssim_run _ _ _ Rn Ow _ R0) as (c' & G & R1).
  exists l0', c0', c'. split; [exact Hi'|]. split; [exact G0|]. split; [exact G|]. eapply Hacc; eauto.
Qed.
End StSim.

(** ** sequential form of a flow *)
Inductive sflow (A : ta) : conf -> Q -> conf -> nat -> Prop :=
| sf_end l v d v' : 0 <= d -> veq v' (delay v d) -> sflow A (l, v) d (l, v') 0
| sf_step l v d1 v1 c2 d2 c' d n : 0 <= d1 -> veq v1 (delay v d1) -> fire A UNOBSERVABLE (l, v1) c2 ->
    sflow A c2 d2 c' n -> d == d1 + d2 -> sflow A (l, v) d c' (S n).
Lemma sflow_nonneg A c d c' n : sflow A c d c' n -> 0 <= d.
Proof. induction 1; lra. Qed.
Lemma sflow_Q A c d c' n : sflow A c d c' n -> forall d', d == d' -> sflow A c d' c' n.
Proof.
  induction 1 as [l v d v' Hd Hv|l v d1 v1 c2 d2 c' d n Hd Hv Fi F IH E]; intros d' Ed.
  - constructor; [lra|]. intro x. rewrite (Hv x). unfold delay. lra.
  - eapply sf_step; eauto. lra.
Qed.
Lemma sflow_prepend A l v d c' n v0 e : sflow A (l, v) d c' n -> 0 <= e -> veq v (delay v0 e) -> sflow A (l, v0) (e + d) c' n.
Proof.
  intros H He Ev. inversion H as [? ? ? v' Hd Hv|? ? d1 v1 c2 d2 ? ? m Hd1 Hv1 Fi F E]; subst.
  - constructor; [lra|]. intro x. rewrite (Hv x). unfold delay in *. rewrite (Ev x). lra.
  - eapply (sf_step A l v0 (e + d1) v1); eauto; [lra| |lra].
    intro x. rewrite (Hv1 x). unfold delay in *. rewrite (Ev x). lra.
Qed.
Lemma sflow_concat A c d1 c1 n : sflow A c d1 c1 n -> forall d2 c2 m, sflow A c1 d2 c2 m -> sflow A c (d1 + d2) c2 (n + m).
Proof.
  induction 1 as [l v d v' Hd Hv|l v e1 v1 c2 e2 c' d n Hd Hv Fi F IH E]; intros d2 c3 m G.
  - eapply sflow_prepend; eauto.
  - cbn [Nat.add]. eapply sf_step; eauto. lra.
Qed.
Lemma flow_sflow A c d c' : flow A c d c' -> exists n, sflow A c d c' n.
Proof.
  induction 1 as [l v d v' Hd Hv | c d1 c1 c2 d2 c' d F1 [n1 IH1] Fi F2 [n2 IH2] E].
  - exists 0%nat. constructor; auto.
  - destruct c1 as [l1 v1].
    assert (G : sflow A (l1, v1) d2 c' (S n2)).
    { eapply (sf_step A l1 v1 0 v1); eauto; [lra| |lra]. intro x. unfold delay. lra. }
    exists (n1 + S n2)%nat. apply (sflow_Q A c (d1 + d2)); [|symmetry; exact E]. eapply sflow_concat; eauto.
Qed.
(** either the first delay is at least [e], or an unobservable step comes first *)
Lemma sflow_split A l v d c' n e : sflow A (l, v) d c' n -> 0 <= e -> e <= d ->
  sflow A (l, delay v e) (d - e) c' n \/
  (exists d1 v1 c2 d2 m, n = S m /\ 0 <= d1 /\ d1 <= e /\ veq v1 (delay v d1) /\ fire A UNOBSERVABLE (l, v1) c2 /\ sflow A c2 d2 c' m /\ d == d1 + d2).
Proof.
  intros H He Hd. inversion H as [? ? ? v' Hd' Hv|? ? d1 v1 c2 d2 ? ? m Hd1 Hv1 Fi F E]; subst.
  - left. constructor; [lra|]. intro x. rewrite (Hv x). unfold delay. lra.
  - destruct (Qlt_le_dec e d1) as [L|L].
    + left. eapply (sf_step A l _ (d1 - e) v1); eauto; [lra| |lra].
      intro x. rewrite (Hv1 x). unfold delay. lra.
    + right. exists d1, v1, c2, d2, m. split; [reflexivity|]. split; [auto|]. split; [auto|]. split; [auto|]. split; [auto|]. split; [auto|]. exact E.
Qed.

(** ** the product *)
Lemma pairLoc_inj a b c d : pairLoc a b = pairLoc c d -> a = c /\ b = d.
Proof.
  unfold pairLoc. intro H. assert (K := f_equal Cantor.of_nat H). rewrite !Cantor.cancel_of_to in K. injection K as -> ->. auto.
Qed.

Section Prod.
Variables (A B : ta).
Hypothesis (WA : wfTA A) (WB : wfTA B).
Let n := length (tmax A).
Hypothesis (CA : clocksBelow n A).
Let P := intersectionTA A B.

Lemma prod_in L s : In (L, s) (tstates P) <-> exists l1 s1 l2 s2, In (l1, s1) (tstates A) /\ In (l2, s2) (tstates B) /\
  L = pairLoc l1 l2 /\ s = mkS (isMatch s1 && isMatch s2) (pushAll [] (prodEdges n l1 s1 l2 s2)).
Proof.
  unfold P, intersectionTA. cbn [tstates]. rewrite in_flat_map. split.
  - intros ([l1 s1] & H1 & H). apply in_map_iff in H. destruct H as ([l2 s2] & E & H2). cbn [fst snd] in E. injection E as <- <-.
    exists l1, s1, l2, s2. auto.
  - intros (l1 & s1 & l2 & s2 & H1 & H2 & -> & ->). exists (l1, s1). split; auto. apply in_map_iff. exists (l2, s2). auto.
Qed.
Inductive pedge (l1 l2 : loc) (a : letter) (t : trans) : Prop :=
| pe_left e1 : a = UNOBSERVABLE -> edge A l1 UNOBSERVABLE e1 -> In l2 (map fst (tstates B)) ->
    t = prodTrans n (pairLoc (ttgt e1) l2) (trst e1) [] (tgrd e1) [] -> pedge l1 l2 a t
| pe_right e2 : a = UNOBSERVABLE -> edge B l2 UNOBSERVABLE e2 -> In l1 (map fst (tstates A)) ->
    t = prodTrans n (pairLoc l1 (ttgt e2)) [] (trst e2) [] (tgrd e2) -> pedge l1 l2 a t
| pe_both e1 e2 : edge A l1 a e1 -> edge B l2 a e2 ->
    t = prodTrans n (pairLoc (ttgt e1) (ttgt e2)) (trst e1) (trst e2) (tgrd e1) (tgrd e2) -> pedge l1 l2 a t.
Lemma prodEdges_in l1 s1 l2 s2 a t : NoDup (map fst (snext s1)) -> NoDup (map fst (snext s2)) ->
  In (a, t) (prodEdges n l1 s1 l2 s2) <->
   (exists e1, a = UNOBSERVABLE /\ nedge (snext s1) UNOBSERVABLE e1 /\ t = prodTrans n (pairLoc (ttgt e1) l2) (trst e1) [] (tgrd e1) []) \/
   (exists e2, a = UNOBSERVABLE /\ nedge (snext s2) UNOBSERVABLE e2 /\ t = prodTrans n (pairLoc l1 (ttgt e2)) [] (trst e2) [] (tgrd e2)) \/
   (exists e1 e2, nedge (snext s1) a e1 /\ nedge (snext s2) a e2 /\ t = prodTrans n (pairLoc (ttgt e1) (ttgt e2)) (trst e1) (trst e2) (tgrd e1) (tgrd e2)).
Proof.
  intros N1 N2. unfold prodEdges. rewrite !in_app_iff, !in_map_iff, in_flat_map. split.
  - intros [H|[H|H]].
    + destruct H as (e & E & H). injection E as <- <-. left. exists e. apply nfind_iff in H; auto.
    + destruct H as (e & E & H). injection E as <- <-. right; left. exists e. apply nfind_iff in H; auto.
    + destruct H as ([b ts] & H1 & H2). apply in_flat_map in H2. destruct H2 as (e1 & H2 & H3). apply in_map_iff in H3.
      destruct H3 as (e2 & E & H3). cbn [fst snd] in *. injection E as <- <-. apply nfind_iff in H3; auto.
      right; right. exists e1, e2. split; [exists ts; auto|]. split; auto.
  - intros [(e & -> & H & ->)|[(e & -> & H & ->)|(e1 & e2 & (ts & H1 & H1') & H2 & ->)]].
    + left. exists e. split; auto. apply nfind_iff; auto.
    + right; left. exists e. split; auto. apply nfind_iff; auto.
    + right; right. exists (a, ts). split; auto. apply in_flat_map. exists e1. split; auto. apply in_map_iff. exists e2. split; auto.
      apply nfind_iff; auto.
Qed.
Lemma prod_edge L a t : edge P L a t <-> exists l1 l2, L = pairLoc l1 l2 /\ pedge l1 l2 a t.
Proof.
  destruct WA as (A1 & A2 & _), WB as (B1 & B2 & _).
  rewrite edge_nedge. split.
  - intros (s & H & K). apply prod_in in H. destruct H as (l1 & s1 & l2 & s2 & H1 & H2 & -> & ->). cbn [snext] in K.
    apply pushAll_edge in K. destruct K as [(ts & [] & _)|K]. exists l1, l2. split; auto.
    apply prodEdges_in in K; [|eapply A2; eauto|eapply B2; eauto].
    destruct K as [(e & -> & K & ->)|[(e & -> & K & ->)|(e1 & e2 & K1 & K2 & ->)]].
    + eapply pe_left; eauto; [apply edge_nedge; eauto|apply in_fst; eauto].
    + eapply pe_right; eauto; [apply edge_nedge; eauto|apply in_fst; eauto].
    + eapply pe_both; eauto; apply edge_nedge; eauto.
  - intros (l1 & l2 & -> & K).
    assert (G : forall s1 s2, In (l1, s1) (tstates A) -> In (l2, s2) (tstates B) -> In (a, t) (prodEdges n l1 s1 l2 s2) ->
      exists s, In (pairLoc l1 l2, s) (tstates P) /\ nedge (snext s) a t).
    { intros s1 s2 H1 H2 H. exists (mkS (isMatch s1 && isMatch s2) (pushAll [] (prodEdges n l1 s1 l2 s2))).
      split; [apply prod_in; exists l1, s1, l2, s2; auto|]. cbn [snext]. apply pushAll_edge. auto. }
    destruct K as [e1 -> He I ->|e2 -> He I ->|e1 e2 He1 He2 ->].
    + apply edge_nedge in He. destruct He as (s1 & H1 & He). apply in_fst in I. destruct I as (s2 & H2).
      apply (G s1 s2 H1 H2). apply prodEdges_in; [eapply A2; eauto|eapply B2; eauto|]. left. exists e1. auto.
    + apply edge_nedge in He. destruct He as (s2 & H2 & He). apply in_fst in I. destruct I as (s1 & H1).
      apply (G s1 s2 H1 H2). apply prodEdges_in; [eapply A2; eauto|eapply B2; eauto|]. right; left. exists e2. auto.
    + apply edge_nedge in He1. destruct He1 as (s1 & H1 & He1). apply edge_nedge in He2. destruct He2 as (s2 & H2 & He2).
      apply (G s1 s2 H1 H2). apply prodEdges_in; [eapply A2; eauto|eapply B2; eauto|]. right; right. exists e1, e2. auto.
Qed.
Lemma prod_acc l1 l2 : accepting P (pairLoc l1 l2) <-> accepting A l1 /\ accepting B l2.
Proof.
  split.
  - intros (s & H & M). apply prod_in in H. destruct H as (k1 & s1 & k2 & s2 & H1 & H2 & E & ->). cbn [isMatch] in M.
    apply pairLoc_inj in E. destruct E as [-> ->]. apply andb_true_iff in M. destruct M. split; eexists; eauto.
  - intros [(s1 & H1 & M1) (s2 & H2 & M2)]. eexists. split; [apply prod_in; exists l1, s1, l2, s2; eauto|]. cbn [isMatch]. rewrite M1, M2. reflexivity.
Qed.

(** valuations of the product *)
Definition vpair (v v1 v2 : valuation) : Prop := (forall x, (x < n)%nat -> v x == v1 x) /\ (forall x, v (x + n)%nat == v2 x).
Lemma vpair_delay v v1 v2 d : vpair v v1 v2 -> vpair (delay v d) (delay v1 d) (delay v2 d).
Proof. intros [H1 H2]. split; intro x; [intro Hx|]; unfold delay; [rewrite (H1 x Hx)|rewrite (H2 x)]; reflexivity. Qed.
Lemma vpair_veq v v1 v2 w w1 w2 : vpair v v1 v2 -> veq v w -> veq v1 w1 -> veq v2 w2 -> vpair w w1 w2.
Proof.
  intros [H1 H2] E E1 E2. split; intro x; [intro Hx|].
  - rewrite <- (E x), <- (E1 x). auto.
  - rewrite <- (E _), <- (E2 x). auto.
Qed.
Lemma prod_reset v v1 v2 r1 r2 : vpair v v1 v2 ->
  (forall x r, In (x, r) r1 -> (x < n)%nat /\ forall y, r = RVar y -> (y < n)%nat) ->
  vpair (applyReset v (r1 ++ map (shiftReset n) r2)) (applyReset v1 r1) (applyReset v2 r2).
Proof.
  intros Hv Hr. unfold applyReset. rewrite fold_left_app.
  assert (L : forall rs a a1 a2, (forall x r, In (x, r) rs -> (x < n)%nat /\ forall y, r = RVar y -> (y < n)%nat) -> vpair a a1 a2 ->
    vpair (fold_left (applyReset1 v) rs a) (fold_left (applyReset1 v1) rs a1) a2).
  { induction rs as [|[x r] rs IH]; intros a a1 a2 Hrs Ha; [exact Ha|]. cbn [fold_left]. apply IH; [intros; eapply Hrs; right; eauto|].
    destruct (Hrs x r (or_introl eq_refl)) as [Hx Hy]. destruct Ha as [Ha1 Ha2]. destruct Hv as [Hv1 Hv2]. unfold applyReset1. cbn [fst snd]. split.
    - intros z Hz. destruct (Nat.eqb z x); [|auto]. destruct r as [q|y]; [reflexivity|]. apply Hv1. apply Hy; reflexivity.
    - intro z. destruct (Nat.eqb (z + n) x) eqn:E; [apply Nat.eqb_eq in E; lia|auto]. }
  assert (M : forall rs a a1 a2, vpair a a1 a2 -> vpair (fold_left (applyReset1 v) (map (shiftReset n) rs) a) a1 (fold_left (applyReset1 v2) rs a2)).
  { induction rs as [|[x r] rs IH]; intros a a1 a2 Ha; [exact Ha|]. cbn [map fold_left]. apply IH.
    destruct Ha as [Ha1 Ha2]. destruct Hv as [Hv1 Hv2]. unfold applyReset1, shiftReset. cbn [fst snd]. split.
    - intros z Hz. destruct (Nat.eqb z (x + n)) eqn:E; [apply Nat.eqb_eq in E; lia|auto].
    - intro z. destruct (Nat.eqb z x) eqn:E.
      + apply Nat.eqb_eq in E. subst z. rewrite Nat.eqb_refl. destruct r as [q|y]; cbn [shiftRhs]; [reflexivity|apply Hv2].
      + destruct (Nat.eqb (z + n) (x + n)) eqn:E'; [apply Nat.eqb_eq in E'; apply Nat.eqb_neq in E; lia|auto]. }
  apply M. apply L; auto.
Qed.
Lemma prod_guard v v1 v2 g1 g2 : vpair v v1 v2 -> (forall k, In k g1 -> (cx k < n)%nat) ->
  (gsat (g1 ++ map (shiftC n) g2) v <-> gsat g1 v1 /\ gsat g2 v2).
Proof.
  intros [H1 H2] Hg. assert (Hh : forall k p q, p == q -> (holds k p <-> holds k q)) by (intros k p q E; unfold holds; destruct (codr k); rewrite E; reflexivity).
  split.
  - intro G. split; intros k I.
    + apply (Hh k _ _ (H1 _ (Hg k I))). apply G. apply in_or_app; auto.
    + apply (Hh k _ _ (H2 _)). assert (K := G (shiftC n k)). unfold shiftC in K at 2 3. cbn [cx] in K. apply K. apply in_or_app. right. apply in_map; auto.
  - intros [G1 G2] k I. apply in_app_or in I. destruct I as [I|I].
    + apply (Hh k _ _ (H1 _ (Hg k I))). auto.
    + apply in_map_iff in I. destruct I as (k' & <- & I). specialize (G2 k' I). apply (Hh k' _ _ (H2 _)) in G2. exact G2.
Qed.

(** *** product runs project *)
Lemma prod_projects d0 w : observable w -> accepts P d0 w -> accepts A d0 w /\ accepts B d0 w.
Proof.
  intros Ow H. split; revert H.
  - apply (ssim_accepts P A (fun c c' => exists l2, fst c = pairLoc (fst c') l2 /\ exists v2, vpair (snd c) (snd c') v2)); auto.
    + intros l v l' w' d v1 (l2 & E & v2 & Hv) Hd Ev. cbn [fst snd] in *. exists (delay w' d). split; [intro; reflexivity|].
      exists l2. split; auto. exists (delay v2 d). cbn [snd]. eapply vpair_veq; [apply vpair_delay; eauto|intro x; symmetry; apply Ev|intro; reflexivity|intro; reflexivity].
    + intros a [L v] [L1 v1] [l1 w1] (l2 & E & v2 & Hv) (t & He & G & Et & R). cbn [fst snd] in *. subst L.
      apply prod_edge in He. destruct He as (k1 & k2 & E & He). apply pairLoc_inj in E. destruct E as [<- <-].
      apply isReset_applyReset in R.
      destruct He as [e1 -> He I ->|e2 -> He I ->|e1 e2 He1 He2 ->]; unfold prodTrans in *; cbn [ttgt trst tgrd] in *.
      * destruct (CA l1 _ e1 He) as [Cg Cr]. apply (prod_guard v w1 v2) in G; auto. left.
        exists (ttgt e1, applyReset w1 (trst e1)). split; [exists e1; cbn [fst snd]; split; [exact He|split; [apply G|split; [reflexivity|apply applyReset_isReset]]]|].
        cbn [fst snd]. exists l2. split; auto. exists (applyReset v2 []). eapply vpair_veq; [apply (prod_reset v w1 v2 (trst e1) []); auto|intro x; symmetry; apply R|intro; reflexivity|intro; reflexivity].
      * right. split; auto. cbn [fst snd]. exists (ttgt e2). split; auto. exists (applyReset v2 (trst e2)).
        eapply vpair_veq; [apply (prod_reset v w1 v2 [] (trst e2)); [auto|intros ? ? []]|intro x; symmetry; apply R|intro; reflexivity|intro; reflexivity].
      * destruct (CA l1 _ e1 He1) as [Cg Cr]. apply (prod_guard v w1 v2) in G; auto. left.
        exists (ttgt e1, applyReset w1 (trst e1)). split; [exists e1; cbn [fst snd]; split; [exact He1|split; [apply G|split; [reflexivity|apply applyReset_isReset]]]|].
        cbn [fst snd]. exists (ttgt e2). split; auto. exists (applyReset v2 (trst e2)). eapply vpair_veq; [apply (prod_reset v w1 v2 (trst e1) (trst e2)); auto|intro x; symmetry; apply R|intro; reflexivity|intro; reflexivity].
    + intros L I. unfold P, intersectionTA in I. cbn [tinit] in I. apply in_flat_map in I. destruct I as (i1 & I1 & I). apply in_map_iff in I.
      destruct I as (i2 & <- & I2). exists i1. split; auto. exists i2. split; auto. exists (fun _ => 0). split; intros; reflexivity.
    + intros c c' (l2 & E & _) Ac. rewrite E in Ac. apply prod_acc in Ac. tauto.
  - apply (ssim_accepts P B (fun c c' => exists l1, fst c = pairLoc l1 (fst c') /\ exists v1, vpair (snd c) v1 (snd c'))); auto.
    + intros l v l' w' d v1 (l1 & E & v2 & Hv) Hd Ev. cbn [fst snd] in *. exists (delay w' d). split; [intro; reflexivity|].
      exists l1. split; auto. exists (delay v2 d). cbn [snd]. eapply vpair_veq; [apply vpair_delay; eauto|intro x; symmetry; apply Ev|intro; reflexivity|intro; reflexivity].
    + intros a [L v] [L1 v1] [l2 w2] (l1 & E & w1 & Hv) (t & He & G & Et & R). cbn [fst snd] in *. subst L.
      apply prod_edge in He. destruct He as (k1 & k2 & E & He). apply pairLoc_inj in E. destruct E as [<- <-].
      apply isReset_applyReset in R.
      destruct He as [e1 -> He I ->|e2 -> He I ->|e1 e2 He1 He2 ->]; unfold prodTrans in *; cbn [ttgt trst tgrd] in *.
      * destruct (CA l1 _ e1 He) as [Cg Cr]. right. split; auto. cbn [fst snd]. exists (ttgt e1). split; auto. exists (applyReset w1 (trst e1)).
        eapply vpair_veq; [apply (prod_reset v w1 w2 (trst e1) []); auto|intro x; symmetry; apply R|intro; reflexivity|intro; reflexivity].
      * apply (prod_guard v w1 w2) in G; [|auto|intros ? []]. left.
        exists (ttgt e2, applyReset w2 (trst e2)). split; [exists e2; cbn [fst snd]; split; [exact He|split; [apply G|split; [reflexivity|apply applyReset_isReset]]]|].
        cbn [fst snd]. exists l1. split; auto. exists (applyReset w1 []). eapply vpair_veq; [apply (prod_reset v w1 w2 [] (trst e2)); [auto|intros ? ? []]|intro x; symmetry; apply R|intro; reflexivity|intro; reflexivity].
      * destruct (CA l1 _ e1 He1) as [Cg Cr]. apply (prod_guard v w1 w2) in G; auto. left.
        exists (ttgt e2, applyReset w2 (trst e2)). split; [exists e2; cbn [fst snd]; split; [exact He2|split; [apply G|split; [reflexivity|apply applyReset_isReset]]]|].
        cbn [fst snd]. exists (ttgt e1). split; auto. exists (applyReset w1 (trst e1)). eapply vpair_veq; [apply (prod_reset v w1 w2 (trst e1) (trst e2)); auto|intro x; symmetry; apply R|intro; reflexivity|intro; reflexivity].
    + intros L I. unfold P, intersectionTA in I. cbn [tinit] in I. apply in_flat_map in I. destruct I as (i1 & I1 & I). apply in_map_iff in I.
      destruct I as (i2 & <- & I2). exists i2. split; auto. exists i1. split; auto. exists (fun _ => 0). split; intros; reflexivity.
    + intros c c' (l1 & E & _) Ac. rewrite E in Ac. apply prod_acc in Ac. tauto.
Qed.

(** *** runs of both combine *)
Lemma prod_fire_both a l1 v1 c1 l2 v2 c2 v : fire A a (l1, v1) c1 -> fire B a (l2, v2) c2 -> vpair v v1 v2 ->
  exists v', fire P a (pairLoc l1 l2, v) (pairLoc (fst c1) (fst c2), v') /\ vpair v' (snd c1) (snd c2).
Proof.
  intros (e1 & He1 & G1 & T1 & R1) (e2 & He2 & G2 & T2 & R2) Hv. cbn [fst snd] in *. destruct (CA l1 _ e1 He1) as [Cg Cr].
  apply isReset_applyReset in R1. apply isReset_applyReset in R2.
  exists (applyReset v (trst e1 ++ map (shiftReset n) (trst e2))). split.
  - exists (prodTrans n (pairLoc (ttgt e1) (ttgt e2)) (trst e1) (trst e2) (tgrd e1) (tgrd e2)). unfold prodTrans. cbn [fst snd ttgt trst tgrd].
    split; [apply prod_edge; exists l1, l2; split; auto; eapply pe_both; eauto|]. split; [apply (prod_guard v v1 v2); auto|]. split; [congruence|apply applyReset_isReset].
  - eapply vpair_veq; [apply (prod_reset v v1 v2); eauto|intro; reflexivity|intro x; symmetry; apply R1|intro x; symmetry; apply R2].
Qed.
Lemma prod_fire_left l1 v1 c1 l2 v2 v : fire A UNOBSERVABLE (l1, v1) c1 -> In l2 (map fst (tstates B)) -> vpair v v1 v2 ->
  exists v', fire P UNOBSERVABLE (pairLoc l1 l2, v) (pairLoc (fst c1) l2, v') /\ vpair v' (snd c1) v2.
Proof.
  intros (e1 & He1 & G1 & T1 & R1) I Hv. cbn [fst snd] in *. destruct (CA l1 _ e1 He1) as [Cg Cr]. apply isReset_applyReset in R1.
  exists (applyReset v (trst e1 ++ map (shiftReset n) [])). split.
  - exists (prodTrans n (pairLoc (ttgt e1) l2) (trst e1) [] (tgrd e1) []). unfold prodTrans. cbn [fst snd ttgt trst tgrd].
    split; [apply prod_edge; exists l1, l2; split; auto; eapply pe_left; eauto|]. split; [apply (prod_guard v v1 v2); auto; split; [auto|intros ? []]|]. split; [congruence|apply applyReset_isReset].
  - eapply vpair_veq; [apply (prod_reset v v1 v2 (trst e1) []); eauto|intro; reflexivity|intro x; symmetry; apply R1|intro; reflexivity].
Qed.
Lemma prod_fire_right l1 v1 l2 v2 c2 v : fire B UNOBSERVABLE (l2, v2) c2 -> In l1 (map fst (tstates A)) -> vpair v v1 v2 ->
  exists v', fire P UNOBSERVABLE (pairLoc l1 l2, v) (pairLoc l1 (fst c2), v') /\ vpair v' v1 (snd c2).
Proof.
  intros (e2 & He2 & G2 & T2 & R2) I Hv. cbn [fst snd] in *. apply isReset_applyReset in R2.
  exists (applyReset v ([] ++ map (shiftReset n) (trst e2))). split.
  - exists (prodTrans n (pairLoc l1 (ttgt e2)) [] (trst e2) [] (tgrd e2)). unfold prodTrans. cbn [fst snd ttgt trst tgrd].
    split; [apply prod_edge; exists l1, l2; split; auto; eapply pe_right; eauto|]. split; [apply (prod_guard v v1 v2 []); [auto|intros ? []|split; [intros ? []|auto]]|]. split; [congruence|apply applyReset_isReset].
  - eapply vpair_veq; [apply (prod_reset v v1 v2 [] (trst e2)); [eauto|intros ? ? []]|intro; reflexivity|intro; reflexivity|intro x; symmetry; apply R2].
Qed.
Lemma fire_in X a c c' : wfTA X -> fire X a c c' -> In (fst c') (map fst (tstates X)).
Proof. intros (_ & _ & W3 & _) (t & He & _ & E & _). rewrite E. eapply W3; eauto. Qed.
Lemma flow_in X c d c' : wfTA X -> flow X c d c' -> In (fst c) (map fst (tstates X)) -> In (fst c') (map fst (tstates X)).
Proof. intros W H. induction H as [|? ? ? ? ? ? ? F1 IH1 Fi F2 IH2 E]; intro I; auto. apply IH2. eapply fire_in; eauto. Qed.

Lemma prod_flow k : forall n1 n2 l1 v1 c1 l2 v2 c2 d v, (n1 + n2 <= k)%nat ->
  sflow A (l1, v1) d c1 n1 -> sflow B (l2, v2) d c2 n2 -> vpair v v1 v2 ->
  In l1 (map fst (tstates A)) -> In l2 (map fst (tstates B)) ->
  exists v', flow P (pairLoc l1 l2, v) d (pairLoc (fst c1) (fst c2), v') /\ vpair v' (snd c1) (snd c2).
Proof.
  induction k as [|k IH]; intros n1 n2 l1 v1 c1 l2 v2 c2 d v Hk F1 F2 Hv I1 I2.
  - assert (n1 = 0%nat) by lia. assert (n2 = 0%nat) by lia. subst. inversion F1; subst. inversion F2; subst. cbn [fst snd].
    exists (delay v d). split; [constructor; auto; intro; reflexivity|].
    eapply vpair_veq; [apply vpair_delay; eauto|intro; reflexivity| |]; intro x; symmetry; auto.
  - (* fire the left step first, at e, with the rest of the right flow shifted *)
    assert (Left : forall e u1 k1 d2 m, n1 = S m -> 0 <= e -> veq u1 (delay v1 e) -> fire A UNOBSERVABLE (l1, u1) k1 -> sflow A k1 d2 c1 m -> d == e + d2 ->
       sflow B (l2, delay v2 e) (d - e) c2 n2 ->
       exists v', flow P (pairLoc l1 l2, v) d (pairLoc (fst c1) (fst c2), v') /\ vpair v' (snd c1) (snd c2)).
    { intros e u1 k1 d2 m Em He Hu Fi F Ed G. destruct (prod_fire_left l1 u1 k1 l2 (delay v2 e) (delay v e) Fi I2) as (v' & Pf & Pv).
      { eapply vpair_veq; [apply vpair_delay; eauto|intro; reflexivity|intro x; symmetry; apply Hu|intro; reflexivity]. }
      destruct k1 as [q1 w1]. cbn [fst snd] in *.
      destruct (IH m n2 q1 w1 c1 l2 (delay v2 e) c2 d2 v') as (v'' & Pf' & Pv'); auto; [lia| | |].
      - apply (sflow_Q B _ (d - e)); auto. lra.
      - assert (K := fire_in A _ _ _ WA Fi). exact K.
      - exists v''. split; auto. apply (flow_silent P _ e (pairLoc l1 l2, delay v e) (pairLoc q1 l2, v') d2); auto. apply flow_delay; [exact He|intro; reflexivity]. }
    assert (Right : forall e u2 k2 d2 m, n2 = S m -> 0 <= e -> veq u2 (delay v2 e) -> fire B UNOBSERVABLE (l2, u2) k2 -> sflow B k2 d2 c2 m -> d == e + d2 ->
       sflow A (l1, delay v1 e) (d - e) c1 n1 ->
       exists v', flow P (pairLoc l1 l2, v) d (pairLoc (fst c1) (fst c2), v') /\ vpair v' (snd c1) (snd c2)).
    { intros e u2 k2 d2 m Em He Hu Fi F Ed G. destruct (prod_fire_right l1 (delay v1 e) l2 u2 k2 (delay v e) Fi I1) as (v' & Pf & Pv).
      { eapply vpair_veq; [apply vpair_delay; eauto|intro; reflexivity|intro; reflexivity|intro x; symmetry; apply Hu]. }
      destruct k2 as [q2 w2]. cbn [fst snd] in *.
      destruct (IH n1 m l1 (delay v1 e) c1 q2 w2 c2 d2 v') as (v'' & Pf' & Pv'); auto; [lia| | |].
      - apply (sflow_Q A _ (d - e)); auto. lra.
      - assert (K := fire_in B _ _ _ WB Fi). exact K.
      - exists v''. split; auto. apply (flow_silent P _ e (pairLoc l1 l2, delay v e) (pairLoc l1 q2, v') d2); auto. apply flow_delay; [exact He|intro; reflexivity]. }
    inversion F1 as [? ? ? w1 Hd1 Hw1|? ? e1 u1 k1 d1 ? ? m1 He1 Hu1 Fi1 G1 Ed1]; subst.
    + inversion F2 as [? ? ? w2 Hd2 Hw2|? ? e2 u2 k2 d2 ? ? m2 He2 Hu2 Fi2 G2 Ed2]; subst.
      * cbn [fst snd]. exists (delay v d). split; [constructor; auto; intro; reflexivity|].
        eapply vpair_veq; [apply vpair_delay; eauto|intro; reflexivity| |]; intro x; symmetry; auto.
      * assert (N2 := sflow_nonneg _ _ _ _ _ G2). apply (Right e2 u2 k2 d2 m2); auto.
        constructor; [lra|]. intro x. rewrite (Hw1 x). unfold delay. lra.
    + assert (N1 := sflow_nonneg _ _ _ _ _ G1).
      destruct (sflow_split B l2 v2 d c2 n2 e1 F2 He1 ltac:(lra)) as [G|(e2 & u2 & k2 & d2 & m2 & -> & He2 & Le & Hu2 & Fi2 & G2 & Ed2)].
      * apply (Left e1 u1 k1 d1 m1); auto.
      * apply (Right e2 u2 k2 d2 m2); auto.
        eapply (sf_step A l1 _ (e1 - e2) u1 k1 d1); eauto; [lra| |lra]. intro x. rewrite (Hu1 x). unfold delay. lra.
Qed.
Lemma prod_run w : forall l1 v1 c1 l2 v2 c2 v, run A (l1, v1) w c1 -> run B (l2, v2) w c2 -> vpair v v1 v2 ->
  exists v', run P (pairLoc l1 l2, v) w (pairLoc (fst c1) (fst c2), v').
Proof.
  induction w as [|[a d] w IH]; intros l1 v1 c1 l2 v2 c2 v R1 R2 Hv.
  - inversion R1; inversion R2; subst. exists v. constructor.
  - inversion R1 as [|? ? ? k1 k1' ? ? Fi1 Fl1 Rn1]; inversion R2 as [|? ? ? k2 k2' ? ? Fi2 Fl2 Rn2]; subst.
    destruct (prod_fire_both a l1 v1 k1 l2 v2 k2 v Fi1 Fi2 Hv) as (u & Pf & Pv).
    assert (J1 := fire_in A _ _ _ WA Fi1). assert (J2 := fire_in B _ _ _ WB Fi2).
    destruct k1 as [q1 w1], k2 as [q2 w2]. cbn [fst snd] in *.
    apply flow_sflow in Fl1. destruct Fl1 as (m1 & Fl1). apply flow_sflow in Fl2. destruct Fl2 as (m2 & Fl2).
    destruct (prod_flow (m1 + m2) m1 m2 q1 w1 k1' q2 w2 k2' d u (le_n _) Fl1 Fl2 Pv J1 J2) as (u' & Pf' & Pv').
    destruct k1' as [q1' w1'], k2' as [q2' w2']. cbn [fst snd] in *.
    destruct (IH q1' w1' c1 q2' w2' c2 u' Rn1 Rn2 Pv') as (u'' & Pr). exists u''. econstructor; eauto.
Qed.
Lemma prod_combines d0 w : accepts A d0 w -> accepts B d0 w -> accepts P d0 w.
Proof.
  intros (l1 & c1 & k1 & I1 & F1 & R1 & A1) (l2 & c2 & k2 & I2 & F2 & R2 & A2).
  assert (J1 : In l1 (map fst (tstates A))) by (apply WA; auto). assert (J2 : In l2 (map fst (tstates B))) by (apply WB; auto).
  apply flow_sflow in F1. destruct F1 as (m1 & F1). apply flow_sflow in F2. destruct F2 as (m2 & F2).
  destruct (prod_flow (m1 + m2) m1 m2 l1 (fun _ => 0) c1 l2 (fun _ => 0) c2 d0 (fun _ => 0) (le_n _) F1 F2) as (u & Pf & Pv); auto.
  { split; intros; reflexivity. }
  destruct c1 as [q1 w1], c2 as [q2 w2]. cbn [fst snd] in *.
  destruct (prod_run w q1 w1 k1 q2 w2 k2 u R1 R2 Pv) as (u' & Pr).
  exists (pairLoc l1 l2), (pairLoc q1 q2, u), (pairLoc (fst k1) (fst k2), u'). split; [|split; [exact Pf|split; [exact Pr|apply prod_acc; auto]]].
  unfold P, intersectionTA. cbn [tinit]. apply in_flat_map. exists l1. split; auto. apply in_map_iff. exists l2. auto.
Qed.
Lemma prod_exact d0 w : observable w -> (accepts P d0 w <-> accepts A d0 w /\ accepts B d0 w).
Proof. intro Ow. split; [apply prod_projects; auto|]. intros [H1 H2]. apply prod_combines; auto. Qed.

Lemma prod_wf : wfTA P.
Proof.
  split; [|split; [|split]].
  - unfold P, intersectionTA. cbn [tstates]. destruct WA as (A1 & _), WB as (B1 & _).
    assert (E : map fst (flat_map (fun p1 : loc * tastate => map (fun p2 : loc * tastate =>
          (pairLoc (fst p1) (fst p2), mkS (isMatch (snd p1) && isMatch (snd p2)) (pushAll [] (prodEdges (length (tmax A)) (fst p1) (snd p1) (fst p2) (snd p2)))))
          (tstates B)) (tstates A)) = flat_map (fun l1 => map (pairLoc l1) (map fst (tstates B))) (map fst (tstates A))).
    { generalize (tstates A). intro la. induction la as [|[l1 s1] la IH]; auto. cbn [flat_map map]. rewrite map_app, IH. f_equal.
      rewrite !map_map. reflexivity. }
    rewrite E. clear E. revert A1 B1. generalize (map fst (tstates A)) as la. generalize (map fst (tstates B)) as lb. intros lb la A1 B1. revert A1.
    induction la as [|x la IH]; intro N; [constructor|]. inversion N; subst. cbn [flat_map].
    assert (Nb : NoDup (map (pairLoc x) lb)).
    { clear -B1. induction lb as [|y lb IH]; [constructor|]. inversion B1; subst. cbn [map]. constructor; auto.
      intro K. apply in_map_iff in K. destruct K as (z & E & K). apply pairLoc_inj in E. destruct E as [_ ->]. auto. }
    assert (D : forall z, In z (map (pairLoc x) lb) -> ~ In z (flat_map (fun l1 => map (pairLoc l1) lb) la)).
    { intros z K J. apply in_map_iff in K. destruct K as (y & <- & K). apply in_flat_map in J. destruct J as (x' & J1 & J).
      apply in_map_iff in J. destruct J as (y' & E & J). apply pairLoc_inj in E. destruct E as [-> _]. auto. }
    specialize (IH H2). clear -Nb D IH. revert Nb D. generalize (map (pairLoc x) lb). intro l. induction l as [|z l IHl]; intros Nb D; [exact IH|].
    inversion Nb; subst. cbn [app]. constructor; [|apply IHl; auto; intros; apply D; right; auto].
    rewrite in_app_iff. intros [K|K]; [auto|]. apply (D z); [left; reflexivity|auto].
  - intros L s H. apply prod_in in H. destruct H as (l1 & s1 & l2 & s2 & H1 & H2 & -> & ->). cbn [snext]. apply pushAll_nodup. constructor.
  - assert (Pin : forall l1 l2, In l1 (map fst (tstates A)) -> In l2 (map fst (tstates B)) -> In (pairLoc l1 l2) (map fst (tstates P))).
    { intros l1 l2 I1 I2. apply in_fst in I1. apply in_fst in I2. destruct I1 as (s1 & I1), I2 as (s2 & I2). apply in_fst. eexists. apply prod_in. exists l1, s1, l2, s2. eauto. }
    intros L a t H. apply prod_edge in H. destruct H as (l1 & l2 & -> & H).
    destruct H as [e1 -> He I ->|e2 -> He I ->|e1 e2 He1 He2 ->]; unfold prodTrans; cbn [ttgt]; apply Pin; auto;
      try (eapply (proj1 (proj2 (proj2 WA))); eauto; fail); eapply (proj1 (proj2 (proj2 WB))); eauto.
  - intros L I. unfold P, intersectionTA in I. cbn [tinit] in I. apply in_flat_map in I. destruct I as (i1 & I1 & I). apply in_map_iff in I.
    destruct I as (i2 & <- & I2). apply WA in I1. apply WB in I2. apply in_fst in I1. apply in_fst in I2. destruct I1 as (s1 & I1), I2 as (s2 & I2).
    apply in_fst. eexists. apply prod_in. exists i1, s1, i2, s2. eauto.
Qed.
End Prod.
