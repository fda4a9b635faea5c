(** Words reconstructed from symbolic runs are accepted: the whole run. *)
From Coq Require Import QArith ZArith Bool List Lqa Lia.
From Verif Require Import BoundsModel ConstraintModel GuardSpec BoundsProofs ConstraintProofs ZoneModel ZoneSpec ZoneProofs ZoneProofs2 ZoneProofs3 ZoneProofs4 ZoneProofs5 SampleProofs AutomatonModel AutomatonSpec AutomatonProofs AutomatonProofs7 TimedWordModel TimedWordSpec TimedWordProofs ZoneGraphModel ZoneGraphSpec ZoneGraphProofs ReconstructProofs.
Import ListNotations.
Open Scope Q_scope.

(** *** zones of symbolic runs are nonnegative, even when they are empty *)
Lemma split_seq n i : (i < n)%nat -> exists p q, seq 0 n = p ++ i :: q.
Proof. intro H. apply in_split. apply in_seq. lia. Qed.
Lemma fold_closeRow_mle x l : forall m, mle (fold_left (closeRow x) l m) m.
Proof. induction l as [|i l IH]; intro m; cbn [fold_left]; [apply mle_refl|]. eapply mle_trans; [apply IH|]. apply closeRow_mle. Qed.
Lemma fold_close1_mle l : forall m, mle (fold_left close1 l m) m.
Proof. induction l as [|i l IH]; intro m; cbn [fold_left]; [apply mle_refl|]. eapply mle_trans; [apply IH|]. apply close1_mle. Qed.
Lemma close1_path m x a b : (x < dim m)%nat -> (a < dim m)%nat -> (b < dim m)%nat -> ble (get (close1 m x) a b) (badd (get m x b) (get m a x)) = true.
Proof.
  intros Hx Ha Hb. unfold close1. destruct (split_seq _ _ Ha) as (p & q & ->). rewrite fold_left_app. cbn [fold_left].
  set (m1 := fold_left (closeRow x) p m). assert (L1 : mle m1 m) by apply fold_closeRow_mle.
  set (m2 := closeRow x m1 a). assert (L2 := fold_closeRow_mle x q m2). set (m3 := fold_left (closeRow x) q m2) in *.
  destruct L1 as [D1 L1]. destruct L2 as [D2 L2].
  assert (D : dim m2 = dim m1) by apply dim_closeRow.
  eapply ble_trans; [apply L2; congruence || lia|].
  unfold m2, closeRow. rewrite get_mk by lia. rewrite Nat.eqb_refl. eapply ble_trans; [apply bmin_le_r|]. apply badd_mono; apply L1; lia.
Qed.
Lemma canonize_path m x a b : (x < dim m)%nat -> (a < dim m)%nat -> (b < dim m)%nat -> ble (get (canonize m) a b) (badd (get m x b) (get m a x)) = true.
Proof.
  intros Hx Ha Hb. unfold canonize. destruct (split_seq _ _ Hx) as (p & q & ->). rewrite fold_left_app. cbn [fold_left].
  set (m1 := fold_left close1 p m). assert (L1 : mle m1 m) by apply fold_close1_mle.
  assert (L2 := fold_close1_mle q (close1 m1 x)). set (m3 := fold_left close1 q (close1 m1 x)) in *.
  destruct L1 as [D1 L1]. destruct L2 as [D2 L2]. rewrite dim_close1 in D2.
  eapply ble_trans; [apply L2; lia|]. eapply ble_trans; [apply close1_path; lia|]. apply badd_mono; apply L1; lia.
Qed.
Lemma nnz_mle a b : mle a b -> nonnegZone b -> nonnegZone a.
Proof. intros [D L] N i Hi. rewrite D in Hi. eapply ble_trans; [apply L; lia|]. apply N; auto. Qed.
Lemma nnz_canonize m : nonnegZone m -> nonnegZone (canonize m).
Proof. apply nnz_mle, canonize_mle. Qed.
Lemma nnz_elapse m : nonnegZone m -> nonnegZone (elapse m).
Proof. intros N i Hi. rewrite dim_elapse in Hi. unfold elapse. rewrite get_mk by lia. apply N; auto. Qed.
Lemma nnz_rename m r : (S (fst r) < dim m)%nat -> rclock (snd r) (dim m) -> nonnegZone m -> nonnegZone (zrename m r).
Proof.
  destruct r as [x [q|y]]; cbn [zrename fst snd rclock]; [auto|]. intros Hx Hy N. destruct (x =? y)%nat eqn:E; [auto|]. apply Nat.eqb_neq in E.
  intros i Hi. rewrite dim_canonize, !dim_set1, dim_unconstrain in Hi.
  set (m1 := set1 (set1 (unconstrain m x) (S x) (S y) bz) (S y) (S x) bz).
  assert (D : dim m1 = dim m) by (unfold m1; rewrite !dim_set1, dim_unconstrain; auto).
  destruct (Nat.eq_dec i x) as [->|Hix].
  - eapply ble_trans; [apply (canonize_path m1 (S y)); lia|]. unfold m1. rewrite !get_set1 by (rewrite ?dim_set1, ?dim_unconstrain; lia). rewrite !Nat.eqb_refl. cbn [andb].
    replace (0 =? S y)%nat with false by reflexivity. replace (0 =? S x)%nat with false by reflexivity. cbn [andb]. unfold unconstrain. rewrite get_mk by lia.
    replace (S y =? S x)%nat with false by (symmetry; apply Nat.eqb_neq; lia). cbn [Nat.eqb orb]. specialize (N y Hy). destruct (get m 0 (S y)) as [v s|]; [|discriminate]. apply (badd_mono bz bz _ bz (ble_refl _) N).
  - eapply ble_trans; [apply canonize_mle; rewrite ?dim_canonize; lia|]. unfold m1. rewrite !get_set1 by (rewrite ?dim_set1, ?dim_unconstrain; lia).
    cbn [Nat.eqb andb]. unfold unconstrain. rewrite get_mk by lia. cbn [Nat.eqb orb]. replace (i =? x)%nat with false by (symmetry; apply Nat.eqb_neq; auto). apply N; auto.
Qed.
Lemma nnz_assign m r : (S (fst r) < dim m)%nat -> (forall q, snd r = RConst q -> 0 <= q) -> nonnegZone m -> nonnegZone (zassign m r).
Proof.
  destruct r as [x [q|y]]; cbn [zassign fst snd]; [|auto]. intros Hx Hq N. specialize (Hq q eq_refl).
  intros i Hi. rewrite dim_canonize, !dim_set1, dim_unconstrain in Hi. eapply ble_trans; [apply canonize_mle; rewrite ?dim_canonize, ?dim_set1, ?dim_unconstrain; lia|].
  rewrite !get_set1 by (rewrite ?dim_set1, ?dim_unconstrain; lia). cbn [Nat.eqb andb]. destruct (i =? x)%nat eqn:E.
  - apply ble_spec. intros p Hp. cbn in *. lra.
  - unfold unconstrain. rewrite get_mk by lia. cbn [Nat.eqb orb]. rewrite E. apply N; auto.
Qed.
Lemma nnz_resets m rs : rwf (dim m) rs -> (forall x q, In (x, RConst q) rs -> 0 <= q) -> nonnegZone m -> nonnegZone (zapplyResets m rs) /\ dim (zapplyResets m rs) = dim m.
Proof.
  intros RW NR N. unfold zapplyResets.
  assert (G1 : forall l m, rwf (dim m) l -> nonnegZone m -> nonnegZone (fold_left zrename l m) /\ dim (fold_left zrename l m) = dim m).
  { induction l as [|r l IH]; intros m0 R0 N0; cbn [fold_left]; [auto|]. assert (K := R0 (fst r) (snd r)). destruct r as [x r]. cbn [fst snd] in K. destruct (K (or_introl eq_refl)) as [K1 K2].
    destruct (IH (zrename m0 (x, r))) as [I1 I2]; rewrite ?dim_zrename in *; [intros x' r' H'; apply R0; right; auto|apply nnz_rename; auto|]. split; auto. }
  assert (G2 : forall l m, rwf (dim m) l -> (forall x q, In (x, RConst q) l -> 0 <= q) -> nonnegZone m -> nonnegZone (fold_left zassign l m) /\ dim (fold_left zassign l m) = dim m).
  { induction l as [|r l IH]; intros m0 R0 Q0 N0; cbn [fold_left]; [auto|]. assert (K := R0 (fst r) (snd r)). destruct r as [x r]. cbn [fst snd] in K. destruct (K (or_introl eq_refl)) as [K1 K2].
    destruct (IH (zassign m0 (x, r))) as [I1 I2]; rewrite ?dim_zassign in *; [intros x' r' H'; apply R0; right; auto|intros x' q H'; apply (Q0 x'); right; auto|apply nnz_assign; auto|split; auto].
    cbn [snd]. intros q ->. apply (Q0 x). left. auto. }
  destruct (G1 rs m RW N) as [H1 H2]. destruct (G2 rs (fold_left zrename rs m)) as [H3 H4]; [rewrite H2; auto|auto|auto|]. split; [auto|congruence].
Qed.
Lemma nnz_tightNext n P t : dim P = S n -> rwf (S n) (trst t) -> gclocks (S n) (tgrd t) -> (forall x q, In (x, RConst q) (trst t) -> 0 <= q) ->
  nonnegZone P -> nonnegZone (tightNext P t) /\ dim (tightNext P t) = S n.
Proof.
  intros D RW GC NR N. unfold tightNext. rewrite dim_canonize.
  destruct (nnz_resets (tightenG (elapse P) (tgrd t)) (trst t)) as [H1 H2]; rewrite ?dim_tightenG, ?dim_elapse, ?D in *; auto.
  - apply (nnz_mle _ (elapse P)); [apply tightenG_mle; rewrite dim_elapse, D; auto|apply nnz_elapse; auto].
  - split; [apply nnz_canonize; auto|auto].
Qed.
Lemma nnz_nonneg m w x : nonnegZone m -> inZone m w -> (S x < dim m)%nat -> 0 <= w x.
Proof. intros N H Hx. specialize (N x Hx). specialize (H 0%nat (S x) ltac:(lia) Hx). assert (K := ble_sat_1 _ _ N _ H). cbn [ext bsat bz] in K. lra. Qed.

(** *** runs as delays and steps *)
Inductive xexec (A : ta) : conf -> list Q -> list letter -> conf -> Prop :=
| xe_nil c : xexec A c [] [] c
| xe_cons l v d a c1 ds u c' : 0 <= d -> fire A a (l, delay v d) c1 -> xexec A c1 ds u c' -> xexec A (l, v) (d :: ds) (a :: u) c'.
Lemma xexec_snoc A c ds u l v : xexec A c ds u (l, v) -> forall d a c', 0 <= d -> fire A a (l, delay v d) c' -> xexec A c (ds ++ [d]) (u ++ [a]) c'.
Proof.
  remember (l, v) as c1 eqn:E. intro H. induction H as [c|l0 v0 d0 a0 c0 ds u c1 H0 F X IH]; intros d a c' Hd Hf; cbn [app].
  - subst c. eapply xe_cons; eauto. constructor.
  - eapply xe_cons; eauto.
Qed.
(** the timed word of a run: silent steps disappear in the delays *)
Lemma xexec_word A c ds u c' : xexec A c ds u c' -> forall c0 q0, flow A c0 q0 c ->
  forall e es, ds ++ [0] = e :: es -> forall q, q == q0 + e ->
  exists c1 c2, flow A c0 (firstDur (absorb [] [q] u es)) c1 /\ run A c1 (events (absorb [] [q] u es)) c2 /\ fst c2 = fst c'.
Proof.
  induction 1 as [c|l v d a c1 ds u c' Hd F X IH]; intros c0 q0 FL e es E q Eq; cbn [app] in E; injection E as <- <-.
  - exists c, c. cbn [absorb firstDur td hd events tw combine]. split; [apply (flow_Q A c0 q0); [auto|rewrite Eq; ring]|]. split; [constructor|auto].
  - destruct (ds ++ [0]) as [|e es] eqn:E2; [destruct ds; discriminate|]. rewrite absorb_cons.
    assert (F1 : flow A c0 q (l, delay v d)).
    { apply (flow_Q A c0 (q0 + d)); [|rewrite Eq; reflexivity]. eapply flow_concat; [exact FL|]. constructor; auto. }
    destruct (Nat.eqb a UNOBSERVABLE) eqn:EA.
    + apply Nat.eqb_eq in EA. subst a. apply (IH c0 q) with (e := e); auto; [|reflexivity].
      destruct c1 as [l1 v1]. eapply flow_silent; [exact F1|exact F|constructor; [apply Qle_refl|]|ring]. intro x. unfold delay. ring.
    + destruct c1 as [l1 v1]. assert (F0 : flow A (l1, v1) 0 (l1, v1)) by (constructor; [apply Qle_refl|]; intro x; unfold delay; ring).
      destruct (IH (l1, v1) 0 F0 e es eq_refl e ltac:(ring)) as (c2 & c3 & H1 & H2 & H3).
      exists (l, delay v d), c3. cbn [firstDur td hd]. split; [exact F1|]. split; [|auto].
      unfold events in *. cbn [tw td tl].
      assert (W : td (absorb [] [e] u es) = firstDur (absorb [] [e] u es) :: tl (td (absorb [] [e] u es))).
      { unfold firstDur. destruct (td (absorb [] [e] u es)) eqn:ET; [|reflexivity]. exfalso. clear -ET. revert e es ET.
        induction u as [|b u IHu]; intros e es ET; [discriminate|]. destruct es as [|e' es]; [discriminate|]. rewrite absorb_cons in ET. destruct (Nat.eqb b UNOBSERVABLE); [eauto|discriminate]. }
      rewrite W. cbn [combine]. eapply run_cons; eauto.
Qed.
Lemma xexec_accepts A l0 ds u c' : In l0 (tinit A) -> xexec A (l0, fun _ => 0) ds u c' -> accepting A (fst c') ->
  accepts A (firstDur (mkTimedWord u (ds ++ [0]))) (events (mkTimedWord u (ds ++ [0]))).
Proof.
  intros I X AC. destruct (ds ++ [0]) as [|e es] eqn:E; [destruct ds; discriminate|]. cbn [mkTimedWord].
  assert (F0 : flow A (l0, fun _ => 0) 0 (l0, fun _ => 0)) by (constructor; [apply Qle_refl|]; intro x; unfold delay; ring).
  destruct (xexec_word A _ _ _ _ X _ _ F0 e es E e ltac:(ring)) as (c1 & c2 & H1 & H2 & H3).
  exists l0, c1, c2. split; [auto|]. split; [auto|]. split; [auto|]. rewrite H3. auto.
Qed.

(** *** symbolic runs *)
Section Recon.
  Variable A : ta.
  Notation n := (length (tmax A)).
  Hypothesis CB : clocksBelow n A.
  Hypothesis NR : nonnegResets A.
  Hypothesis RK : forall l a t, edge A l a t -> readsKept (trst t).

  (** the steps of a symbolic run, last first, with the zones they were taken from *)
  Inductive rch : loc -> matrix -> list (letter * trans * matrix) -> Prop :=
  | rch_init l : In l (tinit A) -> rch l (zzero (S n)) []
  | rch_step l z steps a t : rch l z steps -> edge A l a t -> rch (ttgt t) (tightNext z t) ((a, t, z) :: steps).
  Lemma edge_wf l c t : edge A l c t -> rwf (S n) (trst t) /\ gclocks (S n) (tgrd t).
  Proof using CB.
    intro E. destruct (CB l c t E) as [G R]. split.
    - intros x r H. destruct (R x r H) as [H1 H2]. split; [lia|]. destruct r; cbn; auto. specialize (H2 y eq_refl). lia.
    - intros k Hk. specialize (G k Hk). lia.
  Qed.
  Lemma rch_nnz l z steps : rch l z steps -> nonnegZone z /\ dim z = S n.
  Proof using CB NR.
    induction 1 as [l I|l z steps a t R [N D] E].
    - split; [|apply dim_mk]. intros i Hi. unfold zzero in *. rewrite dim_mk in Hi. rewrite get_mk by lia. reflexivity.
    - destruct (edge_wf _ _ _ E) as [RW GC]. apply nnz_tightNext; auto. intros x q Hx. apply (NR _ _ _ x q E Hx).
  Qed.
  Lemma rch_closed l z steps : rch l z steps -> nonemptyZ z -> closed z.
  Proof.
    destruct 1 as [l I|l z steps a t R E]; intro NE.
    - intros i j k Hi Hj Hk. unfold zzero in *. rewrite dim_mk in *. rewrite !get_mk by auto. reflexivity.
    - unfold tightNext in *. apply canonize_closed_sat. destruct NE as [w Hw]. exists w. exact (proj1 (canonize_inZone _ w) Hw).
  Qed.
  Lemma recon_run l z steps : rch l z steps -> forall post durs ds, length post = n -> nonemptyZ z -> inCl z (vOf post) ->
    reconLoop steps post durs = Some ds ->
    exists ds0 l0 v, ds = ds0 ++ durs /\ In l0 (tinit A) /\ xexec A (l0, fun _ => 0) ds0 (rev (map (fun s => fst (fst s)) steps)) (l, v) /\ agree n v (vOf post) /\ inZone z (vOf post).
  Proof using CB NR RK.
    induction 1 as [l I|l z steps a t R IH E]; intros post durs ds LP NE HP H.
    - cbn [reconLoop] in H. injection H as <-. exists [], l, (fun _ => 0). split; [reflexivity|]. split; [auto|]. split; [constructor|].
      assert (Z0 : forall x, (x < n)%nat -> vOf post x == 0).
      { assert (P0 : inZone (zzero (S n)) (fun _ => 0)) by (apply zzero_exact; intros; reflexivity).
        assert (M := inCl_mid _ _ _ P0 HP). intros x Hx. rewrite zzero_exact in M. specialize (M x Hx). cbn beta in M. lra. }
      split; [intros x Hx; symmetry; auto|]. apply zzero_exact. auto.
    - cbn [reconLoop] in H. cbv zeta in H. rewrite LP in H. destruct (isSatNoCanon (zpoint n (vOf post))); [|discriminate]. cbn [negb] in H.
      destruct (guardBack (zrevertResets (zpoint n (vOf post)) (trst t)) (tgrd t)) as [z2|] eqn:GB; [|discriminate].
      destruct (isSatisfiable (zand (reverseElapse z2) (canonize z))) eqn:SAT; [|discriminate]. cbn [negb] in H.
      destruct (rch_nnz _ _ _ R) as [NZ D]. destruct (edge_wf _ _ _ E) as [RW GC].
      assert (NP : nonemptyZ z).
      { assert (SAT' := SAT). apply isSatisfiable_exact in SAT'. destruct SAT' as [w Hw].
        assert (D2 : dim z2 = S n).
        { destruct (zrevertResets_gen (trst t) (zpoint n (vOf post)) n) as [C1 _].
          { apply dim_zpoint. } { apply zpoint_canonical. } { exists (vOf post). apply zpoint_exact. intros x _; reflexivity. }
          { intros x Hx. apply readsKept_revFind; eauto. } { intros x r Hx. destruct (RW x r Hx). lia. }
          assert (D1 : dim (zrevertResets (zpoint n (vOf post)) (trst t)) = S n).
          { unfold zrevertResets. assert (F : forall l m, dim (fold_left (zrevert1 (trst t)) l m) = dim m) by (induction l0 as [|x l0 IHl]; intro m; cbn [fold_left]; [auto|]; rewrite IHl, dim_zrevert1; auto). rewrite F. apply dim_zpoint. }
          destruct (guardBack_spec (tgrd t) _ z2 ltac:(rewrite D1; auto) C1 GB) as (D2 & _). lia. }
        rewrite zand_exact in Hw by (rewrite dim_reverseElapse, dim_canonize; lia). exists w. apply (proj1 (canonize_inZone z w)). apply Hw. }
      assert (NN : forall w, inZone z w -> forall x, (x < n)%nat -> 0 <= w x) by (intros w Hw x Hx; apply (nnz_nonneg z); auto; lia).
      assert (ST := recon_step n z t post z2 D (rch_closed _ _ _ R NP) NP NN (RK _ _ _ E) RW GC LP HP GB SAT). cbv zeta in ST.
      set (before := zsample (zand z2 (elapse (canonize (zand (reverseElapse z2) (canonize z)))))) in *.
      set (preV := zsample (zand (canonize z) (reverseElapse (zpoint (length before) (vOf before))))) in *.
      destruct ST as (L4 & HPV & d & Hd & Ed & AG & ST & GE).
      destruct (IH preV _ ds L4 NP HPV H) as (ds0 & l0 & v & -> & I0 & X & AV & HZ).
      destruct (ST HZ) as (BE & G & AR).
      set (d' := match preV with [] => 0 | p :: _ => nth 0 before 0 - p end) in *.
      exists (ds0 ++ [d']), l0, (applyReset (delay v d') (trst t)).
      split; [rewrite <- app_assoc; reflexivity|]. split; [auto|].
      assert (AB : agree n (delay v d') (vOf before)).
      { intros x Hx. rewrite (AG x Hx). unfold delay. rewrite (AV x Hx), Ed. reflexivity. }
      split; [|split].
      + cbn [map rev fst]. eapply xexec_snoc; [exact X|lra|]. exists t. cbn [fst snd]. split; [auto|]. split.
        * intros k Hk. specialize (G k Hk). assert (Hc := GC k Hk). specialize (AB (cx k) ltac:(lia)). unfold holds in *. destruct (codr k); lra.
        * split; [auto|]. apply applyReset_isReset.
      + intros x Hx. rewrite <- (AR x Hx). destruct (RK _ _ _ E) as [ND _].
        destruct (in_dec Nat.eq_dec x (map fst (trst t))) as [Hin|Hni].
        * apply in_map_iff in Hin. destruct Hin as [[x' r] [Ex Hin]]. cbn [fst] in Ex. subst x'.
          assert (VA : forall o, applyReset o (trst t) x = ZoneProofs2.rval o r) by (intro o; unfold applyReset; apply ZoneProofs3.applyReset_in; auto).
          rewrite !VA. destruct r as [q|y]; cbn [ZoneProofs2.rval]; [reflexivity|]. apply AB. destruct (RW x (RVar y) Hin) as [_ K]. cbn in K. lia.
        * assert (VN : forall o, applyReset o (trst t) x = o x) by (intro o; unfold applyReset; apply applyReset_notin; exact Hni). rewrite !VN. apply AB; auto.
      + destruct (tightNext_exact n z t D (rch_closed _ _ _ R NP) RW (readsKept_raceFree _ (RK _ _ _ E)) GC GE) as (_ & _ & _ & EX).
        apply EX. exists (vOf before). split; [auto|]. split; [auto|]. intros x Hx. symmetry. apply AR; auto.
  Qed.
  Lemma recon_accepts l k z steps w : rch l z steps -> accepting A l -> reconstructWord (mkSR k z steps) = Some w -> accepts A (firstDur w) (events w).
  Proof using CB NR RK.
    intros R AC H. unfold reconstructWord in H. cbn [srZone srSteps] in H. destruct (isSatisfiable z) eqn:SAT; [|discriminate]. cbn [negb] in H.
    apply isSatisfiable_exact in SAT. destruct SAT as [p Hp].
    destruct (reconLoop steps (zsample (canonize z)) []) as [ds|] eqn:EL; [|discriminate]. injection H as <-.
    destruct (rch_nnz _ _ _ R) as [NZ D].
    assert (Hpc : inZone (canonize z) p) by (apply canonize_inZone; auto).
    destruct (zsample_closure (canonize z) p) as [L HC].
    { rewrite dim_canonize; lia. } { apply inZone_inCl; auto. }
    { apply inCl_nonneg; [rewrite dim_canonize; lia|exists p; auto|]. intros w Hw x Hx. apply (nnz_nonneg (canonize z)); auto. apply nnz_canonize; auto. }
    rewrite dim_canonize, D in L. cbn [pred] in L.
    assert (HC' : inCl z (vOf (zsample (canonize z)))) by (apply (inCl_mle (canonize z)); [apply canonize_mle|exact HC]).
    destruct (recon_run l z steps R _ _ _ L (ex_intro _ p Hp) HC' EL) as (ds0 & l0 & v & -> & I0 & X & _). rewrite app_nil_r.
    eapply xexec_accepts; eauto.
  Qed.
End Recon.
