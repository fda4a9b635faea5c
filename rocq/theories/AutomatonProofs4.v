(** Completion and complementation. *)
From Coq Require Import QArith ZArith Bool List Arith Lia Lqa.
From Verif Require Import BoundsModel ConstraintModel GuardSpec ZoneModel AutomatonModel AutomatonSpec.
From Verif Require Import BoundsProofs ConstraintProofs ConstraintProofs2 ConstraintProofs3 AutomatonProofs AutomatonProofs2 AutomatonProofs3.
Import ListNotations.
Open Scope Q_scope.

Lemma collectGuards_spec ts : forall acc,
  (collectGuards acc ts = acc ++ map tgrd ts /\ forall t, In t ts -> tgrd t <> []) \/
  (collectGuards acc ts = [] /\ exists t, In t ts /\ tgrd t = []).
Proof.
  induction ts as [|t ts IH]; intro acc; cbn [collectGuards].
  - left. cbn. rewrite app_nil_r. split; [reflexivity|intros t []].
  - destruct (tgrd t) as [|k g] eqn:E.
    + right. split; auto. exists t. split; [left; reflexivity|auto].
    + destruct (IH (acc ++ [tgrd t])) as [[H1 H2]|[H1 (u & H2 & H3)]]; rewrite E in H1.
      * left. split; [refine (eq_trans H1 _); cbn [map]; rewrite <- app_assoc, E; reflexivity|].
        intros u [<-|I]; [congruence|auto].
      * right. split; auto. exists u. split; [right; auto|auto].
Qed.

Lemma pushFold_edge (a : letter) (sink : loc) gs : forall nx b u,
  nedge (fold_left (fun n g => pushNext n a (mkT sink [] g)) gs nx) b u <->
  nedge nx b u \/ (b = a /\ exists g, In g gs /\ u = mkT sink [] g).
Proof.
  induction gs as [|g gs IH]; intros nx b u; cbn [fold_left].
  - split; auto. intros [H|[_ (g & [] & _)]]; auto.
  - rewrite IH, pushNext_edge. split.
    + intros [[H|[-> ->]]|[-> (g' & I & ->)]]; auto.
      * right. split; auto. exists g. split; [left; reflexivity|auto].
      * right. split; auto. exists g'. split; [right; auto|auto].
    + intros [H|[-> (g' & [<-|I] & ->)]]; auto. right. split; auto. exists g'. auto.
Qed.
Lemma pushFold_nodup (a : letter) (sink : loc) gs : forall nx, NoDup (map fst nx) ->
  NoDup (map fst (fold_left (fun n g => pushNext n a (mkT sink [] g)) gs nx)).
Proof. induction gs as [|g gs IH]; intros nx H; cbn [fold_left]; auto. apply IH, pushNext_nodup, H. Qed.

(** what one action adds, whatever the unobservable guards *)
Lemma mcAction_edges sink unobs nx a b u :
  nedge (mcAction sink unobs nx a) b u <-> nedge nx b u \/
    (b = a /\ ((unobs = [] /\ nfind nx a = [] /\ u = mkT sink [] [])
               \/ (nfind nx a <> [] /\ collectGuards unobs (nfind nx a) <> [] /\
                   exists g, In g (negateDNF (collectGuards unobs (nfind nx a))) /\ u = mkT sink [] g))).
Proof.
  destruct (nfind nx a) as [|t ts] eqn:E.
  - unfold mcAction. rewrite E. destruct unobs as [|g0 gs0].
    + rewrite pushNext_edge. split.
      * intros [H|[-> ->]]; auto. right. split; auto.
      * intros [H|[-> [(_ & _ & ->)|(K & _)]]]; auto. congruence.
    + split; auto. intros [H|[-> [(K & _)|(K & _)]]]; auto; congruence.
  - set (cg := collectGuards unobs (t :: ts)).
    assert (Eq : mcAction sink unobs nx a
       = match cg with [] => nx | _ :: _ => fold_left (fun n g => pushNext n a (mkT sink [] g)) (negateDNF cg) nx end).
    { unfold mcAction. rewrite E. subst cg. destruct unobs; destruct (collectGuards _ _); reflexivity. }
    rewrite Eq. clear Eq. clearbody cg. destruct cg as [|g0 gs0].
    + split; auto. intros [H|[-> [(_ & K & _)|(_ & K & _)]]]; auto; congruence.
    + rewrite pushFold_edge. split.
      * intros [H|[-> (g & I & ->)]]; auto. right. split; auto. right. repeat split; try discriminate. exists g. auto.
      * intros [H|[-> [(_ & K & _)|(_ & _ & g & I & ->)]]]; auto; [congruence|]. right. split; auto. exists g. auto.
Qed.
Lemma mcAction_nodup sink unobs nx a : NoDup (map fst nx) -> NoDup (map fst (mcAction sink unobs nx a)).
Proof.
  intro H. unfold mcAction. destruct unobs, (nfind nx a); auto; try (apply pushNext_nodup; auto);
  destruct (collectGuards _ _); auto; apply pushFold_nodup; auto.
Qed.
Lemma mcAction_new sink unobs nx a b u : nedge (mcAction sink unobs nx a) b u ->
  nedge nx b u \/ (b = a /\ ttgt u = sink /\ trst u = []).
Proof.
  rewrite mcAction_edges. intros [H|[-> [(_ & _ & ->)|(_ & _ & g & _ & ->)]]]; auto.
Qed.

Lemma mcFold_new sink unobs al : forall nx b u, nedge (fold_left (mcAction sink unobs) al nx) b u ->
  nedge nx b u \/ (In b al /\ ttgt u = sink /\ trst u = []).
Proof.
  induction al as [|a al IH]; intros nx b u H; cbn [fold_left] in H; [auto|].
  apply IH in H. destruct H as [H|(I & J)]; [|right; split; [right; auto|auto]].
  apply mcAction_new in H. destruct H as [H|(-> & J)]; auto. right. split; [left; reflexivity|auto].
Qed.
Lemma mcFold_old sink unobs al : forall nx b u, nedge nx b u -> nedge (fold_left (mcAction sink unobs) al nx) b u.
Proof.
  induction al as [|a al IH]; intros nx b u H; cbn [fold_left]; auto. apply IH. apply mcAction_edges. auto.
Qed.
Lemma mcFold_nodup sink unobs al : forall nx, NoDup (map fst nx) -> NoDup (map fst (fold_left (mcAction sink unobs) al nx)).
Proof. induction al as [|a al IH]; intros nx H; cbn [fold_left]; auto. apply IH, mcAction_nodup, H. Qed.

(** without unobservable transitions the new transitions are exactly the missing cases *)
Lemma mcAction_exact sink nx a :
  NoDup (map fst nx) -> (forall t, nedge nx a t -> smallConsts (tgrd t)) ->
  (forall v, nonneg v -> exists u, nedge (mcAction sink [] nx a) a u /\ gsat (tgrd u) v) /\
  (forall u, nedge (mcAction sink [] nx a) a u -> nedge nx a u \/
     (smallConsts (tgrd u) /\ ttgt u = sink /\ trst u = [] /\ forall v t, nonneg v -> gsat (tgrd u) v -> nedge nx a t -> ~ gsat (tgrd t) v)).
Proof.
  intros ND SM.
  assert (F : forall t, In t (nfind nx a) <-> nedge nx a t) by (intro t; apply nfind_iff; auto).
  destruct (nfind nx a) as [|t0 ts0] eqn:E.
  - split.
    + intros v _. exists (mkT sink [] []). split; [apply mcAction_edges; rewrite E; right; split; [reflexivity|left; repeat split; reflexivity]|intros k []].
    + intros u H. apply mcAction_edges in H. rewrite E in H. destruct H as [H|[_ [(_ & _ & ->)|(K & _)]]]; [auto| |congruence].
      right. cbn. repeat split; auto; [intros k []|]. intros v t _ _ I. apply F in I. destruct I.
  - destruct (collectGuards_spec (t0 :: ts0) []) as [[H1 H2]|[H1 (t & H2 & H3)]].
    + cbn [app] in H1. 
      assert (OK : forall v, nonneg v -> (dnfsat (negateDNF (map tgrd (t0 :: ts0))) v <-> ~ dnfsat (map tgrd (t0 :: ts0)) v)
         /\ (forall g, In g (negateDNF (map tgrd (t0 :: ts0))) -> smallConsts g)).
      { intros v Nn. apply negateDNF_ok; auto; [discriminate| |].
        - intros g I. apply in_map_iff in I. destruct I as (t & <- & I). auto.
        - intros g I. apply in_map_iff in I. destruct I as (t & <- & I). apply SM, F, I. }
      split.
      * intros v Nn. destruct (OK v Nn) as [O _].
        destruct (existsb (fun t => gsatb (tgrd t) v) (t0 :: ts0)) eqn:X.
        -- apply existsb_exists in X. destruct X as (t & I & G). apply gsatb_gsat in G. exists t. split; auto.
           apply mcAction_edges. left. apply F, I.
        -- assert (D : ~ dnfsat (map tgrd (t0 :: ts0)) v).
           { intros (g & I & G). apply in_map_iff in I. destruct I as (t & <- & I). apply gsatb_gsat in G.
             assert (X' : existsb (fun t => gsatb (tgrd t) v) (t0 :: ts0) = true) by (apply existsb_exists; exists t; auto). congruence. }
           apply O in D. destruct D as (g & I & G). exists (mkT sink [] g). split; auto.
           apply mcAction_edges. right. split; auto. right. rewrite E, H1. repeat split; try discriminate. exists g; auto.
      * intros u H. apply mcAction_edges in H. rewrite E, H1 in H.
        destruct H as [H|[_ [(_ & K & _)|(_ & _ & g & I & ->)]]]; [auto|congruence|].
        right. cbn [tgrd ttgt trst]. repeat split; auto.
        -- destruct (OK (fun _ => 0) ltac:(intro; apply Qle_refl)) as [_ O]. auto.
        -- intros v t Nn G I' G'. destruct (OK v Nn) as [O _]. apply O; [exists g; auto|].
           exists (tgrd t). split; auto. apply in_map_iff. exists t. split; auto. apply F, I'.
    + split.
      * intros v _. exists t. split; [apply mcAction_edges; left; apply F, H2|rewrite H3; intros k []].
      * intros u H. apply mcAction_edges in H. rewrite E, H1 in H.
        destruct H as [H|[_ [(_ & K & _)|(_ & K & _)]]]; [auto|congruence|congruence].
Qed.

Lemma mcFold_exact sink al : forall nx,
  NoDup (map fst nx) -> (forall a t, nedge nx a t -> smallConsts (tgrd t)) ->
  let nx' := fold_left (mcAction sink []) al nx in
  (forall a v, In a al -> nonneg v -> exists u, nedge nx' a u /\ gsat (tgrd u) v) /\
  (forall a u, nedge nx' a u -> nedge nx a u \/
     (smallConsts (tgrd u) /\ In a al /\ ttgt u = sink /\ trst u = [] /\ forall v t, nonneg v -> gsat (tgrd u) v -> nedge nx a t -> ~ gsat (tgrd t) v)).
Proof.
  induction al as [|a0 al IH]; intros nx ND SM; cbn [fold_left]; cbv zeta.
  - split; [intros a v []|auto].
  - destruct (mcAction_exact sink nx a0 ND (SM a0)) as [T N].
    assert (SM1 : forall a t, nedge (mcAction sink [] nx a0) a t -> smallConsts (tgrd t)).
    { intros a t H. assert (H' := H). apply mcAction_new in H'. destruct H' as [H'|(-> & _)]; [eapply SM; eauto|].
      destruct (N t H) as [K|(K & _)]; [eapply SM; eauto|auto]. }
    destruct (IH (mcAction sink [] nx a0) (mcAction_nodup _ _ _ _ ND) SM1) as [T1 N1]. clear IH. cbv zeta in T1, N1.
    split.
    + intros a v [<-|I] Nn; [|auto]. destruct (T v Nn) as (u & H & G). exists u. split; auto. apply mcFold_old; auto.
    + intros a u H. destruct (N1 a u H) as [K|(K1 & K2 & K3 & K4 & K5)].
      * assert (K' := K). apply mcAction_new in K'. destruct K' as [K'|(-> & J1 & J2)]; [auto|].
        destruct (N u K) as [L|(L1 & L2 & L3 & L4)]; [auto|]. right. repeat split; auto. left; reflexivity.
      * right. repeat split; auto; [right; auto|]. intros v t Nn G I. apply K5; auto. apply mcAction_edges. auto.
Qed.

(** ** the whole automaton *)
Lemma freshLoc_fresh A l : In l (map fst (tstates A)) -> (l < freshLoc A)%nat.
Proof.
  intro H. unfold freshLoc. assert (K := list_max_le (map fst (tstates A)) (list_max (map fst (tstates A)))).
  apply proj1 in K. specialize (K (le_n _)). rewrite Forall_forall in K. specialize (K l H). lia.
Qed.

Section MC.
Variables (A : ta) (al : list letter).
Let B := makeComplete A al.
Let sink := freshLoc A.
Hypothesis (W : wfTA A).

Lemma mc_in l s : In (l, s) (tstates B) <->
  (exists s0, In (l, s0) (tstates A) /\ s = mcState sink al s0) \/ (l = sink /\ s = mcState sink al (mkS false [])).
Proof.
  unfold B, makeComplete. cbn [tstates]. rewrite in_map_iff. split.
  - intros ([l0 s0] & E & H). injection E as <- <-. apply in_app_iff in H. destruct H as [H|[H|[]]].
    + left. eauto.
    + injection H as <- <-. right. auto.
  - intros [(s0 & H & ->)|[-> ->]].
    + exists (l, s0). split; auto. apply in_app_iff; auto.
    + exists (sink, mkS false []). split; auto. apply in_app_iff. right; left; reflexivity.
Qed.
Lemma mc_fst : map fst (tstates B) = map fst (tstates A) ++ [sink].
Proof. unfold B, makeComplete. cbn [tstates]. rewrite map_map, map_app. reflexivity. Qed.
Lemma sink_notin : ~ In sink (map fst (tstates A)).
Proof. intro H. apply freshLoc_fresh in H. unfold sink in H. lia. Qed.

Lemma mc_edge_old l a t : edge A l a t -> edge B l a t.
Proof.
  intro H. apply edge_nedge in H. destruct H as (s & H & K). apply edge_nedge. exists (mcState sink al s).
  split; [apply mc_in; left; eauto|]. apply mcFold_old. exact K.
Qed.
Lemma mc_edge_inv l a t : edge B l a t -> edge A l a t \/ (In a al /\ ttgt t = sink /\ trst t = []).
Proof.
  intro H. apply edge_nedge in H. destruct H as (s & H & K). apply mc_in in H.
  destruct H as [(s0 & H & ->)|[-> ->]]; apply mcFold_new in K.
  - destruct K as [K|K]; auto. left. apply edge_nedge. eauto.
  - destruct K as [(ts & [] & _)|K]; auto.
Qed.
Lemma mc_acc l : accepting B l <-> accepting A l.
Proof.
  unfold accepting. split.
  - intros (s & H & M). apply mc_in in H. destruct H as [(s0 & H & ->)|[-> ->]]; [eauto|discriminate].
  - intros (s & H & M). exists (mcState sink al s). split; [apply mc_in; left; eauto|exact M].
Qed.
Lemma mc_wf : wfTA B.
Proof.
  destruct W as (W1 & W2 & W3 & W4). split; [|split; [|split]].
  - rewrite mc_fst. assert (K := sink_notin). revert K W1. generalize (map fst (tstates A)). intro ls.
    induction ls as [|x ls IH]; intros K ND; cbn [app]; [repeat constructor; intros []|].
    inversion ND; subst. constructor; [|apply IH; auto; intro; apply K; right; auto].
    rewrite in_app_iff. intros [I|[I|[]]]; auto. apply K. left. exact (eq_sym I).
  - intros l s H. apply mc_in in H. destruct H as [(s0 & H & ->)|[-> ->]]; apply mcFold_nodup; [eapply W2; eauto|constructor].
  - intros l a t H. rewrite mc_fst, in_app_iff. apply mc_edge_inv in H. destruct H as [H|(_ & H & _)].
    + left. eapply W3; eauto.
    + right. left. auto.
  - intros l H. rewrite mc_fst, in_app_iff. unfold B, makeComplete in H. cbn [tinit] in H. destruct (tinit A) eqn:E.
    + right. exact H.
    + left. apply W4. exact H.
Qed.

Lemma mc_lang d0 w : accepts B d0 w <-> accepts A d0 w.
Proof.
  split.
  - apply (sim_id B A (fun l => l <> sink) (fun l => l = sink)).
    + intros l a t Hl H. apply mc_edge_inv in H. destruct H as [H|(_ & H & _)]; [left|right; exact H].
      exists t. split; [exact H|]. split; [reflexivity|]. split; [auto|]. split; [auto|]. intro E. apply sink_notin. rewrite <- E. destruct W as (_ & _ & W3 & _). eapply W3; eauto.
    + intros l a t -> H. apply mc_edge_inv in H. destruct H as [H|(_ & H & _)]; auto.
      exfalso. destruct H as (s & ts & H & _). apply sink_notin. apply in_fst. eauto.
    + intros l -> H. apply mc_acc in H. destruct H as (s & H & _). apply sink_notin. apply in_fst. eauto.
    + intros l H. unfold B, makeComplete in H. cbn [tinit] in H. destruct (tinit A) eqn:E.
      * right. destruct H as [H|[]]; auto.
      * left. split; auto. intros ->. apply sink_notin. destruct W as (_ & _ & _ & W4). apply W4. rewrite E. exact H.
    + intros l _. apply mc_acc.
  - apply (sim_id A B (fun _ => True) (fun _ => False)).
    + intros l a t _ H. left. exists t. split; [apply mc_edge_old; auto|auto].
    + intros l a t [].
    + intros l [].
    + intros l H. left. split; auto. unfold B, makeComplete. cbn [tinit]. destruct (tinit A); [destruct H|exact H].
    + intros l _. apply mc_acc.
Qed.

Hypotheses (NS : noSilent A) (SM : smallTA A).

Lemma unobs_nil l s : In (l, s) (tstates A) -> collectGuards [] (nfind (snext s) UNOBSERVABLE) = [].
Proof.
  intro H. destruct (nfind (snext s) UNOBSERVABLE) as [|t ts] eqn:E; auto.
  exfalso. apply (NS l t). apply edge_nedge. exists s. split; auto. apply nfind_in. rewrite E. left; reflexivity.
Qed.

Lemma mc_state_exact l s : In (l, s) (tstates B) ->
  (forall a v, In a al -> nonneg v -> exists u, nedge (snext s) a u /\ gsat (tgrd u) v) /\
  (forall a u, nedge (snext s) a u -> edge A l a u \/
     (smallConsts (tgrd u) /\ In a al /\ ttgt u = sink /\ trst u = [] /\ forall v t, nonneg v -> gsat (tgrd u) v -> edge A l a t -> ~ gsat (tgrd t) v)).
Proof.
  destruct W as (W1 & W2 & _). intro H. apply mc_in in H. destruct H as [(s0 & H & ->)|[-> ->]]; unfold mcState; cbn [snext].
  - rewrite (unobs_nil l s0 H).
    destruct (mcFold_exact sink al (snext s0) (W2 l s0 H)) as [T N].
    { intros a t K. apply (SM l a). apply edge_nedge. eauto. }
    split; auto. intros a u K. destruct (N a u K) as [L|(L1 & L2 & L3 & L4 & L5)].
    + left. apply edge_nedge. eauto.
    + right. repeat split; auto. intros v t Nn G E. apply (L5 v t Nn G). apply edge_nedge in E.
      destruct E as (s1 & E1 & E2). assert (s1 = s0) by (apply (in_unique (tstates A) l); auto). subst; auto.
  - cbn [nfind find snext collectGuards].
    destruct (mcFold_exact sink al []) as [T N]; [constructor|intros a t (ts & [] & _)|].
    split; auto. intros a u K. destruct (N a u K) as [(ts & [] & _)|(L1 & L2 & L3 & L4 & L5)].
    right. repeat split; auto. intros v t _ _ (s & ts & E & _). exfalso. apply sink_notin. apply in_fst. eauto.
Qed.

Lemma mc_total l a v : In l (map fst (tstates B)) -> In a al -> nonneg v ->
  exists t, edge B l a t /\ gsat (tgrd t) v.
Proof.
  intros H I Nn. apply in_fst in H. destruct H as (s & H). destruct (mc_state_exact l s H) as [T _].
  destruct (T a v I Nn) as (u & K & G). exists u. split; auto. apply edge_nedge. eauto.
Qed.

Lemma mc_small : smallTA B.
Proof.
  intros l a t H. apply edge_nedge in H. destruct H as (s & H & K). destruct (mc_state_exact l s H) as [_ N].
  destruct (N a t K) as [L|(L & _)]; auto. apply (SM l a); auto.
Qed.
Lemma mc_noSilent : ~ In UNOBSERVABLE al -> noSilent B.
Proof. intros Na l t H. apply mc_edge_inv in H. destruct H as [H|(H & _)]; [exact (NS l t H)|auto]. Qed.
Lemma mc_nonnegResets : nonnegResets A -> nonnegResets B.
Proof.
  intros NR l a t x q H I. apply mc_edge_inv in H. destruct H as [H|(_ & _ & H)]; [eapply NR; eauto|rewrite H in I; destruct I].
Qed.

(** two enabled transitions are equal or both go to the sink, changing nothing *)
Lemma mc_det l a t1 t2 v : detTA A -> nonneg v -> edge B l a t1 -> edge B l a t2 -> gsat (tgrd t1) v -> gsat (tgrd t2) v ->
  t1 = t2 \/ (ttgt t1 = sink /\ trst t1 = [] /\ ttgt t2 = sink /\ trst t2 = []).
Proof.
  intros DT Nn E1 E2 G1 G2. apply edge_nedge in E1. destruct E1 as (s & Hs & E1). apply edge_nedge in E2. destruct E2 as (s' & Hs' & E2).
  assert (s' = s). { apply (in_unique (tstates B) l); auto. apply mc_wf. } subst s'.
  destruct (mc_state_exact l s Hs) as [_ N].
  destruct (N a t1 E1) as [L1|(_ & _ & T1 & R1 & X1)], (N a t2 E2) as [L2|(_ & _ & T2 & R2 & X2)].
  - left. apply (det_unique A l a t1 t2 v); auto; apply nextOf_edge; auto.
  - exfalso. exact (X2 v t1 Nn G2 L1 G1).
  - exfalso. exact (X1 v t2 Nn G1 L2 G2).
  - right. auto.
Qed.

Lemma mc_fire_det l a v c1 c2 : detTA A -> nonneg v -> fire B a (l, v) c1 -> fire B a (l, v) c2 ->
  fst c1 = fst c2 /\ veq (snd c1) (snd c2).
Proof.
  intros DT Nn (t1 & E1 & G1 & T1 & R1) (t2 & E2 & G2 & T2 & R2). cbn [fst snd] in *.
  destruct (mc_det l a t1 t2 v DT Nn E1 E2 G1 G2) as [<-|(A1 & A2 & A3 & A4)].
  - split; [congruence|]. apply (isReset_fun (trst t1) v); auto.
  - split; [congruence|]. rewrite A2 in R1. rewrite A4 in R2. apply (isReset_fun [] v); auto.
Qed.
End MC.

Section Compl.
Variables (A : ta) (al : list letter).
Let B := makeComplete A al.
Hypotheses (W : wfTA A) (NS : noSilent A) (SM : smallTA A) (NR : nonnegResets A) (DT : detTA A) (NA : ~ In UNOBSERVABLE al).

Lemma fire_nonneg l a v c : nonneg v -> fire B a (l, v) c -> nonneg (snd c) /\ In (fst c) (map fst (tstates B)).
Proof.
  intros Nn (t & E & G & T & R). cbn [fst snd] in *. split.
  - apply isReset_applyReset in R. intro x. rewrite (R x). apply applyReset_nonneg; auto.
    intros y q I. apply (mc_nonnegResets A al NR l a t y q E I).
  - rewrite T. destruct (mc_wf A al W) as (_ & _ & W3 & _). eapply W3; eauto.
Qed.

Lemma mc_run_total w : forall l v, In l (map fst (tstates B)) -> nonneg v -> (forall a d, In (a, d) w -> In a al /\ 0 <= d) ->
  exists c, run B (l, v) w c /\ In (fst c) (map fst (tstates B)).
Proof.
  induction w as [|[a d] w IH]; intros l v Il Nn H.
  - exists (l, v). split; [constructor|auto].
  - destruct (H a d (or_introl eq_refl)) as [Ia Hd].
    destruct (mc_total A al W NS SM l a v Il Ia Nn) as (t & E & G).
    assert (Fi : fire B a (l, v) (ttgt t, applyReset v (trst t))).
    { exists t. cbn [fst snd]. split; [exact E|]. split; [exact G|]. split; [reflexivity|apply applyReset_isReset]. }
    destruct (fire_nonneg _ _ _ _ Nn Fi) as [Nn' Il']. cbn [fst snd] in *.
    destruct (IH (ttgt t) (delay (applyReset v (trst t)) d)) as (c & R & I); auto.
    { intro x. unfold delay. specialize (Nn' x). lra. }
    { intros a' d' I. apply H. right; auto. }
    exists c. split; auto. econstructor; [exact Fi| |exact R]. constructor; auto.
Qed.

Lemma mc_run_det w : forall l v v' c c', nonneg v -> veq v v' -> run B (l, v) w c -> run B (l, v') w c' -> fst c = fst c'.
Proof.
  induction w as [|[a d] w IH]; intros l v v' c c' Nn E R1 R2.
  - inversion R1; inversion R2; subst; reflexivity.
  - inversion R1 as [|? ? ? c1 c2 ? ? Fi1 Fl1 Rn1]; inversion R2 as [|? ? ? c1' c2' ? ? Fi2 Fl2 Rn2]; subst.
    apply (fire_veq B a l v' v) in Fi2; auto.
    destruct (mc_fire_det A al W NS SM l a v c1 c1' DT Nn Fi1 Fi2) as [E1 E2].
    destruct (fire_nonneg _ _ _ _ Nn Fi1) as [Nn1 _].
    destruct c1 as [l1 v1], c1' as [l1' v1']. cbn [fst snd] in *. subst l1'.
    apply (flow_noSilent B) in Fl1; [|apply mc_noSilent; auto]. apply (flow_noSilent B) in Fl2; [|apply mc_noSilent; auto].
    destruct Fl1 as (F1 & F2 & F3), Fl2 as (F1' & F2' & _). destruct c2 as [l2 v2], c2' as [l2' v2']. cbn [fst snd] in *. subst l2 l2'.
    apply (IH l1 v2 v2' c c'); auto.
    + intro x. rewrite (F2 x). unfold delay. specialize (Nn1 x). lra.
    + apply (veq_trans _ _ _ F2). apply (veq_trans _ (delay v1' d)); [apply delay_veq; auto|auto].
Qed.

Lemma compl_edge l a t : edge (complement A al) l a t <-> edge B l a t.
Proof. unfold complement. rewrite mapStates_edge. rewrite edge_nedge. reflexivity. Qed.
Lemma compl_fire a c c' : fire (complement A al) a c c' <-> fire B a c c'.
Proof.
  unfold fire. split; intros (t & E & K); exists t; (split; [apply compl_edge; exact E|exact K]).
Qed.
Lemma compl_flow c d c' : flow (complement A al) c d c' <-> flow B c d c'.
Proof.
  split; induction 1; try (constructor; auto; fail); eapply flow_silent; eauto; apply compl_fire; auto.
Qed.
Lemma compl_run c w c' : run (complement A al) c w c' <-> run B c w c'.
Proof.
  split; (induction 1 as [|? ? ? ? ? ? ? F1 F2 F3 IH]; [constructor|]);
    (econstructor; [apply compl_fire; exact F1|apply compl_flow; exact F2|exact IH]).
Qed.
Lemma compl_acc l : In l (map fst (tstates B)) -> (accepting (complement A al) l <-> ~ accepting B l).
Proof.
  intro Il. assert (ND : NoDup (map fst (tstates B))) by apply (mc_wf A al W).
  unfold complement. rewrite mapStates_acc. fold B. cbn [isMatch]. split.
  - intros (s & H & M) (s' & H' & M'). assert (s' = s) by (apply (in_unique (tstates B) l); auto). subst. rewrite M' in M. discriminate.
  - intro H. apply in_fst in Il. destruct Il as (s & Il). exists s. split; auto.
    destruct (isMatch s) eqn:M; auto. exfalso. apply H. exists s; auto.
Qed.

Lemma complement_exact d0 w : (length (tinit A) <= 1)%nat -> wordOver al d0 w ->
  (accepts (complement A al) d0 w <-> ~ accepts A d0 w).
Proof.
  intros Li [Hd0 Hw]. rewrite <- (mc_lang A al W). fold B.
  assert (Ei : exists l0, tinit B = [l0] /\ tinit (complement A al) = [l0] /\ In l0 (map fst (tstates B))).
  { assert (K := proj2 (proj2 (proj2 (mc_wf A al W)))). fold B in K.
    assert (E : tinit (complement A al) = tinit B) by reflexivity. rewrite E.
    assert (E1 : tinit B = match tinit A with [] => [freshLoc A] | i => i end) by reflexivity.
    destruct (tinit A) as [|l0 [|l1 ls]]; [exists (freshLoc A)|exists l0|cbn in Li; lia]; repeat split; auto; apply K; rewrite E1; left; reflexivity. }
  destruct Ei as (l0 & Ei & Ei' & Il).
  assert (Fl : flow B (l0, fun _ => 0) d0 (l0, delay (fun _ => 0) d0)) by (constructor; auto).
  assert (Nn : nonneg (delay (fun _ => 0) d0)) by (intro x; unfold delay; lra).
  assert (FD : forall c, flow B (l0, fun _ => 0) d0 c -> fst c = l0 /\ veq (snd c) (delay (fun _ => 0) d0)).
  { intros c F. apply flow_noSilent in F; [tauto|]. apply mc_noSilent; auto. }
  split.
  - intros (l1 & c0 & c & I1 & F1 & R1 & A1) (l2 & c0' & c' & I2 & F2 & R2 & A2).
    rewrite Ei' in I1. rewrite Ei in I2. destruct I1 as [<-|[]]. destruct I2 as [<-|[]].
    rewrite compl_flow in F1. rewrite compl_run in R1.
    destruct (FD _ F1) as [E1 V1], (FD _ F2) as [E2 V2]. destruct c0 as [q1 u1], c0' as [q2 u2]. cbn [fst snd] in *. subst q1 q2.
    assert (E : fst c = fst c').
    { apply (mc_run_det w l0 u1 u2); auto; [intro x; rewrite (V1 x); apply Nn|]. apply (veq_trans _ _ _ V1); auto. }
    rewrite E in A1. apply compl_acc in A1; [auto|]. destruct A2 as (s & A2 & _). apply in_fst. eauto.
  - intro H. destruct (mc_run_total w l0 _ Il Nn Hw) as (c & R & I).
    exists l0, (l0, delay (fun _ => 0) d0), c. rewrite Ei'. repeat split; [left; reflexivity|apply compl_flow; auto|apply compl_run; auto|].
    apply compl_acc; auto. intro Ac. apply H. exists l0, (l0, delay (fun _ => 0) d0), c. rewrite Ei. repeat split; auto. left; reflexivity.
Qed.
End Compl.
