(** The structure of ImpreciseClockHandler::run: transitions are only added. *)
From Coq Require Import QArith ZArith Bool List Arith Lia Lqa.
From Verif Require Import BoundsModel ConstraintModel GuardSpec ConstraintProofs ConstraintProofs2 ZoneModel AutomatonModel AutomatonSpec TimedWordModel TimedWordSpec TimedConditionModel ElementaryModel RegionalModel RenamingModel
  TableModel HypothesisModel NeighborModel NeighborSpec NeighborProofs4 TargetResetModel ImpreciseModel ImpreciseSpec.
Import ListNotations.

Definition relE (e e' : letter * list trans) : Prop := fst e' = fst e /\
  exists new, snd e' = snd e ++ new /\ forall t', In t' new -> exists t, In t (snd e) /\ relaxation t t'.
Definition relS (p p' : loc * tastate) : Prop := fst p' = fst p /\ AutomatonModel.isMatch (snd p') = AutomatonModel.isMatch (snd p) /\ Forall2 relE (snext (snd p)) (snext (snd p')).
Lemma onlyRelaxes_eq sts sts' : onlyRelaxes sts sts' <-> Forall2 relS sts sts'.
Proof. reflexivity. Qed.
Lemma relaxation_refl t : relaxation t t.
Proof. split; auto. Qed.
Lemma relaxation_trans t1 t2 t3 : relaxation t1 t2 -> relaxation t2 t3 -> relaxation t1 t3.
Proof. intros (A & B) (C & D). split; [congruence|auto]. Qed.
Lemma F2_refl {A} (R : A -> A -> Prop) : (forall x, R x x) -> forall l, Forall2 R l l.
Proof. intros H l. induction l; constructor; auto. Qed.
Lemma F2_trans {A} (R : A -> A -> Prop) : (forall x y z, R x y -> R y z -> R x z) -> forall l m n, Forall2 R l m -> Forall2 R m n -> Forall2 R l n.
Proof. intros H l m n L. revert n. induction L; intros n M; inversion M; subst; constructor; eauto. Qed.
Lemma relE_refl e : relE e e.
Proof. split; auto. exists []. rewrite app_nil_r. split; auto. intros ? []. Qed.
Lemma relE_trans e1 e2 e3 : relE e1 e2 -> relE e2 e3 -> relE e1 e3.
Proof.
  intros (A & n & B & C) (A' & n' & B' & C'). split; [congruence|]. exists (n ++ n'). split; [rewrite B', B, app_assoc; reflexivity|].
  intros t' H. apply in_app_iff in H. destruct H as [H|H]; [auto|]. destruct (C' t' H) as (t & I & R). rewrite B in I. apply in_app_iff in I. destruct I as [I|I]; [eauto|].
  destruct (C t I) as (t0 & I0 & R0). exists t0. split; [exact I0|]. eapply relaxation_trans; eauto.
Qed.
Lemma relS_refl p : relS p p.
Proof. split; auto. split; auto. apply F2_refl, relE_refl. Qed.
Lemma relS_trans p1 p2 p3 : relS p1 p2 -> relS p2 p3 -> relS p1 p3.
Proof. intros (A & B & C) (A' & B' & C'). split; [congruence|]. split; [congruence|]. eapply F2_trans; eauto. apply relE_trans. Qed.
Lemma onlyRelaxes_refl sts : onlyRelaxes sts sts.
Proof. apply onlyRelaxes_eq. apply F2_refl, relS_refl. Qed.
Lemma onlyRelaxes_trans a b c : onlyRelaxes a b -> onlyRelaxes b c -> onlyRelaxes a c.
Proof. rewrite !onlyRelaxes_eq. apply F2_trans, relS_trans. Qed.
Lemma onlyRelaxes_addr sts sts' : onlyRelaxes sts sts' -> map fst sts' = map fst sts.
Proof. rewrite onlyRelaxes_eq. induction 1 as [|p p' l l' (E & _) F IH]; cbn [map]; [reflexivity|]. rewrite E, IH. reflexivity. Qed.

Lemma nfind_rel nx nx' a : Forall2 relE nx nx' -> exists new, nfind nx' a = nfind nx a ++ new /\ forall t', In t' new -> exists t, In t (nfind nx a) /\ relaxation t t'.
Proof.
  unfold nfind. induction 1 as [|e e' l l' (E & R) F IH]; cbn [find]; [exists []; split; [reflexivity|intros ? []]|]. destruct e as [b ts], e' as [b' ts']; cbn [fst snd] in *; subst b'; destruct (b =? a)%nat; [exact R|exact IH].
Qed.
Lemma nextOf_rel sts sts' q : onlyRelaxes sts sts' -> Forall2 relE (nextOf sts q) (nextOf sts' q).
Proof.
  rewrite onlyRelaxes_eq. unfold nextOf. induction 1 as [|p p' l l' (E & _ & R) F IH]; cbn [find]; [constructor|]. destruct p as [b ts], p' as [b' ts']; cbn [fst snd] in *; subst b'; destruct (b =? q)%nat; [exact R|exact IH].
Qed.
Lemma at_rel sts sts' q a t : onlyRelaxes sts sts' -> In t (nfind (nextOf sts q) a) -> In t (nfind (nextOf sts' q) a).
Proof. intros O I. destruct (nfind_rel _ _ a (nextOf_rel _ _ q O)) as (n & E & _). rewrite E. apply in_app_iff. auto. Qed.
Lemma leaves_iff sts q t : leaves sts q t <-> exists a, In t (nfind (nextOf sts q) a).
Proof.
  unfold leaves, nfind, nextOf. split.
  - intros (p & a & ts & F & G & I). exists a. rewrite F, G. exact I.
  - intros (a & I). destruct (find (fun p => (fst p =? q)%nat) sts) as [p|] eqn:F; [|destruct I]. destruct (find (fun p0 => (fst p0 =? a)%nat) (snext (snd p))) as [[b ts]|] eqn:G; [|destruct I].
    exists p, a, ts. split; [reflexivity|]. split; [|exact I]. destruct (find_some _ _ G) as [_ E]. apply Nat.eqb_eq in E. cbn in E. subst b. exact G.
Qed.

(** ** adding a transition *)
Lemma pushNext_rel nx a t t' : In t (nfind nx a) -> relaxation t t' -> Forall2 relE nx (pushNext nx a t').
Proof.
  unfold nfind. intros I R. induction nx as [|[b ts] nx IH]; cbn [pushNext find fst snd] in *; [destruct I|].
  destruct (b =? a)%nat; [|constructor; [apply relE_refl|auto]]. constructor; [|apply F2_refl, relE_refl]. split; [reflexivity|]. exists [t']. split; [reflexivity|]. intros s [<-|[]]. eauto.
Qed.
Lemma pushNext_in nx a t' b t : In t (nfind (pushNext nx a t') b) -> In t (nfind nx b) \/ t = t'.
Proof.
  unfold nfind. induction nx as [|[c ts] nx IH]; cbn [pushNext find fst snd].
  - destruct (a =? b)%nat; cbn; intuition.
  - destruct (c =? a)%nat; cbn [find fst snd]; (destruct (c =? b)%nat eqn:E; [|auto]); [intro H; apply in_app_iff in H; destruct H as [H|[H|[]]]; auto|auto].
Qed.
Lemma pushTo_nextOf sts q a t : nextOf (pushTo sts q a t) q = nextOf sts q \/ nextOf (pushTo sts q a t) q = pushNext (nextOf sts q) a t.
Proof.
  unfold nextOf, pushTo. induction sts as [|[b s] sts IH]; cbn [map find fst snd]; [auto|]. destruct (b =? q)%nat eqn:E; cbn [find fst snd snext]; rewrite ?E; cbn [snd snext]; auto.
Qed.
Lemma pushTo_rel sts q a t t' : NoDup (map fst sts) -> In t (nfind (nextOf sts q) a) -> relaxation t t' -> onlyRelaxes sts (pushTo sts q a t').
Proof.
  rewrite onlyRelaxes_eq. unfold nextOf, pushTo. intros ND I R. induction sts as [|[b s] sts IH]; cbn [map find fst snd] in *; [constructor|]. inversion ND as [|? ? N1 N2]; subst.
  destruct (b =? q)%nat eqn:E.
  - constructor; [split; [reflexivity|]; split; [reflexivity|]; cbn [fst snd snext]; eapply pushNext_rel; eauto|].
    rewrite map_ext_in with (g := fun p => p); [rewrite map_id; apply F2_refl, relS_refl|]. intros [b' s'] H. cbn [fst snd]. destruct (b' =? q)%nat eqn:E'; [|reflexivity].
    exfalso. apply N1. apply Nat.eqb_eq in E. apply Nat.eqb_eq in E'. rewrite E, <- E'. change b' with (fst (b', s')). apply in_map. exact H.
  - constructor; [apply relS_refl|auto].
Qed.
Lemma pushAll_rel q a : forall new sts, NoDup (map fst sts) -> (forall t', In t' new -> exists t, In t (nfind (nextOf sts q) a) /\ relaxation t t') -> onlyRelaxes sts (fold_left (fun sts t => pushTo sts q a t) new sts).
Proof.
  induction new as [|t' new IH]; intros sts ND H; cbn [fold_left]; [apply onlyRelaxes_refl|].
  destruct (H t' (or_introl eq_refl)) as (t & I & R). assert (O := pushTo_rel sts q a t t' ND I R). eapply onlyRelaxes_trans; [exact O|]. apply IH.
  - rewrite (onlyRelaxes_addr _ _ O). exact ND.
  - intros s Hs. destruct (H s (or_intror Hs)) as (t0 & I0 & R0). exists t0. split; [|exact R0]. eapply at_rel; eauto.
Qed.
Lemma pushAll_in q a b t : forall new sts, In t (nfind (nextOf (fold_left (fun sts t => pushTo sts q a t) new sts) q) b) -> In t (nfind (nextOf sts q) b) \/ In t new.
Proof.
  induction new as [|t' new IH]; intros sts H; cbn [fold_left] in H; [auto|]. apply IH in H. destruct H as [H|H]; [|right; right; exact H].
  destruct (pushTo_nextOf sts q a t') as [E|E]; rewrite E in H; [auto|]. apply pushNext_in in H. destruct H as [H| ->]; [auto|right; left; reflexivity].
Qed.

(** ** the transitions handleOne makes *)
Lemma relaxOne_relaxation c n v t t' : relaxOne c n v t = Some t' -> relaxation t t'.
Proof.
  intro H. destruct (relaxOne_spec c n v t t' H) as (_ & E & _ & W & _). split; [exact E|]. intros u Hu. eapply isWeaker_sound; eauto.
Qed.
Lemma handleOne_new ord k sts c a t t' w : handleOne ord k sts c a t = Some (Some t', w) -> exists n v, relaxOne c n v t = Some t'.
Proof.
  unfold handleOne. destruct (relaxOne c 0 [] t); [|discriminate]. cbn zeta. destruct (makeAfter _ _ _ _ _ _) as [c'|]; [|discriminate]. intro H. injection H as H _. eauto.
Qed.
Lemma handleAll_new ord k sts c a : forall ts new ws, handleAll ord k sts c a ts = Some (new, ws) -> forall t', In t' new -> exists t n v, In t ts /\ relaxOne c n v t = Some t'.
Proof.
  induction ts as [|t ts IH]; intros new ws H t' I; cbn [handleAll] in H; [injection H as <- <-; destruct I|].
  destruct (handleOne ord k sts c a t) as [[o w]|] eqn:E; [|discriminate]. destruct (handleAll ord k sts c a ts) as [[os ws']|]; [|discriminate]. injection H as <- <-.
  apply in_app_iff in I. destruct I as [I|I].
  - destruct o as [x|]; [|destruct I]. destruct I as [->|[]]. destruct (handleOne_new _ _ _ _ _ _ _ _ E) as (n & v & R). exists t, n, v. split; [left; reflexivity|exact R].
  - destruct (IH os ws' eq_refl t' I) as (t0 & n & v & I0 & R). exists t0, n, v. split; [right; exact I0|exact R].
Qed.
Lemma handleAll_none ord k sts c a : forall ts, matches c ts = false -> handleAll ord k sts c a ts = Some ([], []).
Proof.
  induction ts as [|t ts IH]; intro M; cbn [handleAll]; [reflexivity|]. unfold matches in M. cbn [existsb] in M. apply orb_false_iff in M. destruct M as [M1 M2].
  unfold handleOne, relaxOne. rewrite M1, (IH M2). reflexivity.
Qed.

Section Actions.
Context (ord : list frel -> list frel) (k : nat) (q : loc) (c : nbr).
Lemma handleAction_rel s a s' : NoDup (map fst (rSts s)) -> handleAction ord k q c s a = Some s' -> onlyRelaxes (rSts s) (rSts s').
Proof.
  unfold handleAction. intros ND H. destruct (handleAll _ _ _ _ _ _) as [[new ws]|] eqn:E; [|discriminate]. injection H as <-. cbn [rSts]. apply pushAll_rel; [exact ND|].
  intros t' I. destruct (handleAll_new _ _ _ _ _ _ _ _ E t' I) as (t & n & v & I' & R). exists t. split; [exact I'|]. eapply relaxOne_relaxation; eauto.
Qed.
Lemma handleActions_rel : forall acts s s', NoDup (map fst (rSts s)) -> handleActions ord k q c s acts = Some s' -> onlyRelaxes (rSts s) (rSts s').
Proof.
  induction acts as [|a acts IH]; intros s s' ND H; cbn [handleActions] in H; [injection H as <-; apply onlyRelaxes_refl|].
  destruct (handleAction ord k q c s a) as [s1|] eqn:E; [|discriminate]. assert (O := handleAction_rel s a s1 ND E). eapply onlyRelaxes_trans; [exact O|]. apply IH; [|exact H].
  rewrite (onlyRelaxes_addr _ _ O). exact ND.
Qed.
(** a property of the transitions of q that relaxing keeps *)
Lemma handleAction_inv (Inv : trans -> Prop) s a s' : (forall t0 n v t, Inv t0 -> relaxOne c n v t0 = Some t -> Inv t) -> (forall t, leaves (rSts s) q t -> Inv t) ->
  handleAction ord k q c s a = Some s' -> (forall t, leaves (rSts s') q t -> Inv t) /\ (rBounded s' = true -> rBounded s = true \/ exists t, Inv t /\ nbMatch c (tgrd t) = true /\ existsb isUpper (tgrd t) = true) /\
  (rMatched s = true -> rMatched s' = true) /\ ((exists t, In t (nfind (nextOf (rSts s) q) a) /\ nbMatch c (tgrd t) = true) -> rMatched s' = true).
Proof.
  intros C I H. unfold handleAction in H. destruct (handleAll _ _ _ _ _ _) as [[new ws]|] eqn:E; [|discriminate]. injection H as <-. cbn [rSts rBounded rMatched].
  assert (I' : forall t, In t (nfind (nextOf (rSts s) q) a) -> Inv t) by (intros t Ht; apply I; apply leaves_iff; eauto). split; [|split; [|split]].
  - intros t Ht. apply leaves_iff in Ht. destruct Ht as [b Ht]. apply pushAll_in in Ht. destruct Ht as [Ht|Ht]; [apply I; apply leaves_iff; eauto|].
    destruct (handleAll_new _ _ _ _ _ _ _ _ E t Ht) as (t0 & n & v & J & R). eapply C; eauto.
  - intro B. apply orb_true_iff in B. destruct B as [B|B]; [auto|]. right. unfold boundedMatches in B. apply existsb_exists in B. destruct B as (t & J & B). apply andb_true_iff in B. exists t. split; [auto|exact B].
  - intro M. rewrite M. reflexivity.
  - intros (t & J & M). apply orb_true_iff. right. unfold matches. apply existsb_exists. eauto.
Qed.
Lemma handleActions_inv (Inv : trans -> Prop) : (forall t0 n v t, Inv t0 -> relaxOne c n v t0 = Some t -> Inv t) -> forall acts s s', NoDup (map fst (rSts s)) -> (forall t, leaves (rSts s) q t -> Inv t) ->
  handleActions ord k q c s acts = Some s' -> (forall t, leaves (rSts s') q t -> Inv t) /\ (rBounded s' = true -> rBounded s = true \/ exists t, Inv t /\ nbMatch c (tgrd t) = true /\ existsb isUpper (tgrd t) = true) /\
  (rMatched s = true -> rMatched s' = true) /\ (forall a t, In a acts -> In t (nfind (nextOf (rSts s) q) a) -> nbMatch c (tgrd t) = true -> rMatched s' = true).
Proof.
  intros C. induction acts as [|a acts IH]; intros s s' ND I H; cbn [handleActions] in H; [injection H as <-; repeat split; auto; intros ? ? []|].
  destruct (handleAction ord k q c s a) as [s1|] eqn:E; [|discriminate]. destruct (handleAction_inv Inv s a s1 C I E) as (J1 & J2 & J3 & J4). assert (O := handleAction_rel s a s1 ND E).
  assert (ND1 : NoDup (map fst (rSts s1))) by (rewrite (onlyRelaxes_addr _ _ O); exact ND). destruct (IH s1 s' ND1 J1 H) as (K1 & K2 & K3 & K4).
  split; [exact K1|]. split; [intro B; destruct (K2 B) as [B'|B']; auto|]. split; [auto|]. intros b t [<-|Hb] Ht M; [apply K3, J4; eauto|]. eapply K4; eauto. eapply at_rel; eauto.
Qed.
Lemma handleActions_idle : forall acts s, (forall t, leaves (rSts s) q t -> nbMatch c (tgrd t) = false) -> exists s', handleActions ord k q c s acts = Some s' /\ rSts s' = rSts s /\ rMatched s' = rMatched s.
Proof.
  induction acts as [|a acts IH]; intros s N; cbn [handleActions]; [eauto|].
  assert (M : matches c (nfind (nextOf (rSts s) q) a) = false).
  { unfold matches. destruct (existsb _ _) eqn:E; [|reflexivity]. apply existsb_exists in E. destruct E as (t & I & B). rewrite (N t) in B; [discriminate|]. apply leaves_iff. eauto. }
  unfold handleAction. rewrite (handleAll_none _ _ _ _ _ _ M), M. cbn [fold_left]. destruct (IH (mkR (rSts s) (rWs s ++ []) (rBounded s || boundedMatches c (nfind (nextOf (rSts s) q) a)) (rMatched s || false)) N) as (s' & H & E1 & E2).
  exists s'. split; [exact H|]. cbn [rSts rMatched] in *. rewrite orb_false_r in E2. auto.
Qed.
End Actions.

(** ** the loops only relax *)
Lemma rounds_rel ord k keys q : forall f sts c ws some sts' ws', NoDup (map fst sts) -> rounds f ord k keys q sts c ws some = Done sts' ws' -> onlyRelaxes sts sts'.
Proof.
  induction f as [|f IH]; intros sts c ws some sts' ws' ND H; cbn [rounds] in H; [discriminate|].
  destruct (handleActions _ _ _ _ _ _) as [s|] eqn:E; [|discriminate]. assert (O : onlyRelaxes sts (rSts s)) by (exact (handleActions_rel ord k q c _ (mkR sts ws false some) s ND E)).
  destruct (nbSucc ord k c) as [c'|]; [|discriminate]. destruct (_ || _).
  - eapply onlyRelaxes_trans; [exact O|]. eapply IH; [|exact H]. rewrite (onlyRelaxes_addr _ _ O). exact ND.
  - injection H as <- _. exact O.
Qed.
Lemma runLoop_rel ord k keys pick hsh : forall f sts ws vis sts' ws', NoDup (map fst sts) -> runLoop f ord k keys pick hsh sts ws vis = Done sts' ws' -> onlyRelaxes sts sts'.
Proof.
  induction f as [|f IH]; intros sts ws vis sts' ws' ND H; cbn [runLoop] in H; (destruct ws as [|d ws]; [injection H as <- _; apply onlyRelaxes_refl|]); [discriminate|]. cbn zeta in H.
  destruct (existsb _ _); [eapply IH; eauto|]. destruct (rounds _ _ _ _ _ _ _ _ _) as [sts1 ws1| | |] eqn:E; [|discriminate|discriminate|discriminate]. assert (O := rounds_rel _ _ _ _ _ _ _ _ _ _ _ ND E).
  eapply onlyRelaxes_trans; [exact O|]. eapply IH; [|exact H]. rewrite (onlyRelaxes_addr _ _ O). exact ND.
Qed.

(** ** the language *)
Lemma onlyRelaxes_edge sts sts' i m i' m' l a t : onlyRelaxes sts sts' -> edge (mkTA sts i m) l a t -> edge (mkTA sts' i' m') l a t.
Proof.
  rewrite onlyRelaxes_eq. unfold edge. cbn [tstates]. intros O (s & ts & H1 & H2 & H3). induction O as [|p p' x y (E & _ & R) F IH]; [destruct H1|]. destruct H1 as [->|H1].
  - cbn [fst snd] in *. clear IH F. assert (K : exists ts', In (a, ts') (snext (snd p')) /\ In t ts').
    { induction R as [|e e' u v (E1 & n & E2 & _) F IH]; [destruct H2|]. destruct H2 as [->|H2].
      - exists (snd e'). cbn [fst snd] in *. split; [left; destruct e'; cbn in *; congruence|]. rewrite E2. apply in_app_iff. auto.
      - destruct (IH H2) as (ts' & K1 & K2). exists ts'. split; [right; exact K1|exact K2]. }
    destruct K as (ts' & K1 & K2). exists (snd p'), ts'. split; [left; destruct p'; cbn in *; congruence|auto].
  - destruct (IH H1) as (s' & ts' & K1 & K2 & K3). exists s', ts'. split; [right; exact K1|auto].
Qed.
Lemma onlyRelaxes_back sts sts' i m i' m' l a t' : onlyRelaxes sts sts' -> edge (mkTA sts' i' m') l a t' -> exists t, edge (mkTA sts i m) l a t /\ relaxation t t'.
Proof.
  rewrite onlyRelaxes_eq. unfold edge. cbn [tstates]. intros O (s & ts & H1 & H2 & H3). induction O as [|p p' x y (E & _ & R) F IH]; [destruct H1|]. destruct H1 as [->|H1].
  - cbn [fst snd] in *. clear IH F. assert (K : exists ts' t, In (a, ts') (snext (snd p)) /\ In t ts' /\ relaxation t t').
    { induction R as [|e e' u v (E1 & n & E2 & E3) F IH]; [destruct H2|]. destruct H2 as [->|H2].
      - cbn [fst snd] in *. rewrite E2 in H3. apply in_app_iff in H3. destruct H3 as [H3|H3].
        + exists (snd e), t'. split; [left; destruct e; cbn in *; congruence|]. split; [exact H3|apply relaxation_refl].
        + destruct (E3 t' H3) as (t & I & Q). exists (snd e), t. split; [left; destruct e; cbn in *; congruence|auto].
      - destruct (IH H2) as (ts' & t & K1 & K2). exists ts', t. split; [right; exact K1|exact K2]. }
    destruct K as (ts' & t & K1 & K2 & K3). exists t. split; [|exact K3]. exists (snd p), ts'. split; [left; destruct p; cbn in *; congruence|auto].
  - destruct (IH H1) as (t & (s' & ts' & K1 & K2 & K3) & K4). exists t. split; [|exact K4]. exists s', ts'. split; [right; exact K1|auto].
Qed.
Lemma onlyRelaxes_accepting sts sts' i m i' m' l : onlyRelaxes sts sts' -> (accepting (mkTA sts i m) l <-> accepting (mkTA sts' i' m') l).
Proof.
  rewrite onlyRelaxes_eq. unfold accepting. cbn [tstates]. induction 1 as [|p p' x y (E & M & R) F IH]; [split; intros (s & [] & _)|]. split; intros (s & [->|H] & A).
  - exists (snd p'). cbn [fst snd] in *. split; [left; destruct p'; cbn in *; congruence|congruence].
  - destruct (proj1 IH (ex_intro _ s (conj H A))) as (s' & K & B). exists s'. split; [right; exact K|exact B].
  - exists (snd p). cbn [fst snd] in *. split; [left; destruct p; cbn in *; congruence|congruence].
  - destruct (proj2 IH (ex_intro _ s (conj H A))) as (s' & K & B). exists s'. split; [right; exact K|exact B].
Qed.
Lemma onlyRelaxes_accepts sts sts' i m m' d0 w : onlyRelaxes sts sts' -> accepts (mkTA sts i m) d0 w -> accepts (mkTA sts' i m') d0 w.
Proof.
  intro O. assert (FI : forall a c c', fire (mkTA sts i m) a c c' -> fire (mkTA sts' i m') a c c') by (intros a c c' (t & E & R); exists t; split; [eapply onlyRelaxes_edge; eauto|exact R]).
  assert (FL : forall c d c', flow (mkTA sts i m) c d c' -> flow (mkTA sts' i m') c d c') by (induction 1; [constructor; auto|eapply flow_silent; eauto]).
  assert (RU : forall c u c', run (mkTA sts i m) c u c' -> run (mkTA sts' i m') c u c') by (induction 1; [constructor|econstructor; eauto]).
  intros (l0 & c0 & c & H1 & H2 & H3 & H4). exists l0, c0, c. split; [exact H1|]. split; [auto|]. split; [auto|]. apply (onlyRelaxes_accepting _ _ i m i m' _ O). exact H4.
Qed.
