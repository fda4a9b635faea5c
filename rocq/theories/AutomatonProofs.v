(** Basic lemmas about runs: resets, congruence, simulations. *)
From Coq Require Import QArith ZArith Bool List Arith Lia Lqa.
From Verif Require Import BoundsModel ConstraintModel GuardSpec ZoneModel AutomatonModel AutomatonSpec.
From Verif Require Import ConstraintProofs.
Import ListNotations.
Open Scope Q_scope.

(** ** resets *)
Lemma last_split (rs : resets) x : In x (map fst rs) ->
  exists a r b, rs = a ++ (x, r) :: b /\ ~ In x (map fst b).
Proof.
  induction rs as [|[y q] rs IH] using rev_ind; intro H; [destruct H|].
  destruct (Nat.eq_dec y x) as [->|N].
  - exists rs, q, []. split; auto.
  - rewrite map_app, in_app_iff in H. destruct H as [H|[H|[]]]; [|exfalso; apply N; exact H].
    destruct (IH H) as (a & r & b & -> & Hb). exists a, r, (b ++ [(y, q)]). split; [rewrite <- app_assoc; reflexivity|].
    rewrite map_app, in_app_iff. intros [K|[K|[]]]; [auto|apply N; exact K].
Qed.

Lemma applyReset_app old rs1 : forall acc rs2,
  fold_left (applyReset1 old) (rs1 ++ rs2) acc = fold_left (applyReset1 old) rs2 (fold_left (applyReset1 old) rs1 acc).
Proof. intros; apply fold_left_app. Qed.

Lemma applyReset_out old rs : forall acc x, ~ In x (map fst rs) -> fold_left (applyReset1 old) rs acc x = acc x.
Proof.
  induction rs as [|[y q] rs IH]; intros acc x H; [reflexivity|].
  cbn [fold_left]. rewrite IH; [|intro K; apply H; right; exact K].
  unfold applyReset1. cbn [fst snd]. destruct (Nat.eqb_spec x y); [subst; exfalso; apply H; left; reflexivity|reflexivity].
Qed.

Lemma applyReset_isReset rs v : isReset rs v (applyReset v rs).
Proof.
  intro x. split.
  - intro H. unfold applyReset. rewrite applyReset_out; auto. reflexivity.
  - intros a r b -> Hb. unfold applyReset. rewrite applyReset_app. cbn [fold_left].
    rewrite applyReset_out; auto. unfold applyReset1. cbn [fst snd]. rewrite Nat.eqb_refl. destruct r; reflexivity.
Qed.

Lemma isReset_fun rs v v1 v2 : isReset rs v v1 -> isReset rs v v2 -> veq v1 v2.
Proof.
  intros H1 H2 x. destruct (in_dec Nat.eq_dec x (map fst rs)) as [I|I].
  - destruct (last_split rs x I) as (a & r & b & E & Hb).
    rewrite (proj2 (H1 x) a r b E Hb), (proj2 (H2 x) a r b E Hb). reflexivity.
  - rewrite (proj1 (H1 x) I), (proj1 (H2 x) I). reflexivity.
Qed.

Lemma veq_refl v : veq v v. Proof. intro; reflexivity. Qed.
Lemma veq_sym v w : veq v w -> veq w v. Proof. intros H x; symmetry; apply H. Qed.
Lemma veq_trans u v w : veq u v -> veq v w -> veq u w. Proof. intros H K x; rewrite (H x); apply K. Qed.
#[export] Hint Resolve veq_refl veq_sym : core.

Lemma isReset_veq rs v v' w w' : veq v w -> veq v' w' -> isReset rs v v' -> isReset rs w w'.
Proof.
  intros E E' H x. destruct (H x) as [H1 H2]. split.
  - intro I. rewrite <- (E' x), (H1 I). apply E.
  - intros a r b Er Hb. rewrite <- (E' x), (H2 a r b Er Hb). destruct r; [reflexivity|apply E].
Qed.

Lemma isReset_applyReset rs v v' : isReset rs v v' <-> veq v' (applyReset v rs).
Proof.
  split; intro H.
  - apply (isReset_fun rs v); auto. apply applyReset_isReset.
  - apply (isReset_veq rs v (applyReset v rs)); auto. apply applyReset_isReset.
Qed.

Lemma isReset_nil v v' : isReset [] v v' <-> veq v' v.
Proof. rewrite isReset_applyReset. reflexivity. Qed.

Lemma gsat_veq g v w : veq v w -> gsat g v -> gsat g w.
Proof.
  intros E H k Hk. specialize (H k Hk). unfold holds in *. specialize (E (cx k)). destruct (codr k); lra.
Qed.

Lemma delay_veq v w d : veq v w -> veq (delay v d) (delay w d).
Proof. intros E x. unfold delay. rewrite (E x). reflexivity. Qed.

Lemma applyReset_nonneg rs v : (forall x q, In (x, RConst q) rs -> 0 <= q) -> nonneg v -> nonneg (applyReset v rs).
Proof.
  intros H N x. destruct (in_dec Nat.eq_dec x (map fst rs)) as [I|I].
  - destruct (last_split rs x I) as (a & r & b & E & Hb).
    rewrite (proj2 (applyReset_isReset rs v x) a r b E Hb). destruct r as [q|y]; [|apply N].
    apply (H x). rewrite E. apply in_or_app. right; left; reflexivity.
  - rewrite (proj1 (applyReset_isReset rs v x) I). apply N.
Qed.

(** ** congruence of runs *)
Lemma fire_veq A a l v v' c : veq v v' -> fire A a (l, v) c -> fire A a (l, v') c.
Proof.
  intros E (t & He & Hg & Ht & Hr). exists t. cbn [fst snd] in *. repeat split; auto.
  - apply (gsat_veq _ v); auto.
  - apply (isReset_veq _ v (snd c)); auto.
  - apply (isReset_veq _ v (snd c)); auto.
Qed.

Lemma flow_nonneg A c d c' : flow A c d c' -> 0 <= d.
Proof. induction 1; auto. rewrite H2. lra. Qed.

Lemma flow_veq A c d c' : flow A c d c' -> forall l v v', c = (l, v) -> veq v v' -> flow A (l, v') d c'.
Proof.
  induction 1 as [l v d v' Hd Hv | c d1 c1 c2 d2 c' d F1 IH1 Fi F2 IH2 E]; intros l0 u u' Ec Eu.
  - injection Ec as -> ->. constructor; auto. apply (veq_trans _ _ _ Hv). apply delay_veq; auto.
  - apply (flow_silent A _ d1 c1 c2 d2); auto. apply (IH1 l0 u u'); auto.
Qed.

Lemma flow_Q A c d c' : flow A c d c' -> forall d', d == d' -> flow A c d' c'.
Proof.
  induction 1 as [l v d v' Hd Hv | c d1 c1 c2 d2 c' d F1 IH1 Fi F2 IH2 E]; intros d' Ed.
  - constructor; [rewrite <- Ed; auto|]. intro x. rewrite (Hv x). unfold delay. rewrite Ed. reflexivity.
  - apply (flow_silent A _ d1 c1 c2 d2); auto. rewrite <- Ed. exact E.
Qed.

Lemma flow_noSilent A l v d c' : noSilent A -> flow A (l, v) d c' -> fst c' = l /\ veq (snd c') (delay v d) /\ 0 <= d.
Proof.
  intros NS H. inversion H; subst; [auto|].
  exfalso. destruct H1 as (t & He & _). exact (NS _ _ He).
Qed.

(** ** simulation *)
Section Sim.
Variables (A B : ta) (R : conf -> conf -> Prop) (dead : loc -> Prop).
Hypothesis Hdelay : forall l v l' w d v1, R (l, v) (l', w) -> 0 <= d -> veq v1 (delay v d) ->
  exists w1, veq w1 (delay w d) /\ R (l, v1) (l', w1).
Hypothesis Hfire : forall a c1 c2 c1', R c1 c1' -> fire A a c1 c2 ->
  (exists c2', fire B a c1' c2' /\ R c2 c2') \/ dead (fst c2).
Hypothesis Hdead : forall l a t, dead l -> edge A l a t -> dead (ttgt t).
Hypothesis Hdead_acc : forall l, dead l -> ~ accepting A l.
Hypothesis Hinit : forall l0, In l0 (tinit A) ->
  (exists l0', In l0' (tinit B) /\ R (l0, fun _ => 0) (l0', fun _ => 0)) \/ dead l0.
Hypothesis Hacc : forall c c', R c c' -> accepting A (fst c) -> accepting B (fst c').

Lemma dead_fire a c c' : dead (fst c) -> fire A a c c' -> dead (fst c').
Proof. intros D (t & He & _ & E & _). rewrite E. eapply Hdead; eauto. Qed.
Lemma dead_flow c d c' : flow A c d c' -> dead (fst c) -> dead (fst c').
Proof. induction 1 as [|? ? ? ? ? ? ? F1 IH1 Fi F2 IH2 E]; intro D; auto. apply IH2. eapply dead_fire; [|exact Fi]. auto. Qed.
Lemma dead_run c w c' : run A c w c' -> dead (fst c) -> dead (fst c').
Proof. induction 1 as [|? ? ? ? ? ? ? Fi F Rn IH]; intro D; auto. apply IH. eapply dead_flow; [exact F|]. eapply dead_fire; [|exact Fi]; auto. Qed.

Lemma sim_flow c d c1 : flow A c d c1 -> forall c', R c c' ->
  (exists c1', flow B c' d c1' /\ R c1 c1') \/ dead (fst c1).
Proof.
  induction 1 as [l v d v' Hd Hv | c d1 c1 c2 d2 c3 d F1 IH1 Fi F2 IH2 E]; intros c' HR.
  - destruct c' as [l' w]. destruct (Hdelay l v l' w d v' HR Hd Hv) as (w1 & Ew & HR1).
    left. exists (l', w1). split; auto. constructor; auto.
  - destruct (IH1 c' HR) as [(c1' & G1 & R1)|D].
    + destruct (Hfire _ _ _ _ R1 Fi) as [(c2' & G2 & R2)|D].
      * destruct (IH2 c2' R2) as [(c3' & G3 & R3)|D]; [|right; auto].
        left. exists c3'. split; auto. eapply flow_silent; eauto.
      * right. eapply dead_flow; eauto.
    + right. eapply dead_flow; eauto. eapply dead_fire; eauto.
Qed.

Lemma sim_run c w c1 : run A c w c1 -> forall c', R c c' ->
  (exists c1', run B c' w c1' /\ R c1 c1') \/ dead (fst c1).
Proof.
  induction 1 as [c | c a d c1 c2 w c3 Fi F Rn IH]; intros c' HR.
  - left. exists c'. split; auto. constructor.
  - destruct (Hfire _ _ _ _ HR Fi) as [(c1' & G1 & R1)|D].
    + destruct (sim_flow _ _ _ F _ R1) as [(c2' & G2 & R2)|D].
      * destruct (IH c2' R2) as [(c3' & G3 & R3)|D]; [|right; auto].
        left. exists c3'. split; auto. econstructor; eauto.
      * right. eapply dead_run; eauto.
    + right. eapply dead_run; eauto. eapply dead_flow; eauto.
Qed.

Theorem sim_accepts d0 w : accepts A d0 w -> accepts B d0 w.
Proof.
  intros (l0 & c0 & c & Hi & F & Rn & Ac).
  destruct (Hinit l0 Hi) as [(l0' & Hi' & HR)|D].
  - destruct (sim_flow _ _ _ F _ HR) as [(c0' & G & R0)|D].
    + destruct (sim_run _ _ _ Rn _ R0) as [(c' & G' & R1)|D].
      * exists l0', c0', c'. repeat split; auto. eapply Hacc; eauto.
      * exfalso. eapply Hdead_acc; eauto.
    + exfalso. eapply Hdead_acc; [|exact Ac]. eapply dead_run; eauto.
  - exfalso. eapply Hdead_acc; [|exact Ac]. eapply dead_run; eauto. eapply dead_flow; eauto.
Qed.
End Sim.

(** identity on configurations, with a location invariant *)
Theorem sim_id (A B : ta) (P dead : loc -> Prop) :
  (forall l a t, P l -> edge A l a t ->
     (exists t', edge B l a t' /\ ttgt t' = ttgt t /\ (forall v v', isReset (trst t) v v' -> isReset (trst t') v v')
                 /\ (forall v, gsat (tgrd t) v -> gsat (tgrd t') v) /\ P (ttgt t)) \/ dead (ttgt t)) ->
  (forall l a t, dead l -> edge A l a t -> dead (ttgt t)) ->
  (forall l, dead l -> ~ accepting A l) ->
  (forall l, In l (tinit A) -> (In l (tinit B) /\ P l) \/ dead l) ->
  (forall l, P l -> accepting A l -> accepting B l) ->
  forall d0 w, accepts A d0 w -> accepts B d0 w.
Proof.
  intros He Hd Hda Hi Ha. apply (sim_accepts A B (fun c c' => c = c' /\ P (fst c)) dead); auto.
  - intros l v l' w d v1 [E HP] Hd0 Hv. injection E as <- <-. exists v1. auto.
  - intros a c1 c2 c1' [<- HP] (t & Ht & Hg & Et & Hr).
    destruct (He _ _ _ HP Ht) as [(t' & E' & T' & R' & G' & P')|D].
    + left. exists c2. split; [|rewrite Et; auto]. exists t'. repeat split; auto; try congruence; apply R'; auto.
    + right. congruence.
  - intros l0 Hl. destruct (Hi l0 Hl) as [[I HP]|D]; [left|right; auto]. exists l0. auto.
  - intros c c' [<- HP]. auto.
Qed.

(** ** list-map level facts *)
Lemma find_key {X} (l : list (nat * X)) k p : find (fun p => Nat.eqb (fst p) k) l = Some p -> In p l /\ fst p = k.
Proof. intro H. apply find_some in H. destruct H as [H E]. apply Nat.eqb_eq in E. auto. Qed.
Lemma find_key_nodup {X} (l : list (nat * X)) k x : NoDup (map fst l) -> In (k, x) l ->
  find (fun p => Nat.eqb (fst p) k) l = Some (k, x).
Proof.
  induction l as [|[k' x'] l IH]; intros ND H; [destruct H|].
  inversion ND; subst. cbn. destruct (Nat.eqb_spec k' k) as [->|N].
  - destruct H as [H|H]; [congruence|]. exfalso. apply H2. apply in_map_iff. exists (k, x); auto.
  - destruct H as [H|H]; [congruence|auto].
Qed.
Lemma find_key_none {X} (l : list (nat * X)) k : find (fun p => Nat.eqb (fst p) k) l = None -> forall x, ~ In (k, x) l.
Proof. intros H x I. apply (find_none _ _ H) in I. cbn in I. rewrite Nat.eqb_refl in I. discriminate. Qed.

Lemma nfind_in nx a t : In t (nfind nx a) -> exists ts, In (a, ts) nx /\ In t ts.
Proof.
  unfold nfind. destruct (find (fun p => Nat.eqb (fst p) a) nx) as [[b ts]|] eqn:E; [|intros []].
  apply find_key in E. destruct E as [E Eb]. cbn in Eb; subst. cbn. eauto.
Qed.
Lemma nfind_nodup nx a ts : NoDup (map fst nx) -> In (a, ts) nx -> nfind nx a = ts.
Proof. intros ND H. unfold nfind. rewrite (find_key_nodup nx a ts ND H). reflexivity. Qed.
Lemma nfind_iff nx a t : NoDup (map fst nx) -> (In t (nfind nx a) <-> exists ts, In (a, ts) nx /\ In t ts).
Proof. intro ND. split; [apply nfind_in|]. intros (ts & H & I). rewrite (nfind_nodup nx a ts ND H). exact I. Qed.

Lemma lookup_some A l s : lookup A l = Some s -> In (l, s) (tstates A).
Proof.
  unfold lookup. destruct (find (fun p => Nat.eqb (fst p) l) (tstates A)) as [[b x]|] eqn:E; [|discriminate].
  intro H; injection H as <-. apply find_key in E. destruct E as [E Eb]. cbn in Eb; subst. exact E.
Qed.
Lemma lookup_in A l s : NoDup (map fst (tstates A)) -> In (l, s) (tstates A) -> lookup A l = Some s.
Proof. intros ND H. unfold lookup. rewrite (find_key_nodup _ l s ND H). reflexivity. Qed.
Lemma lookup_none A l : lookup A l = None -> forall s, ~ In (l, s) (tstates A).
Proof.
  unfold lookup. destruct (find (fun p => Nat.eqb (fst p) l) (tstates A)) eqn:E; [discriminate|]. intros _. apply find_key_none; auto.
Qed.
Lemma in_fst {X} (l : list (nat * X)) k : In k (map fst l) <-> exists x, In (k, x) l.
Proof.
  rewrite in_map_iff. split.
  - intros [[k' x] [E H]]. cbn in E; subst. eauto.
  - intros [x H]. exists (k, x); auto.
Qed.
Lemma in_unique {X} (l : list (nat * X)) k x y : NoDup (map fst l) -> In (k, x) l -> In (k, y) l -> x = y.
Proof. intros ND H1 H2. apply (find_key_nodup l k) in H1; auto. apply (find_key_nodup l k) in H2; auto. congruence. Qed.

Lemma memb_in l ls : memb l ls = true <-> In l ls.
Proof.
  unfold memb. rewrite existsb_exists. split.
  - intros [x [H E]]. apply Nat.eqb_eq in E. subst; auto.
  - intro H. exists l. split; auto. apply Nat.eqb_refl.
Qed.

(** pushing a transition adds exactly that edge *)
Definition nedge (nx : nextmap) (a : letter) (t : trans) : Prop := exists ts, In (a, ts) nx /\ In t ts.
Lemma pushNext_edge nx a t : forall b u, nedge (pushNext nx a t) b u <-> nedge nx b u \/ (b = a /\ u = t).
Proof.
  unfold nedge. induction nx as [|[c ts] r IH]; intros b u; cbn [pushNext].
  - split.
    + intros (ts & [H|[]] & I). injection H as <- <-. destruct I as [<-|[]]. auto.
    + intros [(ts & [] & _)|[-> ->]]. exists [t]. split; left; reflexivity.
  - destruct (Nat.eqb_spec c a) as [->|N]; split.
    + intros (ts' & [H|H] & I).
      * injection H as <- <-. apply in_app_iff in I. destruct I as [I|[<-|[]]]; [|auto].
        left. exists ts. split; [left; reflexivity|auto].
      * left. exists ts'. split; [right; auto|auto].
    + intros [(ts' & [H|H] & I)|[-> ->]].
      * injection H as <- <-. exists (ts ++ [t]). split; [left; reflexivity|apply in_app_iff; auto].
      * exists ts'. split; [right; auto|auto].
      * exists (ts ++ [t]). split; [left; reflexivity|apply in_app_iff; right; left; reflexivity].
    + intros (ts' & [H|H] & I).
      * injection H as <- <-. left. exists ts. split; [left; reflexivity|auto].
      * destruct (proj1 (IH b u)) as [K|K]; [exists ts'; auto| |right; exact K].
        destruct K as (ts2 & K1 & K2). left. exists ts2. split; [right; auto|auto].
    + intros [(ts' & [H|H] & I)|K].
      * injection H as <- <-. exists ts. split; [left; reflexivity|auto].
      * destruct (proj2 (IH b u)) as (ts2 & K1 & K2); [left; exists ts'; auto|]. exists ts2. split; [right; auto|auto].
      * destruct (proj2 (IH b u)) as (ts2 & K1 & K2); [right; exact K|]. exists ts2. split; [right; auto|auto].
Qed.
Lemma pushNext_keys nx a t : forall b, In b (map fst (pushNext nx a t)) <-> In b (map fst nx) \/ b = a.
Proof.
  induction nx as [|[c ts] r IH]; intro b; cbn [pushNext].
  - cbn. intuition.
  - destruct (Nat.eqb_spec c a) as [->|N]; cbn [map fst In]; [intuition|]. rewrite IH. intuition.
Qed.
Lemma pushNext_nodup nx a t : NoDup (map fst nx) -> NoDup (map fst (pushNext nx a t)).
Proof.
  induction nx as [|[c ts] r IH]; intro ND; cbn [pushNext].
  - repeat constructor. intros [].
  - inversion ND; subst. destruct (Nat.eqb_spec c a) as [->|N]; [exact ND|].
    cbn [map fst]. constructor; [|auto]. rewrite pushNext_keys. intros [K|K]; auto.
Qed.
Lemma pushAll_edge es : forall nx b u, nedge (pushAll nx es) b u <-> nedge nx b u \/ In (b, u) es.
Proof.
  unfold pushAll. induction es as [|[a t] es IH]; intros nx b u; cbn [fold_left]; [cbn; intuition|].
  rewrite IH, pushNext_edge. cbn [fst snd In]. split; intros H.
  - destruct H as [[H|[-> ->]]|H]; auto.
  - destruct H as [H|[H|H]]; [auto| |auto]. injection H as -> ->. auto.
Qed.
Lemma pushAll_nodup es : forall nx, NoDup (map fst nx) -> NoDup (map fst (pushAll nx es)).
Proof. unfold pushAll. induction es as [|e es IH]; intros nx H; cbn [fold_left]; auto. apply IH. apply pushNext_nodup; auto. Qed.

Lemma edge_nedge A l a t : edge A l a t <-> exists s, In (l, s) (tstates A) /\ nedge (snext s) a t.
Proof. unfold edge, nedge. split; intros (s & H); [destruct H as (ts & H & I)|destruct H as (H & ts & I)]; firstorder. Qed.

Lemma mapNext_edge f nx a t : nedge (mapNext f nx) a t <-> exists ts, In (a, ts) nx /\ In t (f ts).
Proof.
  unfold nedge, mapNext. split.
  - intros (ts & H & I). apply in_map_iff in H. destruct H as ([b ts0] & E & H). injection E as <- <-. eauto.
  - intros (ts & H & I). exists (f ts). split; auto. apply in_map_iff. exists (a, ts); auto.
Qed.
Lemma eraseTo_edge keep nx a t : nedge (eraseTo keep nx) a t <-> nedge nx a t /\ keep (ttgt t) = true.
Proof.
  unfold eraseTo. unfold nedge at 1. split.
  - intros (ts & H & I). apply filter_In in H. destruct H as [H _].
    assert (K : nedge (mapNext (filter (fun t => keep (ttgt t))) nx) a t) by (exists ts; auto).
    rewrite mapNext_edge in K. destruct K as (ts0 & K & K1). apply filter_In in K1. destruct K1. split; [exists ts0; auto|auto].
  - intros [(ts & H & I) K]. exists (filter (fun t => keep (ttgt t)) ts).
    assert (J : In t (filter (fun t => keep (ttgt t)) ts)) by (apply filter_In; auto).
    split; auto. apply filter_In. split; [apply in_map_iff; exists (a, ts); auto|].
    cbn. destruct (filter _ ts); [destruct J|reflexivity].
Qed.

Lemma mapStates_in f A l s : In (l, s) (tstates (mapStates f A)) <-> exists s0, In (l, s0) (tstates A) /\ s = f l s0.
Proof.
  unfold mapStates; cbn [tstates]. rewrite in_map_iff. split.
  - intros ([l0 s0] & E & H). injection E as <- <-. eauto.
  - intros (s0 & H & ->). exists (l, s0); auto.
Qed.
Lemma mapStates_fst f A : map fst (tstates (mapStates f A)) = map fst (tstates A).
Proof. unfold mapStates; cbn [tstates]. rewrite map_map. reflexivity. Qed.
Lemma mapStates_edge f A l a t : edge (mapStates f A) l a t <-> exists s0, In (l, s0) (tstates A) /\ nedge (snext (f l s0)) a t.
Proof.
  rewrite edge_nedge. split.
  - intros (s & H & K). apply mapStates_in in H. destruct H as (s0 & H & ->). eauto.
  - intros (s0 & H & K). exists (f l s0). split; auto. apply mapStates_in; eauto.
Qed.
Lemma mapStates_acc f A l : accepting (mapStates f A) l <-> exists s0, In (l, s0) (tstates A) /\ isMatch (f l s0) = true.
Proof.
  unfold accepting. split.
  - intros (s & H & K). apply mapStates_in in H. destruct H as (s0 & H & ->). eauto.
  - intros (s0 & H & K). exists (f l s0). split; auto. apply mapStates_in; eauto.
Qed.

Lemma rhs_eqb_val a b v : rhs_eqb a b = true ->
  match a with RConst q => q | RVar y => v y end == match b with RConst q => q | RVar y => v y end.
Proof.
  destruct a as [p|x], b as [q|y]; cbn; try discriminate.
  - apply Qeq_bool_eq.
  - intro H. apply Nat.eqb_eq in H. subst; reflexivity.
Qed.
Lemma resets_eqb_isReset : forall a b, resets_eqb a b = true -> forall v, veq (applyReset v a) (applyReset v b).
Proof.
  unfold applyReset. intros a b H v.
  enough (K : forall acc acc', veq acc acc' -> veq (fold_left (applyReset1 v) a acc) (fold_left (applyReset1 v) b acc')) by (apply K; auto).
  revert b H. induction a as [|[x r] a IH]; intros [|[y q] b] H acc acc' E; cbn in H; try discriminate; [exact E|].
  apply andb_true_iff in H. destruct H as [H1 H2]. apply andb_true_iff in H1. destruct H1 as [H0 H1].
  apply Nat.eqb_eq in H0. subst y. cbn [fold_left]. apply IH; [exact H2|].
  intro z. unfold applyReset1. cbn [fst snd]. destruct (z =? x)%nat; [apply rhs_eqb_val; auto|apply E].
Qed.
Lemma resets_eqb_equiv a b v v' : resets_eqb a b = true -> isReset a v v' -> isReset b v v'.
Proof.
  intros H K. apply isReset_applyReset. apply isReset_applyReset in K.
  apply (veq_trans _ _ _ K). apply resets_eqb_isReset; auto.
Qed.
