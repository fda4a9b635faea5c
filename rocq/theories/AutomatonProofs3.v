(** The runner with unobservable transitions, its independence of the past,
    and completion / complementation. *)
From Coq Require Import QArith ZArith Bool List Arith Lia Lqa.
From Verif Require Import BoundsModel ConstraintModel GuardSpec ZoneModel AutomatonModel AutomatonSpec.
From Verif Require Import BoundsProofs ConstraintProofs ConstraintProofs2 AutomatonProofs AutomatonProofs2.
Import ListNotations.
Open Scope Q_scope.

(** ** unobservable transitions with inclusive lower bounds only *)
Definition geOnly (g : guard) : Prop := forall k, In k g -> codr k = Oge.

Definition geGood (v : valuation) (k : constraint) (d : option (Q * bool)) : Prop :=
  exists q, d = Some (q, true) /\ q <= 0 /\ inject_Z (cc k) <= v (cx k) - q.

Lemma lowerDur1_ge v k : codr k = Oge -> geGood v k (lowerDur1 k v).
Proof.
  intro H. unfold lowerDur1. rewrite H. destruct (Qltb _ 0) eqn:E.
  - exists (- inject_Z (cc k) + v (cx k)). apply Qltb_true in E. repeat split; lra.
  - exists 0. repeat split; [lra|]. assert (K : ~ (- inject_Z (cc k) + v (cx k) < 0)) by (rewrite <- Qltb_true; congruence). lra.
Qed.

Lemma dur_min_true p q : exists m, dur_min (Some (p, true)) (Some (q, true)) = Some (m, true) /\ m <= p /\ m <= q.
Proof.
  unfold dur_min, qb_ltb. cbn [fst snd negb andb]. rewrite andb_false_r, orb_false_r. cbn.
  destruct (Qltb q p) eqn:E.
  - exists q. apply Qltb_true in E. repeat split; lra.
  - exists p. assert (K : ~ q < p) by (rewrite <- Qltb_true; congruence). repeat split; lra.
Qed.

Lemma lowerDur_ge g v r : geOnly g -> lowerDur g v = Some r ->
  exists q, r = Some (q, true) /\ q <= 0 /\ gsat g (delay v (- q)).
Proof.
  intros H L. destruct g as [|k g]; [discriminate|].
  unfold lowerDur in L. cbn [map] in L. injection L as <-.
  assert (G : forall g d q, geOnly g -> d = Some (q, true) -> q <= 0 ->
    exists m, fold_left dur_min (map (fun k => lowerDur1 k v) g) d = Some (m, true) /\ m <= q /\
      forall k, In k g -> inject_Z (cc k) <= v (cx k) - m).
  { clear. induction g as [|k g IH]; intros d q Hg -> Hq; cbn [map fold_left].
    - exists q. repeat split; [lra|intros k []].
    - destruct (lowerDur1_ge v k (Hg k (or_introl eq_refl))) as (q1 & E1 & N1 & S1). rewrite E1.
      destruct (dur_min_true q q1) as (m & Em & M1 & M2). rewrite Em.
      destruct (IH (Some (m, true)) m) as (m' & F & L & A); auto; [intros k' I; apply Hg; right; auto|lra|].
      exists m'. repeat split; auto; [lra|]. intros k' [<-|I]; [lra|auto]. }
  destruct (lowerDur1_ge v k (H k (or_introl eq_refl))) as (q1 & E1 & N1 & S1).
  destruct (G g (lowerDur1 k v) q1) as (m & F & L & A); auto; [intros k' I; apply H; right; auto|].
  exists m. repeat split; auto; [lra|].
  intros k' I. unfold holds, delay. rewrite (H k' I). destruct I as [<-|I]; [lra|specialize (A k' I); lra].
Qed.

Lemma minTrans_in v ts : forall t bd t' bd', lowerDur (tgrd t) v = Some bd -> minTrans v t bd ts = Some (t', bd') ->
  In t' (t :: ts) /\ lowerDur (tgrd t') v = Some bd'.
Proof.
  induction ts as [|u ts IH]; intros t bd t' bd' L M; cbn [minTrans] in M.
  - injection M as <- <-. split; [left; reflexivity|exact L].
  - destruct (lowerDur (tgrd u) v) as [d|] eqn:E; [|discriminate].
    destruct (dur_ltb d bd).
    + destruct (IH u d t' bd' E M) as [I K]. split; [right; exact I|exact K].
    + destruct (IH t bd t' bd' L M) as [I K]. split; [|exact K]. destruct I as [I|I]; [left; exact I|right; right; exact I].
Qed.

Definition silentGe (A : ta) : Prop := forall l t, edge A l UNOBSERVABLE t -> geOnly (tgrd t).

Lemma stepDur_sound A : wfTA A -> silentGe A -> forall fuel r d r' b l,
  rta r = A -> rstate r = Some l -> 0 <= d -> In l (map fst (tstates A)) -> stepDur fuel r d = Some (r', b) ->
  exists l', rta r' = A /\ rstate r' = Some l' /\ b = locMatch A l' /\ In l' (map fst (tstates A)) /\
    flow A (l, rval r) d (l', rval r').
Proof.
  intros W SG fuel. induction fuel as [|fuel IH]; intros r d r' b l E Es Hd Il H.
  - assert (Em := isEmptyR_false A r l E Il). cbn [stepDur] in H. rewrite Em, Es, E in H.
    destruct (Qeq_bool d 0) eqn:Ed.
    + injection H as <- <-. exists l. repeat split; auto. constructor; auto. apply Qeq_bool_eq in Ed.
      intro x. unfold delay. rewrite Ed. ring.
    + assert (P : Some (mkR A (Some l) (elapseV (rval r) d) (rnum r), locMatch A l) = Some (r', b) ->
        exists l', rta r' = A /\ rstate r' = Some l' /\ b = locMatch A l' /\ In l' (map fst (tstates A)) /\ flow A (l, rval r) d (l', rval r')).
      { intro K. injection K as <- <-. exists l. repeat split; auto. constructor; auto. }
      destruct (nfind (nextOf A l) UNOBSERVABLE) as [|t ts]; [auto|].
      destruct (lowerDur (tgrd t) (rval r)) as [bd0|]; [|discriminate].
      destruct (minTrans (rval r) t bd0 ts) as [[t' [[q s]|]]|]; [|auto|discriminate].
      destruct (_ && _); [discriminate|auto].
  - assert (Em := isEmptyR_false A r l E Il). cbn [stepDur] in H. rewrite Em, Es, E in H.
    destruct (Qeq_bool d 0) eqn:Ed.
    + injection H as <- <-. exists l. repeat split; auto. constructor; auto. apply Qeq_bool_eq in Ed.
      intro x. unfold delay. rewrite Ed. ring.
    + assert (P : Some (mkR A (Some l) (elapseV (rval r) d) (rnum r), locMatch A l) = Some (r', b) ->
        exists l', rta r' = A /\ rstate r' = Some l' /\ b = locMatch A l' /\ In l' (map fst (tstates A)) /\ flow A (l, rval r) d (l', rval r')).
      { intro K. injection K as <- <-. exists l. repeat split; auto. constructor; auto. }
      destruct (nfind (nextOf A l) UNOBSERVABLE) as [|t ts] eqn:En; [auto|].
      destruct (lowerDur (tgrd t) (rval r)) as [bd0|] eqn:L0; [|discriminate].
      destruct (minTrans (rval r) t bd0 ts) as [[t' [[q s]|]]|] eqn:Mt; [|auto|discriminate].
      destruct (_ && _) eqn:Ec; [|auto].
      destruct (minTrans_in _ _ _ _ _ _ L0 Mt) as [It Lt]. rewrite <- En in It.
      assert (Et : edge A l UNOBSERVABLE t') by (apply nextOf_edge; auto).
      destruct (lowerDur_ge _ _ _ (SG l t' Et) Lt) as (q' & Eq & Nq & G). injection Eq as <- ->.
      rewrite andb_false_r in H.
      apply andb_true_iff in Ec. destruct Ec as [_ Ec].
      assert (Hdq : 0 <= d - - q).
      { apply orb_true_iff in Ec. destruct Ec as [Ec|Ec]; [apply Qltb_true in Ec; lra|].
        rewrite andb_true_r in Ec. apply Qeq_bool_eq in Ec. lra. }
      destruct (IH (mkR A (Some (ttgt t')) (applyReset (elapseV (rval r) (- q)) (trst t')) (rnum r)) _ _ _ (ttgt t') eq_refl eq_refl Hdq (proj1 (proj2 (proj2 W)) _ _ _ Et) H) as (l' & A1 & A2 & A3 & A4 & A5).
      exists l'. repeat split; auto. cbn [rval] in A5.
      apply (flow_silent A _ (- q) (l, elapseV (rval r) (- q)) (ttgt t', applyReset (elapseV (rval r) (- q)) (trst t')) (d - - q)); auto; [|exists t'|lra].
      * constructor; [lra|]. intro x; reflexivity.
      * repeat split; auto; apply applyReset_isReset.
Qed.

Lemma feed_sound A : wfTA A -> silentGe A -> forall fuel w r res r',
  rta r = A -> (forall a d, In (a, d) w -> 0 <= d) ->
  match rstate r with None => res = false | Some l => res = locMatch A l /\ In l (map fst (tstates A)) end ->
  feed fuel r w res = Some (r', true) ->
  exists l c, rstate r = Some l /\ run A (l, rval r) w c /\ accepting A (fst c).
Proof.
  intros W SG fuel. assert (ND : NoDup (map fst (tstates A))) by (destruct W; auto).
  induction w as [|[a d] w IH]; intros r res r' E Hd St F; cbn [feed] in F.
  - injection F as <- ->. destruct (rstate r) as [l|]; [|discriminate]. destruct St as [St _].
    exists l, (l, rval r). repeat split; [constructor|]. apply locMatch_acc; auto.
  - assert (Hd' : forall a d, In (a, d) w -> 0 <= d) by (intros a' d' I; apply (Hd a'); right; exact I).
    destruct (rstate r) as [l|] eqn:Es.
    + destruct St as [_ Il].
      destruct (stepChar_ok A r l a E Es Il) as [(t & It & Gt & Sc)|[No Sc]]; rewrite Sc in F; cbn [fst] in F.
      * destruct (stepDur fuel _ d) as [[r1 b1]|] eqn:Sd; [|discriminate].
        assert (Et : edge A l a t) by (apply nextOf_edge; auto).
        assert (Il' : In (ttgt t) (map fst (tstates A))) by (destruct W as (_ & _ & W3 & _); eapply W3; eauto).
        destruct (stepDur_sound A W SG fuel (mkR A (Some (ttgt t)) (applyReset (rval r) (trst t)) (rnum r)) d r1 b1 (ttgt t) eq_refl eq_refl (Hd a d (or_introl eq_refl)) Il' Sd) as (l1 & A1 & A2 & A3 & A4 & A5).
        destruct (IH r1 b1 r' A1 Hd') as (l2 & c & B1 & B2 & B3); auto; [rewrite A2; auto|].
        rewrite A2 in B1. injection B1 as <-. exists l, c. repeat split; auto.
        apply (run_cons A _ a d (ttgt t, applyReset (rval r) (trst t)) (l1, rval r1)); [|exact A5|exact B2].
        exists t. cbn [fst snd]. split; [exact Et|]. split; [exact Gt|]. split; [reflexivity|apply applyReset_isReset].
      * rewrite stepDur_none in F by reflexivity.
        destruct (IH (mkR A None (rval r) (rnum r)) false r') as (l2 & c & B1 & _); cbn; auto. discriminate.
    + rewrite (stepChar_none r a Es) in F. cbn [fst] in F. rewrite (stepDur_none fuel r d Es) in F.
      destruct (IH r false r') as (l2 & c & B1 & _); auto; [rewrite Es; auto|]. congruence.
Qed.

Lemma answerQuery_sound A fuel r d0 w r' : wfTA A -> silentGe A -> rta r = A -> tinit A <> [] ->
  0 <= d0 -> (forall a d, In (a, d) w -> 0 <= d) -> answerQuery fuel r d0 w = Some (r', true) -> accepts A d0 w.
Proof.
  intros W SG E Ei Hd0 Hd H.
  destruct (tinit A) as [|l0 ls] eqn:Et; [congruence|].
  assert (Il : In l0 (map fst (tstates A))) by (destruct W as (_ & _ & _ & W4); apply W4; rewrite Et; left; reflexivity).
  unfold answerQuery, rpre in H. rewrite (isEmptyR_false A r l0 E Il), E, Et in H. cbn [hd_error] in H.
  destruct (stepDur fuel _ d0) as [[r1 b1]|] eqn:Sd; [|discriminate].
  destruct (stepDur_sound A W SG fuel (mkR A (Some l0) (fun _ => 0) (S (rnum r))) d0 r1 b1 l0 eq_refl eq_refl Hd0 Il Sd) as (l1 & A1 & A2 & A3 & A4 & A5).
  destruct (feed_sound A W SG fuel w r1 b1 r') as (l2 & c & B1 & B2 & B3); auto; [rewrite A2; auto|].
  rewrite A2 in B1. injection B1 as <-. exists l0, (l1, rval r1), c. repeat split; auto. rewrite Et. left; reflexivity.
Qed.

(** ** the query counter and the past do not influence answers *)
Definition sameR (r1 r2 : runner) : Prop := rta r1 = rta r2 /\ rstate r1 = rstate r2 /\ rval r1 = rval r2.
Lemma stepDur_same fuel : forall r1 r2 d, sameR r1 r2 ->
  match stepDur fuel r1 d, stepDur fuel r2 d with
  | Some (r1', b1), Some (r2', b2) => b1 = b2 /\ sameR r1' r2' /\ rnum r1' = rnum r1
  | None, None => True
  | _, _ => False
  end.
Proof.
  induction fuel as [|fuel IH]; intros [A1 s1 v1 n1] [A2 s2 v2 n2] d (E1 & E2 & E3); cbn in E1, E2, E3; subst A2 s2 v2;
    cbn [stepDur rta rstate rval rnum]; unfold isEmptyR; cbn [rta].
  - destruct (tstates A1) as [|p0 ps]; [cbn; repeat split; auto|]. destruct s1 as [l|]; [|repeat split; auto].
    destruct (Qeq_bool d 0); [repeat split; auto|].
    destruct (nfind _ _) as [|t ts]; [repeat split; auto|].
    destruct (lowerDur _ _) as [bd0|]; [|auto].
    destruct (minTrans _ _ _ _) as [[t' [[q s]|]]|]; [|repeat split; auto|auto].
    destruct (_ && _); [auto|repeat split; auto].
  - destruct (tstates A1) as [|p0 ps]; [cbn; repeat split; auto|]. destruct s1 as [l|]; [|repeat split; auto].
    destruct (Qeq_bool d 0); [repeat split; auto|].
    destruct (nfind _ _) as [|t ts]; [repeat split; auto|].
    destruct (lowerDur _ _) as [bd0|]; [|auto].
    destruct (minTrans _ _ _ _) as [[t' [[q s]|]]|]; [|repeat split; auto|auto].
    destruct (_ && _); [|repeat split; auto].
    apply (IH (mkR A1 _ _ n1) (mkR A1 _ _ n2)). repeat split; auto.
Qed.
Lemma stepChar_same r1 r2 a : sameR r1 r2 -> snd (stepChar r1 a) = snd (stepChar r2 a) /\ sameR (fst (stepChar r1 a)) (fst (stepChar r2 a))
  /\ rnum (fst (stepChar r1 a)) = rnum r1.
Proof.
  intros (E1 & E2 & E3). destruct r1 as [A1 s1 v1 n1], r2 as [A2 s2 v2 n2]. cbn in E1, E2, E3; subst A2 s2 v2.
  unfold stepChar, isEmptyR. cbn [rta rstate rval rnum]. destruct (tstates A1) as [|p0 ps]; [repeat split; auto|].
  destruct s1 as [l|]; [|repeat split; auto]. destruct (find _ _) as [tt|]; repeat split; auto.
Qed.
Lemma feed_same fuel w : forall r1 r2 res, sameR r1 r2 ->
  match feed fuel r1 w res, feed fuel r2 w res with
  | Some (r1', b1), Some (r2', b2) => b1 = b2 /\ sameR r1' r2' /\ rnum r1' = rnum r1
  | None, None => True
  | _, _ => False
  end.
Proof.
  induction w as [|[a d] w IH]; intros r1 r2 res S; cbn [feed]; [auto|].
  destruct (stepChar_same r1 r2 a S) as (_ & S' & N').
  assert (K := stepDur_same fuel _ _ d S').
  destruct (stepDur fuel (fst (stepChar r1 a)) d) as [[r1' b1]|], (stepDur fuel (fst (stepChar r2 a)) d) as [[r2' b2]|]; try tauto.
  destruct K as (-> & K & N). specialize (IH r1' r2' b2 K).
  destruct (feed fuel r1' w b2) as [[? ?]|], (feed fuel r2' w b2) as [[? ?]|]; try tauto. intuition congruence.
Qed.
Lemma answerQuery_same fuel r1 r2 d0 w : rta r1 = rta r2 -> tstates (rta r1) <> [] ->
  match answerQuery fuel r1 d0 w, answerQuery fuel r2 d0 w with
  | Some (r1', b1), Some (r2', b2) => b1 = b2 /\ rta r1' = rta r1 /\ rnum r1' = S (rnum r1)
  | None, None => True
  | _, _ => False
  end.
Proof.
  intros E Ne. unfold answerQuery, rpre, isEmptyR. rewrite <- E. destruct (tstates (rta r1)) eqn:Es; [congruence|].
  set (q1 := mkR (rta r1) (hd_error (tinit (rta r1))) (fun _ => 0) (S (rnum r1))).
  set (q2 := mkR (rta r1) (hd_error (tinit (rta r1))) (fun _ => 0) (S (rnum r2))).
  assert (S : sameR q1 q2) by (repeat split).
  assert (K := stepDur_same fuel _ _ d0 S).
  destruct (stepDur fuel q1 d0) as [[r1' b1]|] eqn:F1, (stepDur fuel q2 d0) as [[r2' b2]|]; try tauto.
  destruct K as (-> & K & N). assert (L := feed_same fuel w r1' r2' b2 K).
  assert (T : forall f r d r' b, stepDur f r d = Some (r', b) -> rta r' = rta r).
  { clear. induction f as [|f IH]; intros [A1 s1 v1 n1] d r' b; cbn [stepDur rta rstate rval rnum]; unfold isEmptyR; cbn [rta];
    (destruct (tstates A1) as [|p0 ps]; [intro H; injection H as <- <-; reflexivity|]);
    (destruct s1 as [l|]; [|intro H; injection H as <- <-; reflexivity]);
    (destruct (Qeq_bool d 0); [intro H; injection H as <- <-; reflexivity|]);
    (destruct (nfind _ _) as [|t ts]; [intro H; injection H as <- <-; reflexivity|]);
    (destruct (lowerDur _ _) as [bd0|]; [|discriminate]);
    (destruct (minTrans _ _ _ _) as [[t' [[q s]|]]|]; [|intro H; injection H as <- <-; reflexivity|discriminate]);
    (destruct (_ && _); [try discriminate|intro H; injection H as <- <-; reflexivity]).
    intro H. apply IH in H. exact H. }
  assert (T2 : forall w r res r' b, feed fuel r w res = Some (r', b) -> rta r' = rta r).
  { clear -T. induction w as [|[a d] w IH]; intros r res r' b; cbn [feed]; [intro H; injection H as <- <-; reflexivity|].
    destruct (stepDur fuel _ d) as [[r1 b1]|] eqn:F; [|discriminate]. intro H. apply IH in H. rewrite H. apply T in F. rewrite F.
    unfold stepChar. destruct (isEmptyR r); [reflexivity|]. destruct (rstate r); [|reflexivity]. destruct (find _ _); reflexivity. }
  destruct (feed fuel r1' w b2) as [[r3 b3]|] eqn:F3, (feed fuel r2' w b2) as [[r4 b4]|]; try tauto.
  destruct L as (-> & L & N3). repeat split; auto.
  - apply T2 in F3. apply T in F1. rewrite F3, F1. reflexivity.
  - rewrite N3, N. reflexivity.
Qed.

(** once stuck, always rejecting *)
Lemma stuck_forever fuel w r res : rstate r = None -> w <> [] -> feed fuel r w res = Some (r, false).
Proof.
  intros Es. revert res. induction w as [|[a d] w IH]; intros res Ne; [congruence|]. cbn [feed].
  rewrite (stepChar_none r a Es). cbn [fst]. rewrite (stepDur_none fuel r d Es).
  destruct w as [|p w]; [reflexivity|]. apply IH. discriminate.
Qed.
