(** Proofs about the oracles. *)
From Coq Require Import QArith Bool List Arith Lia Lqa.
From Verif Require Import BoundsModel ConstraintModel GuardSpec ZoneModel AutomatonModel AutomatonSpec TimedWordModel TimedWordSpec OracleModel OracleSpec.
From Verif Require Import AutomatonProofs AutomatonProofs3 TimedWordProofs.
Import ListNotations.
Open Scope Q_scope.

(** ** answering, alternating durations and letters *)
Fixpoint feedAlt (fuel : nat) (r : runner) (ws : list letter) (ds : list Q) : option (runner * bool) :=
  match ds with
  | [] => None
  | d :: ds' => match stepDur fuel r d with
                | None => None
                | Some (r1, b) => match ws with
                                  | [] => Some (r1, b)
                                  | a :: ws' => feedAlt fuel (fst (stepChar r1 a)) ws' ds'
                                  end
                end
  end.
Lemma feedAlt_feed fuel ws : forall r d ds, length ds = length ws ->
  feedAlt fuel r ws (d :: ds) = match stepDur fuel r d with Some (r', b) => feed fuel r' (combine ws ds) b | None => None end.
Proof.
  induction ws as [|a ws IH]; intros r d ds H; destruct ds as [|e ds]; try discriminate; cbn [feedAlt combine feed].
  - destruct (stepDur fuel r d) as [[? ?]|]; reflexivity.
  - destruct (stepDur fuel r d) as [[r1 b]|]; [|reflexivity]. injection H as H. assert (K := IH (fst (stepChar r1 a)) e ds H).
    cbn [feedAlt] in K. rewrite K. reflexivity.
Qed.
Lemma answer_alt fuel r x : wfTW x -> answerQuery fuel r (firstDur x) (events x) = feedAlt fuel (rpre r) (tw x) (td x).
Proof.
  intro H. destruct (cons_wf x H) as (q & d & E & L). unfold answerQuery, firstDur, events. rewrite E. cbn [hd tl].
  rewrite feedAlt_feed; auto.
Qed.
Fixpoint preRun (fuel : nat) (r : runner) (ws : list letter) (ds : list Q) : option runner :=
  match ws, ds with
  | [], [] => Some r
  | a :: ws', d :: ds' => match stepDur fuel r d with
                          | Some (r1, _) => preRun fuel (fst (stepChar r1 a)) ws' ds'
                          | None => None
                          end
  | _, _ => None
  end.
Lemma feedAlt_app fuel dw : forall r dd ws ds r1, preRun fuel r dw dd = Some r1 -> feedAlt fuel r (dw ++ ws) (dd ++ ds) = feedAlt fuel r1 ws ds.
Proof.
  induction dw as [|a dw IH]; intros r dd ws ds r1 H; destruct dd as [|d dd]; cbn [preRun] in H; try discriminate.
  - injection H as ->. reflexivity.
  - cbn [app feedAlt]. destruct (stepDur fuel r d) as [[r2 b]|]; [|discriminate]. apply IH, H.
Qed.
Lemma preRun_snoc fuel dw : forall r dd a d r1 r2 b, preRun fuel r dw dd = Some r1 -> stepDur fuel r1 d = Some (r2, b) ->
  preRun fuel r (dw ++ [a]) (dd ++ [d]) = Some (fst (stepChar r2 a)).
Proof.
  induction dw as [|e dw IH]; intros r dd a d r1 r2 b H K; destruct dd as [|f dd]; cbn [preRun] in H; try discriminate.
  - injection H as ->. cbn [app preRun]. rewrite K. reflexivity.
  - cbn [app preRun]. destruct (stepDur fuel r f) as [[r3 b3]|]; [|discriminate]. eapply IH; eauto.
Qed.
Lemma preRun_len fuel dw : forall r dd r1, preRun fuel r dw dd = Some r1 -> length dd = length dw.
Proof.
  induction dw as [|e dw IH]; intros r dd r1 H; destruct dd as [|f dd]; cbn [preRun] in H; try discriminate; [reflexivity|].
  destruct (stepDur fuel r f) as [[r3 b3]|]; [|discriminate]. cbn. erewrite IH; eauto.
Qed.
Lemma stepDur_0 fuel r a : stepDur fuel (fst (stepChar r a)) 0 = Some (stepChar r a).
Proof.
  unfold stepChar. destruct (isEmptyR r) eqn:E; cbn [fst].
  - destruct fuel; cbn [stepDur]; rewrite E; reflexivity.
  - destruct (rstate r) as [l|] eqn:Es.
    + destruct (find _ _) as [t|]; cbn [fst]; destruct fuel; cbn [stepDur]; unfold isEmptyR in *; cbn [rta rstate]; rewrite E; cbn [Qeq_bool]; reflexivity.
    + cbn [fst]. destruct fuel; cbn [stepDur]; rewrite E, Es; reflexivity.
Qed.
Lemma stepDur_rta fuel : forall r d r' b, stepDur fuel r d = Some (r', b) -> rta r' = rta r.
Proof.
  induction fuel as [|f IH]; intros [A1 s1 v1 n1] d r' b; cbn [stepDur rta rstate rval rnum]; unfold isEmptyR; cbn [rta];
    (destruct (tstates A1) as [|p0 ps]; [intro H; injection H as <- <-; reflexivity|]);
    (destruct s1 as [l|]; [|intro H; injection H as <- <-; reflexivity]);
    (destruct (Qeq_bool d 0); [intro H; injection H as <- <-; reflexivity|]);
    (destruct (nfind _ _) as [|t ts]; [intro H; injection H as <- <-; reflexivity|]);
    (destruct (lowerDur _ _) as [bd0|]; [|discriminate]);
    (destruct (minTrans _ _ _ _) as [[t' [[q s]|]]|]; [|intro H; injection H as <- <-; reflexivity|discriminate]);
    (destruct (_ && _); [try discriminate|intro H; injection H as <- <-; reflexivity]).
  intro H. apply IH in H. exact H.
Qed.
Lemma stepChar_rta r a : rta (fst (stepChar r a)) = rta r.
Proof. unfold stepChar. destruct (isEmptyR r); [reflexivity|]. destruct (rstate r); [|reflexivity]. destruct (find _ _); reflexivity. Qed.
Lemma feedAlt_rta fuel ws : forall r ds r' b, feedAlt fuel r ws ds = Some (r', b) -> rta r' = rta r.
Proof.
  induction ws as [|a ws IH]; intros r ds r' b H; destruct ds as [|d ds]; cbn [feedAlt] in H; try discriminate;
    destruct (stepDur fuel r d) as [[r1 b1]|] eqn:E; try discriminate.
  - injection H as <- <-. eapply stepDur_rta; eauto.
  - apply IH in H. rewrite H, stepChar_rta. eapply stepDur_rta; eauto.
Qed.
Lemma rpre_rta r : rta (rpre r) = rta r.
Proof. unfold rpre. destruct (isEmptyR r); reflexivity. Qed.

(** on an automaton without states the answer is always false *)
Lemma empty_stepDur fuel r d : isEmptyR r = true -> stepDur fuel r d = Some (r, false).
Proof. intro E. destruct fuel; cbn [stepDur]; rewrite E; reflexivity. Qed.
Lemma empty_feedAlt fuel ws : forall r ds, isEmptyR r = true -> (length ws < length ds)%nat -> feedAlt fuel r ws ds = Some (r, false).
Proof.
  induction ws as [|a ws IH]; intros r ds E H; destruct ds as [|d ds]; cbn in H; try lia; cbn [feedAlt]; rewrite (empty_stepDur fuel r d E); [reflexivity|].
  unfold stepChar. rewrite E. cbn [fst]. apply IH; auto. lia.
Qed.

(** the past of the runner does not matter *)
Lemma says_any fuel r x r' b : wfTW x -> feedAlt fuel (rpre r) (tw x) (td x) = Some (r', b) -> says fuel (rta r) x b.
Proof.
  intros W H. destruct (isEmptyR r) eqn:E.
  - rewrite empty_feedAlt in H; [|unfold isEmptyR in *; rewrite rpre_rta; exact E|unfold wfTW in W; lia]. injection H as <- <-.
    unfold says. exists (rpre (mkRunner (rta r))). rewrite answer_alt; auto. apply empty_feedAlt; [|unfold wfTW in W; lia].
    unfold isEmptyR in *. rewrite rpre_rta. exact E.
  - assert (K := answerQuery_same fuel r (mkRunner (rta r)) (firstDur x) (events x) eq_refl).
    rewrite answer_alt in K at 1; auto. rewrite H in K. unfold says.
    destruct (answerQuery fuel (mkRunner (rta r)) (firstDur x) (events x)) as [[r2 b2]|] eqn:F.
    + destruct K as (-> & _); [unfold isEmptyR in E; destruct (tstates (rta r)); congruence|]. eauto.
    + exfalso. apply K. unfold isEmptyR in E; destruct (tstates (rta r)); congruence.
Qed.
Lemma says_fun fuel A x a b : says fuel A x a -> says fuel A x b -> a = b.
Proof. intros (r & H) (r' & K). rewrite H in K. injection K as _ K. exact K. Qed.
Lemma differ_not_agree fuel A B x : differ fuel A B x -> agree fuel A B x -> False.
Proof. intros (a & b & Ha & Hb & N) (c & Hc & Hd). apply N. rewrite (says_fun _ _ _ _ _ Ha Hc). symmetry. eapply says_fun; eauto. Qed.

(** ** testing *)
Lemma eqb_negb_true a b : negb (eqb a b) = true -> a <> b. Proof. destruct a, b; cbn; congruence. Qed.
Lemma eqb_negb_false a b : negb (eqb a b) = false -> a = b. Proof. destruct a, b; cbn; congruence. Qed.
Lemma absorb_same w d : length d = S (length w) -> ~ In UNOBSERVABLE w -> mkTimedWord w d = mkTW w d.
Proof. intros H N. destruct d as [|q d]; [discriminate|]. injection H as H. apply absorb_id; auto. Qed.

Lemma testFrom_spec fuel full ws : forall ds rt0 rh0 rt rh dw dd rt' rh' res,
  preRun fuel rt0 dw dd = Some rt -> preRun fuel rh0 dw dd = Some rh ->
  length ds = S (length ws) -> tw full = dw ++ ws -> td full = dd ++ ds -> ~ In UNOBSERVABLE (tw full) ->
  testFrom fuel full rt rh dw dd ws ds = Some (rt', rh', res) ->
  match res with
  | Some x => goodTW x /\ (prefixTW x full /\ forall q, In q (td x) -> q = 0 \/ In q (td full)) /\ exists r1 a r2 b, feedAlt fuel rt0 (tw x) (td x) = Some (r1, a) /\ feedAlt fuel rh0 (tw x) (td x) = Some (r2, b) /\ a <> b
  | None => exists b, feedAlt fuel rt0 (tw full) (td full) = Some (rt', b) /\ feedAlt fuel rh0 (tw full) (td full) = Some (rh', b)
  end.
Proof.
  induction ws as [|a ws IH]; intros ds rt0 rh0 rt rh dw dd rt' rh' res Pt Ph L Ew Ed N H; destruct ds as [|d ds]; try discriminate; cbn [testFrom] in H.
  - destruct ds; [|discriminate].
    destruct (stepDur fuel rt d) as [[rt1 bt]|] eqn:St; [|discriminate]. destruct (stepDur fuel rh d) as [[rh1 bh]|] eqn:Sh; [|discriminate].
    injection H as <- <- <-.
    assert (Ft : feedAlt fuel rt0 (tw full) (td full) = Some (rt1, bt)) by (rewrite Ew, Ed, (feedAlt_app _ _ _ _ _ _ _ Pt); cbn [feedAlt]; rewrite St; reflexivity).
    assert (Fh : feedAlt fuel rh0 (tw full) (td full) = Some (rh1, bh)) by (rewrite Ew, Ed, (feedAlt_app _ _ _ _ _ _ _ Ph); cbn [feedAlt]; rewrite Sh; reflexivity).
    assert (Wf : wfTW full) by (unfold wfTW; rewrite Ew, Ed, !app_length, (preRun_len _ _ _ _ _ Pt); cbn; lia).
    destruct (negb (eqb bt bh)) eqn:E.
    + apply eqb_negb_true in E. split; [split; auto|]. split; [split; [|auto]|exists rt1, bt, rh1, bh; auto].
      exists emptyTW. split; [reflexivity|]. apply sameTW_sym, concat_unit_r, Wf.
    + apply eqb_negb_false in E. subst bh. exists bt. auto.
  - destruct (stepDur fuel rt d) as [[rt1 bt]|] eqn:St; [|discriminate]. destruct (stepDur fuel rh d) as [[rh1 bh]|] eqn:Sh; [|discriminate].
    assert (Lp := preRun_len _ _ _ _ _ Pt).
    destruct (negb (eqb bt bh)) eqn:E.
    + injection H as <- <- <-. apply eqb_negb_true in E.
      assert (N' : ~ In UNOBSERVABLE dw) by (intro K; apply N; rewrite Ew; apply in_or_app; auto).
      rewrite absorb_same; [|rewrite app_length; cbn; lia|auto].
      assert (Wx : wfTW (mkTW dw (dd ++ [d]))) by (unfold wfTW; cbn; rewrite app_length; cbn; lia).
      split; [split; auto|]. split; [split|].
      * exists (mkTW (a :: ws) (0 :: ds)). split; [unfold wfTW; cbn in *; lia|]. split; [rewrite Ew; reflexivity|]. unfold concatTW. cbn [td hd tl]. rewrite Ed, addBack_snoc, <- app_assoc.
        apply F2Q_app; [apply F2Q_refl|]. cbn [app]. constructor; [lra|apply F2Q_refl].
      * cbn [td]. intros q I. right. rewrite Ed. apply in_app_or in I. apply in_or_app. destruct I as [I|[<-|[]]]; [auto|right; left; reflexivity].
      * cbn [tw td]. exists rt1, bt, rh1, bh.
        assert (G : forall r0 r r1 b, preRun fuel r0 dw dd = Some r -> stepDur fuel r d = Some (r1, b) -> feedAlt fuel r0 dw (dd ++ [d]) = Some (r1, b)).
        { intros r0 r r1 b P S. assert (K := feedAlt_app fuel dw r0 dd [] [d] r P). rewrite app_nil_r in K. rewrite K. cbn [feedAlt]. rewrite S. reflexivity. }
        split; [eapply G; eauto|]. split; [eapply G; eauto|auto].
    + apply eqb_negb_false in E. subst bh.
      assert (Qt := preRun_snoc fuel dw rt0 dd a d rt rt1 bt Pt St). assert (Qh := preRun_snoc fuel dw rh0 dd a d rh rh1 bt Ph Sh).
      destruct (stepChar rt1 a) as [rt2 ct] eqn:Ct. destruct (stepChar rh1 a) as [rh2 ch] eqn:Ch. cbn [fst] in Qt, Qh.
      destruct (negb (eqb ct ch)) eqn:E.
      * injection H as <- <- <-. apply eqb_negb_true in E.
        assert (N' : ~ In UNOBSERVABLE (dw ++ [a])).
        { intro K. apply N. rewrite Ew. apply in_app_or in K. apply in_or_app. destruct K as [K|[K|[]]]; [auto|right; left; auto]. }
        replace (dd ++ [d; 0]) with ((dd ++ [d]) ++ [0]) by (rewrite <- app_assoc; reflexivity).
        rewrite absorb_same; [|rewrite !app_length; cbn; lia|auto].
        assert (Wx : wfTW (mkTW (dw ++ [a]) ((dd ++ [d]) ++ [0]))) by (unfold wfTW; cbn [tw td]; rewrite !app_length; cbn; lia).
        split; [split; auto|]. split; [split|].
        -- destruct ds as [|d1 ds]; [discriminate|]. exists (mkTW ws (d1 :: ds)). split; [unfold wfTW; cbn in *; lia|].
           split; [cbn; rewrite Ew, <- app_assoc; reflexivity|]. unfold concatTW. cbn [td hd tl]. rewrite addBack_snoc, Ed, <- !app_assoc.
           apply F2Q_app; [apply F2Q_refl|]. cbn [app]. constructor; [reflexivity|]. constructor; [lra|apply F2Q_refl].
        -- cbn [td]. intros q I. rewrite <- app_assoc in I. apply in_app_or in I. rewrite Ed. destruct I as [I|[<-|[<-|[]]]]; [right; apply in_or_app; auto|right; apply in_or_app; right; left; reflexivity|auto].
        -- cbn [tw td]. exists rt2, ct, rh2, ch.
           assert (G : forall r0 r1 r2 c, preRun fuel r0 (dw ++ [a]) (dd ++ [d]) = Some r2 -> stepChar r1 a = (r2, c) -> feedAlt fuel r0 (dw ++ [a]) ((dd ++ [d]) ++ [0]) = Some (r2, c)).
           { intros r0 r1 r2 c P S. assert (K := feedAlt_app fuel (dw ++ [a]) r0 (dd ++ [d]) [] [0] r2 P). rewrite app_nil_r in K. rewrite K. cbn [feedAlt].
             assert (Z := stepDur_0 fuel r1 a). rewrite S in Z. cbn [fst] in Z. rewrite Z. reflexivity. }
           split; [eapply G; eauto|]. split; [eapply G; eauto|auto].
      * apply (IH ds rt0 rh0 rt2 rh2 (dw ++ [a]) (dd ++ [d]) rt' rh' res Qt Qh); auto; try (rewrite <- app_assoc; auto; fail).
Qed.
Lemma testWords_spec fuel words : forall rt rh res, (forall x, In x words -> goodTW x) -> testWords fuel rt rh words = Some res ->
  match res with
  | Some x => goodTW x /\ (exists y, In y words /\ prefixTW x y /\ forall q, In q (td x) -> q = 0 \/ In q (td y)) /\ differ fuel (rta rt) (rta rh) x
  | None => forall x, In x words -> agree fuel (rta rt) (rta rh) x
  end.
Proof.
  induction words as [|x words IH]; intros rt rh res Hg H; cbn [testWords] in H.
  - injection H as <-. intros x [].
  - destruct (testFrom fuel x (rpre rt) (rpre rh) [] [] (tw x) (td x)) as [[[rt' rh'] r]|] eqn:T; [|discriminate].
    assert (Gx := Hg x (or_introl eq_refl)). destruct Gx as [Wx Nx].
    assert (K := testFrom_spec fuel x (tw x) (td x) (rpre rt) (rpre rh) (rpre rt) (rpre rh) [] [] rt' rh' r eq_refl eq_refl Wx eq_refl eq_refl Nx T).
    destruct r as [cex|].
    + injection H as <-. destruct K as (G & P & r1 & a & r2 & b & F1 & F2 & Ne). split; auto. split; [exists x; split; [left; reflexivity|auto]|].
      exists a, b. split; [eapply says_any; eauto; apply G|]. split; [eapply says_any; eauto; apply G|auto].
    + destruct K as (b & F1 & F2). assert (E1 := feedAlt_rta _ _ _ _ _ _ F1). assert (E2 := feedAlt_rta _ _ _ _ _ _ F2). rewrite rpre_rta in E1, E2.
      specialize (IH rt' rh' res (fun y I => Hg y (or_intror I)) H). rewrite E1, E2 in IH. destruct res as [cex|].
      * destruct IH as (G & (y & I & P) & D). split; auto. split; [exists y; split; [right; auto|auto]|auto].
      * intros y [<-|I]; [|auto]. exists b. split; eapply says_any; eauto.
Qed.
Lemma byTest_spec fuel s H s' res : (forall x, In x (btWords s) -> goodTW x) -> byTestFind fuel s H = Some (s', res) ->
  btWords s' = btWords s /\ btTarget s' = btTarget s /\ btCount s' = S (btCount s) /\
  match res with
  | Some x => goodTW x /\ (exists y, In y (btWords s) /\ prefixTW x y /\ forall q, In q (td x) -> q = 0 \/ In q (td y)) /\ differ fuel (btTarget s) H x
  | None => forall x, In x (btWords s) -> agree fuel (btTarget s) H x
  end.
Proof.
  intros Hg K. unfold byTestFind in K. destruct (testWords fuel _ _ (btWords s)) as [r|] eqn:T; [|discriminate]. injection K as <- <-.
  cbn. split; auto. split; auto. split; auto. exact (testWords_spec fuel (btWords s) _ _ r Hg T).
Qed.

(** random testing runs the same loop *)
Lemma randFrom_test fuel steps : forall rt rh w d lastD,
  randFrom fuel rt rh w d steps lastD =
  testFrom fuel (mkTimedWord (w ++ map snd steps) (d ++ map fst steps ++ [lastD])) rt rh w d (map snd steps) (map fst steps ++ [lastD]).
Proof.
  induction steps as [|[q a] steps IH]; intros rt rh w d lastD; cbn [randFrom map app testFrom fst snd].
  - rewrite app_nil_r. reflexivity.
  - destruct (stepDur fuel rt q) as [[rt1 bt]|]; [|reflexivity]. destruct (stepDur fuel rh q) as [[rh1 bh]|]; [|reflexivity].
    destruct (negb (eqb bt bh)); [reflexivity|]. destruct (stepChar rt1 a) as [rt2 ct], (stepChar rh1 a) as [rh2 ch].
    destruct (negb (eqb ct ch)); [reflexivity|]. rewrite IH. rewrite <- !app_assoc. reflexivity.
Qed.
Definition testWord (t : list (Q * letter) * Q) : tword := mkTW (map snd (fst t)) (map fst (fst t) ++ [snd t]).
Lemma randTests_words fuel tests : forall rt rh, (forall t q a, In t tests -> In (q, a) (fst t) -> a <> UNOBSERVABLE) ->
  randTests fuel rt rh tests = testWords fuel rt rh (map testWord tests).
Proof.
  induction tests as [|[steps q] tests IH]; intros rt rh Hg; [reflexivity|]. cbn [randTests map testWords]. rewrite randFrom_test. unfold testWord at 1 2. cbn [fst snd tw td app].
  rewrite absorb_same.
  - unfold testWord at 1. cbn [fst snd]. destruct (testFrom _ _ _ _ _ _ _ _) as [[[rt' rh'] [cex|]]|]; auto. apply IH. intros t q' a I. apply Hg. right; auto.
  - rewrite app_length, !map_length. cbn. lia.
  - intro K. apply in_map_iff in K. destruct K as ([q' a] & E & K). cbn in E. eapply Hg; [left; reflexivity|exact K|exact E].
Qed.
Lemma testWord_good t : (forall q a, In (q, a) (fst t) -> a <> UNOBSERVABLE) -> goodTW (testWord t).
Proof.
  intro H. split; [unfold wfTW, testWord; cbn [tw td]; rewrite app_length, !map_length; cbn; lia|].
  intro K. cbn [testWord tw] in K. apply in_map_iff in K. destruct K as ([q a] & E & K). cbn in E. eapply H; eauto.
Qed.
