(** Proofs about timed words. *)
From Coq Require Import QArith Bool List Arith Lia Lqa.
From Verif Require Import BoundsModel ConstraintModel ZoneModel AutomatonModel TimedWordModel TimedWordSpec.
Import ListNotations.
Open Scope Q_scope.

Lemma F2Q_refl l : Forall2 Qeq l l.
Proof. induction l; constructor; auto. reflexivity. Qed.
Lemma F2Q_sym a b : Forall2 Qeq a b -> Forall2 Qeq b a.
Proof. induction 1; constructor; auto. symmetry; auto. Qed.
Lemma F2Q_trans a b c : Forall2 Qeq a b -> Forall2 Qeq b c -> Forall2 Qeq a c.
Proof. intro H. revert c. induction H; intros c K; inversion K; subst; constructor; auto. etransitivity; eauto. Qed.
Lemma sameTW_refl x : sameTW x x. Proof. split; auto using F2Q_refl. Qed.
Lemma sameTW_sym x y : sameTW x y -> sameTW y x. Proof. intros [H K]. split; auto using F2Q_sym. Qed.
Lemma sameTW_trans x y z : sameTW x y -> sameTW y z -> sameTW x z.
Proof. intros [H K] [H' K']. split; [congruence|eauto using F2Q_trans]. Qed.
Lemma eqQs_iff a : forall b, eqQs a b = true <-> Forall2 Qeq a b.
Proof.
  induction a as [|x a IH]; intros [|y b]; cbn; split; intro H; auto; try discriminate; try (inversion H; fail).
  - apply andb_true_iff in H. destruct H as [H1 H2]. constructor; [apply Qeq_bool_iff, H1|apply IH, H2].
  - inversion H; subst. apply andb_true_iff. split; [apply Qeq_bool_iff; auto|apply IH; auto].
Qed.
Lemma eqLetters_iff a : forall b, eqLetters a b = true <-> a = b.
Proof.
  induction a as [|x a IH]; intros [|y b]; cbn; split; intro H; auto; try discriminate.
  - apply andb_true_iff in H. destruct H as [H1 H2]. apply Nat.eqb_eq in H1. apply IH in H2. congruence.
  - injection H as -> ->. apply andb_true_iff. split; [apply Nat.eqb_refl|apply IH; auto].
Qed.
Lemma eqTW_iff x y : eqTW x y = true <-> sameTW x y.
Proof. unfold eqTW, sameTW. rewrite andb_true_iff, eqLetters_iff, eqQs_iff. reflexivity. Qed.
Lemma eqTW_refl x : eqTW x x = true. Proof. apply eqTW_iff, sameTW_refl. Qed.

Lemma addBack_len l q : length (addBack l q) = length l.
Proof. induction l as [|x [|y r] IH]; auto. cbn [addBack length] in *. rewrite IH. reflexivity. Qed.
Lemma addBack_snoc l x q : addBack (l ++ [x]) q = l ++ [x + q].
Proof. induction l as [|y [|z r] IH]; auto. cbn [app addBack] in *. rewrite IH. reflexivity. Qed.
Lemma addBack_cons2 x y r q : addBack (x :: y :: r) q = x :: addBack (y :: r) q. Proof. reflexivity. Qed.
Lemma total_app a b : total (a ++ b) == total a + total b.
Proof. induction a as [|x a IH]; cbn [app total]; [lra|]. rewrite IH. lra. Qed.
Lemma total_addBack l q : l <> [] -> total (addBack l q) == total l + q.
Proof. intro H. destruct (exists_last H) as (l' & x & ->). rewrite addBack_snoc, !total_app. cbn [total]. lra. Qed.
Lemma total_Q a b : Forall2 Qeq a b -> total a == total b.
Proof. induction 1; cbn [total]; [reflexivity|]. rewrite H, IHForall2. reflexivity. Qed.

(** *** C17 *)
Lemma concat_wf x y : wfTW x -> wfTW y -> wfTW (concatTW x y).
Proof.
  unfold wfTW, concatTW. cbn [tw td]. rewrite !app_length, addBack_len. intros -> H.
  destruct (td y); cbn in *; lia.
Qed.
Lemma snoc_wf x : wfTW x -> exists d q, td x = d ++ [q] /\ length d = length (tw x).
Proof.
  intro H. unfold wfTW in H. destruct (td x) as [|q r] eqn:E; [discriminate|]. destruct (exists_last (l := q :: r)) as (d & q' & E'); [discriminate|].
  exists d, q'. split; auto. rewrite E' in H. rewrite app_length in H. cbn in H. lia.
Qed.
Lemma cons_wf x : wfTW x -> exists q d, td x = q :: d /\ length d = length (tw x).
Proof. intro H. unfold wfTW in H. destruct (td x) as [|q r]; [discriminate|]. injection H as H. eauto. Qed.
Lemma F2Q_app a b c d : Forall2 Qeq a b -> Forall2 Qeq c d -> Forall2 Qeq (a ++ c) (b ++ d).
Proof. intros. apply Forall2_app; auto. Qed.
Lemma concat_assoc x y z : wfTW x -> wfTW y -> wfTW z -> sameTW (concatTW (concatTW x y) z) (concatTW x (concatTW y z)).
Proof.
  intros Hx Hy Hz. split; [unfold concatTW; cbn [tw]; rewrite app_assoc; reflexivity|].
  destruct (snoc_wf x Hx) as (dx & qx & Ex & _). destruct (cons_wf y Hy) as (qy & dy & Ey & _). destruct (cons_wf z Hz) as (qz & dz & Ez & _).
  unfold concatTW. cbn [td tw]. rewrite Ex, Ey, Ez. cbn [hd tl]. rewrite addBack_snoc.
  destruct dy as [|y1 dy] using rev_ind.
  - cbn [addBack hd tl app]. rewrite app_nil_r, !addBack_snoc. rewrite <- !app_assoc. apply F2Q_app; [apply F2Q_refl|].
    cbn [app]. constructor; [lra|apply F2Q_refl].
  - clear IHdy.
    assert (E1 : addBack ((dx ++ [qx + qy]) ++ dy ++ [y1]) qz = (dx ++ [qx + qy]) ++ dy ++ [y1 + qz]).
    { rewrite app_assoc. rewrite addBack_snoc. rewrite <- app_assoc. reflexivity. }
    assert (E2 : addBack (qy :: dy ++ [y1]) qz = qy :: dy ++ [y1 + qz]) by (apply (addBack_snoc (qy :: dy) y1 qz)).
    rewrite E1, E2. cbn [app hd tl]. rewrite addBack_snoc, <- !app_assoc. apply F2Q_refl.
Qed.
Lemma concat_unit_l x : wfTW x -> sameTW (concatTW emptyTW x) x.
Proof.
  intro H. destruct (cons_wf x H) as (q & d & E & _). split; [reflexivity|]. unfold concatTW, emptyTW. cbn [td tw addBack app]. rewrite E. cbn [hd tl].
  constructor; [lra|apply F2Q_refl].
Qed.
Lemma concat_unit_r x : wfTW x -> sameTW (concatTW x emptyTW) x.
Proof.
  intro H. destruct (snoc_wf x H) as (d & q & E & _). split; [cbn; rewrite app_nil_r; reflexivity|]. unfold concatTW, emptyTW. cbn [td tw hd tl]. rewrite E, addBack_snoc, app_nil_r.
  apply F2Q_app; [apply F2Q_refl|]. constructor; [lra|constructor].
Qed.
Lemma concat_Q x x' y y' : sameTW x x' -> sameTW y y' -> sameTW (concatTW x y) (concatTW x' y').
Proof.
  intros [H1 H2] [K1 K2]. split; [unfold concatTW; cbn [tw]; congruence|]. unfold concatTW. cbn [td].
  assert (A : forall a b p q, Forall2 Qeq a b -> p == q -> Forall2 Qeq (addBack a p) (addBack b q)).
  { intros a b p q F E. induction F as [|u v r s Euv F IH]; [constructor|]. destruct F as [|u' v' r' s' E' F']; cbn [addBack]; [constructor; [rewrite Euv, E; reflexivity|constructor]|].
    constructor; auto. }
  apply F2Q_app; [apply A; auto; inversion K2; subst; auto; reflexivity|]. inversion K2; subst; cbn; auto.
Qed.
Lemma concat_total x y : wfTW x -> wfTW y -> total (td (concatTW x y)) == total (td x) + total (td y).
Proof.
  intros Hx Hy. destruct (snoc_wf x Hx) as (dx & qx & Ex & _). destruct (cons_wf y Hy) as (qy & dy & Ey & _).
  unfold concatTW. cbn [td]. rewrite Ex, Ey. cbn [hd tl]. rewrite addBack_snoc, !total_app. cbn [total]. lra.
Qed.
Lemma sameTL_refl a : sameTL a a. Proof. induction a as [|[q l] a IH]; constructor; auto. split; reflexivity. Qed.
Lemma sameTL_app a b c d : sameTL a b -> sameTL c d -> sameTL (a ++ c) (b ++ d). Proof. intros. apply Forall2_app; auto. Qed.
Lemma sameTL_sym a b : sameTL a b -> sameTL b a.
Proof. induction 1 as [|p q r s [E1 E2] F IH]; constructor; auto. split; [symmetry; auto|auto]. Qed.
Lemma sameTL_trans a b c : sameTL a b -> sameTL b c -> sameTL a c.
Proof. intro H. revert c. induction H as [|p q r s [E1 E2] F IH]; intros c K; inversion K as [|? z ? ? [E3 E4]]; subst; constructor; [split; [rewrite E1; auto|congruence]|apply IH; auto]. Qed.
Lemma timeline_Q w : forall t t' d d', t == t' -> Forall2 Qeq d d' -> sameTL (timeline t w d) (timeline t' w d').
Proof.
  induction w as [|a w IH]; intros t t' d d' Et F; destruct F as [|q q' d d' Eq F]; cbn [timeline]; try constructor.
  - cbn. split; [rewrite Et, Eq; reflexivity|reflexivity].
  - apply IH; auto. rewrite Et, Eq. reflexivity.
Qed.
(** events of a concatenation: those of the left, then those of the right, later by the left's duration *)
Lemma timeline_concat x y t : wfTW x -> wfTW y ->
  sameTL (timeline t (tw (concatTW x y)) (td (concatTW x y))) (timeline t (tw x) (td x) ++ timeline (t + total (td x)) (tw y) (td y)).
Proof.
  destruct x as [w d]. unfold concatTW, wfTW. cbn [tw td]. intros Hx Hy. destruct (cons_wf y Hy) as (qy & dy & Ey & Ly). rewrite Ey. cbn [hd tl].
  clear Hy. revert t d Hx. induction w as [|a w IH]; intros t d Hx.
  - destruct d as [|q [|? ?]]; try discriminate. cbn [app addBack timeline total]. destruct (tw y) as [|b wy]; cbn [timeline]; [constructor|].
    constructor; [cbn; split; [lra|reflexivity]|]. apply timeline_Q; [lra|apply F2Q_refl].
  - destruct d as [|q [|q' d]]; try discriminate. cbn [app]. rewrite addBack_cons2. cbn [app timeline].
    constructor; [split; reflexivity|].
    eapply sameTL_trans; [apply IH; cbn in *; lia|]. apply sameTL_app; [apply sameTL_refl|]. apply timeline_Q; [cbn [total]; lra|apply F2Q_refl].
Qed.
(** accumulated durations *)
Lemma accum_len l : length (accum l) = length l.
Proof. induction l as [|x [|y r] IH]; auto.
  change (accum (x :: y :: r)) with (match accum (y :: r) with [] => [x] | z0 :: s0 => (z0 + x) :: z0 :: s0 end).
  destruct (accum (y :: r)); cbn [length] in *; lia. Qed.
Lemma accum_cons x r : r <> [] -> accum (x :: r) = (hd 0 (accum r) + x) :: accum r.
Proof.
  intro H. destruct r as [|y r]; [contradiction|]. assert (L := accum_len (y :: r)). destruct (accum (y :: r)) as [|z s] eqn:E; [discriminate|].
  cbn [hd]. change (accum (x :: y :: r)) with (match accum (y :: r) with [] => [x] | z0 :: s0 => (z0 + x) :: z0 :: s0 end). rewrite E. reflexivity.
Qed.
Lemma accum_nth l : forall i, (i < length l)%nat -> nth i (accum l) 0 == total (skipn i l).
Proof.
  induction l as [|x [|y r] IH]; intros i Hi; [cbn in Hi; lia| |].
  - destruct i; [cbn; lra|cbn in Hi; lia].
  - rewrite accum_cons; [|discriminate]. destruct i as [|i].
    + cbn [nth skipn]. change (total (x :: y :: r)) with (x + total (y :: r)).
      assert (K := IH 0%nat ltac:(cbn; lia)). cbn [skipn] in K. destruct (accum (y :: r)); cbn [hd nth] in *; rewrite K; lra.
    + cbn [nth skipn]. apply IH. cbn in *. lia.
Qed.

(** *** C18 *)
Notation keepObs := observableTL.
Lemma absorb_snoc word : forall w d q durs,
  absorb w (d ++ [q]) word durs = mkTW (w ++ tw (absorb [] [q] word durs)) (d ++ td (absorb [] [q] word durs)).
Proof.
  induction word as [|a word IH]; intros w d q durs; [cbn; rewrite app_nil_r; reflexivity|].
  destruct durs as [|p durs]; [cbn; rewrite app_nil_r; reflexivity|].
  cbn [absorb]. destruct (Nat.eqb a UNOBSERVABLE).
  - rewrite addBack_snoc. cbn [addBack]. apply IH.
  - rewrite IH. assert (K := IH [a] [q] p durs). cbn [app] in *. rewrite K. cbn [tw td]. rewrite <- !app_assoc. reflexivity.
Qed.
Lemma absorb_cons a word q p durs :
  absorb [] [q] (a :: word) (p :: durs) =
  if Nat.eqb a UNOBSERVABLE then absorb [] [q + p] word durs
  else mkTW (a :: tw (absorb [] [p] word durs)) (q :: td (absorb [] [p] word durs)).
Proof. cbn [absorb]. destruct (Nat.eqb a UNOBSERVABLE); [reflexivity|]. exact (absorb_snoc word [a] [q] p durs). Qed.
Lemma timeline_shift w t q p d : sameTL (timeline (t + q) w (p :: d)) (timeline t w ((q + p) :: d)).
Proof.
  destruct w as [|a w]; [constructor|]. cbn [timeline]. constructor; [cbn; split; [lra|reflexivity]|]. apply timeline_Q; [lra|apply F2Q_refl].
Qed.
Lemma keepObs_same a b : sameTL a b -> sameTL (keepObs a) (keepObs b).
Proof.
  induction 1 as [|p q r s [E1 E2] F IH]; [constructor|]. unfold observableTL in *. cbn [filter]. destruct p as [p1 a], q as [q1 b]. cbn [fst snd] in *. subst b. destruct (negb (Nat.eqb a UNOBSERVABLE)); auto. constructor; auto.
Qed.
Lemma absorb_wf word : forall q durs, length durs = length word -> wfTW (absorb [] [q] word durs).
Proof.
  induction word as [|a word IH]; intros q durs H; destruct durs as [|p durs]; try discriminate; [reflexivity|].
  rewrite absorb_cons. injection H as H. destruct (Nat.eqb a UNOBSERVABLE); [apply IH; auto|].
  assert (K := IH p durs H). unfold wfTW in *. cbn [tw td length]. lia.
Qed.
Lemma absorb_obs word : forall q durs, ~ In UNOBSERVABLE (tw (absorb [] [q] word durs)).
Proof.
  induction word as [|a word IH]; intros q durs; [auto|]. destruct durs as [|p durs]; [auto|].
  rewrite absorb_cons. destruct (Nat.eqb a UNOBSERVABLE) eqn:E; [apply IH|]. cbn [tw]. intros [K|K]; [|eapply IH; eauto].
  apply Nat.eqb_neq in E. congruence.
Qed.
Lemma absorb_total word : forall q durs, length durs = length word -> total (td (absorb [] [q] word durs)) == q + total durs.
Proof.
  induction word as [|a word IH]; intros q durs H; destruct durs as [|p durs]; try discriminate; [cbn; lra|].
  rewrite absorb_cons. injection H as H. destruct (Nat.eqb a UNOBSERVABLE).
  - rewrite IH; auto. cbn [total]. lra.
  - cbn [td total]. rewrite IH; auto. lra.
Qed.
Lemma absorb_timeline word : forall q durs t, length durs = length word ->
  sameTL (timeline t (tw (absorb [] [q] word durs)) (td (absorb [] [q] word durs))) (keepObs (timeline t word (q :: durs))).
Proof.
  induction word as [|a word IH]; intros q durs t H; destruct durs as [|p durs]; try discriminate; [constructor|].
  rewrite absorb_cons. injection H as H. unfold observableTL in *; cbn [timeline filter]. cbn [snd]. destruct (Nat.eqb a UNOBSERVABLE); cbn [negb].
  - eapply sameTL_trans; [apply IH; auto|]. apply keepObs_same, sameTL_sym, timeline_shift.
  - cbn [tw td timeline]. constructor; [split; reflexivity|]. apply IH; auto.
Qed.
(** words without unobservable events are stored as they are *)
Lemma absorb_id word : forall q durs, length durs = length word -> ~ In UNOBSERVABLE word -> absorb [] [q] word durs = mkTW word (q :: durs).
Proof.
  induction word as [|a word IH]; intros q durs H N; destruct durs as [|p durs]; try discriminate; [reflexivity|].
  rewrite absorb_cons. injection H as H. destruct (Nat.eqb a UNOBSERVABLE) eqn:E; [apply Nat.eqb_eq in E; exfalso; apply N; left; auto|].
  rewrite IH; auto. intro K. apply N. right; auto.
Qed.
(** the timeline and the total determine the word *)
Lemma timeline_inj w : forall w' d d' t, length d = S (length w) -> length d' = S (length w') ->
  sameTL (timeline t w d) (timeline t w' d') -> total d == total d' -> w = w' /\ Forall2 Qeq d d'.
Proof.
  induction w as [|a w IH]; intros w' d d' t H H' K T.
  - destruct d as [|q [|? ?]]; try discriminate. destruct w' as [|b w'].
    + destruct d' as [|q' [|? ?]]; try discriminate. split; auto. cbn [total] in T. constructor; [lra|constructor].
    + destruct d' as [|q' d']; [discriminate|]. inversion K.
  - destruct d as [|q d]; [discriminate|]. destruct w' as [|b w']; destruct d' as [|q' d']; try discriminate; [inversion K|].
    cbn [timeline] in K. inversion K as [|? ? ? ? [E1 E2] K']; subst. cbn [fst snd] in *. subst b. cbn [total] in T.
    assert (Eq : q == q') by lra.
    destruct (IH w' d d' (t + q)) as [E F]; [cbn in H; lia|cbn in H'; lia| |lra|].
    + eapply sameTL_trans; [exact K'|]. apply timeline_Q; [lra|apply F2Q_refl].
    + split; [congruence|constructor; auto].
Qed.

(** *** suffixes *)
Lemma suffix_of_concat x y : wfTW x -> wfTW y -> ~ In UNOBSERVABLE (tw y) -> sameTW (getSuffix (concatTW x y) x) y.
Proof.
  intros Hx Hy N. destruct (snoc_wf x Hx) as (dx & qx & Ex & Lx). destruct (cons_wf y Hy) as (qy & dy & Ey & Ly).
  unfold getSuffix, concatTW, wordSize. cbn [tw td]. rewrite Ex, Ey. cbn [hd tl]. rewrite addBack_snoc, <- app_assoc.
  assert (E1 : skipn (length (tw x)) (tw x ++ tw y) = tw y) by (rewrite skipn_app, skipn_all, Nat.sub_diag; reflexivity).
  assert (E2 : skipn (length (tw x)) (dx ++ [qx + qy] ++ dy) = (qx + qy) :: dy) by (rewrite skipn_app, <- Lx, skipn_all, Nat.sub_diag; reflexivity).
  rewrite E1, E2, last_last. cbn [mkTimedWord]. rewrite absorb_id; auto. split; [reflexivity|]. cbn [td]. rewrite Ey. constructor; [lra|apply F2Q_refl].
Qed.
Lemma suffix_Q x x' p p' : sameTW x x' -> sameTW p p' -> wfTW x -> (wordSize p <= wordSize x)%nat ->
  sameTW (getSuffix x p) (getSuffix x' p').
Proof.
  intros [H1 H2] [K1 K2] W L. unfold getSuffix, wordSize. rewrite <- K1, <- H1.
  assert (S2 : forall n a b, Forall2 Qeq a b -> Forall2 Qeq (skipn n a) (skipn n b)).
  { induction n; intros a b F; [exact F|]. destruct F; cbn; auto. }
  assert (B2 : forall a b, Forall2 Qeq a b -> last a 0 == last b 0).
  { induction 1 as [|u v r s E F IH]; [reflexivity|]. destruct F; cbn in *; auto. }
  assert (G : forall word q q' d d', q == q' -> Forall2 Qeq d d' -> sameTW (absorb [] [q] word d) (absorb [] [q'] word d')).
  { induction word as [|a word IH]; intros q q' d d' E F; [split; [reflexivity|cbn; constructor; auto]|].
    destruct F as [|u v r s Euv F]; [split; [reflexivity|cbn; constructor; auto]|]. rewrite !absorb_cons.
    destruct (Nat.eqb a UNOBSERVABLE); [apply IH; [rewrite E, Euv; reflexivity|auto]|].
    destruct (IH u v r s Euv F) as [I1 I2]. split; cbn [tw td]; [congruence|constructor; auto]. }
  specialize (S2 (length (tw p)) _ _ H2). destruct S2 as [|u v r s E F]; [split; [reflexivity|constructor]|].
  cbn [mkTimedWord]. apply G; auto. rewrite E, (B2 _ _ K2). reflexivity.
Qed.
Lemma suffix_restores x p y : wfTW x -> wfTW p -> wfTW y -> ~ In UNOBSERVABLE (tw x) -> sameTW x (concatTW p y) ->
  sameTW (concatTW p (getSuffix x p)) x.
Proof.
  intros Wx Wp Wy N E. assert (N' : ~ In UNOBSERVABLE (tw y)).
  { intro K. apply N. destruct E as [E _]. rewrite E. cbn. apply in_or_app. auto. }
  apply (sameTW_trans _ (concatTW p y)); [|apply sameTW_sym, E]. apply concat_Q; [apply sameTW_refl|].
  apply (sameTW_trans _ (getSuffix (concatTW p y) p)); [|apply suffix_of_concat; auto].
  apply suffix_Q; auto using sameTW_refl. destruct E as [E _]. unfold wordSize. rewrite E. cbn. rewrite app_length. lia.
Qed.
