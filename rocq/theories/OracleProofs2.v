(** Proofs about caching, memoizing, chaining and the learner's loop. *)
From Coq Require Import QArith Bool List Arith Lia Lqa.
From Verif Require Import BoundsModel ConstraintModel GuardSpec ZoneModel AutomatonModel AutomatonSpec TimedWordModel TimedWordSpec OracleModel OracleSpec.
From Verif Require Import AutomatonProofs AutomatonProofs3 TimedWordProofs OracleProofs.
Import ListNotations.
Open Scope Q_scope.

Lemma eqTW_congr y x x' : sameTW x x' -> eqTW y x = eqTW y x'.
Proof.
  intro E. destruct (eqTW y x) eqn:A, (eqTW y x') eqn:B; auto.
  - apply eqTW_iff in A. assert (K := proj2 (eqTW_iff y x') (sameTW_trans _ _ _ A E)). congruence.
  - apply eqTW_iff in B. assert (K := proj2 (eqTW_iff y x) (sameTW_trans _ _ _ B (sameTW_sym _ _ E))). congruence.
Qed.
Lemma findTW_congr m x x' : sameTW x x' -> findTW m x = findTW m x'.
Proof.
  intro E. unfold findTW. f_equal. induction m as [|p m IH]; cbn [find]; auto. rewrite (eqTW_congr (fst p) x x' E), IH. reflexivity.
Qed.
Lemma findTW_some m x b : findTW m x = Some b -> exists y, In (y, b) m /\ sameTW y x.
Proof.
  unfold findTW. destruct (find _ m) as [[y c]|] eqn:F; [|discriminate]. cbn. intro H. injection H as ->. apply find_some in F. cbn in F.
  exists y. split; [apply F|apply eqTW_iff, F].
Qed.
Lemma findTW_none m x : findTW m x = None -> forall y b, In (y, b) m -> ~ sameTW y x.
Proof.
  unfold findTW. destruct (find _ m) as [p|] eqn:F; [discriminate|]. intros _ y b I E. apply (find_none _ _ F) in I. cbn in I. apply eqTW_iff in E. congruence.
Qed.
Lemma findTW_cons y b m x : findTW ((y, b) :: m) x = if eqTW y x then Some b else findTW m x.
Proof. unfold findTW. cbn [find fst]. destruct (eqTW y x); reflexivity. Qed.

Section Cache.
Context {St : Type} (o : mOracle St).
Lemma cache_run xs : forall c c' bs, askAll (cacheAnswer o) c xs = Some (c', bs) ->
  exists asked abs, askAll o (cOracle c) asked = Some (cOracle c', abs) /\
    (forall x b, findTW (cMap c) x = Some b -> findTW (cMap c') x = Some b) /\
    (forall y b, In (y, b) (cMap c') <-> In (y, b) (cMap c) \/ In (y, b) (combine asked abs)) /\
    cNoCache c' = (cNoCache c + length xs)%nat /\ length bs = length xs /\
    (forall x b, In (x, b) (combine xs bs) -> findTW (cMap c') x = Some b) /\
    (forall x, In x asked -> In x xs) /\
    (forall x, In x asked -> findTW (cMap c) x = None) /\ allDistinct asked.
Proof.
  induction xs as [|x xs IH]; intros c c' bs H; cbn [askAll] in H.
  - injection H as <- <-. exists [], []. cbn. repeat split; auto; try tauto.
  - destruct (cacheAnswer o c x) as [[c1 b]|] eqn:A; [|discriminate].
    destruct (askAll (cacheAnswer o) c1 xs) as [[c2 bs']|] eqn:F; [|discriminate]. injection H as <- <-.
    destruct (IH _ _ _ F) as (asked & abs & H1 & H2 & H3 & H4 & H5 & H6 & H7 & H8 & H9). clear IH F.
    unfold cacheAnswer in A. destruct (findTW (cMap c) x) as [b0|] eqn:E.
    + injection A as <- <-. cbn [cOracle cMap cNoCache] in *. exists asked, abs.
      split; auto. split; auto. split; auto. split; [rewrite H4; cbn; lia|]. split; [cbn; auto|].
      split; [intros y d [K|K]; [injection K as <- <-; auto|auto]|]. split; [intros y I; right; auto|]. auto.
    + destruct (o (cOracle c) x) as [[s1 b1]|] eqn:O; [|discriminate]. injection A as <- <-. cbn [cOracle cMap cNoCache] in *.
      exists (x :: asked), (b1 :: abs).
      assert (L : findTW (cMap c2) x = Some b1) by (apply H2; rewrite findTW_cons, eqTW_refl; reflexivity).
      split; [cbn [askAll]; rewrite O, H1; reflexivity|].
      split.
      { intros y d K. apply H2. rewrite findTW_cons. destruct (eqTW x y) eqn:Ey; [|auto]. apply eqTW_iff in Ey.
        rewrite (findTW_congr _ x y Ey) in E. congruence. }
      split.
      { intros y d. rewrite H3. cbn [In combine]. tauto. }
      split; [rewrite H4; cbn; lia|]. split; [cbn; auto|].
      split; [intros y d [K|K]; [injection K as <- <-; auto|auto]|].
      split; [intros y [<-|I]; [left; reflexivity|right; auto]|].
      assert (N : forall y, In y asked -> ~ sameTW x y /\ findTW (cMap c) y = None).
      { intros y I. specialize (H8 y I). rewrite findTW_cons in H8. destruct (eqTW x y) eqn:Ey; [discriminate|]. split; auto.
        intro K. apply eqTW_iff in K. congruence. }
      split; [intros y [<-|I]; [auto|apply N, I]|].
      split; [intros y I; apply N, I|auto].
Qed.
Lemma askAll_f (f : tword -> bool) (Inv : St -> Prop) (Good : tword -> Prop) :
  (forall s x, Inv s -> Good x -> exists s', o s x = Some (s', f x) /\ Inv s') ->
  forall xs s, Inv s -> (forall x, In x xs -> Good x) -> exists s', askAll o s xs = Some (s', map f xs) /\ Inv s'.
Proof.
  intros Ho xs. induction xs as [|x xs IH]; intros s Hs Hg; cbn [askAll map]; [eauto|].
  destruct (Ho s x Hs (Hg x (or_introl eq_refl))) as (s1 & E & H1). rewrite E.
  destruct (IH s1 H1 (fun y I => Hg y (or_intror I))) as (s2 & E2 & H2). rewrite E2. eauto.
Qed.
Lemma cache_total (f : tword -> bool) (Inv : St -> Prop) (Good : tword -> Prop) :
  (forall s x, Inv s -> Good x -> exists s', o s x = Some (s', f x) /\ Inv s') ->
  forall xs c, Inv (cOracle c) -> (forall x, In x xs -> Good x) -> exists c' bs, askAll (cacheAnswer o) c xs = Some (c', bs).
Proof.
  intros Ho xs. induction xs as [|x xs IH]; intros c Hs Hg; cbn [askAll]; [eauto|].
  unfold cacheAnswer at 1. destruct (findTW (cMap c) x) as [b|].
  - destruct (IH (mkCache (cOracle c) (cMap c) (S (cNoCache c))) Hs (fun y I => Hg y (or_intror I))) as (c' & bs & E). rewrite E. eauto.
  - destruct (Ho (cOracle c) x Hs (Hg x (or_introl eq_refl))) as (s1 & E & H1). rewrite E.
    destruct (IH (mkCache s1 ((x, f x) :: cMap c) (S (cNoCache c))) H1 (fun y I => Hg y (or_intror I))) as (c' & bs & E'). rewrite E'. eauto.
Qed.
End Cache.
Lemma combine_map_in {A B} (f : A -> B) l y b : In (y, b) (combine l (map f l)) -> b = f y.
Proof. induction l as [|x l IH]; cbn; [tauto|]. intros [E|I]; [injection E as <- <-; reflexivity|auto]. Qed.
Lemma combine_eq_map {A B} (f : A -> B) l : forall bs, length bs = length l -> (forall x b, In (x, b) (combine l bs) -> b = f x) -> bs = map f l.
Proof.
  induction l as [|x l IH]; intros bs L H; destruct bs as [|b bs]; try discriminate; [reflexivity|]. cbn. f_equal.
  - apply H. left; reflexivity.
  - apply IH; [cbn in L; lia|]. intros y c I. apply H. right; auto.
Qed.

(** acceptance does not distinguish equal rationals *)
Lemma run_Q A c w c' : run A c w c' -> forall w', Forall2 (fun p q : letter * Q => fst p = fst q /\ snd p == snd q) w w' -> run A c w' c'.
Proof.
  induction 1 as [c|c a d c1 c2 w c3 Fi F Rn IH]; intros w' H; inversion H as [|? [a' d'] ? ? [E1 E2] H']; subst; [constructor|].
  cbn [fst snd] in *. subst a'. econstructor; eauto. eapply flow_Q; eauto.
Qed.
Lemma events_Q x y : sameTW x y -> Forall2 (fun p q : letter * Q => fst p = fst q /\ snd p == snd q) (events x) (events y) /\ firstDur x == firstDur y.
Proof.
  intros [E F]. unfold events, firstDur. rewrite <- E. split; [|inversion F; subst; cbn; auto; reflexivity].
  assert (F' : Forall2 Qeq (tl (td x)) (tl (td y))) by (inversion F; subst; cbn; auto). clear F. revert F'.
  generalize (tl (td x)) as a. generalize (tl (td y)) as b. generalize (tw x) as w. clear.
  induction w as [|l w IH]; intros b a F; [constructor|]. destruct F; cbn [combine]; constructor; auto.
Qed.
Lemma acceptsTW_Q A x y : sameTW x y -> acceptsTW A x -> acceptsTW A y.
Proof.
  intros E (l0 & c0 & c & I & F & Rn & Ac). destruct (events_Q x y E) as [E1 E2]. exists l0, c0, c. split; auto.
  split; [eapply flow_Q; eauto|]. split; auto. eapply run_Q; eauto.
Qed.

(** ** memo *)
Definition memoOK {St} (A : ta) (m : memo St) : Prop := btTarget (mTest m) = A /\ forall x, In x (btWords (mTest m)) -> goodTW x.
Section Memo.
Context {St : Type} (fuel : nat) (A : ta) (o : eOracle St).
Hypothesis So : soundFor fuel A o.
Lemma memo_step m H m' r : memoOK A m -> memoFind fuel o m H = Some (m', r) ->
  memoOK A m' /\ mCount m' = S (mCount m) /\
  match r with
  | Some x => goodTW x /\ differ fuel A H x /\
              ((mOrac m' = mOrac m /\ btWords (mTest m') = btWords (mTest m) /\ testWords fuel (mkRunner A) (mkRunner H) (btWords (mTest m)) = Some (Some x)
                /\ exists y, In y (btWords (mTest m)) /\ prefixTW x y /\ forall q, In q (td x) -> q = 0 \/ In q (td y))
               \/ (o (mOrac m) H = Some (mOrac m', Some x) /\ btWords (mTest m') = btWords (mTest m) ++ [x] /\ forall y, In y (btWords (mTest m)) -> agree fuel A H y))
  | None => o (mOrac m) H = Some (mOrac m', None) /\ btWords (mTest m') = btWords (mTest m) /\ forall y, In y (btWords (mTest m)) -> agree fuel A H y
  end.
Proof.
  intros [Ht Hg] F. unfold memoFind in F. destruct (byTestFind fuel (mTest m) H) as [[t' [x|]]|] eqn:B; [| |discriminate].
  - injection F as <- <-. destruct (byTest_spec fuel (mTest m) H t' (Some x) Hg B) as (E1 & E2 & _ & G & P & D). cbn [mOrac mTest mCount].
    split; [split; [cbn [mTest]; congruence|cbn [mTest]; rewrite E1; auto]|]. split; auto. rewrite Ht in D. split; auto. split; auto. left. split; auto. split; auto. split; auto.
    unfold byTestFind in B. rewrite Ht in B. destruct (testWords _ _ _ _); [injection B as _ ->; reflexivity|discriminate].
  - destruct (byTest_spec fuel (mTest m) H t' None Hg B) as (E1 & E2 & _ & G). rewrite Ht in G, E2.
    destruct (o (mOrac m) H) as [[s' [x|]]|] eqn:O; [| |discriminate]; injection F as <- <-; cbn [mOrac mTest mCount].
    + destruct (So _ _ _ _ O) as [Gx Dx]. split; [|split; auto].
      * split; [exact E2|]. unfold byTestPush. cbn [mTest]. cbn [btWords]. rewrite E1. intros y I. apply in_app_or in I. destruct I as [I|[<-|[]]]; auto.
      * split; auto. split; auto. right. unfold byTestPush. cbn [btWords]. rewrite E1. auto.
    + split; [split; [exact E2|cbn [mTest]; rewrite E1; auto]|]. split; auto.
Qed.
Lemma testWords_app rt rh ws1 ws2 : testWords fuel rt rh (ws1 ++ ws2) = Some None -> testWords fuel rt rh ws1 = Some None.
Proof.
  clear So. revert rt rh. induction ws1 as [|x ws1 IH]; intros rt rh F; [reflexivity|]. cbn [app testWords] in *.
  destruct (testFrom fuel x _ _ _ _ _ _) as [[[rt' rh'] [c|]]|]; try discriminate. apply IH, F.
Qed.
(** the test words only grow, by the answers of the wrapped oracle *)
Lemma memo_history hs : forall m m' rs, memoOK A m -> findAll (memoFind fuel o) m hs = Some (m', rs) ->
  memoOK A m' /\ length rs = length hs /\ mCount m' = (mCount m + length hs)%nat /\
  (exists more, btWords (mTest m') = btWords (mTest m) ++ more /\ forall x, In x more -> In (Some x) rs) /\
  (forall h x, In (h, Some x) (combine hs rs) -> goodTW x /\ differ fuel A h x /\ testWords fuel (mkRunner A) (mkRunner h) (btWords (mTest m')) <> Some None) /\
  (forall h, In (h, None) (combine hs rs) -> exists s s', o s h = Some (s', None)).
Proof.
  induction hs as [|h hs IH]; intros m m' rs Hm F; cbn [findAll] in F.
  - injection F as <- <-. split; auto. split; auto. split; [cbn; lia|]. split; [exists []; rewrite app_nil_r; split; [auto|intros ? []]|]. split; [intros ? ? []|intros ? []].
  - destruct (memoFind fuel o m h) as [[m1 r]|] eqn:M; [|discriminate]. destruct (findAll (memoFind fuel o) m1 hs) as [[m2 rs']|] eqn:R; [|discriminate].
    injection F as <- <-. destruct (memo_step m h m1 r Hm M) as (H1 & C1 & S1).
    destruct (IH m1 m2 rs' H1 R) as (H2 & L2 & C2 & (more & W2 & I2) & S2 & N2).
    split; auto. split; [cbn; auto|]. split; [rewrite C2, C1; cbn; lia|].
    assert (W1 : exists m0, btWords (mTest m1) = btWords (mTest m) ++ m0 /\ forall x, In x m0 -> r = Some x).
    { destruct r as [x|].
      - destruct S1 as (_ & _ & [(_ & E & _)|(_ & E & _)]); [exists []; rewrite app_nil_r; split; [auto|intros ? []]|exists [x]; split; [auto|intros y [<-|[]]; auto]].
      - destruct S1 as (_ & E & _). exists []. rewrite app_nil_r. split; [auto|intros ? []]. }
    destruct W1 as (m0 & W1 & I1). split.
    { exists (m0 ++ more). split; [rewrite W2, W1, app_assoc; reflexivity|]. intros x I. apply in_app_or in I. destruct I as [I|I]; [left; auto|right; auto]. }
    split.
    + intros h' x [E|I]; [|auto]. injection E as <- ->. destruct S1 as (G & D & S1). split; auto. split; auto.
      intro T. rewrite W2 in T. apply testWords_app in T.
      destruct S1 as [(_ & E & T' & _)|(_ & E & _)].
      * rewrite E in T. congruence.
      * assert (K := testWords_spec fuel (btWords (mTest m1)) (mkRunner A) (mkRunner h) None (proj2 H1) T x). cbn [rta mkRunner] in K.
        apply (differ_not_agree fuel A h x D). apply K. rewrite E. apply in_or_app. right. left. reflexivity.
    + intros h' [E|I]; [|auto]. injection E as <- ->. destruct S1 as (S1 & _). eauto.
Qed.
End Memo.

(** ** chain *)
Lemma chain_spec {St} (os : list (eOracle St * St)) H : forall os' res, chainLoop os H = Some (os', res) ->
  match res with
  | Some x => exists pre o s s' post pre', os = pre ++ (o, s) :: post /\ o s H = Some (s', Some x) /\ os' = pre' ++ (o, s') :: post /\ Forall2 (fun p q => fst q = fst p /\ fst p (snd p) H = Some (snd q, None)) pre pre'
  | None => Forall2 (fun p q => fst q = fst p /\ fst p (snd p) H = Some (snd q, None)) os os'
  end.
Proof.
  induction os as [|[o s] os IH]; intros os' res F; cbn [chainLoop] in F.
  - injection F as <- <-. constructor.
  - destruct (o s H) as [[s' [x|]]|] eqn:O; [| |discriminate].
    + injection F as <- <-. exists [], o, s, s', os, []. repeat split; auto.
    + destruct (chainLoop os H) as [[r' res']|] eqn:C; [|discriminate]. injection F as <- <-. specialize (IH r' res' eq_refl).
      destruct res' as [x|].
      * destruct IH as (pre & o1 & s1 & s1' & post & pre' & E & O1 & E' & F2). exists ((o, s) :: pre), o1, s1, s1', post, ((o, s') :: pre').
        split; [rewrite E; reflexivity|]. split; auto. split; [rewrite E'; reflexivity|]. constructor; auto.
      * constructor; auto.
Qed.

(** ** the learner *)
Section Learn.
Context {Tb St : Type} (T : table Tb) (swz : ta -> ta) (o : eOracle St).
(** [steady t0 t]: from [t0] the four checks, run one after the other, all
    report that nothing was updated and end in [t] *)
Definition steadyFrom (t0 t : Tb) : Prop :=
  exists t1 t2 t3, tClose T t0 = Some (t1, true) /\ tConsistent T t1 = Some (t2, true) /\
    tExterior T t2 = Some (t3, true) /\ tTimeSat T t3 = Some (t, true).
Lemma saturate_spec fuel : forall t t', saturate T fuel t = Some t' -> exists t0, steadyFrom t0 t'.
Proof.
  induction fuel as [|fuel IH]; intros t t' H; [discriminate|]. cbn [saturate] in H.
  destruct (tClose T t) as [[t1 [|]]|] eqn:C1; cbn [thenCheck] in H; [|eauto|discriminate].
  destruct (tConsistent T t1) as [[t2 [|]]|] eqn:C2; cbn [thenCheck] in H; [|eauto|discriminate].
  destruct (tExterior T t2) as [[t3 [|]]|] eqn:C3; cbn [thenCheck] in H; [|eauto|discriminate].
  destruct (tTimeSat T t3) as [[t4 [|]]|] eqn:C4; [|eauto|discriminate].
  injection H as <-. exists t, t1, t2, t3. auto.
Qed.
Lemma learn_spec fuel : forall t s t' s' h log, learn T swz o fuel t s = Some (t', s', h, log) ->
  (exists t0, steadyFrom t0 t') /\ h = swz (taSimplifyStrong (tGenerate T t')) /\
  exists sl, findAll o s (map fst log) = Some (sl, map (fun p => Some (snd p)) log) /\ o sl h = Some (s', None).
Proof.
  induction fuel as [|fuel IH]; intros t s t' s' h log H; [discriminate|]. cbn [learn] in H.
  destruct (saturate T (S fuel) t) as [t1|] eqn:Sa; [|discriminate]. apply saturate_spec in Sa.
  destruct (o s (swz (taSimplifyStrong (tGenerate T t1)))) as [[s1 [x|]]|] eqn:O; [| |discriminate].
  - destruct (tHandleCEX T t1 x) as [t2|]; [|discriminate].
    destruct (learn T swz o fuel t2 s1) as [[[[t3 s3] h3] log']|] eqn:L; [|discriminate]. injection H as <- <- <- <-.
    destruct (IH _ _ _ _ _ _ L) as (S3 & E & sl & F & O'). split; auto. split; auto. exists sl. split; auto.
    cbn [map fst snd findAll]. rewrite O, F. reflexivity.
  - injection H as <- <- <- <-. split; auto. split; auto. exists s. split; auto.
Qed.
End Learn.
