(** Properties of morphisms, recognizable timed languages and counterexample
    analysis (include/single_morphism.hh, include/recognizable_languages.hh,
    include/counterexample_analyzer.hh): C34, C46. *)
From Coq Require Import QArith ZArith Bool List Lia Lqa Qround Arith.
From Verif Require Import BoundsModel BoundsProofs ConstraintModel ZoneModel ZoneSpec ZoneProofs ZoneProofs2 ZoneProofs3 ZoneProofs5 TimedConditionProofs5
  AutomatonModel TimedWordModel TimedWordSpec TimedWordProofs TimedConditionModel TimedConditionSpec TimedConditionProofs TimedConditionProofs2
  TimedConditionProofs3 TimedConditionProofs4 ElementaryModel ElementarySpec ElementaryProofs ElementaryProofs2 RegionalModel RegionalSpec
  RegionalProofs RegionalProofs2 RegionalProofs3 RegionalProofs4 RegionalProofs5 RegionInvariance OracleModel CexModel CexSpec CexProofs CexProofs2.
Import ListNotations.
Open Scope Q_scope.

(** *** C46: morphisms and recognizable languages *)
(** a morphism maps each word of its domain to a word of its codomain that the
    renaming relates to it *)
Theorem C46_maps :
  forall (m : morph) (w : tword), properMorph m -> inElem (mdom m) w ->
    inElem (mcod m) (mMaps m w) /\ related (mren m) w (mMaps m w) /\ properTW (mMaps m w).
Proof. exact mMaps_spec. Qed.
Print Assumptions C46_maps.
(** split() cuts the word without loss, and its prefix is in the domain of the
    morphism it returns *)
Theorem C46_split :
  forall (h : rlang) (w : tword) (t : splitT), properRL h -> properTW w -> rSplit h w = Some t ->
    In (smor t) (rmorphs h) /\ inElem (mdom (smor t)) (spre t) /\ properTW (ssuf t) /\
    sameTW w (concatTW (spre t) (ssuf t)).
Proof. intros h w t HP PW H. destruct (rSplit_spec h w t HP PW H) as [A [B [_ [C D]]]]. auto. Qed.
Print Assumptions C46_split.
(** and it finds a morphism whenever a prefix of the word is in the domain of
    one (domains being regions) *)
Theorem C46_split_succeeds :
  forall (h : rlang) (w p : tword) (m : morph), properRL h -> properTW w -> In m (rmorphs h) -> timedPrefix p w ->
    inElem (mdom m) p -> regionCond (ec (mdom m)) (td p) -> exists t, rSplit h w = Some t.
Proof.
  intros h w p m HP PW Hm TP Ip Rp. assert (K := rSplit_found h w m p HP PW Hm Ip Rp TP). destruct (rSplit h w) as [t|]; [eauto|congruence].
Qed.
Print Assumptions C46_split_succeeds.
Lemma inPrefixes_iff h w : properRL h -> properTW w -> (inPrefixes h w = true <-> exists x, In x (rprefixes h) /\ inElem x w).
Proof.
  intros [H _] [[W _] _]. unfold inPrefixes. rewrite existsb_exists. split; intros [x [A B]]; exists x; (split; [auto|]); apply elContains_exact; auto; apply (H x A).
Qed.
Lemma isFinal_iff h w : properRL h -> properTW w -> (isFinal h w = true <-> exists x, In x (rfinal h) /\ inElem x w).
Proof.
  intros [_ [H _]] [[W _] _]. unfold isFinal. rewrite existsb_exists. split; intros [x [A B]]; exists x; (split; [auto|]); apply elContains_exact; auto; apply (H x A).
Qed.
(** contains() reads the word along the morphisms until it reaches one of the
    prefixes, and answers whether that prefix is final *)
Theorem C46_contains :
  forall (fuel : nat) (h : rlang) (w : tword) (b : bool), properRL h -> properTW w -> rContains fuel h w = Some b ->
    exists u, reads h w u /\ properTW u /\ (exists x, In x (rprefixes h) /\ inElem x u) /\
      (b = true <-> exists x, In x (rfinal h) /\ inElem x u).
Proof.
  induction fuel as [|fuel IH]; intros h w b HP PW H; [discriminate|]. cbn [rContains] in H. destruct (inPrefixes h w) eqn:E.
  - injection H as <-. exists w. split; [constructor|]. split; [auto|]. split; [apply inPrefixes_iff; auto|]. apply isFinal_iff; auto.
  - destruct (rSplit h w) as [t|] eqn:ET; [|discriminate]. destruct (rSplit_step h w t HP PW ET) as [MS PA].
    destruct (IH h (splitApply t) b HP PA H) as [u [R K]]. exists u. split; [econstructor; eauto|auto].
Qed.
Print Assumptions C46_contains.
Theorem C46_contains_fuel_irrelevant :
  forall (n k : nat) (h : rlang) (w : tword) (b : bool), rContains n h w = Some b -> rContains (n + k) h w = Some b.
Proof.
  induction n as [|n IH]; intros k h w b H; [discriminate|]. cbn [rContains plus] in *. destruct (inPrefixes h w); [auto|]. destruct (rSplit h w); [auto|discriminate].
Qed.
Print Assumptions C46_contains_fuel_irrelevant.

(** *** C34: counterexample analysis *)
(** [o] is any membership oracle that answers the target [f] (in the states
    satisfying [Inv]).  When the hypothesis gives an answer [b] on the word,
    the analysis gives a result; a suffix is returned only for a genuine
    counterexample, is in none of the current suffix languages, and refutes a
    morphism of the hypothesis; the exception is thrown exactly when the word
    is not a counterexample. *)
Theorem C34_analysis :
  forall (St : Type) (o : mOracle St) (f : tword -> bool) (Inv : St -> Prop) (h : rlang) (cur : list elem)
         (fuel : nat) (w : tword) (s : St) (b : bool),
    (forall s x, Inv s -> properTW x -> exists s', o s x = Some (s', f x) /\ Inv s') -> respects f ->
    properRL h -> (forall x, In x cur -> properEL x) ->
    rContains fuel h w = Some b -> properTW w -> Inv s ->
    exists s' res, analyzeCEX fuel h cur o s w = Some (s', res) /\ Inv s' /\
      match res with
      | CFresh x => f w <> b /\ breaks h f x /\ forall y, In y cur -> ~ inElem y x
      | CNone => f w <> b /\
          ((exists x, breaks h f x /\ exists y, In y cur /\ inElem y x) \/
           (exists u, properTW u /\ inPrefixes h u = true /\ f u <> isFinal h u))
      | CError => f w = b
      end.
Proof.
  intros St o f Inv h cur fuel w s b HO RF HP HC RC PW I.
  destruct (analyze_ok o f Inv h cur HO HP (fun x Hx => wfElem_sized x (proj1 (HC x Hx))) fuel w s b RC PW I) as [s' [res [A [B C]]]]. exists s', res. split; [auto|]. split; [auto|].
  destruct res as [x| |].
  - destruct C as [C1 [w1 [w2 [C2 [C3 C4]]]]]. split; [auto|]. split; [eapply mapsStep_breaks; eauto|auto].
  - destruct C as [C1 [[u [C2 [C3 C4]]]|[w1 [w2 [x [C2 [C3 C4]]]]]]]; (split; [auto|]); [right; eauto|].
    left. exists x. split; [eapply mapsStep_breaks; eauto|auto].
  - exact C.
Qed.
Print Assumptions C34_analysis.
(** without suffixes to compare with, and when the hypothesis is right on its
    own prefixes, a counterexample always yields a suffix *)
Theorem C34_finds_a_breaking_suffix :
  forall (St : Type) (o : mOracle St) (f : tword -> bool) (Inv : St -> Prop) (h : rlang) (fuel : nat) (w : tword) (s : St) (b : bool),
    (forall s x, Inv s -> properTW x -> exists s', o s x = Some (s', f x) /\ Inv s') -> respects f -> properRL h ->
    (forall u, properTW u -> inPrefixes h u = true -> f u = isFinal h u) ->
    rContains fuel h w = Some b -> properTW w -> Inv s -> f w <> b ->
    exists s' x, analyzeCEX fuel h [] o s w = Some (s', CFresh x) /\ breaks h f x.
Proof.
  intros St o f Inv h fuel w s b HO RF HP FA RC PW I NE.
  destruct (C34_analysis St o f Inv h [] fuel w s b HO RF HP ltac:(intros x []) RC PW I) as [s' [res [A [_ C]]]].
  destruct res as [x| |]; [exists s', x; split; [auto|apply C]| |congruence]. exfalso.
  destruct C as [_ [[x [_ [y [[] _]]]]|[u [U1 [U2 U3]]]]]. apply U3. auto.
Qed.
Print Assumptions C34_finds_a_breaking_suffix.

(** ** a concrete hypothesis *)
Lemma region_properEL w : properTW w -> properEL (fel (frFromTimedWord w)) /\ elIsSimple (fel (frFromTimedWord w)) = true /\ inElem (fel (frFromTimedWord w)) w.
Proof.
  intros [[W F] V]. assert (N : td w <> []) by (unfold wfTW in W; destruct (td w); [discriminate|congruence]).
  cbn [frFromTimedWord fel]. unfold elIsSimple, inElem. cbn [ec ew]. split; [|split; [apply tcOf_simple; auto|]].
  - split; [split; [apply tcOf_ok; auto|cbn [ec ew]; rewrite tcOf_size by auto; exact W]|]. split.
    + unfold visible. cbn [ew]. apply Forall_forall. intros a Ha E. subst. contradiction.
    + intros w' [_ H]. cbn [ec] in H. apply tcOf_exact in H; auto. apply Forall_forall. intros q Hq. apply (In_nth _ _ 0) in Hq. destruct Hq as [i [Hi <-]].
      destruct H as [L R]. specialize (R i i (le_n i) ltac:(lia)). rewrite <- T_diag by auto.
      assert (P : 0 <= T (td w) i i) by (rewrite T_diag by lia; rewrite Forall_forall in F; apply F; apply nth_In; lia).
      destruct R as [R _]. assert (X := Qfloor_le (T (td w') i i)). rewrite <- R in X. assert (Y := Qfloor_resp_le 0 _ P). change (Qfloor 0) with 0%Z in Y.
      rewrite Zle_Qle in Y. change (inject_Z 0) with 0 in Y. lra.
  - split; [reflexivity|]. apply tcOf_exact; auto. apply sameRegion_refl.
Qed.
(** prefixes {the empty word at time 0}, not final; after time 1/2 or the
    event 1 at time 0 the hypothesis is back at the start *)
Definition exE := fel (frFromTimedWord (mkTW [] [0])).
Definition exM1 := mkMorph (fel (frFromTimedWord (mkTW [] [1 # 2]))) exE [].
Definition exM2 := mkMorph (fel (frFromTimedWord (mkTW [1%nat] [0; 0]))) exE [].
Definition exH := mkRL [exE] [] [exM1; exM2].
Lemma exH_proper : properRL exH.
Proof.
  assert (P0 : properTW (mkTW [] [0])) by (split; [split; [reflexivity|repeat constructor; cbn; lra]|cbn; auto]).
  assert (P1 : properTW (mkTW [] [1 # 2])) by (split; [split; [reflexivity|repeat constructor; cbn; lra]|cbn; auto]).
  assert (P2 : properTW (mkTW [1%nat] [0; 0])) by (split; [split; [reflexivity|repeat constructor; cbn; lra]|cbn; intros [K|[]]; discriminate]).
  destruct (region_properEL _ P0) as [A1 [A2 A3]]. destruct (region_properEL _ P1) as [B1 _]. destruct (region_properEL _ P2) as [C1 _].
  assert (M : forall d, properEL d -> properMorph (mkMorph d exE [])).
  { intros d D. split; [exact D|]. split; [exact A1|]. split; [exact A2|]. split; [intros i j []|]. intros w _. exists (mkTW [] [0]). split; [exact A3|intros i j []]. }
  split; [intros x [<-|[]]; exact A1|]. split; [intros x []|]. intros m [<-|[<-|[]]]; apply M; auto.
Qed.
Definition exTarget (w : tword) : bool := negb (eqLetters (tw w) []).
Definition exOracle : mOracle unit := fun s w => Some (s, exTarget w).
Example C34_nonvacuous :
  properRL exH /\ properTW (mkTW [1%nat] [1 # 2; 0]) /\ respects exTarget /\
  rContains 5 exH (mkTW [1%nat] [1 # 2; 0]) = Some false /\ exTarget (mkTW [1%nat] [1 # 2; 0]) = true /\
  (exists s, analyzeCEX 5 exH [] exOracle tt (mkTW [1%nat] [1 # 2; 0]) = Some (tt, CFresh s) /\ tw s = []) /\
  analyzeCEX 5 exH [exE] exOracle tt (mkTW [1%nat] [1 # 2; 0]) = Some (tt, CNone) /\
  analyzeCEX 5 exH [] exOracle tt (mkTW [] [1 # 2]) = Some (tt, CError).
Proof.
  split; [exact exH_proper|]. split; [split; [split; [reflexivity|repeat constructor; vm_compute; congruence]|cbn; intros [K|[]]; discriminate]|].
  split; [intros x y [E _]; unfold exTarget; rewrite E; reflexivity|]. split; [vm_compute; reflexivity|]. split; [reflexivity|].
  split; [eexists; split; [vm_compute; reflexivity|reflexivity]|]. split; vm_compute; reflexivity.
Qed.

(** ** the loop of contains() and analyzeCEX() need not terminate *)
(** one prefix: the event 1 in (0,1), just seen; after some further time, still
    before time 1, the event is read as if it came later *)
Definition zP := fel (frFromTimedWord (mkTW [1%nat] [1 # 2; 0])).
Definition zD := fel (frFromTimedWord (mkTW [1%nat] [1 # 4; 1 # 4])).
Definition zM := mkMorph zD zP [(0, 0)%nat].
Definition zH := mkRL [zP] [] [zM].
Lemma zD_in u : inElem zD u <-> tw u = [1%nat] /\ exists x y, td u = [x; y] /\ 0 < x /\ 0 < y /\ x + y < 1.
Proof.
  unfold inElem. cbn [zD fel frFromTimedWord ew ec tw td]. rewrite tcOf_exact by discriminate. unfold sameRegion. cbn [length].
  assert (O : forall p q, 0 < p -> p < 1 -> (sameUnit p q <-> 0 < q /\ q < 1)).
  { intros p q A B. rewrite (sameUnit_open p 0) by (change (inject_Z 0) with 0; lra). change (inject_Z 0) with 0. split; intros [? ?]; split; lra. }
  split.
  - intros [A [L R]]. split; [exact A|]. destruct (td u) as [|x [|y [|z l]]]; try discriminate. exists x, y. split; [auto|].
    assert (R1 := R 0%nat 0%nat ltac:(lia) ltac:(lia)). assert (R2 := R 1%nat 1%nat ltac:(lia) ltac:(lia)). assert (R3 := R 0%nat 1%nat ltac:(lia) ltac:(lia)).
    unfold T in *. cbn [firstn skipn minus sumQ] in *. apply O in R1; [|lra|lra]. apply O in R2; [|lra|lra]. apply O in R3; [|lra|lra]. lra.
  - intros [A [x [y [E [X [Y Z]]]]]]. split; [auto|]. rewrite E. split; [reflexivity|]. intros i j Hij Hj. apply O.
    + destruct i as [|[|i]]; destruct j as [|[|j]]; try lia; unfold T; cbn [firstn skipn minus sumQ]; lra.
    + destruct i as [|[|i]]; destruct j as [|[|j]]; try lia; unfold T; cbn [firstn skipn minus sumQ]; lra.
    + destruct i as [|[|i]]; destruct j as [|[|j]]; try lia; unfold T; cbn [firstn skipn minus sumQ]; lra.
Qed.
Lemma zP_in u : inElem zP u <-> tw u = [1%nat] /\ exists x y, td u = [x; y] /\ 0 < x /\ x < 1 /\ y == 0.
Proof.
  unfold inElem. cbn [zP fel frFromTimedWord ew ec tw td]. rewrite tcOf_exact by discriminate. unfold sameRegion. cbn [length].
  assert (O : forall p q, 0 < p -> p < 1 -> (sameUnit p q <-> 0 < q /\ q < 1)).
  { intros p q A B. rewrite (sameUnit_open p 0) by (change (inject_Z 0) with 0; lra). change (inject_Z 0) with 0. split; intros [? ?]; split; lra. }
  assert (P : forall p q, p == 0 -> (sameUnit p q <-> q == 0)) by (intros p q A; rewrite (sameUnit_point p 0) by (change (inject_Z 0) with 0; lra); reflexivity).
  split.
  - intros [A [L R]]. split; [exact A|]. destruct (td u) as [|x [|y [|z l]]]; try discriminate. exists x, y. split; [auto|].
    assert (R1 := R 0%nat 0%nat ltac:(lia) ltac:(lia)). assert (R2 := R 1%nat 1%nat ltac:(lia) ltac:(lia)).
    unfold T in *. cbn [firstn skipn minus sumQ] in *. apply O in R1; [|lra|lra]. apply P in R2; [|lra]. lra.
  - intros [A [x [y [E [X [Y Z]]]]]]. split; [auto|]. rewrite E. split; [reflexivity|]. intros i j Hij Hj.
    destruct i as [|[|i]]; destruct j as [|[|j]]; try lia; unfold T; cbn [firstn skipn minus sumQ]; [apply O|apply O|apply P]; lra.
Qed.
Lemma zH_proper : properRL zH.
Proof.
  assert (P0 : properTW (mkTW [1%nat] [1 # 2; 0])) by (split; [split; [reflexivity|repeat constructor; vm_compute; congruence]|cbn; intros [K|[]]; discriminate]).
  assert (P1 : properTW (mkTW [1%nat] [1 # 4; 1 # 4])) by (split; [split; [reflexivity|repeat constructor; vm_compute; congruence]|cbn; intros [K|[]]; discriminate]).
  destruct (region_properEL _ P0) as [A1 [A2 _]]. destruct (region_properEL _ P1) as [B1 _].
  split; [intros x [<-|[]]; exact A1|]. split; [intros x []|]. intros m [<-|[]]. split; [exact B1|]. split; [exact A1|]. split; [exact A2|]. split.
  - intros i j [E|[]]. injection E as <- <-. split; apply Nat.le_0_l.
  - intros w Hw. change (inElem zD w) in Hw. apply (proj1 (zD_in w)) in Hw. destruct Hw as [_ [x [y [E [X [Y Z]]]]]]. exists (mkTW [1%nat] [x + y; 0]). split.
    + change (inElem zP (mkTW [1%nat] [x + y; 0])). apply zP_in. split; [reflexivity|]. exists (x + y), 0. split; [reflexivity|]. lra.
    + intros i j [K|[]]. injection K as <- <-. unfold since. rewrite E. cbn [td length minus]. unfold T. cbn [firstn skipn minus sumQ]. lra.
Qed.
Lemma zD_ec : ec zD = tcOf (accum [1 # 4; 1 # 4]).
Proof. reflexivity. Qed.
Lemma zD_region u : inElem zD u -> regionCond (ec zD) (td u).
Proof.
  intros [_ K]. rewrite zD_ec in *. rewrite tcOf_exact in K by discriminate. refine (regionCond_same _ _ _ _ K). apply tcOf_regionCond. discriminate.
Qed.
Definition zInv (u : tword) : Prop := tw u = [1%nat] /\ exists x y, td u = [x; y] /\ 0 < x /\ x < 1 /\ 1 < x + y.
Lemma zInv_proper u : zInv u -> properTW u.
Proof.
  intros [A [x [y [E [X [Y Z]]]]]]. split; [split; [unfold wfTW; rewrite A, E; reflexivity|rewrite E; repeat constructor; lra]|rewrite A; intros [K|[]]; discriminate].
Qed.
Lemma zInv_step u : zInv u -> inPrefixes zH u = false /\ exists t, rSplit zH u = Some t /\ zInv (splitApply t).
Proof.
  intro I. assert (PU := zInv_proper u I). assert (HP := zH_proper). split.
  { destruct (inPrefixes zH u) eqn:E; [|auto]. apply (inPrefixes_iff zH u HP PU) in E. destruct E as [x [[<-|[]] K]]. change (inElem zP u) in K. apply (proj1 (zP_in u)) in K.
    destruct I as [_ [x [y [E1 I]]]]. destruct K as [_ [x' [y' [E2 K]]]]. rewrite E1 in E2. injection E2 as <- <-. lra. }
  destruct I as [A [x [y [E [X [Y Z]]]]]].
  destruct (rSplit zH u) as [t|] eqn:ES.
  - exists t. split; [auto|]. destruct (rSplit_spec zH u t HP PU ES) as [M [Dp [Pp [Ps SM]]]]. destruct M as [M|[]].
    unfold splitApply. rewrite <- M in *. cbn [mdom zM] in Dp.
    destruct (mMaps_spec zM (spre t) (proj2 (proj2 HP) zM (or_introl eq_refl)) Dp) as [Q1 [Q2 _]]. cbn [mcod mren zM] in Q1, Q2.
    apply (proj1 (zD_in _)) in Dp. apply (proj1 (zP_in _)) in Q1. destruct Dp as [D1 [a [b [D2 [D3 [D4 D5]]]]]]. destruct Q1 as [R1 [a' [b' [R2 [R3 [R4 R5]]]]]].
    specialize (Q2 0%nat 0%nat (or_introl eq_refl)). unfold since in Q2. rewrite D2, R2 in Q2. cbn [length minus] in Q2. unfold T in Q2. cbn [firstn skipn minus sumQ] in Q2.
    destruct SM as [S1 S2]. unfold concatTW in S1, S2. cbn [tw td] in S1, S2. rewrite E, D2 in S2. rewrite A, D1 in S1.
    assert (LS : tw (ssuf t) = []) by (destruct (tw (ssuf t)); [auto|discriminate]).
    destruct Ps as [[LW FS] _]. unfold wfTW in LW. rewrite LS in LW. destruct (td (ssuf t)) as [|c [|c' l]] eqn:EC; try discriminate.
    cbn in S2. inversion S2 as [|? ? ? ? H1 H2]; subst. inversion H2 as [|? ? ? ? H3 _]; subst.
    unfold concatTW. split; cbn [tw td]; [rewrite R1, LS; reflexivity|]. rewrite R2, EC. exists a', (b' + c). split; [reflexivity|]. split; [lra|]. split; [lra|]. lra.
  - exfalso. apply (rSplit_found zH u zM (mkTW [1%nat] [x; (1 - x) * (1 # 2)]) HP PU (or_introl eq_refl)); [| | |exact ES].
    + change (inElem zD (mkTW [1%nat] [x; (1 - x) * (1 # 2)])). apply zD_in. split; [reflexivity|]. eexists; eexists. split; [reflexivity|]. lra.
    + apply zD_region. apply zD_in. split; [reflexivity|]. eexists; eexists. split; [reflexivity|]. lra.
    + split; [split; [reflexivity|cbn [td]; repeat constructor; lra]|]. exists (mkTW [] [y - (1 - x) * (1 # 2)]).
      split; [split; [reflexivity|cbn [td]; repeat constructor; lra]|]. unfold concatTW, sameTW. cbn [tw td hd tl app addBack]. split; [auto|]. rewrite E. cbn. repeat constructor; lra.
Qed.
(** a proper hypothesis and a word on which both loops run for ever: whatever
    the number of rounds, the word reached is not yet one of the prefixes, so
    that contains() and analyzeCEX() give no answer *)
Theorem C34_termination_refuted :
  exists (h : rlang) (w : tword), properRL h /\ properTW w /\
    (forall n, exists u, afterRounds n h w = Some u /\ inPrefixes h u = false) /\
    (forall fuel, rContains fuel h w = None) /\
    (forall fuel St (o : mOracle St) cur s, analyzeCEX fuel h cur o s w = None).
Proof.
  exists zH, (mkTW [1%nat] [1 # 2; 1]).
  assert (I : zInv (mkTW [1%nat] [1 # 2; 1])) by (split; [reflexivity|]; exists (1 # 2), 1; split; [reflexivity|]; lra).
  split; [exact zH_proper|]. split; [apply zInv_proper; exact I|]. split; [|split].
  - intro n. revert I. generalize (mkTW [1%nat] [1 # 2; 1]). induction n as [|n IH]; intros u I.
    + exists u. split; [reflexivity|]. apply zInv_step; auto.
    + cbn [afterRounds]. destruct (zInv_step u I) as [K [t [E I2]]]. rewrite K, E. apply IH. auto.
  - intro n. revert I. generalize (mkTW [1%nat] [1 # 2; 1]). induction n as [|n IH]; intros u I; [reflexivity|].
    cbn [rContains]. destruct (zInv_step u I) as [K [t [E I2]]]. rewrite K, E. auto.
  - intros n St o cur s. unfold analyzeCEX.
    assert (X : forall n u, zInv u -> cexSplits n zH u = None).
    { clear. induction n as [|n IH]; intros u I; [reflexivity|]. cbn [cexSplits]. destruct (zInv_step u I) as [K [t [E I2]]]. rewrite K, E, IH; auto. }
    rewrite X by exact I. reflexivity.
Qed.
Print Assumptions C34_termination_refuted.
