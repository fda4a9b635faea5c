(** Proofs about neighbour conditions: the operations of the class. *)
From Coq Require Import QArith ZArith Bool List Arith Lia Lqa Qround Permutation.
From Verif Require Import BoundsModel BoundsProofs ConstraintModel GuardSpec ConstraintProofs ConstraintProofs2 ConstraintProofs3 ZoneModel ZoneSpec ZoneProofs ZoneProofs3 AutomatonModel AutomatonSpec AutomatonProofs TimedWordModel TimedWordSpec TimedWordProofs TimedConditionModel TimedConditionSpec
  TimedConditionProofs TimedConditionProofs2 TimedConditionProofs3 TimedConditionProofs5 ElementaryModel ElementarySpec ElementaryProofs ElementaryProofs2 RegionalModel RegionalSpec RegionalProofs RegionalProofs3 RegionalProofs4 RegionalProofs5
  QueryableProofs PropertiesConditions CexProofs CexProofs2 ReconstructProofs TableModel NeighborModel NeighborSpec NeighborProofs NeighborProofs2.
Import ListNotations.
Open Scope Q_scope.

Lemma regions_word ns w : regions ns -> (forall u, covers ns u -> tw u = tw w) -> sameWord w ns.
Proof.
  intros RG H n Hn. destruct (RG n Hn) as [u Ru]. rewrite <- (proj1 Ru). apply H. exists n. split; [exact Hn|]. apply (regionalF_members n u u Ru). split; [auto|apply sameRegion_refl].
Qed.
Lemma regional_self x w : regionalF x w -> inElem (fel x) w.
Proof. intro R. apply (regionalF_members x w w R). split; [auto|apply sameRegion_refl]. Qed.
Lemma wait_zero w : sameRegion (td (wait w 0)) (td w).
Proof. apply sameRegion_sym. apply sameDurs_region. apply addBack_zero. Qed.
Lemma covers_same ns u u' : regions ns -> sameClass u u' -> covers ns u -> covers ns u'.
Proof.
  intros RG [E S] (n & Hn & H). exists n. split; [exact Hn|]. destruct (RG n Hn) as [v Rv]. apply (regionalF_members n v u Rv) in H. apply (regionalF_members n v u' Rv). destruct H as [H1 H2]. split; [congruence|]. eapply sameRegion_trans; eauto.
Qed.
(** ** the constructor *)
Lemma addImplicit_iff x w P k : regionalF x w -> (In k (addImplicit x P) <-> In k P \/ ((k < length (td w))%nat /\ exists z, since (td w) k == inject_Z z)).
Proof.
  intro R. assert (L : length (td w) = tcSize (ec (fel x))) by apply R. unfold addImplicit. rewrite in_app_iff, filter_In, in_seq, andb_true_iff, negb_true_iff. split.
  - intros [H|[H1 [_ H2]]]; [left; exact H|right]. split; [lia|]. apply (isPoint_unit _ _ _ (regionalF_unit x w k R ltac:(lia))). exact H2.
  - intros [H|[H1 H2]]; [left; exact H|]. destruct (isPrecise P k) eqn:E; [left; apply isPrecise_iff; exact E|right]. split; [lia|]. split; [reflexivity|]. apply (isPoint_unit _ _ _ (regionalF_unit x w k R ltac:(lia))). exact H2.
Qed.
Lemma relaxedLike_refl P w : wfTW w -> relaxedLike P w w.
Proof. intro W. split; [auto|]. split; [auto|]. split; intros; apply sameUnit_refl. Qed.
Lemma relaxedLike_nil w u : (relaxedLike [] w u <-> wfTW u /\ (wfTW w -> sameClass w u)) \/ ~ wfTW w.
Proof.
  destruct (Nat.eq_dec (length (td w)) (S (length (tw w)))) as [W|W]; [left|right; exact W]. unfold wfTW in *. split.
  - intros (E & Wu & A & B). split; [exact Wu|]. intros _. split; [exact E|]. unfold wfTW in Wu. split; [rewrite W, Wu, E; reflexivity|]. intros i j Hij Hj. destruct (Nat.eq_dec j (length (td w) - 1)) as [->|N].
    + specialize (A i ltac:(lia)). unfold since in A. replace (length (td u)) with (length (td w)) in A by congruence. exact A.
    + specialize (B i (S j) ltac:(lia) ltac:(lia) ltac:(split; intros [])). eapply sameUnit_ext; [| |exact B].
      * rewrite T_since by lia. replace (S j - 1)%nat with j by lia. reflexivity.
      * rewrite T_since by (rewrite ?Wu, ?E; lia). replace (S j - 1)%nat with j by lia. reflexivity.
  - intros [Wu H]. destruct (H W) as [E SR]. split; [exact E|]. split; [exact Wu|]. split.
    + intros i Hi. apply since_same; auto.
    + intros i j Hij Hj _. eapply sameUnit_ext; [symmetry; apply T_since; auto|symmetry; apply T_since; rewrite ?Wu, ?E; unfold wfTW in *; lia|]. apply SR; lia.
Qed.
Lemma agree_implicit x w P u : regionalF x w -> (forall k, In k P -> (k < length (td w))%nat) -> relaxedLike P w u -> agreeOn (addImplicit x P) w u.
Proof. intros R B (_ & _ & A & _) k Hk. apply A. apply (addImplicit_iff x w P k R) in Hk. destruct Hk as [Hk|[Hk _]]; auto. Qed.
Lemma newNbr_spec ord x w P0 : (forall l, Permutation (ord l) l) -> regionalF x w -> visible (fel x) -> (forall k, In k P0 -> (k < length (td w))%nat) ->
  exists c N, (forall f, (N <= f)%nat -> newNbr ord f x P0 = Some c) /\ nOrig c = x /\ nSize c = length (td w) /\
    (forall k, In k (nPrec c) <-> In k P0 \/ ((k < length (td w))%nat /\ exists z, since (td w) k == inject_Z z)) /\
    describes (nOrig c) (nPrec c) (nNbrs c) w /\
    (forall u', covers (nNbrs c) u' <-> match nPrec c with [] => relaxedLike P0 w u' | _ => agreeOn (nPrec c) w u' /\ exists u q, relaxedLike P0 w u /\ 0 <= q /\ sameClass (wait u q) u' end).
Proof.
  intros HO R V B. assert (W : wfTW w) by apply R. assert (L : length (td w) = tcSize (ec (fel x))) by apply R. destruct (makeNeighbors_spec x w P0 R V) as [M1 M2].
  assert (BI : forall k, In k (addImplicit x P0) -> (k < length (td w))%nat) by (intros k Hk; apply (addImplicit_iff x w P0 k R) in Hk; destruct Hk as [Hk|[Hk _]]; auto).
  destruct (addImplicit x P0) as [|p P'] eqn:EP.
  - exists (mkNb x [] (makeNeighbors x P0) (tcSize (ec (fel x)))), 0%nat. cbn [nOrig nPrec nNbrs nSize]. split; [intros f _; unfold newNbr; rewrite EP; reflexivity|]. split; [reflexivity|]. split; [auto|].
    split; [intro k; rewrite <- (addImplicit_iff x w P0 k R), EP; tauto|]. split; [|exact M2]. split; [exact R|]. split; [exact M1|]. split; [apply M2; apply relaxedLike_refl; exact W|]. split; [|intros k []].
    intros u Hu. apply M2 in Hu. split; [apply Hu|]. intros k [].
  - rewrite <- EP in *. set (P := addImplicit x P0) in *. assert (SW : sameWord w (makeNeighbors x P0)) by (apply regions_word; [exact M1|]; intros u Hu; apply M2 in Hu; apply Hu).
    destruct (updateNeighbors_spec ord P x w (makeNeighbors x P0) HO R BI ltac:(rewrite EP; discriminate) M1 SW) as (ns' & N & U1 & U2 & U3 & U4).
    exists (mkNb x P ns' (tcSize (ec (fel x)))), N. cbn [nOrig nPrec nNbrs nSize].
    assert (U5 : forall u', covers ns' u' <-> agreeOn P w u' /\ exists u q, relaxedLike P0 w u /\ 0 <= q /\ sameClass (wait u q) u').
    { intro u'. rewrite U4. split; intros (A & u & q & A1 & A2 & A3); (split; [exact A|]); exists u, q; (split; [apply M2; exact A1|auto]). }
    split; [intros f Hf; unfold newNbr; fold P; rewrite EP, <- EP, U1 by auto; reflexivity|]. split; [reflexivity|]. split; [auto|]. split; [intro k; apply (addImplicit_iff x w P0 k R)|]. split.
    + split; [exact R|]. split; [exact U2|]. split; [|split; [|exact BI]].
      * apply U5. split; [intros k _; apply sameUnit_refl|]. exists w, 0. split; [apply relaxedLike_refl; exact W|]. split; [lra|]. split; [reflexivity|apply wait_zero].
      * intros u Hu. apply U5 in Hu. destruct Hu as (A & v & q & (A1 & _) & _ & (A2 & _)). split; [cbn [wait tw] in A2; congruence|exact A].
    + intro u'. rewrite EP, <- EP. apply U5.
Qed.
Lemma advanceAll_more f g P x ns r : (f <= g)%nat -> advanceAll f P x ns = Some r -> advanceAll g P x ns = Some r.
Proof.
  intro L. revert r. induction ns as [|n ns IH]; intros r; cbn [advanceAll]; [auto|]. destruct (advance f P x n) as [a|] eqn:A; [|discriminate]. rewrite (advance_more f g P x n a L A).
  destruct (advanceAll f P x ns) as [b|]; [|discriminate]. rewrite (IH b eq_refl). auto.
Qed.
Lemma newNbr_more ord f g x P c : (f <= g)%nat -> newNbr ord f x P = Some c -> newNbr ord g x P = Some c.
Proof.
  intros L. unfold newNbr. destruct (addImplicit x P) as [|p l]; [auto|]. unfold updateNeighbors. destruct (advanceAll f (p :: l) x (makeNeighbors x P)) as [r|] eqn:A; [|discriminate]. rewrite (advanceAll_more f g _ _ _ r L A). auto.
Qed.
Lemma newNbr_result ord f x w P0 c : (forall l, Permutation (ord l) l) -> regionalF x w -> visible (fel x) -> (forall k, In k P0 -> (k < length (td w))%nat) -> newNbr ord f x P0 = Some c ->
  describes (nOrig c) (nPrec c) (nNbrs c) w /\ nSize c = length (td w).
Proof.
  intros HO R V B E. destruct (newNbr_spec ord x w P0 HO R V B) as (c' & N & H1 & _ & H2 & _ & H3 & _). specialize (H1 (N + f)%nat ltac:(lia)). rewrite (newNbr_more ord f (N + f) x P0 c ltac:(lia) E) in H1.
  injection H1 as <-. auto.
Qed.
(** ** successors *)
Lemma nbSucc_spec ord c w : (forall l, Permutation (ord l) l) -> describes (nOrig c) (nPrec c) (nNbrs c) w -> nPrec c <> [] ->
  exists q c' N, nextRegion delayed (td w) q /\ (forall f, (N <= f)%nat -> nbSucc ord f c = Some c') /\
    nOrig c' = frSucc (nOrig c) /\ nPrec c' = nPrec c /\ nSize c' = nSize c /\ describes (nOrig c') (nPrec c') (nNbrs c') (wait w q) /\
    (forall u', covers (nNbrs c') u' <-> agreeOn (nPrec c) (wait w q) u' /\ exists u e, covers (nNbrs c) u /\ 0 <= e /\ sameClass (wait u e) u').
Proof.
  intros HO (R & RG & C & A & B) NP. destruct (frSucc_regional (nOrig c) w R) as (q & NR & R'). change (mkTW (tw w) (delayed (td w) q)) with (wait w q) in R'.
  assert (B' : forall k, In k (nPrec c) -> (k < length (td (wait w q)))%nat) by (intros k Hk; cbn [wait td]; unfold delayed; rewrite addBack_length; auto).
  assert (SW : sameWord (wait w q) (nNbrs c)) by (apply regions_word; [exact RG|]; intros u Hu; apply (A u Hu)).
  destruct (updateNeighbors_spec ord (nPrec c) (frSucc (nOrig c)) (wait w q) (nNbrs c) HO R' B' NP RG SW) as (ns' & N & U1 & U2 & U3 & U4).
  exists q, (mkNb (frSucc (nOrig c)) (nPrec c) ns' (nSize c)), N. cbn [nOrig nPrec nNbrs nSize]. split; [exact NR|]. split; [intros f Hf; unfold nbSucc; rewrite U1 by auto; reflexivity|]. do 3 (split; [reflexivity|]). split; [|exact U4].
  split; [exact R'|]. split; [exact U2|]. split; [|split; [|exact B']].
  - apply U4. split; [intros k _; apply sameUnit_refl|]. exists w, q. split; [exact C|]. destruct NR as (Q0 & _). split; [lra|]. split; [reflexivity|apply sameRegion_refl].
  - intros u Hu. apply U4 in Hu. destruct Hu as (X & v & e & X1 & _ & X2 & _). split; [|exact X]. cbn [wait tw] in *. rewrite X2. apply (A v X1).
Qed.
Lemma since_snoc0 d k : (k < length d)%nat -> since (d ++ [0]) k == since d k.
Proof.
  intro H. unfold since. rewrite app_length. cbn [length]. replace (length d + 1 - 1)%nat with (length d) by lia. rewrite T_snoc_last by lia. assert (X : (k <? length d)%nat = true) by (apply Nat.ltb_lt; auto). rewrite X. lra.
Qed.
Lemma nbSuccAct_spec c w a : describes (nOrig c) (nPrec c) (nNbrs c) w -> nSize c = length (td w) ->
  let c' := nbSuccAct c a in describes (nOrig c') (nPrec c') (nNbrs c') (concatChar w a) /\ nSize c' = length (td (concatChar w a)) /\ (forall k, In k (nPrec c') <-> In k (nPrec c) \/ k = length (td w)) /\
    (forall u', covers (nNbrs c') u' <-> exists u, covers (nNbrs c) u /\ sameClass (concatChar u a) u').
Proof.
  intros (R & RG & C & A & B) Sz c'. subst c'. cbn [nbSuccAct nOrig nPrec nNbrs nSize].
  assert (X : forall u', covers (map (fun n => frSuccAct n a) (nNbrs c)) u' <-> exists u, covers (nNbrs c) u /\ sameClass (concatChar u a) u').
  { intro u'. split.
    - intros (m & Hm & Im). apply in_map_iff in Hm. destruct Hm as (n & <- & Hn). destruct (RG n Hn) as [u Ru]. exists u. split; [exists n; split; [exact Hn|apply regional_self; exact Ru]|]. apply (regionalF_members _ _ u' (frSuccAct_regional n u a Ru)). exact Im.
    - intros (u & (n & Hn & In0) & SC). exists (frSuccAct n a). split; [apply in_map_iff; eauto|]. destruct (RG n Hn) as [v Rv]. apply (regionalF_members n v u Rv) in In0. assert (Ru := regionalF_same n v u Rv (proj1 In0) (proj2 In0)). apply (regionalF_members _ _ u' (frSuccAct_regional n u a Ru)). exact SC. }
  split; [|split; [cbn [concatChar td]; rewrite app_length; cbn [length]; lia|split; [|exact X]]].
  - split; [apply frSuccAct_regional; exact R|]. split; [|split; [|split]].
    + intros m Hm. apply in_map_iff in Hm. destruct Hm as (n & <- & Hn). destruct (RG n Hn) as [u Ru]. exists (concatChar u a). apply frSuccAct_regional. exact Ru.
    + apply X. exists w. split; [exact C|]. split; [auto|apply sameRegion_refl].
    + intros u' Hu. apply X in Hu. destruct Hu as (u & Cu & E & SR). destruct (A u Cu) as [Eu Au]. split; [rewrite E; cbn [concatChar tw]; rewrite Eu; reflexivity|].
      assert (Lu : length (td u) = length (td w)). { destruct Cu as (n & Hn & Iu). destruct (RG n Hn) as [v Rv]. apply (regionalF_members n v u Rv) in Iu. assert (Wv : wfTW v) by apply Rv. assert (Ww : wfTW w) by apply R. unfold wfTW in *. rewrite <- (proj1 (proj2 Iu)), Wv, Ww, <- Eu, (proj1 Iu). reflexivity. }
      intros k Hk. eapply sameUnit_trans; [|apply since_same; [exact SR|]].
      * cbn [concatChar td]. apply in_app_iff in Hk. destruct Hk as [Hk|[<-|[]]].
        -- specialize (Au k Hk). specialize (B k Hk). eapply sameUnit_ext; [symmetry; apply since_snoc0; exact B|symmetry; apply since_snoc0; lia|exact Au].
        -- rewrite Sz. assert (Z : forall d, since (d ++ [0]) (length d) == 0). { intro d. unfold since. rewrite app_length. cbn [length]. replace (length d + 1 - 1)%nat with (length d) by lia. rewrite T_snoc_last by lia. rewrite Nat.ltb_irrefl. lra. }
           eapply sameUnit_ext; [symmetry; apply Z|rewrite <- Lu; symmetry; apply Z|apply sameUnit_refl].
      * cbn [concatChar td]. rewrite app_length. cbn [length]. apply in_app_iff in Hk. destruct Hk as [Hk|[<-|[]]]; [specialize (B k Hk); lia|lia].
    + intros k Hk. cbn [concatChar td]. rewrite app_length. cbn [length]. apply in_app_iff in Hk. destruct Hk as [Hk|[<-|[]]]; [specialize (B k Hk); lia|lia].
  - intro k. rewrite in_app_iff, Sz. cbn [In]. split; [intros [H|[<-|[]]]; auto|intros [H| ->]; auto].
Qed.
(** ** guards *)
Lemma unit_intB u l q : unitBounds u l q -> intB u /\ intB l.
Proof.
  intros (z & c & e & [(-> & -> & E3 & E4 & _)|(-> & -> & E3 & E4 & _)]); cbn [intB]; split.
  - exists z; exact E3.
  - exists (- z)%Z. rewrite inject_Z_opp. exact E4.
  - exists (z + 1)%Z. rewrite inject_Z_plus. exact E3.
  - exists (- z)%Z. rewrite inject_Z_opp. exact E4.
Qed.
(** the guard of a region: the valuations with each clock in the same unit *)
Lemma region_guard n u v : regionalF n u -> nonneg v -> (gsat (toGuard (ec (fel n))) v <-> forall k, (k < length (td u))%nat -> sameUnit (clocksOf u k) (v k)).
Proof.
  intros R NN. assert (L : length (td u) = tcSize (ec (fel n))) by apply R. rewrite L. unfold toGuard. split.
  - intros H k Hk. assert (U := regionalF_unit n u k R ltac:(lia)). destruct (unit_intB _ _ _ U) as [IU IL]. apply (unitBounds_sat _ _ _ U). apply toGuard1_sat; auto. intros d Hd. apply H. apply in_flat_map. exists k. split; [apply in_seq; lia|exact Hd].
  - intros H d Hd. apply in_flat_map in Hd. destruct Hd as (k & Hk & Hd). apply in_seq in Hk. assert (U := regionalF_unit n u k R ltac:(lia)). destruct (unit_intB _ _ _ U) as [IU IL].
    apply (proj2 (toGuard1_sat (ec (fel n)) k v IL IU (NN k))); [|exact Hd]. apply (unitBounds_sat _ _ _ U). apply H. lia.
Qed.
Lemma toGuard1_key m i c : In c (toGuard1 m i) -> cx c = i.
Proof.
  unfold toGuard1. intro H. apply in_app_or in H. destruct H as [H|H].
  - destruct (getLowerBound m i (tcSize m - 1)) as [l s|]; [|destruct H]. destruct (Qeq_bool l 0 && s); [destruct H|]. destruct H as [<-|[]]. reflexivity.
  - destruct (getUpperBound m i (tcSize m - 1)) as [u s|]; [|destruct H]. destruct H as [<-|[]]. reflexivity.
Qed.
Lemma toGuard1_nodup m i : NoDup (map keyOf (toGuard1 m i)).
Proof.
  unfold toGuard1. destruct (getLowerBound m i (tcSize m - 1)) as [l s|]; [destruct (Qeq_bool l 0 && s)|]; destruct (getUpperBound m i (tcSize m - 1)) as [u t|]; cbn [app map]; try (apply NoDup_nil); try (apply NoDup_cons; [intros []|apply NoDup_nil]).
  apply NoDup_cons; [|apply NoDup_cons; [intros []|apply NoDup_nil]]. intros [E|[]]. unfold keyOf, isUpper in E. destruct s, t; cbn in E; discriminate.
Qed.
Lemma toGuard_nodup_aux m l : NoDup l -> NoDup (map keyOf (flat_map (toGuard1 m) l)).
Proof.
  induction 1 as [|i l NI ND IH]; cbn [flat_map map]; [constructor|]. rewrite map_app. apply NoDup_app_intro; auto using toGuard1_nodup.
  intros [y b] H1 H2. apply in_map_iff in H1. destruct H1 as (c & E1 & H1). apply in_map_iff in H2. destruct H2 as (d & E2 & H2). apply in_flat_map in H2. destruct H2 as (j & Hj & H2).
  apply toGuard1_key in H1. apply toGuard1_key in H2. unfold keyOf in E1, E2. injection E1 as E1 _. injection E2 as E2 _. apply NI. congruence.
Qed.
Lemma toGuard_nonRedundant m : nonRedundant (toGuard m).
Proof. unfold nonRedundant, toGuard. change (fun k => (cx k, isUpper k)) with keyOf. apply toGuard_nodup_aux. apply seq_NoDup. Qed.
Lemma unit_upper u l q p : unitBounds u l q -> bsat u p -> p <= q \/ sameUnit q p.
Proof.
  intros (z & c & e & [(-> & -> & C & _ & Q0)|(-> & -> & C & _ & Q0 & Q1)]) H; cbn [bsat] in H.
  - left. lra.
  - destruct (Qlt_le_dec q p) as [G|G]; [right|left; lra]. apply (sameUnit_open q z Q0 Q1). lra.
Qed.
Lemma unit_lower u l q p : unitBounds u l q -> bsat l (- p) -> q <= p \/ sameUnit q p.
Proof.
  intros (z & c & e & [(-> & -> & C & D & Q0)|(-> & -> & C & D & Q0 & Q1)]) H; cbn [bsat] in H.
  - left. lra.
  - destruct (Qlt_le_dec p q) as [G|G]; [right|left; lra]. apply (sameUnit_open q z Q0 Q1). lra.
Qed.
(** one side of the guard of a region *)
Lemma guard_upper n u k q : regionalF n u -> (k < length (td u))%nat -> keySat (toGuard (ec (fel n))) (k, true) q -> q <= clocksOf u k \/ sameUnit (clocksOf u k) q.
Proof.
  intros R Hk K. assert (L : length (td u) = tcSize (ec (fel n))) by apply R. assert (U := regionalF_unit n u k R Hk). apply (unit_upper _ _ _ _ U). destruct (unit_intB _ _ _ U) as [IU _].
  unfold upAt in *. destruct (getUpperBound (ec (fel n)) k (tcSize (ec (fel n)) - 1)) as [c s|] eqn:E; [|exact I]. destruct IU as [z Hz]. assert (T := toInt_int c z Hz).
  assert (IN : In (mkC k (if s then Ole else Olt) (toInt c)) (toGuard (ec (fel n)))).
  { unfold toGuard. apply in_flat_map. exists k. split; [apply in_seq; lia|]. unfold toGuard1. rewrite E. apply in_or_app. right. left. reflexivity. }
  specialize (K _ IN ltac:(unfold keyOf, isUpper; destruct s; reflexivity)).
  assert (HH : holds (mkC k (if s then Ole else Olt) (toInt c)) q) by (apply holds_key; destruct s; exact K). unfold holds in HH. destruct s; cbn [cx codr cc bsat] in *; lra.
Qed.
Lemma guard_lower n u k q : regionalF n u -> (k < length (td u))%nat -> 0 <= q -> keySat (toGuard (ec (fel n))) (k, false) (- q) -> clocksOf u k <= q \/ sameUnit (clocksOf u k) q.
Proof.
  intros R Hk Q0 K. assert (L : length (td u) = tcSize (ec (fel n))) by apply R. assert (U := regionalF_unit n u k R Hk). apply (unit_lower _ _ _ _ U). destruct (unit_intB _ _ _ U) as [_ IU].
  unfold loAt in *. destruct (getLowerBound (ec (fel n)) k (tcSize (ec (fel n)) - 1)) as [c s|] eqn:E; [|exact I]. destruct IU as [z Hz]. assert (T := toInt_int c z Hz).
  destruct (Qeq_bool c 0 && s) eqn:B0; [apply andb_true_iff in B0; destruct B0 as [B0 ->]; apply Qeq_bool_iff in B0; cbn [bsat]; lra|].
  assert (IN : In (mkC k (if s then Oge else Ogt) (- toInt c)) (toGuard (ec (fel n)))).
  { unfold toGuard. apply in_flat_map. exists k. split; [apply in_seq; lia|]. unfold toGuard1. rewrite E, B0. apply in_or_app. left. left. reflexivity. }
  specialize (K _ IN ltac:(unfold keyOf, isUpper; destruct s; reflexivity)).
  assert (HH : holds (mkC k (if s then Oge else Ogt) (- toInt c)) q) by (apply holds_key; destruct s; exact K). unfold holds in HH. destruct s; cbn [cx codr cc bsat] in *; rewrite inject_Z_opp in HH; lra.
Qed.
Lemma covers_regional ns u : regions ns -> covers ns u -> exists n, In n ns /\ regionalF n u.
Proof. intros RG (n & Hn & Hu). exists n. split; [exact Hn|]. destruct (RG n Hn) as [v Rv]. apply (regionalF_members n v u Rv) in Hu. apply (regionalF_same n v u Rv); apply Hu. Qed.
Lemma relaxedGuard_sound c : regions (nNbrs c) -> forall u v, covers (nNbrs c) u -> nonneg v -> (forall k, (k < length (td u))%nat -> sameUnit (clocksOf u k) (v k)) -> gsat (toRelaxedGuard c) v.
Proof.
  intros RG u v Cu NN H. destruct (covers_regional _ u RG Cu) as (n & Hn & Rn). unfold toRelaxedGuard. eapply unionHull_sound; [apply in_map_iff; exists n; split; [reflexivity|exact Hn]|]. apply (region_guard n u v Rn NN). exact H.
Qed.
Lemma relaxedGuard_tight c w : describes (nOrig c) (nPrec c) (nNbrs c) w -> forall v, nonneg v -> gsat (toRelaxedGuard c) v -> forall k, (k < length (td w))%nat ->
  (exists u, covers (nNbrs c) u /\ (clocksOf u k <= v k \/ sameUnit (clocksOf u k) (v k))) /\ (exists u, covers (nNbrs c) u /\ (v k <= clocksOf u k \/ sameUnit (clocksOf u k) (v k))).
Proof.
  intros (R & RG & C & A & _) v NN H k Hk. unfold toRelaxedGuard in H.
  assert (NE : map (fun n => toGuard (ec (fel n))) (nNbrs c) <> []) by (destruct C as (n & Hn & _); destruct (nNbrs c); [destruct Hn|discriminate]).
  assert (Hn := proj1 (unionHull_sem _ v NE ltac:(intros g Hg; apply in_map_iff in Hg; destruct Hg as (n & <- & _); apply toGuard_nonRedundant)) H).
  assert (G : forall g, In g (map (fun n => toGuard (ec (fel n))) (nNbrs c)) -> exists n u, g = toGuard (ec (fel n)) /\ regionalF n u /\ covers (nNbrs c) u /\ (k < length (td u))%nat).
  { intros g Hg. apply in_map_iff in Hg. destruct Hg as (n & <- & Hin). destruct (RG n Hin) as [u Ru]. assert (Cu : covers (nNbrs c) u) by (exists n; split; [exact Hin|apply regional_self; exact Ru]). exists n, u. split; [auto|]. split; [auto|]. split; [auto|].
    destruct (A u Cu) as [E _]. assert (Wu : wfTW u) by apply Ru. assert (Ww : wfTW w) by apply R. unfold wfTW in *. rewrite Wu, E. lia. }
  split.
  - destruct (Hn (k, false)) as (g & Hg & K). destruct (G g Hg) as (n & u & -> & Ru & Cu & Lu). exists u. split; [auto|]. apply (guard_lower n u k (v k) Ru Lu (NN k) K).
  - destruct (Hn (k, true)) as (g & Hg & K). destruct (G g Hg) as (n & u & -> & Ru & Cu & Lu). exists u. split; [auto|]. apply (guard_upper n u k (v k) Ru Lu K).
Qed.
Lemma nbMatch_sound c g w : regionalF (nOrig c) w -> nbMatch c g = true -> forall v, nonneg v -> (forall k, (k < length (td w))%nat -> sameUnit (clocksOf w k) (v k)) -> gsat g v.
Proof. intros R H v NN K. eapply isWeaker_sound; [exact H|]. apply (region_guard (nOrig c) w v R NN). exact K. Qed.
Lemma nbMatch_complete c g w : regionalF (nOrig c) w -> (forall k, 0 <= clocksOf w k) -> (forall k, In k g -> nonTrivial k) ->
  (forall v, nonneg v -> (forall k, (k < length (td w))%nat -> sameUnit (clocksOf w k) (v k)) -> gsat g v) -> nbMatch c g = true.
Proof.
  intros R P NT H. unfold nbMatch, toOriginalGuard. apply isWeaker_complete; [|exact NT|].
  - exists (clocksOf w). split; [exact P|]. apply (region_guard (nOrig c) w _ R P). intros; apply sameUnit_refl.
  - intros v NN G. apply H; [exact NN|]. apply (region_guard (nOrig c) w v R NN). exact G.
Qed.
Lemma nbPrecise_spec c w : describes (nOrig c) (nPrec c) (nNbrs c) w -> nbPrecise c = true -> forall u, covers (nNbrs c) u <-> sameClass w u.
Proof.
  intros (R & RG & C & A & _) H u. unfold nbPrecise in H. apply Nat.eqb_eq in H. destruct (nNbrs c) as [|n [|]] eqn:E; try discriminate. destruct (covers_regional _ w RG C) as (m & [<-|[]] & Rm).
  split; [intros (m & [<-|[]] & Hu); apply (regionalF_members n w u Rm); exact Hu|intro S; exists n; split; [left; auto|apply (regionalF_members n w u Rm); exact S]].
Qed.
