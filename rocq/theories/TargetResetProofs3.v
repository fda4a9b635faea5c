(** applyResets(word, resets, targetClockSize) of regional languages, and the
    neighbours after a transition. *)
From Coq Require Import QArith Qround ZArith Bool List Arith Lia Lqa Permutation.
From Verif Require Import BoundsModel BoundsProofs ConstraintModel GuardSpec ZoneModel ZoneSpec ZoneProofs ZoneProofs2 ZoneProofs3 AutomatonModel AutomatonSpec AutomatonProofs TimedConditionModel TimedConditionSpec TimedConditionProofs
  TimedConditionProofs2 TimedConditionProofs3 TimedWordModel TimedWordSpec ElementaryModel ElementarySpec ElementaryProofs ElementaryProofs2 RegionalModel RegionalSpec RegionalProofs RegionalProofs4 CexProofs CexProofs2 QueryableProofs RegionInvariance
  RegionalProofs5 RenamingProofs5 RenamingProofs6 NeighborModel NeighborSpec NeighborProofs NeighborProofs2 NeighborProofs3 NeighborProofs4 ResetSpec TargetResetModel TargetResetSpec TargetResetProofs TargetResetProofs2.
Import ListNotations.
Open Scope Q_scope.

Lemma region_ok m d : regionCond m d -> (2 <= dim m)%nat /\ nonemptyZ m /\ boundedCond m.
Proof.
  intro R. assert (B := regionCond_bounded m d R). assert (I := proj2 (regionCond_exact m d R d) (sameRegion_refl d)). destruct R as [L [[D G] _]]. split; [exact D|]. split; [|exact B].
  exists (accd d). apply inCond_inZone; auto.
Qed.
Lemma visible_word word : Forall (fun a => a <> UNOBSERVABLE) word -> forall c, visible (mkEL word c).
Proof. intros H c. exact H. Qed.

Lemma sub_shift i p q : sameUnit p q -> sameUnit (p - inject_Z i) (q - inject_Z i).
Proof. intro H. apply (sameUnit_shift (- i)) in H. eapply TimedConditionProofs3.sameUnit_ext; [| |exact H]; rewrite inject_Z_opp; ring. Qed.
Lemma diff_any d d' j k : sameRegion d d' -> (j < length d)%nat -> (k < length d)%nat -> sameUnit (since d j - since d k) (since d' j - since d' k).
Proof.
  intros S Hj Hk. assert (G : forall a b, (a < b)%nat -> (b < length d)%nat -> sameUnit (since d a - since d b) (since d' a - since d' b)).
  { intros a b Hab Hb. assert (L : length d = length d') by apply S. eapply TimedConditionProofs3.sameUnit_ext; [symmetry; apply T_since; auto|symmetry; apply T_since; [auto|lia]|apply S; lia]. }
  destruct (Nat.lt_trichotomy j k) as [L|[->|L]]; [apply G; auto| |].
  - eapply TimedConditionProofs3.sameUnit_ext; [| |apply (sameUnit_refl 0)]; ring.
  - assert (X := sameUnit_opp _ _ (G k j L Hj)). eapply TimedConditionProofs3.sameUnit_ext; [| |exact X]; ring.
Qed.

Section Regional.
Variables (x : frel) (w : tword) (word : list letter) (rs : resets).
Hypothesis R : regionalF x w.
Hypothesis V : Forall (fun a => a <> UNOBSERVABLE) word.
Hypothesis RI : resetsInto (length (td w)) rs (S (length word)).
Let N := S (length word).
Let c := tcApplyResetsTo (ec (fel x)) rs N.
Let y := frApplyResetsTo x word rs N.

Lemma src_size : tcSize (ec (fel x)) = length (td w).
Proof using R. destruct R as (_ & _ & (L & _) & _). symmetry. exact L. Qed.
Lemma cond_members d : inCond c d <-> length d = N /\ exists w' z, inElem (fel x) w' /\ isReset rs (since (td w')) z /\ likeReset rs N z (since d).
Proof using R RI.
  destruct (region_ok _ _ (proj1 (proj2 (proj2 R)))) as (D & NE & B). unfold c. rewrite (tcApplyResetsTo_durations _ rs N D NE ltac:(unfold N; lia) ltac:(rewrite src_size; exact RI)). split.
  - intros [L [d0 [z [Hd [Hz H]]]]]. split; [exact L|]. exists (mkTW (ew (fel x)) d0), z. split; [split; [reflexivity|exact Hd]|]. auto.
  - intros [L [w' [z [Hd [Hz H]]]]]. split; [exact L|]. exists (td w'), z. split; [apply Hd|]. auto.
Qed.
Lemma cond_regions d d' : inCond c d -> sameRegion d d' -> inCond c d'.
Proof using R RI.
  (* the same members as for the canonical condition of the region *)
  intros H S. set (m := tcOf (accum (td w))). assert (W : wfTW w) by apply R. assert (NN : td w <> []) by (assert (X := wfTW_pos w W); destruct (td w); [cbn in X; lia|discriminate]).
  assert (OM : okCond m) by (apply tcOf_ok; exact NN). assert (RM := tcOf_regionCond (td w) NN). fold m in RM. assert (SM : tcSize m = length (td w)) by (symmetry; apply RM).
  destruct (region_ok _ _ (proj1 (proj2 (proj2 R)))) as (D & NE & B). destruct (region_ok _ _ RM) as (DM & NM & _).
  assert (EQ : forall e, inCond c e <-> inCond (tcApplyResetsTo m rs N) e).
  { intro e. unfold c. rewrite (tcApplyResetsTo_durations _ rs N D NE ltac:(unfold N; lia) ltac:(rewrite src_size; exact RI)), (tcApplyResetsTo_durations m rs N DM NM ltac:(unfold N; lia) ltac:(rewrite SM; exact RI)).
    assert (K : forall d0, inCond (ec (fel x)) d0 <-> inCond m d0) by (intro d0; rewrite (regionCond_exact _ _ (proj1 (proj2 (proj2 R)))), (regionCond_exact _ _ RM); reflexivity).
    split; intros [L [d0 [z [Hd HH]]]]; (split; [exact L|]); exists d0, z; (split; [apply K; exact Hd|exact HH]). }
  apply EQ. apply EQ in H. eapply intCond_regions; [|apply tcApplyResetsTo_int| |exact S].
  - apply (tcApplyResetsTo_exact m rs N DM NM); [unfold N; lia|rewrite SM; exact RI].
  - exact DM.
  - unfold N; lia.
  - rewrite SM; exact RI.
  - apply tcOf_int. exact NN.
  - exact H.
Qed.
Lemma fr_reset_region : exists u, regionalF y u /\ tw u = word /\ inCond c (td u).
Proof using R V RI.
  destruct (region_ok _ _ (proj1 (proj2 (proj2 R)))) as (D & NE & B). destruct (tcApplyResetsTo_exact (ec (fel x)) rs N D NE ltac:(unfold N; lia) ltac:(rewrite src_size; exact RI)) as (O & T & _).
  assert (BC := tcApplyResetsTo_bounded (ec (fel x)) rs N D NE ltac:(unfold N; lia) ltac:(rewrite src_size; exact RI) B).
  destruct (elSample_in (mkEL word c)) as [[E1 E2] WF]; [split; [exact O|exact T]|exact BC|exact V|]. exists (elSample (mkEL word c)). split; [apply frFromTimedWord_regional; exact WF|]. split; [exact E1|exact E2].
Qed.
Lemma fr_reset_sound u : inElem (fel y) u -> tw u = word /\ length (td u) = N /\ exists w' z, inElem (fel x) w' /\ isReset rs (since (td w')) z /\ likeReset rs N z (since (td u)).
Proof using R V RI.
  intro H. destruct fr_reset_region as [u0 [R0 [T0 C0]]]. apply (proj1 (regionalF_members y u0 u R0)) in H. destruct H as [E S]. split; [congruence|]. apply (cond_regions _ _ C0) in S. apply cond_members in S. exact S.
Qed.
(** with integer constants nothing is lost *)
Hypothesis IC : forall k q, In (k, RConst q) rs -> (k < N)%nat -> exists i, q == inject_Z i.
Lemma reset_source k v z v' z' : (k < N)%nat -> isReset rs v z -> isReset rs v' z' ->
  (exists i, z k == inject_Z i /\ z' k == inject_Z i) \/ (exists s, (s < length (td w))%nat /\ z k == v s /\ z' k == v' s).
Proof using RI IC.
  intros L Z Z'. destruct RI as (ND & RV & RU). destruct (in_dec Nat.eq_dec k (map fst rs)) as [I|I].
  - apply in_map_iff in I. destruct I as [[a r] [Ea I]]. cbn [fst] in Ea. subst a. assert (E := reset_val rs v z k r ND Z I). assert (E' := reset_val rs v' z' k r ND Z' I). destruct r as [q|s].
    + left. destruct (IC k q I L) as [i Hi]. exists i. cbn beta iota in E, E'. split; lra.
    + right. exists s. split; [exact (RV k s I L)|auto].
  - right. exists k. split; [exact (RU k L I)|]. split; [apply (Z k); exact I|apply (Z' k); exact I].
Qed.
Lemma resets_same w1 z1 w2 z2 d1 d2 : inElem (fel x) w1 -> inElem (fel x) w2 -> isReset rs (since (td w1)) z1 -> isReset rs (since (td w2)) z2 ->
  length d1 = N -> length d2 = N -> (forall k, (k < N)%nat -> since d1 k == z1 k) -> (forall k, (k < N)%nat -> since d2 k == z2 k) -> sameRegion d1 d2.
Proof using R RI IC.
  intros M1 M2 Z1 Z2 L1 L2 E1 E2. apply (proj1 (regionalF_members x w w1 R)) in M1. apply (proj1 (regionalF_members x w w2 R)) in M2. destruct M1 as [_ S1], M2 as [_ S2].
  assert (S : sameRegion (td w1) (td w2)) by (eapply sameRegion_trans; [apply sameRegion_sym; exact S1|exact S2]). assert (LW : length (td w1) = length (td w)) by (symmetry; apply S1).
  apply since_region; [lia| |].
  - intros k Hk. rewrite L1 in Hk. eapply TimedConditionProofs3.sameUnit_ext; [symmetry; apply E1; exact Hk|symmetry; apply E2; exact Hk|].
    destruct (reset_source k _ z1 _ z2 Hk Z1 Z2) as [[i [A B]]|[s [Ls [A B]]]]; (eapply TimedConditionProofs3.sameUnit_ext; [symmetry; exact A|symmetry; exact B|]); [apply sameUnit_refl|apply since_same; [exact S|lia]].
  - intros j k Hjk Hk. rewrite L1 in Hk. apply (TimedConditionProofs3.sameUnit_ext (z1 j - z1 k) _ (z2 j - z2 k) _); [rewrite (E1 j), (E1 k) by lia; reflexivity|rewrite (E2 j), (E2 k) by lia; reflexivity|].
    destruct (reset_source j _ z1 _ z2 ltac:(lia) Z1 Z2) as [[i [A B]]|[s [Ls [A B]]]], (reset_source k _ z1 _ z2 Hk Z1 Z2) as [[i' [A' B']]|[s' [Ls' [A' B']]]].
    + apply (TimedConditionProofs3.sameUnit_ext (inject_Z i - inject_Z i') _ (inject_Z i - inject_Z i') _); [rewrite A, A'; reflexivity|rewrite B, B'; reflexivity|apply sameUnit_refl].
    + assert (X := sameUnit_opp _ _ (sub_shift i _ _ (since_same _ _ s' S ltac:(lia)))). apply (TimedConditionProofs3.sameUnit_ext _ _ _ _) with (3 := X); [rewrite A, A'; ring|rewrite B, B'; ring].
    + assert (X := sub_shift i' _ _ (since_same _ _ s S ltac:(lia))). apply (TimedConditionProofs3.sameUnit_ext _ _ _ _) with (3 := X); [rewrite A, A'; ring|rewrite B, B'; ring].
    + assert (X := diff_any _ _ s s' S ltac:(lia) ltac:(lia)). apply (TimedConditionProofs3.sameUnit_ext _ _ _ _) with (3 := X); [rewrite A, A'; ring|rewrite B, B'; ring].
Qed.
Lemma fr_reset_exact u : inElem (fel y) u <-> tw u = word /\ length (td u) = N /\ exists w' z, inElem (fel x) w' /\ isReset rs (since (td w')) z /\ forall k, (k < N)%nat -> since (td u) k == z k.
Proof using R V RI IC.
  assert (G : forall v, inElem (fel y) v -> tw v = word /\ length (td v) = N /\ exists w' z, inElem (fel x) w' /\ isReset rs (since (td w')) z /\ forall k, (k < N)%nat -> since (td v) k == z k).
  { intros v H. destruct (fr_reset_sound v H) as [E [L [w' [z [Hw [Z (H1 & H2 & _)]]]]]]. split; [exact E|]. split; [exact L|]. exists w', z. split; [exact Hw|]. split; [exact Z|]. intros k Hk.
    destruct (in_dec Nat.eq_dec k (map fst rs)) as [I|I].
    - apply in_map_iff in I. destruct I as [[a r] [Ea I]]. cbn [fst] in Ea. subst a. destruct r as [q|s].
      + assert (ND : NoDup (map fst rs)) by apply RI. assert (Zk := reset_val rs _ z k _ ND Z I). destruct (IC k q I Hk) as [i Hi]. cbn beta iota in Zk. assert (S := H2 k Hk (ex_intro _ q I)). apply (sameUnit_point (z k) i) in S; lra.
      + apply H1; [exact Hk|]. intros [q Hq]. assert (ND : NoDup (map fst rs)) by apply RI. assert (X := nodup_one rs k _ _ ND I Hq). discriminate.
    - apply H1; [exact Hk|]. intros [q Hq]. apply I. apply in_map_iff. exists (k, RConst q). auto. }
  split; [apply G|]. intros [E [L [w' [z [Hw [Z H]]]]]]. destruct fr_reset_region as [u0 [R0 [T0 C0]]]. assert (M0 : inElem (fel y) u0) by (apply (proj2 (regionalF_members y u0 u0 R0)); split; [reflexivity|apply sameRegion_refl]).
  destruct (G u0 M0) as [E0 [L0 [w0 [z0 [Hw0 [Z0 H0]]]]]]. apply (proj2 (regionalF_members y u0 u R0)). split; [congruence|]. exact (resets_same w0 z0 w' z (td u0) (td u) Hw0 Hw Z0 Z L0 L H0 H).
Qed.
End Regional.

(** ** after a transition *)
Lemma resizeTo_length n b l : length (resizeTo n b l) = n.
Proof. unfold resizeTo. rewrite app_length, firstn_length, repeat_length. lia. Qed.
Lemma resizeTo_visible n b l : In b l -> Forall (fun a => a <> UNOBSERVABLE) l -> Forall (fun a => a <> UNOBSERVABLE) (resizeTo n b l).
Proof.
  intros Hb V. rewrite Forall_forall in V. apply Forall_forall. intros a Ha. unfold resizeTo in Ha. apply in_app_or in Ha. destruct Ha as [Ha|Ha].
  - apply V. rewrite <- (firstn_skipn n l). apply in_or_app. auto.
  - apply repeat_spec in Ha. subst a. apply V. exact Hb.
Qed.
Lemma since_snoc_last d : since (d ++ [0]) (length d) == 0.
Proof. assert (X := since_last d 0). rewrite app_length in X. cbn [length] in X. replace (length d + 1 - 1)%nat with (length d) in X by lia. exact X. Qed.
Lemma nbInternal_iff c t : nbInternal c t = true <-> exists q, trst t = [(nSize c, RConst q)] /\ q == 0.
Proof.
  unfold nbInternal. destruct (trst t) as [|[k [q|y]] [|r l]].
  - split; [discriminate|intros [q [H _]]; discriminate].
  - rewrite andb_true_iff, Nat.eqb_eq, Qeq_bool_iff. split; [intros [-> H]; exists q; auto|intros [p [H H']]; injection H as -> ->; auto].
  - split; [discriminate|intros [p [H _]]; discriminate].
  - split; [discriminate|intros [p [H _]]; discriminate].
  - split; [discriminate|intros [p [H _]]; discriminate].
Qed.
(** the internal case is the general one, for the word with the action added *)
Lemma internal_members x w a q : regionalF x w -> visible (fel x) -> a <> UNOBSERVABLE -> q == 0 -> forall u,
  inElem (fel (frSuccAct x a)) u <-> inElem (fel (frApplyResetsTo x (ew (fel x) ++ [a]) [(length (td w), RConst q)] (S (length (ew (fel x) ++ [a]))))) u.
Proof.
  intros R V Va Q0 u. set (word := ew (fel x) ++ [a]). set (rs := [(length (td w), RConst q)]). assert (W : wfTW w) by apply R. assert (EW : tw w = ew (fel x)) by apply R.
  assert (LW : length word = length (td w)) by (unfold word; rewrite app_length, <- EW; unfold wfTW in W; cbn [length]; lia).
  assert (VW : Forall (fun a => a <> UNOBSERVABLE) word) by (apply Forall_app; split; [exact V|constructor; auto]).
  assert (RI : resetsInto (length (td w)) rs (S (length word))).
  { split; [cbn; constructor; [intros []|constructor]|]. split; [intros a0 y [H|[]]; discriminate|]. intros k Hk H. cbn in H. rewrite LW in Hk. assert (length (td w) <> k) by (intro E; apply H; auto). lia. }
  assert (IC : forall k p, In (k, RConst p) rs -> (k < S (length word))%nat -> exists i, p == inject_Z i) by (intros k p [H|[]] _; injection H as <- <-; exists 0%Z; exact Q0).
  assert (R1 := frSuccAct_regional x w a R). destruct (fr_reset_region x w word rs R VW RI) as [u0 [R0 [T0 C0]]].
  assert (M : inElem (fel (frApplyResetsTo x word rs (S (length word)))) (concatChar w a)).
  { apply (fr_reset_exact x w word rs R VW RI IC). split; [cbn [concatChar tw]; unfold word; rewrite EW; reflexivity|]. split; [cbn [concatChar td]; rewrite app_length; cbn [length]; lia|].
    assert (MW : inElem (fel x) w) by (apply (proj2 (regionalF_members x w w R)); split; [reflexivity|apply sameRegion_refl]).
    exists w, (applyReset (since (td w)) rs). split; [exact MW|]. assert (Z := applyReset_isReset rs (since (td w))). split; [exact Z|]. intros k Hk. cbn [concatChar td]. destruct (Nat.eq_dec k (length (td w))) as [->|NE].
    - rewrite (reset_val rs _ _ (length (td w)) _ (proj1 RI) Z (or_introl eq_refl)), since_snoc_last. symmetry. exact Q0.
    - rewrite since_snoc0 by lia. symmetry. apply (Z k). intros [H|[]]. cbn in H. congruence. }
  apply (proj1 (regionalF_members _ u0 _ R0)) in M. destruct M as [M1 M2]. rewrite (regionalF_members _ _ u R1), (regionalF_members _ u0 u R0). split; intros [H1 H2]; (split; [congruence|]).
  - eapply sameRegion_trans; [exact M2|exact H2].
  - eapply sameRegion_trans; [apply sameRegion_sym; exact M2|exact H2].
Qed.
Lemma likeReset_exact rs N z v : (forall k, (k < N)%nat -> v k == z k) -> likeReset rs N z v.
Proof. intro E. apply (likeReset_ext rs N z z); [intros k Hk; symmetry; apply E; exact Hk|apply likeReset_refl]. Qed.

Lemma originalAfter_spec c a t N w : regionalF (nOrig c) w -> visible (fel (nOrig c)) -> nSize c = length (td w) -> a <> UNOBSERVABLE -> tw w <> [] ->
  resetsInto (length (td w)) (trst t) N -> (1 <= N)%nat -> (nbInternal c t = true -> (N <= nSize c + 1)%nat) ->
  exists x' w', originalAfter c a t N = Some x' /\ regionalF x' w' /\ visible (fel x') /\ (N <= length (td w'))%nat /\
    (if nbInternal c t then tw w' = tw w ++ [a] else length (td w') = N) /\
    (forall u, inElem (fel x') u -> exists w0 z, inElem (fel (nOrig c)) w0 /\ isReset (trst t) (since (td w0)) z /\ likeReset (trst t) N z (since (td u))).
Proof.
  intros R V Sz Va NW RI HN IN. assert (EW : tw w = ew (fel (nOrig c))) by apply R. assert (W : wfTW w) by apply R. unfold originalAfter. destruct (nbInternal c t) eqn:I.
  - apply nbInternal_iff in I. destruct I as [q [E Q0]]. specialize (IN eq_refl). assert (R1 := frSuccAct_regional (nOrig c) w a R). exists (frSuccAct (nOrig c) a), (concatChar w a). split; [reflexivity|]. split; [exact R1|].
    split; [apply Forall_app; split; [exact V|constructor; auto]|]. split; [cbn [concatChar td]; rewrite app_length; cbn [length]; lia|]. split; [reflexivity|].
    intros u Hu. rewrite E, Sz. apply (internal_members _ w a q R V Va Q0) in Hu.
    assert (LW : length (ew (fel (nOrig c)) ++ [a]) = length (td w)) by (rewrite app_length, <- EW; unfold wfTW in W; cbn [length]; lia).
    assert (VW : Forall (fun a => a <> UNOBSERVABLE) (ew (fel (nOrig c)) ++ [a])) by (apply Forall_app; split; [exact V|constructor; auto]).
    apply (fr_reset_exact (nOrig c) w (ew (fel (nOrig c)) ++ [a]) [(length (td w), RConst q)] R VW) in Hu.
    + destruct Hu as [_ [_ [w0 [z [Hw [Z H]]]]]]. exists w0, z. split; [exact Hw|]. split; [exact Z|]. apply likeReset_exact. intros k Hk. apply H. lia.
    + split; [cbn; constructor; [intros []|constructor]|]. split; [intros a0 y [H8|[]]; discriminate|]. intros k Hk H9. cbn in H9. rewrite LW in Hk. assert (length (td w) <> k) by (intro E9; apply H9; auto). lia.
    + intros k p [H8|[]] _. injection H8 as <- <-. exists 0%Z. exact Q0.
  - destruct N as [|n]; [lia|]. destruct (rev (ew (fel (nOrig c)))) as [|b l] eqn:Er.
    + exfalso. apply NW. rewrite EW. rewrite <- (rev_involutive (ew (fel (nOrig c)))), Er. reflexivity.
    + assert (Hb : In b (ew (fel (nOrig c)))) by (rewrite in_rev, Er; left; reflexivity). set (word := resizeTo n b (ew (fel (nOrig c)))). assert (LW : length word = n) by apply resizeTo_length.
      assert (VW : Forall (fun a => a <> UNOBSERVABLE) word) by (apply resizeTo_visible; [exact Hb|exact V]). assert (RI' : resetsInto (length (td w)) (trst t) (S (length word))) by (rewrite LW; exact RI).
      assert (RG := fr_reset_region (nOrig c) w word (trst t) R VW RI'). destruct RG as [u0 [R0 [T0 C0]]]. rewrite LW in R0. exists (frApplyResetsTo (nOrig c) word (trst t) (S n)), u0. split; [reflexivity|]. split; [exact R0|].
      assert (EY : ew (fel (frApplyResetsTo (nOrig c) word (trst t) (S n))) = word) by (transitivity (tw u0); [symmetry; exact (proj1 R0)|exact T0]). split; [unfold visible; rewrite EY; exact VW|].
      assert (LU : length (td u0) = S n) by (assert (W0 : wfTW u0) by apply R0; unfold wfTW in W0; rewrite W0, T0, LW; reflexivity). split; [lia|]. split; [exact LU|].
      intros u Hu. assert (X := fr_reset_sound (nOrig c) w word (trst t) R VW RI' u). rewrite LW in X. destruct (X Hu) as [_ [_ H]]. exact H.
Qed.
Lemma makeAfter_spec ord c a t N w : (forall l, Permutation (ord l) l) -> regionalF (nOrig c) w -> visible (fel (nOrig c)) -> nSize c = length (td w) -> a <> UNOBSERVABLE -> tw w <> [] ->
  resetsInto (length (td w)) (trst t) N -> (1 <= N)%nat -> (nbInternal c t = true -> (N <= nSize c + 1)%nat) ->
  exists c' w' enough, (forall fuel, (enough <= fuel)%nat -> makeAfter ord fuel c a t N = Some c') /\ describes (nOrig c') (nPrec c') (nNbrs c') w' /\ nSize c' = length (td w') /\
    (if nbInternal c t then tw w' = tw w ++ [a] else length (td w') = N) /\
    (forall u, inElem (fel (nOrig c')) u -> exists w0 z, inElem (fel (nOrig c)) w0 /\ isReset (trst t) (since (td w0)) z /\ likeReset (trst t) N z (since (td u))) /\
    (forall k, In k (nPrec c') <-> In k (preciseAfterReset (nPrec c) N (trst t)) \/ ((k < length (td w'))%nat /\ exists i, since (td w') k == inject_Z i)).
Proof.
  intros HO R V Sz Va NW RI HN IN. destruct (originalAfter_spec c a t N w R V Sz Va NW RI HN IN) as (x' & w' & E & R' & V' & LN & K & MEM).
  destruct (newNbr_spec ord x' w' (preciseAfterReset (nPrec c) N (trst t)) HO R' V') as (c' & M & H1 & H2 & H3 & H4 & H5 & _).
  { intros k Hk. apply preciseAfter_iff in Hk. destruct Hk as [L _]. lia. }
  exists c', w', M. split; [intros fuel Hf; unfold makeAfter; rewrite E; apply H1; exact Hf|]. split; [exact H5|]. split; [exact H3|]. split; [exact K|]. split; [rewrite H2; exact MEM|exact H4].
Qed.
(** with a fraction one region cannot hold all values after the reset *)
Lemma fraction_splits : exists rs d1 d2 z1 z2, resetsInto 1 rs 2 /\ length d1 = 1%nat /\ sameRegion d1 d2 /\ isReset rs (since d1) z1 /\ isReset rs (since d2) z2 /\
  (forall k, (S k < 2)%nat -> z1 (S k) <= z1 k /\ z2 (S k) <= z2 k) /\ forall x w u1 u2, regionalF x w -> (forall k, (k < 2)%nat -> since (td u1) k == z1 k) -> (forall k, (k < 2)%nat -> since (td u2) k == z2 k) -> length (td u1) = 2%nat -> ~ (inElem (fel x) u1 /\ inElem (fel x) u2).
Proof.
  set (rs := [(1%nat, RConst (1#2))]). set (d1 := [13#10]). set (d2 := [19#10]). exists rs, d1, d2, (applyReset (since d1) rs), (applyReset (since d2) rs).
  assert (RI : resetsInto 1 rs 2). { split; [cbn; constructor; [intros []|constructor]|]. split; [intros a y [H|[]]; discriminate|]. intros k Hk H. cbn in H. assert (1%nat <> k) by (intro E; apply H; auto). lia. }
  split; [exact RI|]. split; [reflexivity|]. split.
  { split; [reflexivity|]. intros i j Hij Hj. unfold d1 in Hj. cbn [length] in Hj. assert (i = 0%nat) by lia. assert (j = 0%nat) by lia. subst i j. split; [reflexivity|]. split; intro H; exfalso; vm_compute in H; discriminate. }
  split; [apply applyReset_isReset|]. split; [apply applyReset_isReset|]. split.
  { intros k Hk. assert (k = 0%nat) by lia. subst k. split; vm_compute; discriminate. }
  intros x w u1 u2 R H1 H2 L [M1 M2]. apply (proj1 (regionalF_members x w u1 R)) in M1. apply (proj1 (regionalF_members x w u2 R)) in M2. destruct M1 as [_ S1], M2 as [_ S2]. assert (S := sameRegion_trans _ _ _ (sameRegion_sym _ _ S1) S2).
  assert (D := diff_any _ _ 0%nat 1%nat S ltac:(lia) ltac:(lia)).
  assert (A0 := H1 0%nat ltac:(lia)). assert (A1 := H1 1%nat ltac:(lia)). assert (B0 := H2 0%nat ltac:(lia)). assert (B1 := H2 1%nat ltac:(lia)).
  assert (D' := TimedConditionProofs3.sameUnit_ext _ (applyReset (since d1) rs 0%nat - applyReset (since d1) rs 1%nat) _ (applyReset (since d2) rs 0%nat - applyReset (since d2) rs 1%nat) ltac:(apply Qplus_comp; [exact A0|apply Qopp_comp; exact A1]) ltac:(apply Qplus_comp; [exact B0|apply Qopp_comp; exact B1]) D).
  destruct D' as [D' _]. vm_compute in D'. discriminate.
Qed.
