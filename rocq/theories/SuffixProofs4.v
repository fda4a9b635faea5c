(** Proofs about ForwardRegionalElementaryLanguage::suffix, continued: the
    suffix covers the words of the language. *)
From Coq Require Import QArith ZArith Bool List Lia Lqa Qround Arith Sorted Permutation.
From Verif Require Import BoundsModel BoundsProofs ConstraintModel ZoneModel ZoneSpec ZoneProofs
  AutomatonModel TimedWordModel TimedWordSpec TimedWordProofs TimedConditionModel TimedConditionSpec TimedConditionProofs TimedConditionProofs2
  TimedConditionProofs3 TimedConditionProofs4 ElementaryModel ElementarySpec ElementaryProofs ElementaryProofs2 RegionalModel RegionalSpec RegionalProofs RegionalProofs2 RegionalProofs3
  RegionalProofs4 RegionalProofs5 RegionalProofs6 RegionInvariance CexProofs CexProofs2 LooseProofs ShapeProofs SuffixModel SuffixProofs SuffixProofs2 SuffixProofs3.
Import ListNotations.
Open Scope Q_scope.

Lemma accd_S q (r : list Q) j : accd (q :: r) (S j) = accd r j. Proof. reflexivity. Qed.
Lemma accd_skip (a : list Q) k j : accd (skipn k a) j = accd a (k + j).
Proof.
  unfold accd. f_equal. revert a. induction k as [|k IH]; intro a; [reflexivity|]. destruct a as [|q a]; [cbn; rewrite !skipn_nil; reflexivity|]. cbn. apply IH.
Qed.
Lemma accd_firstn (a : list Q) n i : (i <= n)%nat -> (n <= length a)%nat -> accd (firstn n a) i == accd a i - accd a n.
Proof.
  intros H L. rewrite <- (firstn_skipn n a) at 2. rewrite accd_app by (rewrite firstn_length; lia). rewrite (accd_skip a n 0). rewrite Nat.add_0_r. lra.
Qed.
Lemma unit_diff d d' i j : sameRegion d d' -> (i <= length d)%nat -> (j <= length d)%nat -> sameUnit (accd d i - accd d j) (accd d' i - accd d' j).
Proof.
  intros [L R] Hi Hj. destruct (Nat.lt_trichotomy i j) as [K|[->|K]].
  - eapply sameUnit_ext; [| |apply (R i (j - 1)%nat); lia]; rewrite T_acc by lia; replace (S (j - 1)) with j by lia; reflexivity.
  - eapply sameUnit_ext; [| |apply (sameUnit_refl 0)]; ring.
  - eapply sameUnit_ext; [| |apply sameUnit_opp, (R j (i - 1)%nat); lia]; rewrite T_acc by lia; replace (S (i - 1)) with i by lia; ring.
Qed.

(** a word whose durations are in the region of [d ++ (a + b) :: s] splits like it *)
Lemma region_splits (d : list Q) (a b g : Q) (s v : list Q) : g == a + b -> sameRegion (d ++ g :: s) v ->
  exists c', let n := length d in
    sameRegion (d ++ [a]) (firstn n v ++ [accd v n - c']) /\ sameRegion (b :: s) ((c' - accd v (S n)) :: skipn (S n) v).
Proof.
  intros G R. set (f := d ++ g :: s) in *. set (n := length d).
  assert (Lf : length f = (n + S (length s))%nat) by (unfold f, n; rewrite app_length; reflexivity). assert (Lv : length v = length f) by (symmetry; apply R).
  assert (As : forall j, accd f (S n + j) = accd s j) by (intro j; unfold f; rewrite accd_app2 by (unfold n; lia); replace (S n + j - length d)%nat with (S j) by (unfold n; lia); reflexivity).
  assert (Ad : forall i, (i <= n)%nat -> accd f i == accd d i + (g + accd s 0)) by (intros i Hi; unfold f; rewrite accd_app by exact Hi; rewrite accd_cons; reflexivity).
  set (c := accd s 0 + b). destruct (cut_exists (S (length f)) (accd f) (accd v) c) as (c' & HC).
  { intros i j Hi Hj. apply unit_diff; [exact R|lia|lia]. }
  exists c'. cbv zeta. fold n. split; (split; [rewrite ?app_length, ?firstn_length; cbn [length]; rewrite ?skipn_length; fold n; lia|]).
  - intros i j Hij Hj. rewrite app_length in Hj. cbn [length] in Hj. fold n in Hj. destruct (Nat.eq_dec j n) as [->|Ne].
    + eapply sameUnit_ext; [| |apply sameUnit_opp, (HC i); lia].
      * rewrite T_acc by auto. rewrite accd_snoc by exact Hij. rewrite (accd_end (d ++ [a])) by (rewrite app_length; cbn [length]; fold n; lia). rewrite (Ad i Hij). unfold c. rewrite G. ring.
      * rewrite T_acc by auto. rewrite accd_snoc by (rewrite firstn_length; lia). rewrite (accd_end (firstn n v ++ _)) by (rewrite app_length, firstn_length; cbn [length]; lia). rewrite accd_firstn by lia. ring.
    + eapply sameUnit_ext; [| |apply (proj2 R i j Hij); lia].
      * unfold f. rewrite !T_app_lt by (try exact Hij; fold n; lia). reflexivity.
      * rewrite T_app_lt by (try exact Hij; rewrite firstn_length; lia). rewrite <- (firstn_skipn n v) at 1. rewrite T_app_lt by (try exact Hij; rewrite firstn_length; lia). reflexivity.
  - intros i j Hij Hj. cbn [length] in Hj. destruct i as [|i].
    + eapply sameUnit_ext; [| |apply (HC (S n + j)%nat); lia].
      * rewrite T_acc by auto. rewrite accd_cons, accd_S, (As j). unfold c. ring.
      * rewrite T_acc by auto. rewrite accd_cons, accd_S, !accd_skip, Nat.add_0_r. ring.
    + eapply sameUnit_ext; [| |apply (unit_diff f v (S n + i) (S n + j) R); lia].
      * rewrite T_acc by auto. rewrite !accd_S, !As. reflexivity.
      * rewrite T_acc by auto. rewrite !accd_S, !accd_skip. reflexivity.
Qed.

Section Suffix.
Context (x p : frel) (w u : tword).
Context (Rx : regionalF x w) (Nw : nonnegTW w) (Rp : regionalF p u) (Tp : timedPrefix u w) (Vx : visible (fel x)) (Wx : wfElem (fel x)) (Wp : wfElem (fel p)).
Notation n := (length (ew (fel p))).
Notation pw := (elSample (fel p)).
Notation fw := (elSample (elConstrain (fel x) (elSample (fel p)))).
Notation y := (mkTW (skipn n (ew (fel x))) (suffixDurs pw fw)).

Lemma suf_word : ew (fel x) = ew (fel p) ++ skipn n (ew (fel x)).
Proof using Rx Rp Tp Vx. destruct (suf_shape x p w u Rx Rp Tp Vx) as (Hf & _). rewrite <- (firstn_skipn n (ew (fel x))) at 1. f_equal. symmetry. exact Hf. Qed.
Lemma last_snoc (d : list Q) a : last (d ++ [a]) 0 = a. Proof. apply last_last. Qed.
Lemma suf_durs : exists d a g s, td pw = d ++ [a] /\ length d = n /\ td fw = firstn n (td fw) ++ g :: s /\ suffixDurs pw fw = (g - a) :: s /\ a <= g /\
  sameDurs (firstn n (td fw)) d /\ length (firstn n (td fw)) = n /\ length s = (length (ew (fel x)) - n)%nat.
Proof using All.
  destruct (suf_p x p w u Rx Rp Tp Vx Wp) as (E & E2 & L & Ip & Np & _). destruct (suf_fw x p w u Rx Nw Rp Tp Vx Wx Wp) as (If & Ef & Lf & _). destruct (suf_front x p w u Rx Nw Rp Tp Vx Wx Wp) as (F & PN).
  destruct (suf_shape x p w u Rx Rp Tp Vx) as (Hf & Hn & _).
  eexists _, _, (nth n (td fw) 0), (skipn (S n) (td fw)). split; [exact E|]. split; [exact L|]. split; [apply split_at_nth; lia|].
  split; [|split; [exact F|split; [|split; [rewrite firstn_length; lia|rewrite skipn_length; lia]]]].
  - unfold suffixDurs, wordSize. rewrite E2, E, last_snoc. assert (K := split_at_nth (td fw) n ltac:(lia)).
    assert (X : skipn n (td fw) = nth n (td fw) 0 :: skipn (S n) (td fw)). { rewrite K at 1. rewrite skipn_app, firstn_length, Nat.min_l, Nat.sub_diag by lia. cbn [skipn]. rewrite skipn_all2 by (rewrite firstn_length; lia). reflexivity. }
    rewrite X. reflexivity.
  - assert (G2 : firstn n (sampleDurs (ec (fel p)) n) = sampleDurs (ec (fel p)) n) by (apply firstn_all2; lia). rewrite <- G2. apply firstn_same; [lia|lia|exact PN].
Qed.
Lemma suf_forward : mkTimedWord (skipn n (ew (fel x))) (suffixDurs pw fw) = y /\ wfTW y.
Proof using All.
  destruct suf_durs as (d & a & g & s & _ & _ & _ & Es & _ & _ & _ & Ls). rewrite Es. assert (L : length s = length (skipn n (ew (fel x)))) by (rewrite skipn_length; exact Ls). split.
  - unfold mkTimedWord. apply absorb_id; [exact L|]. unfold visible in Vx. rewrite Forall_forall in Vx. intro H. apply (Vx UNOBSERVABLE); [|reflexivity].
    rewrite <- (firstn_skipn n (ew (fel x))). apply in_or_app. right. exact H.
  - unfold wfTW. cbn [tw td length]. rewrite L. reflexivity.
Qed.
Lemma suf_regional : regionalB (frSuffix x p) y /\ nonnegTW y /\ inElem (fel x) (concatTW pw y).
Proof using All.
  destruct suf_forward as (E & W). destruct suf_durs as (d & a & g & s & Ed & Ld & Ef & Es & Hag & SD & L' & Ls). split; [|split].
  - unfold frSuffix. cbv zeta. rewrite E. split; [reflexivity|]. split; [exact W|]. cbn [frFromTimedWord fel ec ew fo]. split.
    + apply tcOf_regionCond. cbn [td]. rewrite Es. discriminate.
    + apply suffixFracs_order.
  - split; [exact W|]. cbn [td]. rewrite Es. constructor; [lra|]. destruct (suf_fw x p w u Rx Nw Rp Tp Vx Wx Wp) as (If & _).
    assert (M := proj1 (regionalF_members x w fw Rx) If). apply Forall_forall. intros q Hq.
    apply (region_nonneg (td w) (td fw) (proj2 M)). { intros r Hr. destruct Nw as [_ F]. rewrite Forall_forall in F. apply F. exact Hr. }
    rewrite Ef. apply in_or_app. right. right. exact Hq.
  - destruct (suf_fw x p w u Rx Nw Rp Tp Vx Wx Wp) as (If & Efw & _). destruct (suf_p x p w u Rx Rp Tp Vx Wp) as (_ & E2 & _). 
    apply (sameTW_elem _ fw); [|exact If]. split.
    + cbn [concatTW tw]. rewrite E2, Efw. apply suf_word.
    + cbn [concatTW td]. rewrite Ed, Es. cbn [hd tl]. rewrite addBack_snoc, <- app_assoc. cbn [app]. rewrite Ef at 1. apply F2Q_app; [exact SD|]. constructor; [lra|apply F2Q_refl].
Qed.
Lemma suf_covers v : inElem (fel x) v -> exists v1 y', inElem (fel p) v1 /\ inElem (fel (frSuffix x p)) y' /\ sameTW v (concatTW v1 y').
Proof using All.
  intro Iv. destruct suf_regional as (Ry & _ & _). destruct suf_durs as (d & a & g & s & Ed & Ld & Ef & Es & Hag & SD & L' & Ls).
  destruct (suf_fw x p w u Rx Nw Rp Tp Vx Wx Wp) as (If & Efw & Lf & _). destruct (suf_p x p w u Rx Rp Tp Vx Wp) as (_ & E2 & _ & Ip & _ & Rp' & _).
  destruct (suf_shape x p w u Rx Rp Tp Vx) as (Hf & Hn & _).
  assert (Mf := proj1 (regionalF_members x w fw Rx) If). assert (Mv := proj1 (regionalF_members x w v Rx) Iv).
  assert (R : sameRegion (d ++ g :: s) (td v)).
  { apply (sameRegion_trans _ (td fw)); [|apply (sameRegion_trans _ (td w)); [apply sameRegion_sym; apply Mf|apply Mv]]. apply sameDurs_region. rewrite Ef at 1.
    apply F2Q_app; [apply F2Q_sym; exact SD|apply F2Q_refl]. }
  destruct (region_splits d a (g - a) g s (td v) ltac:(lra) R) as (c' & A & B). cbv zeta in A, B. rewrite Ld in A, B.
  assert (Lv : length (td v) = S (length (ew (fel x)))) by (rewrite <- (proj1 R), app_length; cbn [length]; lia).
  exists (mkTW (ew (fel p)) (firstn n (td v) ++ [accd (td v) n - c'])), (mkTW (skipn n (ew (fel x))) ((c' - accd (td v) (S n)) :: skipn (S n) (td v))).
  split; [|split].
  - apply (regionalF_members p pw _ Rp'). split; [cbn [tw]; symmetry; exact E2|]. cbn [td]. rewrite Ed. exact A.
  - destruct Ry as (Ey & _ & RC & _). split; [cbn [tw] in *; exact Ey|]. cbn [td] in *. apply (regionCond_exact _ _ RC). rewrite Es. exact B.
  - split.
    + cbn [concatTW tw]. destruct Iv as [Ev _]. rewrite Ev. apply suf_word.
    + cbn [concatTW td hd tl]. rewrite addBack_snoc, <- app_assoc. cbn [app]. rewrite (split_at_nth (td v) n) at 1 by lia. apply F2Q_app; [apply F2Q_refl|]. constructor; [|apply F2Q_refl].
      rewrite (accd_step (td v) n) by lia. ring.
Qed.
End Suffix.

(** ** the diagonal of the condition does not matter for the prefix *)
Lemma upper_fix m i j : (2 <= dim m)%nat -> (i <= j)%nat -> (j < tcSize m)%nat -> getUpperBound (fixDiag m) i j = getUpperBound m i j.
Proof.
  intros D Hij Hj. assert (C := colOf_lt m j D Hj). assert (I : (i + 1 < dim m)%nat) by (unfold tcSize in *; lia).
  assert (N : (i + 1)%nat <> colOf m j) by (unfold colOf; destruct (j =? tcSize m - 1)%nat; lia).
  assert (CF : colOf (fixDiag m) j = colOf m j) by (unfold colOf; rewrite tcSize_fix; reflexivity). unfold getUpperBound. rewrite CF, get_fix by auto.
  replace ((i + 1 =? colOf m j)%nat) with false by (symmetry; apply Nat.eqb_neq; auto). reflexivity.
Qed.
Lemma lower_fix m i j : (2 <= dim m)%nat -> (i <= j)%nat -> (j < tcSize m)%nat -> getLowerBound (fixDiag m) i j = getLowerBound m i j.
Proof.
  intros D Hij Hj. assert (C := colOf_lt m j D Hj). assert (I : (i + 1 < dim m)%nat) by (unfold tcSize in *; lia).
  assert (N : (i + 1)%nat <> colOf m j) by (unfold colOf; destruct (j =? tcSize m - 1)%nat; lia).
  assert (CF : colOf (fixDiag m) j = colOf m j) by (unfold colOf; rewrite tcSize_fix; reflexivity). unfold getLowerBound. rewrite CF, get_fix by auto.
  replace ((colOf m j =? i + 1)%nat) with false by (symmetry; apply Nat.eqb_neq; auto). reflexivity.
Qed.
Lemma regionCond_fix m d : regionCond m d -> regionCond (fixDiag m) d.
Proof.
  intros (L & [D G] & H). split; [rewrite tcSize_fix; exact L|]. split; [split; [rewrite dim_fix; exact D|]|].
  - intros k Hk. rewrite dim_fix in Hk. rewrite get_fix by auto. rewrite Nat.eqb_refl. cbn. lra.
  - intros i j Hij Hj. rewrite tcSize_fix in Hj. rewrite upper_fix, lower_fix by auto. apply H; auto.
Qed.
Lemma sampleRange_fix m acc i : (2 <= dim m)%nat -> (i < tcSize m)%nat -> forall j lo up s, (j <= i)%nat -> sampleRange (fixDiag m) acc i j lo up s = sampleRange m acc i j lo up s.
Proof.
  intros D Hi. induction j as [|j IH]; intros lo up s Hj; [reflexivity|]. cbn [sampleRange]. rewrite upper_fix, lower_fix by (auto; lia). apply IH. lia.
Qed.
Lemma sampleDurs_fix m : (2 <= dim m)%nat -> forall k, (k <= tcSize m)%nat -> sampleDurs (fixDiag m) k = sampleDurs m k.
Proof.
  intros D. induction k as [|k IH]; intro H; [reflexivity|]. rewrite !sampleDurs_step, IH by lia. f_equal. unfold sampleAt. rewrite upper_fix, lower_fix by (auto; lia). rewrite sampleRange_fix by (auto; lia). reflexivity.
Qed.
Definition fixFR (p : frel) : frel := mkFR (mkEL (ew (fel p)) (fixDiag (ec (fel p)))) (fo p).
Lemma fixFR_regional p u : regionalF p u -> regionalF (fixFR p) u /\ wfElem (fel (fixFR p)) /\ elSample (fel (fixFR p)) = elSample (fel p) /\ (forall v, inElem (fel (fixFR p)) v <-> inElem (fel p) v).
Proof.
  intros (A & B & C & D). assert (DD : (2 <= dim (ec (fel p)))%nat) by apply C. assert (Sz : tcSize (ec (fel p)) = S (length (ew (fel p)))).
  { rewrite <- A. unfold wfTW in B. rewrite <- B. symmetry. apply C. }
  split; [|split; [|split]].
  - split; [exact A|]. split; [exact B|]. split; [apply regionCond_fix; exact C|exact D].
  - split; cbn [fixFR fel ec ew]; [apply okCond_fix; eapply region_loose; exact C|rewrite tcSize_fix; exact Sz].
  - unfold elSample. cbn [fixFR fel ec ew]. rewrite sampleDurs_fix by (auto; lia). reflexivity.
  - intro v. unfold inElem. cbn [fixFR fel ec ew]. rewrite inCond_fix by auto. reflexivity.
Qed.
Theorem suffix_covers (x p : frel) (w u : tword) : regionalF x w -> nonnegTW w -> regionalF p u -> timedPrefix u w -> visible (fel x) -> okCond (ec (fel x)) ->
  (exists y, nonnegTW y /\ regionalB (frSuffix x p) y /\ inElem (fel x) (concatTW (elSample (fel p)) y)) /\
  (forall v, inElem (fel x) v -> exists v1 y, inElem (fel p) v1 /\ inElem (fel (frSuffix x p)) y /\ sameTW v (concatTW v1 y)).
Proof.
  intros Rx Nw Rp Tp Vx Ox. destruct (fixFR_regional p u Rp) as (Rp' & Wp & Es & Em).
  assert (Wx : wfElem (fel x)). { split; [exact Ox|]. destruct Rx as (A & B & C & _). rewrite <- A. unfold wfTW in B. rewrite <- B. symmetry. apply C. }
  assert (E : frSuffix x (fixFR p) = frSuffix x p) by (unfold frSuffix; rewrite Es; reflexivity).
  destruct (suf_regional x (fixFR p) w u Rx Nw Rp' Tp Vx Wx Wp) as (A1 & A2 & A3). rewrite E, Es in *. split; [eexists; split; [exact A2|split; [exact A1|exact A3]]|].
  intros v Iv. destruct (suf_covers x (fixFR p) w u Rx Nw Rp' Tp Vx Wx Wp v Iv) as (v1 & y & B1 & B2 & B3). rewrite E in B2. exists v1, y. split; [apply Em; exact B1|]. split; [exact B2|exact B3].
Qed.
