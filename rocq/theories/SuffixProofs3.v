(** Proofs about ForwardRegionalElementaryLanguage::suffix, continued. *)
From Coq Require Import QArith ZArith Bool List Lia Lqa Qround Arith Sorted Permutation.
From Verif Require Import BoundsModel BoundsProofs ConstraintModel ZoneModel ZoneSpec ZoneProofs
  AutomatonModel TimedWordModel TimedWordSpec TimedWordProofs TimedConditionModel TimedConditionSpec TimedConditionProofs TimedConditionProofs2
  TimedConditionProofs3 TimedConditionProofs4 ElementaryModel ElementarySpec ElementaryProofs ElementaryProofs2 RegionalModel RegionalSpec RegionalProofs RegionalProofs2 RegionalProofs3
  RegionalProofs4 RegionalProofs5 RegionalProofs6 RegionInvariance CexProofs CexProofs2 SuffixModel SuffixProofs SuffixProofs2.
Import ListNotations.
Open Scope Q_scope.

Lemma firstn_same (a b : list Q) n : (n <= length a)%nat -> (n <= length b)%nat -> (forall i, (i < n)%nat -> nth i a 0 == nth i b 0) -> sameDurs (firstn n a) (firstn n b).
Proof.
  revert a b. induction n as [|n IH]; intros [|p a] [|q b] A B H; cbn in *; try constructor; try lia.
  - apply (H 0%nat). lia.
  - apply IH; try lia. intros i Hi. apply (H (S i)). lia.
Qed.
Lemma split_at_nth (a : list Q) n : (n < length a)%nat -> a = firstn n a ++ nth n a 0 :: skipn (S n) a.
Proof. revert a. induction n as [|n IH]; intros [|q a] H; cbn in *; try lia; [reflexivity|]. rewrite <- IH by lia. reflexivity. Qed.
Lemma region_unit m d d' i j : regionCond m d -> inCond m d' -> (i <= j)%nat -> (j < tcSize m)%nat -> forall q,
  (bsat (getUpperBound m i j) q /\ bsat (getLowerBound m i j) (- q)) <-> sameUnit (T d' i j) q.
Proof.
  intros R I Hij Hj q. assert (R' := regionCond_same m d d' R (proj1 (regionCond_exact m d R d') I)). destruct R' as (_ & _ & H). apply unitBounds_sat. apply H; auto.
Qed.

Section Suffix.
Context (x p : frel) (w u : tword).
Context (Rx : regionalF x w) (Nw : nonnegTW w) (Rp : regionalF p u) (Tp : timedPrefix u w) (Vx : visible (fel x)) (Wx : wfElem (fel x)) (Wp : wfElem (fel p)).
Notation n := (length (ew (fel p))).
Notation pw := (elSample (fel p)).
Notation fw := (elSample (elConstrain (fel x) (elSample (fel p)))).
Notation c := (elConstrain (fel x) (elSample (fel p))).
Notation pre' := (sampleDurs (ec (elConstrain (fel x) (elSample (fel p)))) (length (ew (fel p)))).
Notation pre := (sampleDurs (ec (fel p)) (length (ew (fel p)))).
Notation last_p := (sampleAt (ec (fel p)) (sampleDurs (ec (fel p)) (length (ew (fel p)))) (length (ew (fel p)))).

Lemma suf_shape : ew (fel p) = firstn n (ew (fel x)) /\ (n <= length (ew (fel x)))%nat /\ visible (fel p) /\ tw u = ew (fel p) /\ tw w = ew (fel x) /\ length (td w) = S (length (ew (fel x))).
Proof using Rx Rp Tp Vx.
  destruct (timedPrefix_shape u w Tp) as (A & B & _). assert (E1 : tw u = ew (fel p)) by apply Rp. assert (E2 : tw w = ew (fel x)) by apply Rx.
  assert (Ww : wfTW w) by apply Rx. unfold wfTW in Ww. rewrite E2 in Ww. rewrite E1, E2 in *. split; [exact B|]. split; [lia|]. split; [|auto].
  unfold visible in *. rewrite B. rewrite Forall_forall in *. intros a Ha. apply Vx. rewrite <- (firstn_skipn n (ew (fel x))). apply in_or_app. left. exact Ha.
Qed.
Lemma suf_p : td pw = pre ++ [last_p] /\ tw pw = ew (fel p) /\ length pre = n /\ inElem (fel p) pw /\ nonnegTW pw /\ regionalF p pw /\ partialIn (ec (fel p)) pre /\ boundedCond (ec (fel p)).
Proof using Rx Rp Tp Vx Wp.
  destruct suf_shape as (_ & _ & V & Eu & _). assert (RC : regionCond (ec (fel p)) (td u)) by apply Rp. assert (B := regionCond_bounded _ _ RC).
  destruct (elSample_td (fel p) Wp B V) as [E1 E2]. destruct (elSample_in (fel p) Wp B V) as [I W]. rewrite sampleDurs_step in E1. destruct Wp as [O S].
  destruct (sampleDurs_ok (ec (fel p)) O B n ltac:(lia)) as [L P]. split; [exact E1|]. split; [exact E2|]. split; [exact L|]. split; [exact I|].
  assert (M := proj1 (regionalF_members p u pw Rp) I). split; [|split; [|split; [exact P|exact B]]].
  - split; [exact W|]. apply Forall_forall. apply (region_nonneg (td u) (td pw) (proj2 M)). intros q Hq. destruct Tp as [[_ F] _]. rewrite Forall_forall in F. apply F. exact Hq.
  - apply (regionalF_same p u); [exact Rp|exact (proj1 M)|exact (proj2 M)].
Qed.
Lemma suf_ext : exists v, timedPrefix pw v /\ inElem (fel x) v /\ inElem (elConstrain (fel x) pw) v.
Proof using All.
  destruct suf_p as (E & E2 & L & I & N & R & _). destruct suf_shape as (Hf & Hn & _ & Eu & Ew & Lw).
  destruct (regionalF_extension p x u pw w Rp R N Tp Rx) as (v & Tv & Rv). exists v. split; [exact Tv|].
  assert (Iv : inElem (fel x) v) by (apply (regionalF_members x v v Rv); split; [reflexivity|apply sameRegion_refl]). split; [exact Iv|].
  apply (elConstrain_exact (fel x) pw v Wx). { unfold wordSize. rewrite E2. destruct Wx as [_ S]. lia. }
  split; [exact Iv|]. intros i Hi. unfold wordSize in Hi. rewrite E2 in Hi. destruct (timedPrefix_shape pw v Tv) as (A & _ & t & B & _). rewrite E2 in *.
  assert (K := Forall2_nth_eq _ _ B i ltac:(rewrite E, app_length; cbn [length]; lia)). rewrite app_nth1 in K by (rewrite firstn_length; lia). rewrite nth_firstn_lt in K by auto. symmetry. exact K.
Qed.
Lemma suf_c : wfElem (elConstrain (fel x) pw) /\ boundedCond (ec (elConstrain (fel x) pw)) /\ tcSize (ec (elConstrain (fel x) pw)) = S (length (ew (fel x))).
Proof using All.
  destruct suf_p as (E & E2 & L & _). destruct suf_shape as (Hf & Hn & _). destruct suf_ext as (v & _ & _ & I).
  assert (RC : regionCond (ec (fel x)) (td w)) by apply Rx. assert (B := regionCond_bounded _ _ RC).
  assert (K : (wordSize pw <= tcSize (ec (fel x)))%nat) by (unfold wordSize; rewrite E2; destruct Wx as [_ S]; lia).
  destruct (elConstrain_shape (fel x) pw v Wx K B I) as (A1 & A2 & A3). split; [exact A1|]. split; [exact A2|]. rewrite A3. apply Wx.
Qed.
Lemma suf_c_in v : inElem (elConstrain (fel x) pw) v <-> inElem (fel x) v /\ forall i, (i < n)%nat -> nth i (td v) 0 == nth i pre 0.
Proof using All.
  destruct suf_p as (E & E2 & L & _). destruct suf_shape as (Hf & Hn & _).
  assert (K : (wordSize pw <= tcSize (ec (fel x)))%nat) by (unfold wordSize; rewrite E2; destruct Wx as [_ S]; lia).
  rewrite (elConstrain_exact (fel x) pw v Wx K). unfold wordSize. rewrite E2, E. split; intros [A B]; (split; [exact A|]); intros i Hi; specialize (B i Hi); rewrite app_nth1 in * by lia; exact B.
Qed.
Lemma suf_fw : inElem (fel x) fw /\ tw fw = ew (fel x) /\ length (td fw) = S (length (ew (fel x))) /\
  exists rest, td fw = sampleDurs (ec (elConstrain (fel x) pw)) n ++ sampleAt (ec (elConstrain (fel x) pw)) (sampleDurs (ec (elConstrain (fel x) pw)) n) n :: rest.
Proof using All.
  destruct suf_c as (A1 & A2 & A3). destruct suf_shape as (Hf & Hn & _). assert (V : visible (elConstrain (fel x) pw)) by exact Vx.
  destruct (elSample_td _ A1 A2 V) as [E1 E2]. destruct (elSample_in _ A1 A2 V) as [I _]. split; [apply (suf_c_in fw); exact I|]. split; [exact E2|].
  assert (L : length (td fw) = tcSize (ec (elConstrain (fel x) pw))) by apply I. split; [rewrite L; exact A3|].
  assert (LE : (n <= length (ew (fel x)))%nat) by lia.
  change (ew (elConstrain (fel x) pw)) with (ew (fel x)) in E1. rewrite E1. replace (S (length (ew (fel x)))) with (S n + (length (ew (fel x)) - n))%nat by lia.
  destruct (sampleDurs_prefix (ec (elConstrain (fel x) pw)) (length (ew (fel x)) - n) (S n)) as (r & _ & Er). exists r. rewrite Er, sampleDurs_step, <- app_assoc. reflexivity.
Qed.

(** the prefix ends before the sampled word goes on *)
Lemma suf_front : last_p <= nth n (td fw) 0 /\ forall i, (i < n)%nat -> nth i (td fw) 0 == nth i pre 0.
Proof using All.
  destruct suf_p as (E & E2 & L & Ip & Np & Rp' & Pp & Bp). destruct suf_shape as (Hf & Hn & _ & Eu & Ew & Lw). destruct suf_c as ([Oc Sc] & Bc & Tc).
  destruct suf_fw as (If & Ef & Lf & rest & Efw). 
  assert (Icf : inElem c fw) by (destruct (elSample_in c (conj Oc Sc) Bc Vx) as [I _]; exact I).
  assert (PN := proj2 (proj1 (suf_c_in fw) Icf)). split; [|exact PN].
  destruct (sampleDurs_ok (ec c) Oc Bc n ltac:(lia)) as [L' P'].
  assert (F : nth n (td fw) 0 = sampleAt (ec c) pre' n) by (rewrite Efw, app_nth2 by lia; rewrite L', Nat.sub_diag; reflexivity).
  assert (G2 : firstn n pre = pre) by (apply firstn_all2; lia).
  assert (G1 : firstn n (td fw) = pre') by (rewrite Efw, firstn_app, L', Nat.sub_diag, firstn_all2 by lia; cbn; apply app_nil_r).
  assert (SD : sameDurs pre' pre) by (rewrite <- G1, <- G2; apply firstn_same; [lia|lia|exact PN]).
  rewrite F. destruct (Qlt_le_dec (sampleAt (ec c) pre' n) last_p) as [Lt|Ge]; [exfalso|exact Ge].
  (* a word of the language that goes on for at least as long *)
  destruct suf_ext as (v & Tv & Iv & Icv). destruct (timedPrefix_shape pw v Tv) as (A & _ & t & B & _ & Bt). rewrite E2 in *.
  assert (Et : last_p == t). { assert (K := Forall2_nth_eq _ _ B n ltac:(rewrite E, app_length; cbn [length]; lia)). rewrite E, !app_nth2 in K by (rewrite ?firstn_length; lia). rewrite L, firstn_length, Nat.min_l, Nat.sub_diag in K by lia. exact K. }
  assert (Pv : partialIn (ec c) (pre' ++ [nth n (td v) 0])).
  { apply (partial_ext _ (firstn n (td v) ++ [nth n (td v) 0])).
    - apply F2Q_app; [|apply F2Q_refl]. apply (F2Q_trans _ pre); [|apply F2Q_sym; exact SD]. rewrite <- G2. apply firstn_same; [lia|lia|]. intros i Hi. apply (proj2 (proj1 (suf_c_in v) Icv)). exact Hi.
    - apply (partial_app _ _ (skipn (S n) (td v))). rewrite <- app_assoc. cbn [app]. rewrite <- split_at_nth by lia. apply inCond_partial. apply Icv. }
  assert (Pf : partialIn (ec c) (pre' ++ [sampleAt (ec c) pre' n])) by (assert (K := sampleAt_ok (ec c) pre' Oc Bc ltac:(lia) P'); rewrite L' in K; exact K).
  assert (Pm : partialIn (ec c) (pre' ++ [last_p])).
  { apply partial_snoc; [lia|exact P'|]. intros k Hk. assert (K1 := proj1 (partial_snoc (ec c) pre' _ ltac:(lia) P') Pv k Hk). assert (K2 := proj1 (partial_snoc (ec c) pre' _ ltac:(lia) P') Pf k Hk).
    split; [eapply bsat_between; [apply K2|apply K1|lra|lra]|eapply bsat_between; [apply K1|apply K2|lra|lra]]. }
  destruct (partial_extends (ec c) Oc (tcSize (ec c) - S n) (pre' ++ [last_p]) ltac:(rewrite app_length; cbn [length]; lia) Pm) as (e & Le & Ie).
  assert (Xe : inCond (ec (fel x)) ((pre' ++ [last_p]) ++ e)).
  { assert (K : inElem c (mkTW (ew (fel x)) ((pre' ++ [last_p]) ++ e))) by (split; [reflexivity|exact Ie]). apply (suf_c_in _) in K. apply K. }
  assert (RCx : regionCond (ec (fel x)) (td w)) by apply Rx. assert (RCp : regionCond (ec (fel p)) (td pw)) by apply Rp'.
  assert (Sp : tcSize (ec (fel p)) = S n) by apply Wp. assert (Sx : tcSize (ec (fel x)) = S (length (ew (fel x)))) by apply Wx.
  assert (Q1 : last_p == sampleAt (ec c) pre' n).
  { apply (middle_unique (fun t => partialIn (ec (fel p)) (pre ++ [t])) (fun t => partialIn (ec c) (pre' ++ [t]))).
    - intro t0. split; intro H.
      + assert (Px : partialIn (ec (fel x)) (pre' ++ [t0])).
        { apply partial_snoc; [lia|intros i j Hij Hj; refine (inCond_partial _ _ Xe i j Hij _ ) || idtac|].
          - assert (K := inCond_partial _ _ Xe). rewrite <- app_assoc in K. exact (partial_app _ _ _ K i j Hij Hj).
          - intros k Hk. rewrite L' in *. apply (region_unit (ec (fel x)) (td w) _ k n RCx Xe Hk ltac:(lia)).
            assert (Hp : inCond (ec (fel p)) (pre ++ [t0])) by (apply partial_inCond; [rewrite app_length; cbn [length]; lia|exact H]).
            assert (U := proj1 (regionCond_exact _ _ RCp _) Hp). destruct U as [_ U]. specialize (U k n Hk ltac:(rewrite E, app_length; cbn [length]; lia)). rewrite E in U.
            eapply sameUnit_ext; [| |exact U].
            * rewrite (T_app_lt (pre' ++ [last_p]) e k n Hk) by (rewrite app_length; cbn [length]; lia). symmetry. apply T_ext. apply F2Q_app; [exact SD|apply F2Q_refl].
            * rewrite T_acc by auto. rewrite accd_snoc by lia. rewrite (accd_end (pre ++ [t0])) by (rewrite app_length; cbn [length]; lia). rewrite (accd_ext _ _ SD k). ring. }
        destruct (partial_extends (ec (fel x)) (proj1 Wx) (tcSize (ec (fel x)) - S n) (pre' ++ [t0]) ltac:(rewrite app_length; cbn [length]; lia) Px) as (e' & _ & Ie').
        assert (K : inElem c (mkTW (ew (fel x)) ((pre' ++ [t0]) ++ e'))).
        { apply suf_c_in. split; [split; [reflexivity|exact Ie']|]. intros i Hi. cbn [td]. rewrite <- app_assoc, app_nth1 by lia. apply (Forall2_nth_eq _ _ SD). lia. }
        exact (partial_app _ _ _ (inCond_partial _ _ (proj2 K))).
      + destruct (partial_extends (ec c) Oc (tcSize (ec c) - S n) (pre' ++ [t0]) ltac:(rewrite app_length; cbn [length]; lia) H) as (e' & _ & Ie').
        assert (K : inElem c (mkTW (ew (fel x)) ((pre' ++ [t0]) ++ e'))) by (split; [reflexivity|exact Ie']). apply (suf_c_in _) in K. destruct K as [[_ Xe'] _]. cbn [td] in Xe'.
        apply partial_snoc; [lia|exact Pp|]. intros k Hk. rewrite L in *. apply (region_unit (ec (fel p)) (td pw) (td pw) k n RCp (proj2 Ip) Hk ltac:(lia)). rewrite E.
        assert (U := proj1 (region_unit (ec (fel x)) (td w) _ k n RCx Xe Hk ltac:(lia) _) (inCond_partial _ _ Xe' k n Hk ltac:(rewrite !app_length; cbn [length]; lia))).
        eapply sameUnit_ext; [| |exact U].
        * rewrite (T_app_lt (pre' ++ [last_p]) e k n Hk) by (rewrite app_length; cbn [length]; lia). apply T_ext. apply F2Q_app; [exact SD|apply F2Q_refl].
        * rewrite (T_app_lt (pre' ++ [t0]) e' k n Hk) by (rewrite app_length; cbn [length]; lia). rewrite T_acc by auto. rewrite accd_snoc by lia. rewrite (accd_end (pre' ++ [t0])) by (rewrite app_length; cbn [length]; lia). rewrite (accd_ext _ _ SD k). ring.
    - exists last_p. apply inCond_partial. rewrite <- E. apply Ip.
    - assert (K := sampleAt_middle (ec (fel p)) pre (proj1 Wp) Bp ltac:(lia) Pp). rewrite L in K. exact K.
    - assert (K := sampleAt_middle (ec c) pre' Oc Bc ltac:(lia) P'). rewrite L' in K. exact K. }
  lra.
Qed.
End Suffix.
