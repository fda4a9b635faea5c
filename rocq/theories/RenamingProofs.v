From Coq Require Import QArith Bool List Arith Lia Lqa.
From Verif Require Import BoundsModel BoundsProofs ConstraintModel ZoneModel ZoneSpec ZoneProofs ZoneProofs2 ZoneProofs3 ZoneProofs4 ZoneProofs6 AutomatonModel
  TimedWordModel TimedWordSpec TimedWordProofs TimedConditionModel TimedConditionSpec TimedConditionProofs TimedConditionProofs4 ElementaryModel
  ElementarySpec ElementaryProofs ElementaryProofs2 LooseProofs RegionalModel RegionalSpec OracleModel SymbolicModel SymbolicSpec CexModel CexSpec CexProofs CexProofs2
  RenamingModel RenamingSpec PropertiesZones.
Import ListNotations.
Open Scope Q_scope.

(** * sums of a concatenation *)
Lemma wf_td w : wfTW w -> td w <> [].
Proof. unfold wfTW. destruct (td w); [discriminate|congruence]. Qed.
Lemma addBack_length d q : length (addBack d q) = length d.
Proof. destruct d as [|a d'] using rev_ind; [reflexivity|]. rewrite addBack_snoc, !app_length. reflexivity. Qed.
Lemma concat_wf p s : wfTW p -> wfTW s -> wfTW (concatTW p s).
Proof.
  intros Wp Ws. assert (N := wf_td s Ws). unfold wfTW, concatTW in *. cbn [tw td]. rewrite !app_length, addBack_length.
  destruct (td s) as [|b r]; [congruence|]. cbn [tl length] in *. lia.
Qed.
Lemma hd_tl_acc s : s <> [] -> hd 0 s + accd (tl s) 0 == accd s 0.
Proof. destruct s as [|b r]; [congruence|]. intros _. cbn [hd tl]. rewrite accd_cons. reflexivity. Qed.
Lemma accd_tl s k : s <> [] -> accd (tl s) k = accd s (S k).
Proof. destruct s as [|b r]; [congruence|]. intros _. reflexivity. Qed.
Lemma accd_concat_lo p s k : wfTW p -> wfTW s -> (k <= length (tw p))%nat ->
  accd (td (concatTW p s)) k == accd (td p) k + accd (td s) 0.
Proof.
  intros Wp Ws Hk. cbn [concatTW td]. unfold wfTW in Wp. assert (L := addBack_length (td p) (hd 0 (td s))).
  rewrite accd_app by lia. rewrite accd_addBack by (try lia; apply wf_td; exact Wp).
  rewrite <- (hd_tl_acc (td s)) by (apply wf_td; auto). ring.
Qed.
Lemma accd_concat_hi p s k : wfTW p -> wfTW s ->
  accd (td (concatTW p s)) (S (length (tw p)) + k) = accd (td s) (S k).
Proof.
  intros Wp Ws. cbn [concatTW td]. assert (L := addBack_length (td p) (hd 0 (td s))). unfold wfTW in Wp.
  rewrite accd_app2 by lia. rewrite L, Wp. replace (S (length (tw p)) + k - S (length (tw p)))%nat with k by lia.
  apply accd_tl, wf_td, Ws.
Qed.

Lemma inElem_wf x w : wfElem x -> inElem x w -> wfTW w.
Proof. intros [_ S] [E [L _]]. unfold wfTW. rewrite L, S, E. reflexivity. Qed.
Lemma inElem_wfL x w : looseElem x -> inElem x w -> wfTW w.
Proof. intros [_ S] [E [L _]]. unfold wfTW. rewrite L, S, E. reflexivity. Qed.
Lemma wfElem_inhabited x : wfElem x -> exists w, inElem x w.
Proof.
  intros [[D [C [v Hv]]] E]. exists (mkTW (ew x) (durs (tcSize (ec x)) v)). split; [reflexivity|]. apply inZone_durs; auto.
Qed.
Lemma dim_size x : wfElem x -> dim (ec x) = S (S (length (ew x))).
Proof. intros [[D _] E]. unfold tcSize in E. lia. Qed.

(** * one cell *)
Definition both (n : nat) (d d' : list Q) : valuation := fun k => if (k <? n)%nat then accd d k else accd d' (k - n).

Section Cell.
Variables (f : tword -> bool) (x y s : elem) (ren : list (nat * nat)).
Hypotheses (Wx : wfElem x) (Wy : wfElem y) (Ws : looseElem s) (RI : renIn ren x y).
Let n := length (ew x).
Let m := length (ew y).
Let cv := length (ew s).
Let N := (S n + cv)%nat.
Let M := (S m + cv)%nat.
Let L := ec (elConcat x s).
Let R := ec (elConcat y s).

Lemma cellN : dim L = S N.
Proof. unfold L. rewrite dim_size by (apply wfElem_concatL; auto). cbn [elConcat ew]. rewrite app_length. unfold N, n, cv. lia. Qed.
Lemma cellM : dim R = S M.
Proof. unfold R. rewrite dim_size by (apply wfElem_concatL; auto). cbn [elConcat ew]. rewrite app_length. unfold M, m, cv. lia. Qed.

(** a pair of words with the same suffix is a point of the juxtaposition *)
Lemma both_point c c' p p' t : dim c = S N -> dim c' = S M -> okCond c -> okCond c' -> inElem x p -> inElem y p' -> inElem s t ->
  (inZone (juxCommon c c' cv) (both N (td (concatTW p t)) (td (concatTW p' t))) <->
   inCond c (td (concatTW p t)) /\ inCond c' (td (concatTW p' t))).
Proof.
  intros Dc Dc' Oc Oc' Ip Ip' It. assert (Wp := inElem_wf x p Wx Ip). assert (Wp' := inElem_wf y p' Wy Ip'). assert (Wt := inElem_wfL s t Ws It).
  assert (Ln : length (tw p) = n) by (destruct Ip as [E _]; rewrite E; reflexivity).
  assert (Lm : length (tw p') = m) by (destruct Ip' as [E _]; rewrite E; reflexivity).
  assert (Lt : length (tw t) = cv) by (destruct It as [E _]; rewrite E; reflexivity).
  assert (Wc := concat_wf p t Wp Wt). assert (Wc' := concat_wf p' t Wp' Wt). unfold wfTW in Wc, Wc'. cbn [concatTW tw] in Wc, Wc'. rewrite app_length in Wc, Wc'.
  change (length (td (concatTW p t)) = S (length (tw p) + length (tw t))) in Wc.
  change (length (td (concatTW p' t)) = S (length (tw p') + length (tw t))) in Wc'.
  rewrite (C16_juxtapose_common_exact c c' cv) by (try lia; try apply Oc'; rewrite ?Dc, ?Dc'; cbn [pred]; unfold N, M; lia).
  rewrite (inCond_iff c) by auto. rewrite (inCond_iff c') by auto. rewrite Dc, Dc'. cbn [pred]. unfold tcSize. rewrite Dc, Dc'. cbn [pred].
  set (d := td (concatTW p t)) in *. set (d' := td (concatTW p' t)) in *.
  assert (A : forall k, (k < N)%nat -> both N d d' k = accd d k) by (intros k Hk; unfold both; apply Nat.ltb_lt in Hk; rewrite Hk; reflexivity).
  assert (B : forall k, (N <= k)%nat -> both N d d' k = accd d' (k - N)) by (intros k Hk; unfold both; apply Nat.ltb_ge in Hk; rewrite Hk; reflexivity).
  assert (HH : forall k, (S m <= k)%nat -> (k < M)%nat -> accd d' k = accd d (N - cv + (k - (M - cv)))).
  { intros k H1 H2. replace k with (S (length (tw p')) + (k - S m))%nat at 1 by lia. unfold d', d. rewrite accd_concat_hi by auto.
    replace (N - cv + (k - (M - cv)))%nat with (S (length (tw p)) + (k - S m))%nat by (unfold N, M in *; lia).
    rewrite accd_concat_hi by auto. reflexivity. }
  assert (X1 : inZone c (both N d d') <-> inZone c (accd d)).
  { assert (U : agree (pred (dim c)) (both N d d') (accd d)) by (rewrite Dc; cbn [pred]; intros k Hk; rewrite A by auto; reflexivity).
    split; apply inZone_ext; auto. intros k Hk. symmetry. apply U. auto. }
  assert (X2 : inZone c' (fun k => if (k <? M - cv)%nat then both N d d' (N + k)%nat else both N d d' (N - cv + (k - (M - cv)))%nat) <-> inZone c' (accd d')).
  { assert (U : agree (pred (dim c')) (fun k => if (k <? M - cv)%nat then both N d d' (N + k)%nat else both N d d' (N - cv + (k - (M - cv)))%nat) (accd d')).
    { rewrite Dc'; cbn [pred]; intros k Hk. cbv beta. destruct (k <? M - cv)%nat eqn:E; [apply Nat.ltb_lt in E|apply Nat.ltb_ge in E].
      - rewrite B by lia. replace (N + k - N)%nat with k by lia. reflexivity.
      - rewrite A by (unfold N, M in *; lia). rewrite HH by (unfold M in *; lia). reflexivity. }
    split; apply inZone_ext; auto. intros k Hk. symmetry. apply U. auto. }
  rewrite X1, X2. unfold N, M. split; [intros [H1 H2]; repeat split; auto; lia|tauto].
Qed.
Lemma both_related p p' t : inElem x p -> inElem y p' -> inElem s t -> related ren p p' ->
  forall q, In q ren -> both N (td (concatTW p t)) (td (concatTW p' t)) (fst q) == both N (td (concatTW p t)) (td (concatTW p' t)) (N + snd q)%nat.
Proof.
  intros Ip Ip' It Rel [i j] Hq. destruct (RI i j Hq) as [Hi Hj]. assert (H := Rel i j Hq). cbn [fst snd].
  assert (Wp := inElem_wf x p Wx Ip). assert (Wp' := inElem_wf y p' Wy Ip'). assert (Wt := inElem_wfL s t Ws It).
  assert (Ln : length (tw p) = n) by (destruct Ip as [E _]; rewrite E; reflexivity).
  assert (Lm : length (tw p') = m) by (destruct Ip' as [E _]; rewrite E; reflexivity).
  rewrite since_acc in H by (unfold wfTW in Wp; fold n in Hi; lia). rewrite since_acc in H by (unfold wfTW in Wp'; fold m in Hj; lia).
  unfold both. fold n in Hi. fold m in Hj. assert (E1 : (i <? N)%nat = true) by (apply Nat.ltb_lt; unfold N; lia). assert (E2 : (N + j <? N)%nat = false) by (apply Nat.ltb_ge; lia).
  rewrite E1, E2. replace (N + j - N)%nat with j by lia. rewrite !accd_concat_lo by (auto; lia). rewrite H. reflexivity.
Qed.

Variables (a b : list tcond).
Hypotheses (Ha : exactCell f (elConcat x s) a) (Hb : exactCell f (elConcat y s) b).
Let za := juxSetLeft a R cv.
Let zb := juxSetRight L b cv.

Lemma cell_a c : In c a -> okCond c /\ dim c = S N.
Proof.
  intro H. destruct Ha as [_ [A _]]. specialize (A c H). split; [apply A|]. apply dim_size in A. cbn [ec ew elConcat] in A. rewrite A, app_length. unfold N, n, cv. lia.
Qed.
Lemma cell_b c : In c b -> okCond c /\ dim c = S M.
Proof.
  intro H. destruct Hb as [_ [A _]]. specialize (A c H). split; [apply A|]. apply dim_size in A. cbn [ec ew elConcat] in A. rewrite A, app_length. unfold M, m, cv. lia.
Qed.
Lemma okL : okCond L. Proof. apply (wfElem_concatL x s); auto. Qed.
Lemma okR : okCond R. Proof. apply (wfElem_concatL y s); auto. Qed.

(** a member of a cell is a concatenation *)
Lemma cell_split z cs c d : wfElem z -> exactCell f (elConcat z s) cs -> In c cs -> inCond c d ->
  exists p t, inElem z p /\ inElem s t /\ sameDurs d (td (concatTW p t)).
Proof.
  intros Wz [E [_ _]] Hc Hd. destruct (proj1 (E (mkTW (ew (elConcat z s)) d))) as [K _].
  { exists c. split; [auto|]. split; [reflexivity|exact Hd]. }
  apply elConcat_exactL in K; auto. destruct K as [p [t [A [B [_ C]]]]]. exists p, t. auto.
Qed.
Lemma closed_common c c' k : nonemptyZ (juxCommon c c' k) -> closed (juxCommon c c' k).
Proof.
  unfold juxCommon. cbv zeta. intros [w Hw]. apply canonize_closed. exact (nonneg2_of_point _ _ Hw).
Qed.
Lemma za_spec z : In z za -> fst z = N /\ dim (snd z) = (N + M - cv + 1)%nat /\ closed (snd z) /\ nonemptyZ (snd z).
Proof.
  intro H. apply in_map_iff in H. destruct H as [c [<- Hc]]. destruct (cell_a c Hc) as [Oc Dc]. cbn [fst snd].
  assert (X : nonemptyZ (juxCommon c R cv)).
  { destruct Oc as [D [C [v Hv]]]. assert (K := inZone_durs c v D Hv). destruct (cell_split x a c _ Wx Ha Hc K) as [p [t [Ip [It E]]]].
    destruct (wfElem_inhabited y Wy) as [p' Ip']. eexists. apply (both_point c R p p' t); auto using okR, cellM; [split; [exact D|split; [exact C|exists v; exact Hv]]|].
    split; [eapply inCond_same; eauto|]. assert (Z : inElem (elConcat y s) (concatTW p' t)) by (apply elConcat_exactL; auto; exists p', t; auto using sameTW_refl). apply Z. }
  split; [unfold tcSize; rewrite Dc; reflexivity|]. split; [rewrite dim_juxCommon, Dc, cellM; reflexivity|]. split; [apply closed_common; auto|auto].
Qed.
Lemma zb_spec z : In z zb -> fst z = N /\ dim (snd z) = (N + M - cv + 1)%nat /\ closed (snd z) /\ nonemptyZ (snd z).
Proof.
  intro H. apply in_map_iff in H. destruct H as [c [<- Hc]]. destruct (cell_b c Hc) as [Oc Dc]. cbn [fst snd].
  assert (X : nonemptyZ (juxCommon L c cv)).
  { destruct Oc as [D [C [v Hv]]]. assert (K := inZone_durs c v D Hv). destruct (cell_split y b c _ Wy Hb Hc K) as [p' [t [Ip' [It E]]]].
    destruct (wfElem_inhabited x Wx) as [p Ip]. eexists. apply (both_point L c p p' t); auto using okL, cellN; [split; [exact D|split; [exact C|exists v; exact Hv]]|].
    split; [|eapply inCond_same; eauto]. assert (Z : inElem (elConcat x s) (concatTW p t)) by (apply elConcat_exactL; auto; exists p, t; auto using sameTW_refl). apply Z. }
  split; [unfold tcSize; rewrite cellN; reflexivity|]. split; [rewrite dim_juxCommon, Dc, cellN; reflexivity|]. split; [apply closed_common; auto|auto].
Qed.
Lemma jzsAdd_js zs k : (forall z, In z zs -> fst z = k) -> map snd (jzsAdd zs ren) = jsAddRenaming k (map snd zs) ren.
Proof.
  unfold jzsAdd, jsAddRenaming. induction zs as [|z zs IH]; intro H; [reflexivity|]. cbn [map filter]. rewrite (H z) by (left; auto). cbn [snd].
  destruct (isSatNoCanon (addRenaming k (snd z) ren)); cbn [map snd]; rewrite IH by (intros; apply H; right; auto); reflexivity.
Qed.
Lemma renOk_cell : forall q, In q ren -> (S (fst q) < N + M - cv + 1)%nat /\ (snd q + N + 1 < N + M - cv + 1)%nat.
Proof. intros [i j] H. destruct (RI i j H) as [A B]. fold n in A. fold m in B. cbn [fst snd]. unfold N, M. lia. Qed.

Lemma cell_sound : jzsEq (jzsAdd za ren) (jzsAdd zb ren) = true ->
  forall p p' t, inElem x p -> inElem y p' -> related ren p p' -> inElem s t -> f (concatTW p t) = f (concatTW p' t).
Proof.
  intros E p p' t Ip Ip' Rel It. unfold jzsEq in E.
  rewrite (jzsAdd_js za N), (jzsAdd_js zb N) in E by (intros z Hz; first [apply za_spec in Hz|apply zb_spec in Hz]; tauto).
  set (K := (N + M - cv + 1)%nat) in *.
  assert (GA : forall m0, In m0 (map snd za) -> dim m0 = K /\ closed m0) by (intros m0 H; apply in_map_iff in H; destruct H as [z [<- Hz]]; apply za_spec in Hz; tauto).
  assert (GB : forall m0, In m0 (map snd zb) -> dim m0 = K /\ closed m0) by (intros m0 H; apply in_map_iff in H; destruct H as [z [<- Hz]]; apply zb_spec in Hz; tauto).
  assert (RK : forall q, In q ren -> (S (fst q) < K)%nat /\ (snd q + N + 1 < K)%nat) by exact renOk_cell.
  assert (dimA : forall zs m0, (forall m1, In m1 zs -> dim m1 = K /\ closed m1) -> In m0 (jsAddRenaming N zs ren) -> dim m0 = K).
  { intros zs m0 G H. apply filter_In in H. destruct H as [H _]. apply in_map_iff in H. destruct H as [m1 [<- H1]]. rewrite ZoneProofs3.dim_addRenaming; [apply G; auto|]. rewrite (proj1 (G m1 H1)). exact RK. }
  assert (QE := C38_set_equality_sound_partial K (jsAddRenaming N (map snd za) ren) (jsAddRenaming N (map snd zb) ren)).
  assert (W := QE).
  specialize (W ltac:(intros m0 [H|H]; (split; [eapply dimA; [|exact H]; auto|]); [destruct (proj2 (C38_set_addRenaming_exact N K (map snd za) ren (fun _ => 0) GA RK) m0 H)|destruct (proj2 (C38_set_addRenaming_exact N K (map snd zb) ren (fun _ => 0) GB RK) m0 H)]; auto)).
  assert (PD : pairwiseDiff (jsAddRenaming N (map snd za) ren)).
  {
    assert (EQ : filter isSatNoCanon (map (fun m0 => addRenaming N m0 ren) (map (fun c => juxCommon c R cv) a)) = jsAddRenaming N (map snd za) ren)
      by (unfold jsAddRenaming, za, juxSetLeft; rewrite !map_map; reflexivity).
    rewrite <- EQ.
    assert (DJ : forall i j w, (i < length a)%nat -> (j < length a)%nat -> inZone (juxCommon (nth i a []) R cv) w -> inZone (juxCommon (nth j a []) R cv) w -> i = j).
    { intros i j w Hi Hj H1 H2. destruct Ha as [_ [_ DJ]].
      destruct (cell_a (nth i a []) (nth_In _ _ Hi)) as [Oi Di]. destruct (cell_a (nth j a []) (nth_In _ _ Hj)) as [Oj Dj].
      assert (MM := cellM). assert (O := okR).
      rewrite C16_juxtapose_common_exact in H1 by (try lia; try apply O; rewrite ?Di, ?MM; cbn [pred]; unfold N, M; lia).
      rewrite C16_juxtapose_common_exact in H2 by (try lia; try apply O; rewrite ?Dj, ?MM; cbn [pred]; unfold N, M; lia).
      destruct H1 as [H1 _], H2 as [H2 _].
      assert (X1 := inZone_durs _ w (proj1 Oi) H1). assert (X2 := inZone_durs _ w (proj1 Oj) H2). unfold tcSize in X1, X2. rewrite Di in X1. rewrite Dj in X2.
      exact (DJ i j _ Hi Hj X1 X2). }
    clear - RK DJ EQ GA.
    assert (G2 : forall z, In z (filter isSatNoCanon (map (fun m0 => addRenaming N m0 ren) (map (fun c => juxCommon c R cv) a))) -> nonemptyZ z).
    { rewrite EQ. intros z Hz. exact (proj1 (proj2 (C38_set_addRenaming_exact N K (map snd za) ren (fun _ => 0) GA RK) z Hz)). }
    assert (DD : forall z, In z (map (fun c => juxCommon c R cv) a) -> dim z = K).
    { intros z Hz. apply in_map_iff in Hz. destruct Hz as [c [<- Hc]]. apply (GA (juxCommon c R cv)). unfold za, juxSetLeft. rewrite map_map. cbn [snd]. apply in_map_iff. eauto. }
    assert (DJ2 : forall i j w, (i < length (map (fun c => juxCommon c R cv) a))%nat -> (j < length (map (fun c => juxCommon c R cv) a))%nat ->
      inZone (nth i (map (fun c => juxCommon c R cv) a) []) w -> inZone (nth j (map (fun c => juxCommon c R cv) a) []) w -> i = j).
    { rewrite map_length. intros i j w Hi Hj H1 H2. apply (DJ i j w Hi Hj).
      - rewrite (nth_indep _ [] (juxCommon [] R cv)) in H1 by (rewrite map_length; auto). rewrite (map_nth (fun c => juxCommon c R cv)) in H1. exact H1.
      - rewrite (nth_indep _ [] (juxCommon [] R cv)) in H2 by (rewrite map_length; auto). rewrite (map_nth (fun c => juxCommon c R cv)) in H2. exact H2. }
    clear DJ EQ GA. revert G2 DD DJ2. generalize (map (fun c => juxCommon c R cv) a). clear - RK. intros zs G2 DD DJ2.
    revert G2 DD DJ2. induction zs as [|z zs IH]; intros NE DD H; cbn [map filter]; [constructor|].
    assert (IH' : (forall u, In u (filter isSatNoCanon (map (fun m0 => addRenaming N m0 ren) zs)) -> nonemptyZ u) -> pairwiseDiff (filter isSatNoCanon (map (fun m0 => addRenaming N m0 ren) zs))).
    { intro G. apply IH; auto; [intros; apply DD; right; auto|]. intros i j w Hi Hj H1 H2. assert (X := H (S i) (S j) w ltac:(cbn [length]; lia) ltac:(cbn [length]; lia) H1 H2). congruence. }
    assert (sub : forall u w, In u (z :: zs) -> inZone (addRenaming N u ren) w -> inZone u w).
    { intros u w Hu Hw. apply C16_addRenaming_exact in Hw; [tauto|]. intros q Hq. rewrite (DD u Hu). exact (RK q Hq). }
    cbn [map filter] in NE. destruct (isSatNoCanon (addRenaming N z ren)); [|apply IH'; auto]. constructor; [|apply IH'; intros; apply NE; right; auto].
    intros m' Hm' E. destruct (NE (addRenaming N z ren) (or_introl eq_refl)) as [w Hw]. assert (X := proj1 (E w) Hw). apply filter_In in Hm'. destruct Hm' as [Hm' _].
    apply in_map_iff in Hm'. destruct Hm' as [u [<- Hu]]. assert (Xu := sub u w (or_intror Hu) X). assert (Xz := sub z w (or_introl eq_refl) Hw).
    apply (In_nth _ _ []) in Hu. destruct Hu as [j [Hj Eu]]. rewrite <- Eu in Xu. 
    assert (Hj0 : (0 < length (z :: zs))%nat) by (cbn [length]; lia). assert (Hj1 : (S j < length (z :: zs))%nat) by (cbn [length]; apply -> Nat.succ_lt_mono; exact Hj).
    pose proof (H 0%nat (S j) w Hj0 Hj1 Xz Xu) as ZZ. discriminate. }
  specialize (W PD E). clear QE PD.
  set (w := both N (td (concatTW p t)) (td (concatTW p' t))).
  assert (RW := both_related p p' t Ip Ip' It Rel). fold w in RW.
  assert (SA := proj1 (C38_set_addRenaming_exact N K (map snd za) ren w GA RK)).
  assert (SB := proj1 (C38_set_addRenaming_exact N K (map snd zb) ren w GB RK)).
  assert (CL : inElem (elConcat x s) (concatTW p t)) by (apply elConcat_exactL; auto; exists p, t; auto using sameTW_refl).
  assert (CR : inElem (elConcat y s) (concatTW p' t)) by (apply elConcat_exactL; auto; exists p', t; auto using sameTW_refl).
  assert (IA : (exists m0, In m0 (map snd za) /\ inZone m0 w) <-> f (concatTW p t) = true).
  { destruct Ha as [EA _]. specialize (EA (concatTW p t)). split.
    - intros [m0 [H1 H2]]. apply in_map_iff in H1. destruct H1 as [z [<- H1]]. apply in_map_iff in H1. destruct H1 as [c [<- Hc]]. cbn [snd] in H2.
      destruct (cell_a c Hc) as [Oc Dc]. apply (both_point c R p p' t Dc cellM Oc okR Ip Ip' It) in H2.
      apply EA. exists c. split; [auto|]. split; [apply CL|apply H2].
    - intro Hf. destruct (proj2 EA (conj CL Hf)) as [c [Hc [_ H]]]. cbn [ec] in H. exists (juxCommon c R cv). split.
      + apply in_map_iff. exists (tcSize c, juxCommon c R cv). split; [reflexivity|]. apply in_map_iff. eauto.
      + destruct (cell_a c Hc) as [Oc Dc]. apply (both_point c R p p' t Dc cellM Oc okR Ip Ip' It). split; [auto|apply CR]. }
  assert (IB : (exists m0, In m0 (map snd zb) /\ inZone m0 w) <-> f (concatTW p' t) = true).
  { destruct Hb as [EA _]. specialize (EA (concatTW p' t)). split.
    - intros [m0 [H1 H2]]. apply in_map_iff in H1. destruct H1 as [z [<- H1]]. apply in_map_iff in H1. destruct H1 as [c [<- Hc]]. cbn [snd] in H2.
      destruct (cell_b c Hc) as [Oc Dc]. apply (both_point L c p p' t cellN Dc okL Oc Ip Ip' It) in H2.
      apply EA. exists c. split; [auto|]. split; [apply CR|apply H2].
    - intro Hf. destruct (proj2 EA (conj CR Hf)) as [c [Hc [_ H]]]. cbn [ec] in H. exists (juxCommon L c cv). split.
      + apply in_map_iff. exists (tcSize L, juxCommon L c cv). split; [reflexivity|]. apply in_map_iff. eauto.
      + destruct (cell_b c Hc) as [Oc Dc]. apply (both_point L c p p' t cellN Dc okL Oc Ip Ip' It). split; [apply CL|auto]. }
  assert (FIN : f (concatTW p t) = true <-> f (concatTW p' t) = true).
  { rewrite <- IA, <- IB. specialize (W w). rewrite SA, SB in W. tauto. }
  destruct (f (concatTW p t)), (f (concatTW p' t)); auto; [symmetry; apply FIN; auto|apply FIN; auto].
Qed.
End Cell.
