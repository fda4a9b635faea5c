(** One letter read by the hypothesis: where the transition of a row lands. *)
From Coq Require Import QArith Qround ZArith Bool List Arith Lia Lqa.
From Verif Require Import BoundsModel BoundsProofs ConstraintModel GuardSpec ZoneModel ZoneSpec ZoneProofs ZoneProofs2 ZoneProofs3 ZoneProofs4 AutomatonModel AutomatonSpec AutomatonProofs AutomatonProofs2
  TimedWordModel TimedWordSpec TimedWordProofs TimedConditionModel TimedConditionSpec TimedConditionProofs TimedConditionProofs4 ElementaryModel
  ElementarySpec ElementaryProofs ElementaryProofs2 LooseProofs RegionalModel RegionalSpec RegionalProofs3 RegionalProofs4 RegionalProofs5 OracleModel SymbolicModel SymbolicSpec CexModel CexSpec CexProofs CexProofs2
  RenamingModel RenamingSpec RenamingProofs RenamingProofs2 RenamingProofs5 RenamingProofs6 ShapeProofs TableModel TableProofs2 TableProofs3 TableProofs4 PropertiesRenaming
  HypothesisModel HypothesisBox HypothesisChain HypothesisGuard HypothesisTimes HypothesisBfs HypothesisBfs3 HypothesisRows HypothesisReset.
Import ListNotations.
Open Scope Q_scope.

(** ** the entries of the resets *)
Lemma overwrite_entries x q rs p : In p (overwriteFirst x q rs) -> In p rs \/ p = (x, RConst q).
Proof. induction rs as [|a rs IH]; cbn [overwriteFirst]; [intros []|]. destruct (fst a =? x)%nat; intros [H|H]; cbn [In]; auto. destruct (IH H); auto. Qed.
Lemma toReset_entries vs : forall n rs0 p, In p (fold_left (toResetStep vs) (seq 0 n) rs0) -> In p rs0 \/ exists x, (x < n)%nat /\ p = (x, RConst (nth x vs 0)).
Proof.
  induction n as [|n IH]; intros rs0 p; [cbn; auto|]. rewrite seq_S, fold_left_app. cbn [fold_left Nat.add]. intro H. unfold toResetStep in H.
  assert (G : In p (fold_left (toResetStep vs) (seq 0 n) rs0) \/ p = (n, RConst (nth n vs 0))).
  { destruct (existsb _ _); [destruct (Qeq_bool _ _)|].
    - apply overwrite_entries in H. exact H.
    - auto.
    - apply in_app_iff in H. destruct H as [H|[H|[]]]; auto. }
  destruct G as [G| ->]; [|right; exists n; split; [lia|auto]]. destruct (IH _ _ G) as [K|(x & K & E)]; [auto|right; exists x; split; [lia|auto]].
Qed.
Lemma reset_agree rs v v0 k : NoDup (map fst rs) -> In k (map fst rs) -> (forall z, In (k, RVar z) rs -> v z == v0 z) -> applyReset v rs k == applyReset v0 rs k.
Proof.
  intros ND I H. apply in_map_iff in I. destruct I as ((k' & e) & E & I). cbn in E. subst k'. rewrite (entry_apply rs v k e ND I), (entry_apply rs v0 k e ND I).
  destruct e; [reflexivity|]. apply H; auto.
Qed.
Lemma clean_keys rs : NoDup (map fst rs) -> NoDup (map fst (clean rs)).
Proof.
  intro H. unfold clean. induction rs as [|p rs IH]; [constructor|]. cbn [map] in H. inversion H as [|? ? A B]; subst. cbn [filter].
  assert (G : NoDup (map fst (filter (fun p0 : clock * rhs => negb (match snd p0 with RVar y => Nat.eqb (fst p0) y | RConst _ => false end)) rs))) by auto.
  destruct (negb _); [|auto]. cbn [map]. constructor; [|auto]. intro X. apply A. apply in_map_iff in X. destruct X as (q & E & X). apply filter_In in X. apply in_map_iff. exists q. tauto.
Qed.
Lemma since_char w a k : (k < length (td w))%nat -> since (td (concatChar w a)) k == since (td w) k.
Proof.
  intro H. unfold concatChar. cbn [td]. unfold since. rewrite app_length. cbn [length]. replace (length (td w) + 1 - 1)%nat with (length (td w)) by lia.
  rewrite T_snoc_last by lia. assert (E : (k <? length (td w))%nat = true) by (apply Nat.ltb_lt; lia). rewrite E. lra.
Qed.
Lemma since_char_last w a : since (td (concatChar w a)) (length (td w)) == 0.
Proof. unfold concatChar. cbn [td]. assert (X := since_last (td w) 0). rewrite app_length in X. cbn [length] in X. replace (length (td w) + 1 - 1)%nat with (length (td w)) in X by lia. exact X. Qed.

(** ** the resets of a renaming *)
Section Ren.
Context (x y : elem) (r : list (nat * nat)).
Context (Wx : wfElem x) (Wy : wfElem y) (Sy : isSimple (ec y) = true) (Iy : intCond (ec y)) (RI : renIn r x y).
Context (EX : forall p, inElem x p -> exists p', inElem y p' /\ related r p p').
Context (HI : hasImpreciseClocks r (ec y) = false).
Context (NY : forall p, inElem y p -> Forall (fun q => 0 <= q) (td p)).
Notation T0 := (externalT (ec x) (ec y) r).

Lemma ext_trst l : trst (T0 l) = clean (toReset (clos x y r) (ec y)).
Proof using. reflexivity. Qed.
Lemma tr0_keys : NoDup (map fst (toReset (clos x y r) (ec y))).
Proof using Wx Wy RI EX.
  apply (toReset_loop (toValuation (ec y)) (map (fun q => (snd q, RVar (fst q))) (clos x y r))). rewrite map_map. cbn [fst]. exact (clos_nodup x y r).
Qed.
Lemma ext_keys l : NoDup (map fst (trst (T0 l))).
Proof using Wx Wy RI EX. rewrite ext_trst. apply clean_keys, tr0_keys. Qed.
Lemma tr0_entries k e : In (k, e) (toReset (clos x y r) (ec y)) ->
  (exists i, e = RVar i /\ (i <= length (ew x))%nat) \/ exists i, (i < tcSize (ec y))%nat /\ e = RConst (nth i (toValuation (ec y)) 0).
Proof using Wx Wy RI EX.
  intro H. apply toReset_entries in H. destruct H as [H|(i & Hi & E)].
  - apply in_map_iff in H. destruct H as ((i & k') & E & I). cbn in E. injection E as <- <-. left. exists i. split; [auto|]. apply (clos_renIn x y r Wx Wy RI EX i k' I).
  - injection E as -> ->. right. exists i. auto.
Qed.
Lemma val_nonneg i : (i < tcSize (ec y))%nat -> 0 <= nth i (toValuation (ec y)) 0.
Proof using Wy Sy NY.
  intro Hi. destruct (toValuation_in (ec y) (proj1 Wy) (simple_bounded _ (proj1 Wy) Sy)) as [_ Z]. destruct (zone_word y _ Wy Z) as (p & Ip & V).
  assert (C : tcSize (ec y) = S (length (ew y))) by (destruct Wy; auto). rewrite <- (V i) by lia. apply since_nonneg. apply NY; auto.
Qed.
Lemma ext_reset l v v' p : inElem x p -> (forall k, (k <= length (ew x))%nat -> v k == since (td p) k) -> isReset (trst (T0 l)) v v' ->
  exists p', inElem y p' /\ related r p p' /\ forall k, (k <= length (ew y))%nat -> v' k == since (td p') k.
Proof using Wx Wy Sy Iy RI EX HI.
  intros Ip V R. rewrite ext_trst in R. apply isReset_applyReset in R. destruct (EX p Ip) as (p0 & I0 & R0).
  assert (RC := proj2 (clos_related x y r Wx Wy RI EX p p0 Ip I0) R0). assert (C : tcSize (ec y) = S (length (ew y))) by (destruct Wy; auto).
  destruct (C55_reset_reaches_related_word x y (clos x y r) p p0 Wx Wy Sy Iy (clos_renIn x y r Wx Wy RI EX) (clos_nodup x y r) (clos_precise x y r Wx Wy Sy Iy RI EX HI) Ip I0 RC) as (p' & I' & R' & H).
  exists p'. split; [auto|]. split; [apply (clos_related x y r Wx Wy RI EX p p' Ip I'); auto|]. intros k Hk. rewrite (R k). rewrite clean_applies by exact tr0_keys.
  rewrite <- (H _ (applyReset_isReset _ _) k Hk). apply reset_agree; [exact tr0_keys| |].
  - destruct (toReset_loop (toValuation (ec y)) (map (fun q => (snd q, RVar (fst q))) (clos x y r)) ltac:(rewrite map_map; cbn [fst]; exact (clos_nodup x y r)) (tcSize (ec y))) as (_ & _ & A & B).
    change (fold_left (toResetStep (toValuation (ec y))) (seq 0 (tcSize (ec y))) (map (fun q => (snd q, RVar (fst q))) (clos x y r))) with (toReset (clos x y r) (ec y)) in *.
    apply in_map_iff. destruct (in_dec Nat.eq_dec k (map fst (map (fun q : nat * nat => (snd q, RVar (fst q))) (clos x y r)))) as [I|I].
    + destruct (Qeq_dec (nth k (toValuation (ec y)) 0) (qfloor (nth k (toValuation (ec y)) 0))) as [D|D].
      * exists (k, RConst (nth k (toValuation (ec y)) 0)). split; [auto|]. apply A; [lia|auto].
      * apply in_map_iff in I. destruct I as ((k' & e) & E & I). cbn in E. subst k'. exists (k, e). split; [auto|]. apply B; [lia|auto|auto].
    + exists (k, RConst (nth k (toValuation (ec y)) 0)). split; [auto|]. apply A; [lia|auto].
  - intros z Hz. apply tr0_entries in Hz. destruct Hz as [(i & E & Hi)|(i & _ & E)]; [injection E as <-; apply V; auto|discriminate].
Qed.
Lemma ext_nonneg l v v' : isReset (trst (T0 l)) v v' -> nonneg v -> nonneg v'.
Proof using Wx Wy Sy RI EX NY.
  intros R N k. rewrite ext_trst in R. apply isReset_applyReset in R. rewrite (R k). rewrite clean_applies by exact tr0_keys.
  destruct (in_dec Nat.eq_dec k (map fst (toReset (clos x y r) (ec y)))) as [I|I].
  - apply in_map_iff in I. destruct I as ((k' & e) & E & I). cbn in E. subst k'. rewrite (entry_apply _ v k e tr0_keys I). apply tr0_entries in I.
    destruct I as [(i & -> & _)|(i & Hi & ->)]; [apply N|apply val_nonneg; auto].
  - rewrite (proj1 (applyReset_isReset _ v k) I). apply N.
Qed.
(** only clocks of the source are read *)
Lemma ext_reads l k z : In (k, RVar z) (trst (T0 l)) -> (z <= length (ew x))%nat.
Proof using Wx Wy RI EX.
  rewrite ext_trst. unfold clean. intro H. apply filter_In in H. destruct H as [H _]. apply tr0_entries in H. destruct H as [(i & E & Hi)|(i & _ & E)]; [injection E as <-; auto|discriminate].
Qed.
End Ren.

(** ** the transition of one row *)
Section Land.
Context {St : Type}.
Notation tbl := (ot St).
Context (t : tbl) (f : tword -> bool) (T : tree t).
Context (GP : forall i, goodPre (preAt t i)).
Context (CV : forall i, (i < length (otPre t))%nat -> inP t i = false -> exists j r, chosen t i = Some (j, r) /\ validRel f t i j r).
Context (ME : forall i j r, (i < length (otPre t))%nat -> inP t i = false -> chosen t i = Some (j, r) -> isMatch t i = isMatch t j).
Context (R : list nat) (RO : roots t R).

Lemma row_wf i : wfElem (fel (preAt t i)) /\ isSimple (condAt t i) = true /\ intCond (condAt t i) /\ tcSize (condAt t i) = S (length (ew (fel (preAt t i)))).
Proof using GP. destruct (goodPre_proper _ (GP i)) as [[A _] [B [C _]]]. repeat split; auto; apply A. Qed.
Lemma chosen_in i j r : chosen t i = Some (j, r) -> In j (otP t) /\ (j < length (otPre t))%nat.
Proof using T. intro H. unfold chosen in H. apply find_some in H. destruct H as [_ H]. cbn [fst] in H. apply inP_iff in H. split; [auto|]. apply (tr_lt t T); auto. Qed.
Lemma disc_word c a d w : discAt t c a = Some d -> inElem (fel (preAt t c)) w -> inElem (fel (preAt t d)) (concatChar w a).
Proof using T GP.
  intros D I. destruct (tr_discP t T c a d D) as (Pc & Ha & _ & _). destruct (tr_disc t T c a Pc Ha) as (d' & D' & _ & E). assert (d' = d) by congruence. subst d'.
  rewrite E. apply region_self. apply frSuccAct_regional. apply (row_regional t GP); auto.
Qed.
Lemma disc_letters c a d : discAt t c a = Some d -> ew (fel (preAt t d)) = ew (fel (preAt t c)) ++ [a].
Proof using T.
  intro D. destruct (tr_discP t T c a d D) as (Pc & Ha & _ & _). destruct (tr_disc t T c a Pc Ha) as (d' & D' & _ & E). assert (d' = d) by congruence. subst d'. rewrite E. reflexivity.
Qed.
Section Rel.
Context (c d j : nat) (a : letter) (r : list (nat * nat)) (D : discAt t c a = Some d) (V : validRel f t d j r).
Notation r' := (eraseLeft r (tcSize (condAt t c))).
Notation X := (fel (preAt t c)).
Notation Y := (fel (preAt t j)).
Lemma er_in i k : In (i, k) r' <-> In (i, k) r /\ i <> tcSize (condAt t c).
Proof using. unfold eraseLeft. rewrite filter_In. cbn [fst]. rewrite negb_true_iff, Nat.eqb_neq. tauto. Qed.
Lemma er_renIn : renIn r' X Y.
Proof using T GP D V.
  intros i k H. apply er_in in H. destruct H as [H Ne]. destruct V as [[RI _] _]. destruct (RI i k H) as [A B]. rewrite (disc_letters c a d D), app_length in A. cbn [length] in A.
  destruct (row_wf c) as (_ & _ & _ & E). split; [lia|auto].
Qed.
Lemma rel_ex p : inElem X p -> exists p', inElem Y p' /\ related r (concatChar p a) p'.
Proof using T GP D V.
  intro I. destruct V as [[RI _] [EX _]]. destruct (row_wf d) as (Wd & Sd & Id & _). destruct (row_wf j) as (Wj & Sj & Ij & _).
  apply (region_extension _ _ r Wd Wj Sd Id Ij RI EX). apply (disc_word c a d p D I).
Qed.
Lemma rel_down p p' : inElem X p -> related r (concatChar p a) p' -> related r' p p'.
Proof using T GP D V.
  intros I H i k K. assert (E := er_renIn i k K). apply er_in in K. rewrite <- (H i k (proj1 K)). symmetry. apply since_char. rewrite (row_len t _ _ I). destruct (row_wf c) as (_ & _ & _ & F). lia.
Qed.
Lemma er_ex p : inElem X p -> exists p', inElem Y p' /\ related r' p p'.
Proof using T GP D V. intro I. destruct (rel_ex p I) as (p' & I' & H). exists p'. split; [auto|]. apply (rel_down p p' I H). Qed.
(** a clock related to the new event is always 0 *)
Lemma new_zero k : In (tcSize (condAt t c), k) r -> isPointAt (condAt t j) k = true /\ forall p', inElem Y p' -> since (td p') k == 0.
Proof using T GP D V.
  intro H. destruct (row_wf j) as (Wj & Sj & Ij & Ej). destruct V as [[RI _] _]. destruct (RI _ _ H) as [_ Hk].
  destruct (wfElem_inhabited X (proj1 (row_wf c))) as [p Ip]. destruct (rel_ex p Ip) as (p0 & I0 & R0). specialize (R0 _ _ H). rewrite <- (row_len t c p Ip) in R0. rewrite since_char_last in R0.
  assert (Z0 := word_zone Y p0 Wj I0). rewrite since_acc in R0 by (rewrite (word_len Y p0 Wj I0); lia).
  assert (P : isPointAt (condAt t j) k = true).
  { destruct (simple_at (condAt t j) k (proj1 Wj) Sj ltac:(lia)) as [P|U]; [auto|]. exfalso. apply (open_value (condAt t j) k _ (proj1 Wj) Ij U ltac:(lia) Z0). apply (floor_int _ 0%Z). rewrite <- R0. reflexivity. }
  split; [auto|]. intros p' I'. destruct (point_value (condAt t j) k (proj1 Wj) Ij P ltac:(lia)) as [z Hz]. rewrite since_acc by (rewrite (word_len Y p' Wj I'); lia).
  rewrite (Hz _ (word_zone Y p' Wj I')). rewrite <- (Hz _ Z0). symmetry. exact R0.
Qed.
Lemma rel_up p p' : inElem X p -> inElem Y p' -> related r' p p' -> related r (concatChar p a) p'.
Proof using T GP D V.
  intros I I' H i k K. destruct (Nat.eq_dec i (tcSize (condAt t c))) as [->|Ne].
  - rewrite <- (row_len t c p I), since_char_last. symmetry. apply (new_zero k); auto.
  - assert (K' : In (i, k) r') by (apply er_in; auto). rewrite <- (H i k K'). apply since_char. rewrite (row_len t _ _ I). destruct (er_renIn i k K') as [A _]. destruct (row_wf c) as (_ & _ & _ & F). lia.
Qed.
Lemma er_precise : hasImpreciseClocks r' (condAt t j) = false.
Proof using T GP D V.
  destruct (row_wf j) as (Wj & Sj & Ij & Ej). destruct V as [[RI [_ HI]] _].
  assert (K : renFull r (condAt t j) = true \/ onlyTrivial r (condAt t j) = true).
  { unfold hasImpreciseClocks in HI. destruct r; [right; reflexivity|]. cbn [andb] in HI. unfold condAt. destruct (renFull _ _); [auto|]. destruct (onlyTrivial _ _); [auto|discriminate]. }
  destruct K as [K|K].
  - assert (F : renFull r' (condAt t j) = true).
    { apply (all_full r' Y); [intros [i k] H; cbn [snd]; destruct (er_renIn i k H); fold (condAt t j); lia|]. intros k Hk. fold (condAt t j) in *.
      destruct (full_all r Y k K) as [A|A]; [intros [i k'] H; cbn [snd]; destruct (RI i k' H); fold (condAt t j); lia|exact Hk| |auto].
      apply in_map_iff in A. destruct A as ((i & k') & E & A). cbn in E. subst k'. destruct (Nat.eq_dec i (tcSize (condAt t c))) as [->|Ne]; [right; apply (new_zero k A)|].
      left. apply in_map_iff. exists (i, k). split; [auto|]. apply er_in. auto. }
    unfold hasImpreciseClocks. rewrite F. cbn [negb]. rewrite andb_false_r. reflexivity.
  - assert (F : onlyTrivial r' (condAt t j) = true).
    { unfold onlyTrivial in *. rewrite forallb_forall in *. intros [i k] H. apply er_in in H. apply (K (i, k)). apply H. }
    unfold hasImpreciseClocks. rewrite F. cbn [negb]. rewrite andb_false_r. reflexivity.
Qed.
End Rel.
(** *** the transition of a row *)
Definition lands (d : nat) (w : tword) (l : loc) (v : valuation) : Prop :=
  exists i w', In i (otP t) /\ l = home t R i /\ inElem (fel (preAt t i)) w' /\ (forall k, (k < tcSize (condAt t i))%nat -> v k == since (td w') k) /\
    isMatch t d = isMatch t i /\ (inP t d = true -> i = d /\ w' = w) /\ nonneg v.
Lemma TR_cases c a : In c (otP t) -> In a (otAlpha t) -> exists d, discAt t c a = Some d /\ (d < length (otPre t))%nat /\
  ((inP t d = true /\ TR t R c a = internalT (condAt t c) (home t R d)) \/
   (inP t d = false /\ exists j r, chosen t d = Some (j, r) /\ validRel f t d j r /\ TR t R c a = externalT (condAt t c) (condAt t j) (eraseLeft r (tcSize (condAt t c))) (home t R j))).
Proof using T CV.
  intros Pc Ha. destruct (tr_disc t T c a Pc Ha) as (d & D & L & _). exists d. split; [auto|]. split; [auto|]. unfold TR. rewrite D. destruct (inP t d) eqn:E; [left; auto|right]. split; [auto|].
  destruct (CV d L E) as (j & r & C & V). exists j, r. rewrite C. auto.
Qed.
Lemma TR_keys c a : In c (otP t) -> In a (otAlpha t) -> NoDup (map fst (trst (TR t R c a))).
Proof using T CV GP.
  intros Pc Ha. destruct (TR_cases c a Pc Ha) as (d & D & L & [(_ & ->)|(_ & j & r & C & V & ->)]); [repeat constructor; intros []|].
  apply (ext_keys (fel (preAt t c)) (fel (preAt t j))); [apply row_wf|apply row_wf|eapply er_renIn; eauto|eapply er_ex; eauto].
Qed.
Lemma TR_reads c a k z : In c (otP t) -> In a (otAlpha t) -> In (k, RVar z) (trst (TR t R c a)) -> (z < tcSize (condAt t c))%nat.
Proof using T CV GP.
  intros Pc Ha. destruct (TR_cases c a Pc Ha) as (d & D & L & [(_ & ->)|(_ & j & r & C & V & ->)]); [intros [H|[]]; discriminate|].
  intro H. destruct (row_wf c) as (Wc & _ & _ & Ec). rewrite Ec. apply Nat.lt_succ_r.
  refine (ext_reads (fel (preAt t c)) (fel (preAt t j)) _ Wc (proj1 (row_wf j)) _ _ _ _ _ H); [eapply er_renIn; eauto|eapply er_ex; eauto].
Qed.
Lemma TR_guard' c a : In c (otP t) -> In a (otAlpha t) -> tgrd (TR t R c a) = toGuard (condAt t c).
Proof using T CV. intros Pc Ha. destruct (TR_cases c a Pc Ha) as (d & D & L & [(_ & ->)|(_ & j & r & C & V & ->)]); reflexivity. Qed.
Lemma TR_lands c a w v v' : In c (otP t) -> In a (otAlpha t) -> inElem (fel (preAt t c)) w -> (forall k, (k < tcSize (condAt t c))%nat -> v k == since (td w) k) -> nonneg v ->
  isReset (trst (TR t R c a)) v v' -> exists d, discAt t c a = Some d /\ lands d (concatChar w a) (ttgt (TR t R c a)) v'.
Proof using T CV GP ME.
  intros Pc Ha Iw Hv Nv Hr. destruct (TR_cases c a Pc Ha) as (d & D & L & [(E & K)|(E & j & r & C & V & K)]); exists d; (split; [auto|]); rewrite K in *.
  - exists d, (concatChar w a). assert (Id := disc_word c a d w D Iw). split; [apply inP_iff; auto|]. split; [reflexivity|]. split; [auto|].
    assert (Lw := row_len t c w Iw). assert (Ld : tcSize (condAt t d) = S (tcSize (condAt t c))).
    { rewrite <- (row_len t d _ Id), <- Lw. unfold concatChar. cbn [td]. rewrite app_length. cbn. lia. }
    cbn [internalT trst] in Hr. split; [|split; [auto|split; [auto|]]].
    + intros k Hk. destruct (Nat.eq_dec k (tcSize (condAt t c))) as [->|Ne].
      * rewrite (proj2 (Hr _) [] (RConst 0) [] eq_refl) by (intros []). rewrite <- Lw. symmetry. apply since_char_last.
      * rewrite (proj1 (Hr k)) by (cbn; intuition). rewrite Hv by lia. symmetry. apply since_char. lia.
    + intro k. destruct (Nat.eq_dec k (tcSize (condAt t c))) as [->|Ne].
      * rewrite (proj2 (Hr _) [] (RConst 0) [] eq_refl) by (intros []). lra.
      * rewrite (proj1 (Hr k)) by (cbn; intuition). apply Nv.
  - destruct (row_wf c) as (Wc & _ & _ & Ec). destruct (row_wf j) as (Wj & Sj & Ij & Ej).
    assert (A1 := er_renIn c d j a r D V). assert (A2 := er_ex c d j a r D V). assert (A3 := er_precise c d j a r D V).
    destruct (ext_reset (fel (preAt t c)) (fel (preAt t j)) _ Wc Wj Sj Ij A1 A2 A3 (home t R j) v v' w Iw) as (p' & I' & R' & H); [intros k Hk; apply Hv; lia|exact Hr|].
    destruct (chosen_in d j r C) as [Pj Lj]. exists j, p'. split; [auto|]. split; [reflexivity|]. split; [auto|]. split; [intros k Hk; apply H; lia|]. split; [apply (ME d j r L E C)|]. split; [congruence|].
    refine (ext_nonneg (fel (preAt t c)) (fel (preAt t j)) _ Wc Wj Sj A1 A2 (row_nonneg t GP j) (home t R j) v v' Hr Nv).
Qed.
End Land.
