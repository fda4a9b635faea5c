(** Configurations of the hypothesis: going back to the first row of a state,
    and the transition beyond the last row. *)
From Coq Require Import QArith Qround ZArith Bool List Arith Lia Lqa Permutation.
From Verif Require Import BoundsModel BoundsProofs ConstraintModel GuardSpec ConstraintProofs ZoneModel ZoneSpec ZoneProofs ZoneProofs2 ZoneProofs3 ZoneProofs4 AutomatonModel AutomatonSpec AutomatonProofs AutomatonProofs2
  TimedWordModel TimedWordSpec TimedWordProofs TimedConditionModel TimedConditionSpec TimedConditionProofs TimedConditionProofs4 ElementaryModel
  ElementarySpec ElementaryProofs ElementaryProofs2 LooseProofs RegionalModel RegionalSpec RegionalProofs3 RegionalProofs4 RegionalProofs5 RegionalProofs6 OracleModel SymbolicModel SymbolicSpec CexModel CexSpec CexProofs CexProofs2
  RenamingModel RenamingSpec RenamingProofs RenamingProofs2 RenamingProofs5 RenamingProofs6 ShapeProofs TableModel TableProofs2 TableProofs3 TableProofs4 PropertiesRenaming
  HypothesisModel HypothesisBox HypothesisChain HypothesisGuard HypothesisTimes HypothesisBfs HypothesisBfs3 HypothesisRows HypothesisReset HypothesisStep.
Import ListNotations.
Open Scope Q_scope.

Lemma asMap_in rs p : In p (asMap rs) -> In p rs.
Proof.
  assert (A : forall m x e, In p (rset m x e) -> In p m \/ p = (x, e)).
  { induction m as [|[y q] m IH]; intros x e; cbn [rset]; [intros [H|[]]; auto|]. destruct (Nat.eqb_spec y x) as [->|Ne]; intros [H|H]; cbn [In]; auto. destruct (IH x e H); auto. }
  assert (G : forall l m, In p (fold_left (fun m (p : clock * rhs) => rset m (fst p) (snd p)) l m) -> In p m \/ In p l).
  { induction l as [|[x e] l IH]; intros m H; cbn [fold_left fst snd] in H; [auto|]. destruct (IH _ H) as [K|K]; [|cbn [In]; auto]. destruct (A _ _ _ K) as [K'|K']; cbn [In]; auto. }
  intro H. destruct (G rs [] H) as [[]|K]; auto.
Qed.
Lemma asMap_key rs x : In x (map fst rs) -> In x (map fst (asMap rs)).
Proof.
  assert (G : forall l m, In x (map fst m) \/ In x (map fst l) -> In x (map fst (fold_left (fun m (p : clock * rhs) => rset m (fst p) (snd p)) l m))).
  { induction l as [|[y e] l IH]; intros m H; cbn [fold_left fst snd map In] in *; [tauto|]. apply IH. rewrite rset_keys. intuition. }
  intro H. apply G. auto.
Qed.
Lemma const_keys vs : map fst (constResets vs) = seq 0 (length vs).
Proof. unfold constResets. generalize 0%nat. induction vs as [|q vs IH]; intro n; cbn [length map seq combine]; [reflexivity|]. cbn [map fst]. f_equal. apply IH. Qed.
Lemma const_entry vs k : (k < length vs)%nat -> In (k, RConst (nth k vs 0)) (constResets vs).
Proof.
  intro H. unfold constResets. assert (G : forall n vs k, (k < length vs)%nat -> In ((n + k)%nat, RConst (nth k vs 0)) (combine (seq n (length vs)) (map RConst vs))).
  { clear. intros n vs. revert n. induction vs as [|q vs IH]; intros n k H; [cbn in H; lia|]. cbn [length map seq combine In]. destruct k as [|k]; [left; cbn [nth]; f_equal; lia|].
    right. specialize (IH (S n) k ltac:(cbn in H; lia)). replace (n + S k)%nat with (S n + k)%nat by lia. exact IH. }
  exact (G 0%nat vs k H).
Qed.
Lemma const_only vs k e : In (k, e) (constResets vs) -> exists q, In q vs /\ e = RConst q.
Proof. unfold constResets. intro H. apply in_combine_r in H. apply in_map_iff in H. destruct H as (q & E & I). exists q. auto. Qed.
Lemma const_nodup vs : NoDup (map fst (constResets vs)).
Proof. rewrite const_keys. apply seq_NoDup. Qed.
Lemma const_apply vs v k : (k < length vs)%nat -> applyReset v (constResets vs) k == nth k vs 0.
Proof. intro H. rewrite (entry_apply _ v k _ (const_nodup vs) (const_entry vs k H)). reflexivity. Qed.
Lemma const_nonneg vs v : (forall q, In q vs -> 0 <= q) -> nonneg v -> nonneg (applyReset v (constResets vs)).
Proof.
  intros H N k. destruct (in_dec Nat.eq_dec k (map fst (constResets vs))) as [I|I].
  - rewrite const_keys in I. apply in_seq in I. rewrite const_apply by lia. apply H. apply nth_In. lia.
  - rewrite (proj1 (applyReset_isReset _ v k) I). apply N.
Qed.
Lemma renaming_gone rs vs : (forall k z, In (k, RVar z) rs -> (z < length vs)%nat) -> renamingOf (composition rs (constResets vs)) = [].
Proof.
  intro H. unfold renamingOf. assert (G : forall l : resets, (forall k z, ~ In (k, RVar z) l) -> flat_map (fun p : nat * rhs => match snd p with RVar y => [(y, fst p)] | RConst _ => [] end) l = []).
  { induction l as [|[k [q|z]] l IH]; intro G; cbn [flat_map fst snd]; [reflexivity| |exfalso; apply (G k z); left; auto]. apply IH. intros k' z' I. apply (G k' z'). right; auto. }
  apply G. intros k z I. rewrite composition_eq in I. apply in_app_iff in I. destruct I as [I|I].
  - apply in_map_iff in I. destruct I as ((k' & e) & E & I). cbn [fst snd] in E. injection E as -> E. apply asMap_in in I. destruct e as [q|y]; cbn [compRhs] in E; [discriminate|].
    specialize (H _ _ I). destruct (rfind (asMap (constResets vs)) y) as [e|] eqn:F.
    + apply rfind_in in F; [|apply asMap_nodup]. apply asMap_in in F. apply const_only in F. destruct F as (q & _ & ->). discriminate.
    + apply rfind_none in F. apply F. apply asMap_key. rewrite const_keys. apply in_seq. lia.
  - apply filter_In in I. destruct I as [I _]. apply asMap_in, const_only in I. destruct I as (q & _ & E). discriminate.
Qed.

(** ** dropping the last delay *)
Lemma drop_region d0 dw tau q : length dw = length d0 -> sameRegion (d0 ++ [tau]) (dw ++ [q]) -> sameRegion (d0 ++ [0]) (dw ++ [0]).
Proof.
  intros L [_ S]. assert (S' : forall i j, (i <= j)%nat -> (j < length d0)%nat -> sameUnit (T d0 i j) (T dw i j)).
  { intros i j A B. assert (K := S i j A ltac:(rewrite app_length; cbn; lia)). apply code_unit. apply code_unit in K.
    rewrite <- (code_ext _ _ (T_snoc_lt d0 tau i j A B)), <- (code_ext _ _ (T_snoc_lt dw q i j A ltac:(lia))). exact K. }
  split; [rewrite !app_length; cbn; lia|]. intros i j A B. rewrite app_length in B. cbn [length] in B. apply code_unit. destruct (Nat.eq_dec j (length d0)) as [->|Ne].
  - rewrite (code_ext _ _ (T_snoc_last d0 0 i A)). rewrite <- L. rewrite (code_ext _ _ (T_snoc_last dw 0 i ltac:(lia))). rewrite L. destruct (i <? length d0)%nat eqn:E; [|reflexivity].
    apply Nat.ltb_lt in E. assert (K := S' i (length d0 - 1)%nat ltac:(lia) ltac:(lia)). apply code_unit in K. rewrite (code_ext (T d0 i (length d0 - 1) + 0) (T d0 i (length d0 - 1))) by lra.
    rewrite (code_ext (T dw i (length d0 - 1) + 0) (T dw i (length d0 - 1))) by lra. exact K.
  - rewrite (code_ext _ _ (T_snoc_lt d0 0 i j A ltac:(lia))), (code_ext _ _ (T_snoc_lt dw 0 i j A ltac:(lia))). apply code_unit. apply S'; lia.
Qed.
Lemma since_drop dw q k : (k < S (length dw))%nat -> since (dw ++ [q]) k == since (dw ++ [0]) k + q.
Proof.
  intro H. unfold since. rewrite !app_length. cbn [length]. replace (length dw + 1 - 1)%nat with (length dw) by lia. rewrite !T_snoc_last by lia. lra.
Qed.

Section Back.
Context {St : Type}.
Notation tbl := (ot St).
Context (t : tbl) (f : tword -> bool) (T : tree t).
Context (GP : forall i, goodPre (preAt t i)) (ND : NoDup (otAlpha t)) (PR0 : preAt t 0 = frDefault).
Context (CV : forall i, (i < length (otPre t))%nat -> inP t i = false -> exists j r, chosen t i = Some (j, r) /\ validRel f t i j r).
Context (ME : forall i j r, (i < length (otPre t))%nat -> inP t i = false -> chosen t i = Some (j, r) -> isMatch t i = isMatch t j).
Context (R : list nat) (RO : roots t R).

Lemma root_word d : In d (otP t) -> isRoot t d -> exists u l, regionalF (preAt t d) u /\ td u = l ++ [0].
Proof using T GP ND PR0.
  intros P Rt. destruct d as [|d].
  - exists emptyTW, []. rewrite PR0. split; [apply frDefault_regional|reflexivity].
  - destruct (tr_kind t T ND (S d) ltac:(lia) (tr_lt t T _ P)) as [(p & C)|(p & a & D)]; [destruct (Rt p C)|].
    destruct (tr_discP t T p a _ D) as (Pp & Ha & _ & _). destruct (tr_disc t T p a Pp Ha) as (d' & D' & _ & E). assert (d' = S d) by congruence. subst d'.
    destruct (row_word t GP p) as (u & _ & Ru). exists (concatChar u a), (td u). rewrite E. split; [apply frSuccAct_regional; auto|reflexivity].
Qed.
Lemma row_back l m w : (l < length R)%nat -> (m <= lastRow t R l)%nat -> inElem (fel (preAt t (rowOf t R l m))) w -> exists d q,
  td w = d ++ [q] /\ 0 <= q /\ inElem (fel (preAt t (nth l R 0%nat))) (mkTW (tw w) (d ++ [0])).
Proof using T GP ND PR0 RO.
  intros L M I. destruct (ro_P t R RO _ (nth_In R 0%nat L)) as [Pr Rr]. destruct (root_word _ Pr Rr) as (u0 & d0 & Ru & E0).
  destruct (chain_times m _ _ Ru) as (tm & _ & _ & _ & Tr & _). assert (Rm := Tr m (le_n m)). rewrite <- (row_pre t T R RO l m L M) in Rm.
  destruct (proj1 (region_word _ _ w Rm) I) as [Ew Sw]. cbn [tw td] in Ew, Sw. rewrite E0 in Sw.
  assert (Ea : addBack (d0 ++ [0]) (tm m) = d0 ++ [0 + tm m]). { clear. induction d0 as [|x d IH]; [reflexivity|]. cbn [app addBack]. destruct (d ++ [0]) eqn:F; [destruct d; discriminate|]. rewrite IH. reflexivity. }
  unfold delayed in Sw. rewrite Ea in Sw. assert (NNw := row_nonneg t GP _ _ I).
  destruct (@exists_last _ (td w)) as (dw & q & Edw). { intro X. rewrite X in Sw. destruct Sw as [Sw _]. rewrite app_length in Sw. cbn in Sw. lia. }
  rewrite Edw in *. assert (Ld : length dw = length d0). { destruct Sw as [Sw _]. rewrite !app_length in Sw. cbn in Sw. lia. }
  exists dw, q. split; [reflexivity|]. split.
  - apply Forall_app in NNw. destruct NNw as [_ NNw]. inversion NNw; auto.
  - apply (region_word _ u0 _ Ru). cbn [tw td]. split; [auto|]. rewrite E0. apply (drop_region d0 dw (0 + tm m) q Ld Sw).
Qed.

Lemma disc_split p a d w : discAt t p a = Some d -> inElem (fel (preAt t d)) w -> exists u q,
  inElem (fel (preAt t p)) u /\ q == 0 /\ tw w = tw u ++ [a] /\ td w = td u ++ [q].
Proof using T GP.
  intros D I. destruct (tr_discP t T p a _ D) as (Pp & Ha & _ & _). destruct (tr_disc t T p a Pp Ha) as (d' & D' & _ & E). assert (d' = d) by congruence. subst d'.
  destruct (row_word t GP p) as (u0 & _ & Ru). assert (Rd := frSuccAct_regional _ _ a Ru). rewrite <- E in Rd.
  destruct (proj1 (region_word _ _ w Rd) I) as [Ew Sw]. unfold concatChar in Ew, Sw. cbn [tw td] in Ew, Sw.
  destruct (@exists_last _ (td w)) as (dw & q & Edw). { intro X. rewrite X in Sw. destruct Sw as [Sw _]. rewrite app_length in Sw. cbn in Sw. lia. }
  rewrite Edw in *. assert (Ld : length dw = length (td u0)). { destruct Sw as [Sw _]. rewrite !app_length in Sw. cbn in Sw. lia. }
  destruct Sw as [_ Sw]. exists (mkTW (tw u0) dw), q. cbn [tw td]. split; [|split; [|split; [auto|reflexivity]]].
  - apply (region_word _ u0 _ Ru). cbn [tw td]. split; [auto|]. split; [auto|]. intros i j A B. assert (K := Sw i j A ltac:(rewrite app_length; cbn; lia)). apply code_unit. apply code_unit in K.
    rewrite <- (code_ext _ _ (T_snoc_lt (td u0) 0 i j A B)), <- (code_ext _ _ (T_snoc_lt dw q i j A ltac:(lia))). exact K.
  - assert (K := Sw (length (td u0)) (length (td u0)) (le_n _) ltac:(rewrite app_length; cbn; lia)). apply code_unit in K.
    rewrite (code_ext _ _ (T_snoc_last (td u0) 0 (length (td u0)) (le_n _))) in K. rewrite <- Ld in K. rewrite (code_ext _ _ (T_snoc_last dw q (length dw) (le_n _))) in K. rewrite !Nat.ltb_irrefl in K.
    rewrite (code_ext (0 + 0) (inject_Z 0)) in K by reflexivity. rewrite code_int in K. assert (A := proj1 (code_le_even (0 + q) 0) ltac:(lia)). assert (B := proj1 (code_ge_even (0 + q) 0) ltac:(lia)).
    change (inject_Z 0) with 0 in *. lra.
Qed.

Lemma vals_word p : exists w, inElem (fel (preAt t p)) w /\ length (toValuation (condAt t p)) = tcSize (condAt t p) /\
  (forall k, (k < tcSize (condAt t p))%nat -> nth k (toValuation (condAt t p)) 0 == since (td w) k) /\ forall q, In q (toValuation (condAt t p)) -> 0 <= q.
Proof using GP.
  destruct (row_wf t GP p) as (Wp & Sp & Ip & Ep). destruct (toValuation_in (condAt t p) (proj1 Wp) (simple_bounded _ (proj1 Wp) Sp)) as [Lv Z].
  destruct (zone_word _ _ Wp Z) as (w & Iw & V). exists w. split; [auto|]. split; [auto|]. assert (G : forall k, (k < tcSize (condAt t p))%nat -> nth k (toValuation (condAt t p)) 0 == since (td w) k) by (intros k Hk; symmetry; apply V; lia).
  split; [exact G|]. intros q Iq. destruct (In_nth _ _ 0 Iq) as (k & Hk & <-). rewrite Lv in Hk. rewrite (G k Hk). apply since_nonneg. apply (row_nonneg t GP p); auto.
Qed.
Lemma TX_lands p c a v v' : In p (otP t) -> In a (otAlpha t) -> nonneg v -> isReset (trst (TX t R p c a)) v v' ->
  exists w d, inElem (fel (preAt t p)) w /\ discAt t p a = Some d /\ lands t R d (concatChar w a) (ttgt (TX t R p c a)) v'.
Proof using T GP CV ME.
  intros Pp Ha Nv Hr. destruct (vals_word p) as (w & Iw & Lv & V & NV). cbn [TX trst] in Hr. apply isReset_applyReset in Hr.
  destruct (TR_lands t f T GP CV ME R p a w (applyReset v (constResets (toValuation (condAt t p)))) v' Pp Ha Iw) as (d & D & K).
  - intros k Hk. rewrite const_apply by (rewrite Lv; auto). apply V; auto.
  - apply const_nonneg; auto.
  - apply isReset_applyReset. intro x. rewrite (Hr x). apply composition_applies.
  - exists w, d. auto.
Qed.
Lemma TX_keys p c a : NoDup (map fst (trst (TX t R p c a))).
Proof using. apply composition_keys. Qed.
Lemma TX_renaming p a : In p (otP t) -> In a (otAlpha t) -> renamingOf (composition (trst (TR t R p a)) (constResets (toValuation (condAt t p)))) = [].
Proof using T GP CV.
  intros Pp Ha. apply renaming_gone. intros k z I. destruct (vals_word p) as (_ & _ & Lv & _). rewrite Lv. apply (TR_reads t f T GP CV R p a k z Pp Ha I).
Qed.
(** guards of different rows are not comparable *)
Lemma front_weaker l c p : (forall i w, (i < length (otPre t))%nat -> inElem (fel (preAt t i)) w -> smallTW w) -> (l < length R)%nat -> In c (front t l R) -> In p (front t l R) ->
  (isWeaker (toGuard (condAt t c)) (toGuard (condAt t p)) = true <-> c = p).
Proof using T GP RO.
  intros SM L Ic Ip. split; [|intros ->; apply isWeaker_refl]. intro H. destruct (In_nth _ _ 0%nat Ic) as (m & Hm & Em). destruct (In_nth _ _ 0%nat Ip) as (n & Hn & En).
  rewrite (front_len t T R RO l L) in Hm, Hn. rewrite <- (row_front t T R RO l m L Hm) in Em. rewrite <- (row_front t T R RO l n L Hn) in En. subst c p.
  destruct (geo_ok t T GP SM R RO l L) as (N & X & tm & [g1 g2 g3 g4 g5 g6 g7 g8 g9]).
  assert (A : gsat (toGuard (condAt t (rowOf t R l n))) (rowPt X tm n)).
  { apply (grp_sat N (lastRow t R l) X tm g1 g2 g3 g4 _ n n n _ (g6 n Hn)); [apply rowPt_nn; auto|apply rowPt_in; lia|lia]. }
  apply (isWeaker_sound _ _ _ H) in A. apply (grp_sat N (lastRow t R l) X tm g1 g2 g3 g4 _ m m n _ (g6 m Hm)) in A; [|apply rowPt_nn; auto|apply rowPt_in; lia]. assert (m = n) by lia. congruence.
Qed.
End Back.
