(** Rows of the observation table: the equivalence of two rows and the search
    for a renaming. *)
From Coq Require Import QArith Bool List Arith Lia Lqa.
From Verif Require Import BoundsModel BoundsProofs ConstraintModel ZoneModel ZoneSpec ZoneProofs ZoneProofs2 ZoneProofs3 ZoneProofs4 ZoneProofs6 AutomatonModel
  TimedWordModel TimedWordSpec TimedWordProofs TimedConditionModel TimedConditionSpec TimedConditionProofs TimedConditionProofs4 ElementaryModel
  ElementarySpec ElementaryProofs ElementaryProofs2 LooseProofs RegionalModel RegionalSpec OracleModel SymbolicModel SymbolicSpec CexModel CexSpec CexProofs CexProofs2
  RenamingModel RenamingSpec RenamingProofs PropertiesZones.
Import ListNotations.
Open Scope Q_scope.

(** * related prefixes exist *)
Section Pair.
Variables (x y : elem) (ren : list (nat * nat)).
Hypotheses (Wx : wfElem x) (Wy : wfElem y) (RI : renIn ren x y).
Let j := addRenaming (tcSize (ec x)) (jux (ec x) (ec y)) ren.

Lemma pair_dims : dim (ec x) = S (S (length (ew x))) /\ dim (ec y) = S (S (length (ew y))) /\ tcSize (ec x) = S (length (ew x)).
Proof. assert (A := dim_size x Wx). assert (B := dim_size y Wy). destruct Wx as [_ C]. repeat split; auto. Qed.
Lemma pair_renOk : renOk (tcSize (ec x)) (dim (jux (ec x) (ec y))) ren.
Proof.
  destruct pair_dims as [A [B C]]. intros [i k] H. destruct (RI i k H). cbn [fst snd]. rewrite dim_jux, A, B, C. lia.
Qed.
Lemma pair_00 : bsat (get (ec y) 0 0) 0.
Proof. destruct Wy as [[D [_ [u Hu]]] _]. eapply bsat_ext; [|apply (Hu 0%nat 0%nat); lia]. ring. Qed.
Lemma pair_exact v : inZone j v <-> inZone (ec x) v /\ inZone (ec y) (rightPart (S (length (ew x))) v) /\ forall q, In q ren -> v (fst q) == v (S (length (ew x)) + snd q)%nat.
Proof.
  destruct pair_dims as [A [B C]]. unfold j. rewrite addRenaming_exact by exact pair_renOk. rewrite jux_exact by (try lia; exact pair_00). rewrite A, C. cbn [pred]. tauto.
Qed.
Lemma pair_closed_jux : closed (jux (ec x) (ec y)).
Proof.
  destruct pair_dims as [A [B C]]. unfold jux. apply canonize_closed_sat. destruct Wx as [[_ [_ [wl Hwl]]] _]. destruct Wy as [[_ [_ [wr Hwr]]] _].
  exists (fun k => if (k <? pred (dim (ec x)))%nat then wl k else wr (k - pred (dim (ec x)))%nat). apply canonize_inZone.
  apply jux_exact; [lia|lia|exact pair_00|]. split.
  - eapply inZone_ext; [|exact Hwl]. intros z Hz. apply Nat.ltb_lt in Hz. rewrite Hz. reflexivity.
  - eapply inZone_ext; [|exact Hwr]. intros z Hz. unfold rightPart.
    assert ((pred (dim (ec x)) + z <? pred (dim (ec x)))%nat = false) as -> by (apply Nat.ltb_ge; lia).
    replace (pred (dim (ec x)) + z - pred (dim (ec x)))%nat with z by lia. reflexivity.
Qed.
Lemma pair_sat : isSatNoCanon j = true -> nonemptyZ j.
Proof.
  intro H. apply isSatNoCanon_spec in H. apply closed_sat; [|auto]. apply addRenaming_closed; auto using pair_renOk, pair_closed_jux.
Qed.
Lemma pair_words v : inZone j v -> exists p p', inElem x p /\ inElem y p' /\ related ren p p'.
Proof.
  intro H. apply pair_exact in H. destruct H as [H1 [H2 H3]]. destruct pair_dims as [A [B C]].
  assert (C' : tcSize (ec y) = S (length (ew y))) by (destruct Wy; auto).
  exists (mkTW (ew x) (durs (tcSize (ec x)) v)), (mkTW (ew y) (durs (tcSize (ec y)) (rightPart (S (length (ew x))) v))).
  assert (Ix := inZone_durs (ec x) v ltac:(lia) H1). assert (Iy := inZone_durs (ec y) _ ltac:(lia) H2).
  split; [split; [reflexivity|exact Ix]|]. split; [split; [reflexivity|exact Iy]|].
  intros i k Hq. destruct (RI i k Hq) as [Hi Hk]. assert (L1 := proj1 Ix). assert (L2 := proj1 Iy). cbn [td].
  rewrite !since_acc by (rewrite ?L1, ?L2, ?C, ?C'; lia). rewrite !durs_acc by (rewrite ?C, ?C'; lia). exact (H3 (i, k) Hq).
Qed.
End Pair.

(** * rows *)
Lemma rowsEq_sound f x y ren : wfElem x -> wfElem y -> renIn ren x y ->
  forall sufs lr rr, (forall z, In z sufs -> looseElem z) -> exactRow f x sufs lr -> exactRow f y sufs rr ->
  rowsEq lr (map (fun s => ec (elConcat x s)) sufs) rr (map (fun s => ec (elConcat y s)) sufs) sufs ren = true ->
  forall z p p' s, In z sufs -> inElem x p -> inElem y p' -> related ren p p' -> inElem z s -> f (concatTW p s) = f (concatTW p' s).
Proof.
  intros Wx Wy RI. induction sufs as [|z0 sufs IH]; intros lr rr W RX RY E z p p' s Hz Ip Ip' Rel Is; [destruct Hz|].
  inversion RX as [|? a ? lr' HA RX']; subst. inversion RY as [|? b ? rr' HB RY']; subst. cbn [rowsEq map] in E.
  apply andb_true_iff in E. destruct E as [E1 E2]. destruct Hz as [<-|Hz].
  - exact (cell_sound f x y z0 ren Wx Wy (W z0 (or_introl eq_refl)) RI a b HA HB E1 p p' s Ip Ip' Rel Is).
  - exact (IH lr' rr' (fun q Hq => W q (or_intror Hq)) RX' RY' E2 z p p' s Hz Ip Ip' Rel Is).
Qed.
Lemma equivB_sound f x y sufs lr rr ren : wfElem x -> wfElem y -> (forall z, In z sufs -> looseElem z) -> renIn ren x y ->
  exactRow f x sufs lr -> exactRow f y sufs rr ->
  equivB (ec x) lr (map (fun s => ec (elConcat x s)) sufs) (ec y) rr (map (fun s => ec (elConcat y s)) sufs) sufs ren = true ->
  indistinguishable f x y sufs ren.
Proof.
  intros Wx Wy W RI RX RY E. unfold equivB in E. apply andb_true_iff in E. destruct E as [E1 E2]. split.
  - destruct (pair_sat x y ren Wx Wy RI E1) as [v Hv]. exact (pair_words x y ren Wx Wy RI v Hv).
  - eapply rowsEq_sound; eauto.
Qed.
Lemma juxsEq_rows ren x y : forall sufs lr rr, length lr = length sufs -> length rr = length sufs ->
  juxsEq (juxLefts lr (map (fun s => ec (elConcat y s)) sufs) sufs) (juxRights (map (fun s => ec (elConcat x s)) sufs) rr sufs) ren =
  rowsEq lr (map (fun s => ec (elConcat x s)) sufs) rr (map (fun s => ec (elConcat y s)) sufs) sufs ren.
Proof.
  induction sufs as [|s sufs IH]; intros [|a lr] [|b rr] L1 L2; cbn [length] in L1, L2; try discriminate; [reflexivity|].
  cbn [map juxLefts juxRights juxsEq rowsEq]. rewrite IH by lia. reflexivity.
Qed.
Lemma exactRow_len f x sufs row : exactRow f x sufs row -> length row = length sufs.
Proof. intro H. induction H; cbn [length]; congruence. Qed.
Lemma equivJ_sound f x y sufs lr rr ren : wfElem x -> wfElem y -> (forall z, In z sufs -> looseElem z) -> renIn ren x y ->
  exactRow f x sufs lr -> exactRow f y sufs rr ->
  equivJ (tcSize (ec x), jux (ec x) (ec y)) (juxLefts lr (map (fun s => ec (elConcat y s)) sufs) sufs) (juxRights (map (fun s => ec (elConcat x s)) sufs) rr sufs) ren = true ->
  indistinguishable f x y sufs ren.
Proof.
  intros Wx Wy W RI RX RY E. unfold equivJ in E. cbn [fst snd] in E. apply andb_true_iff in E. destruct E as [E1 E2]. split.
  - apply isSatisfiable_exact in E1. destruct E1 as [v Hv]. exact (pair_words x y ren Wx Wy RI v Hv).
  - rewrite juxsEq_rows in E2 by (eapply exactRow_len; eauto). eapply rowsEq_sound; eauto.
Qed.

(** * candidates *)
Lemma insertU_in x : forall l y, In y (insertU x l) <-> y = x \/ In y l.
Proof.
  induction l as [|a l IH]; intro y; cbn [insertU]; [cbn; intuition|].
  destruct (x <? a)%nat; [cbn; intuition|]. destruct (x =? a)%nat eqn:E; [apply Nat.eqb_eq in E; subst; cbn; intuition|].
  cbn [In]. rewrite IH. intuition.
Qed.
Lemma sortUniq_in l y : In y (sortUniq l) <-> In y l.
Proof. unfold sortUniq. induction l as [|a l IH]; [reflexivity|]. cbn [fold_right]. rewrite insertU_in, IH. cbn. intuition. Qed.
Inductive ascending : list nat -> Prop :=
| asc_nil : ascending []
| asc_cons a l : (forall b, In b l -> (a < b)%nat) -> ascending l -> ascending (a :: l).
Lemma insertU_asc x : forall l, ascending l -> ascending (insertU x l).
Proof.
  induction l as [|a l IH]; intro H; cbn [insertU]; [constructor; [intros b []|constructor]|].
  inversion H as [|? ? H1 H2]; subst. destruct (x <? a)%nat eqn:E.
  - apply Nat.ltb_lt in E. constructor; [|auto]. intros b [<-|Hb]; [auto|]. specialize (H1 b Hb). lia.
  - apply Nat.ltb_ge in E. destruct (x =? a)%nat eqn:E2; [auto|]. apply Nat.eqb_neq in E2. constructor; [|auto].
    intros b Hb. apply insertU_in in Hb. destruct Hb as [->|Hb]; [lia|auto].
Qed.
Lemma sortUniq_asc l : ascending (sortUniq l).
Proof. unfold sortUniq. induction l as [|a l IH]; [constructor|]. cbn [fold_right]. apply insertU_asc. auto. Qed.
Lemma sortUniq_fix l : ascending l -> sortUniq l = l.
Proof.
  induction l as [|a l IH]; intro H; [reflexivity|]. inversion H as [|? ? H1 H2]; subst. unfold sortUniq in *. cbn [fold_right]. rewrite IH by auto.
  destruct l as [|b l]; [reflexivity|]. cbn [insertU]. assert (a < b)%nat by (apply H1; left; auto). apply Nat.ltb_lt in H0. rewrite H0. reflexivity.
Qed.
Lemma insertC_in x : forall l y, In y (insertC x l) -> y = x \/ In y l.
Proof.
  induction l as [|a l IH]; intro y; cbn [insertC]; [cbn; intuition|].
  destruct (renLt x a); [cbn; intuition|]. destruct (renEqb x a); [cbn; intuition|]. cbn [In]. intros [<-|H]; [auto|]. apply IH in H. tauto.
Qed.
Lemma sortCands_in l y : In y (sortCands l) -> In y l.
Proof. unfold sortCands. induction l as [|a l IH]; [auto|]. cbn [fold_right]. intro H. apply insertC_in in H. cbn. destruct H as [->|H]; auto. Qed.
Lemma insertR_in x : forall l y, In y (insertR x l) <-> y = x \/ In y l.
Proof.
  induction l as [|a l IH]; intro y; cbn [insertR]; [cbn; intuition|]. destruct (pairLtR a x); cbn [In]; [rewrite IH|]; intuition.
Qed.
Lemma sortR_in l y : In y (sortR l) <-> In y l.
Proof. unfold sortR. induction l as [|a l IH]; [reflexivity|]. cbn [fold_right]. rewrite insertR_in, IH. cbn. intuition. Qed.
Inductive sndSorted : renaming -> Prop :=
| ss_nil : sndSorted []
| ss_cons a l : (forall b, In b l -> (snd a <= snd b)%nat) -> sndSorted l -> sndSorted (a :: l).
Lemma insertR_sorted x : forall l, sndSorted l -> sndSorted (insertR x l).
Proof.
  induction l as [|a l IH]; intro H; cbn [insertR]; [constructor; [intros b []|constructor]|].
  inversion H as [|? ? H1 H2]; subst. unfold pairLtR. destruct (snd a <? snd x)%nat eqn:E1; cbn [orb].
  - apply Nat.ltb_lt in E1. constructor; [|auto]. intros b Hb. apply insertR_in in Hb. destruct Hb as [->|Hb]; [lia|auto].
  - apply Nat.ltb_ge in E1. destruct ((snd a =? snd x)%nat && (fst a <? fst x)%nat) eqn:E2.
    + apply andb_true_iff in E2. destruct E2 as [E2 _]. apply Nat.eqb_eq in E2. constructor; [|auto].
      intros b Hb. apply insertR_in in Hb. destruct Hb as [->|Hb]; [lia|auto].
    + constructor; [|auto]. intros b [<-|Hb]; [lia|]. specialize (H1 b Hb). lia.
Qed.
Lemma sortR_sorted l : sndSorted (sortR l).
Proof. unfold sortR. induction l as [|a l IH]; [constructor|]. cbn [fold_right]. apply insertR_sorted. auto. Qed.
Lemma uniqR_in : forall l o y, In y (uniqR o l) -> In y l.
Proof.
  induction l as [|a l IH]; intros o y H; [destruct H|]. cbn [uniqR] in H.
  destruct (match o with Some x => (x =? snd a)%nat | None => false end); [right; eauto|]. destruct H as [<-|H]; [left; auto|right; eauto].
Qed.
Lemma uniqR_asc : forall l o, sndSorted l -> (forall k y, o = Some k -> In y l -> (k <= snd y)%nat) ->
  ascending (map snd (uniqR o l)) /\ (forall k y, o = Some k -> In y (uniqR o l) -> (k < snd y)%nat).
Proof.
  induction l as [|a l IH]; intros o H K; cbn [uniqR map]; [split; [constructor|intros k y _ []]|].
  inversion H as [|? ? H1 H2]; subst.
  destruct (match o with Some x => (x =? snd a)%nat | None => false end) eqn:E.
  - apply IH; [auto|]. intros k y E' Hy. apply K; [auto|right; auto].
  - destruct (IH (Some (snd a)) H2) as [A B]; [intros k y E' Hy; injection E' as <-; auto|]. cbn [map]. split.
    + constructor; [|auto]. intros b Hb. apply in_map_iff in Hb. destruct Hb as [y [<- Hy]]. exact (B _ y eq_refl Hy).
    + intros k y -> Hy. apply Nat.eqb_neq in E. assert (K1 := K k a eq_refl (or_introl eq_refl)). destruct Hy as [<-|Hy]; [lia|].
      specialize (B _ y eq_refl Hy). lia.
Qed.
Lemma addImplicit_unique ren j rs : isRightUnique (addImplicit ren j rs) = true.
Proof.
  unfold isRightUnique, rightVariables, addImplicit. destruct (uniqR_asc (sortR (ren ++ makeRenaming (fst j) rs (addRenaming (fst j) (snd j) ren))) None (sortR_sorted _)) as [A _]; [discriminate|].
  rewrite sortUniq_fix by auto. rewrite map_length. apply Nat.eqb_refl.
Qed.
Lemma makeRenaming_range ls rs m p : In p (makeRenaming ls rs m) -> (fst p < ls)%nat /\ (snd p < rs)%nat.
Proof.
  unfold makeRenaming. intro H. apply in_flat_map in H. destruct H as [l [Hl H]]. apply in_flat_map in H. destruct H as [r [Hr H]].
  apply in_seq in Hl, Hr. destruct (beqb _ _ && beqb _ _); [|destruct H]. destruct H as [<-|[]]. cbn. lia.
Qed.
Lemma addImplicit_range ren j rs : (forall p, In p ren -> (fst p < fst j)%nat /\ (snd p < rs)%nat) ->
  forall p, In p (addImplicit ren j rs) -> (fst p < fst j)%nat /\ (snd p < rs)%nat.
Proof.
  intros H p Hp. unfold addImplicit in Hp. apply uniqR_in, sortR_in, in_app_or in Hp. destruct Hp as [Hp|Hp]; [auto|]. eapply makeRenaming_range; eauto.
Qed.
