(** The clock resets built from a renaming. *)
From Coq Require Import QArith Qround Bool List Arith Lia Lqa.
From Verif Require Import BoundsModel BoundsProofs ConstraintModel ZoneModel ZoneSpec ZoneProofs ZoneProofs2 AutomatonModel AutomatonSpec AutomatonProofs
  TimedWordModel TimedWordSpec TimedConditionModel TimedConditionSpec TimedConditionProofs TimedConditionProofs4 ElementaryModel
  ElementarySpec RegionalModel RegionalSpec OracleModel SymbolicModel SymbolicSpec CexModel CexSpec CexProofs RenamingModel RenamingSpec RenamingProofs RenamingProofs2.
Import ListNotations.
Open Scope Q_scope.

(** * toValuation *)
Definition bounded (c : tcond) : Prop := forall i, (i < tcSize c)%nat -> (exists l s, getLowerBound c i (tcSize c - 1) = Fin l s) /\ (exists u t, getUpperBound c i (tcSize c - 1) = Fin u t).
Lemma lastCol c : colOf c (tcSize c - 1) = 0%nat.
Proof. unfold colOf. rewrite Nat.eqb_refl. reflexivity. Qed.
Lemma lastUp c i : getUpperBound c i (tcSize c - 1) = get c (i + 1) 0.
Proof. unfold getUpperBound. rewrite lastCol. reflexivity. Qed.
Lemma lastLo c i : getLowerBound c i (tcSize c - 1) = get c 0 (i + 1).
Proof. unfold getLowerBound. rewrite lastCol. reflexivity. Qed.
Lemma ble_fin a c s : ble a (Fin c s) = true -> exists d t, a = Fin d t.
Proof. destruct a as [d t|]; [eauto|]. intro H. rewrite ble_spec in H. specialize (H (c + 1) I). cbn in H. destruct s; lra. Qed.
Lemma bounded_sub c c' : okCond c' -> tcSize c' = tcSize c -> dim c' = dim c -> (forall w, inZone c' w -> inZone c w) -> bounded c -> bounded c'.
Proof.
  intros [D [C NE]] Sz Dm Sub B i Hi. rewrite Sz in Hi. destruct (B i Hi) as [[l [s L]] [u [t U]]]. rewrite lastLo, lastUp in *. rewrite ?Sz.
  assert (T := closed_tight c' C (nonempty_nonneg2 _ NE)). unfold tcSize in *. split.
  - apply (ble_fin _ l s). rewrite <- L. apply T; [lia|lia|lia|]. intros w Hw. apply Sub in Hw. apply (Hw 0%nat (i + 1)%nat); lia.
  - apply (ble_fin _ u t). rewrite <- U. apply T; [lia|lia|lia|]. intros w Hw. apply Sub in Hw. apply (Hw (i + 1)%nat 0%nat); lia.
Qed.
Lemma toValStep_ok c vs i : okCond c -> bounded c -> (i < tcSize c)%nat ->
  exists c' v, toValStep (c, vs) i = (c', vs ++ [v]) /\ okCond c' /\ dim c' = dim c /\ (forall w, inZone c' w -> inZone c w /\ w i == v).
Proof.
  intros O B Hi. destruct O as [D [C NE]]. assert (N2 := nonempty_nonneg2 _ NE). destruct (B i Hi) as [[l [ls L]] [u [us U]]].
  unfold toValStep. rewrite L, U. assert (Hd : (i + 1 < dim c)%nat) by (unfold tcSize in Hi; lia).
  rewrite lastLo in L. rewrite lastUp in U.
  assert (NN := N2 (i + 1)%nat 0%nat Hd ltac:(lia)). rewrite L, U in NN. apply bzero_le_sat in NN.
  destruct (Qeq_bool l (- u) && ls && us) eqn:E.
  - apply andb_true_iff in E. destruct E as [E Eu]. apply andb_true_iff in E. destruct E as [E El]. apply Qeq_bool_eq in E. subst.
    exists c, u. split; [reflexivity|]. split; [split; auto|]. split; [auto|]. intros w Hw. split; [auto|].
    assert (A1 := Hw (i + 1)%nat 0%nat Hd ltac:(lia)). assert (A2 := Hw 0%nat (i + 1)%nat ltac:(lia) Hd). rewrite U in A1. rewrite L in A2.
    replace (i + 1)%nat with (S i) in * by lia. cbn [ext bsat] in A1, A2. lra.
  - set (mid := (u - l) / 2). assert (Em : mid == (u - l) * (1#2)) by (unfold mid; field).
    assert (Lt : 0 < u + l).
    { cbn [badd] in NN. qred. destruct (Qlt_le_dec 0 (u + l)) as [X|X]; [auto|]. exfalso. 
      assert (Z : u + l == 0) by (destruct us, ls; cbn in NN; lra). destruct us, ls; cbn in NN; try lra.
      assert (Q : Qeq_bool l (- u) = true) by (apply Qeq_eq_bool; lra). rewrite Q in E. discriminate. }
    destruct (realise c (i + 1) 0 mid C N2 Hd ltac:(lia) ltac:(lia)) as [w0 [Hw0 Ew0]].
    { rewrite U. destruct us; cbn; lra. }
    { rewrite L. destruct ls; cbn; lra. }
    set (n := (tcSize c - 1)%nat). set (c1 := restrictLowerBound c i n (Fin (- mid) true) false). set (c2 := restrictUpperBound c1 i n (Fin mid true) false).
    assert (D1 : dim c1 = dim c) by apply dim_restrictLower. assert (D2 : dim c2 = dim c) by (unfold c2; rewrite dim_restrictUpper; auto).
    assert (Hin : (i <= n)%nat) by (unfold n; lia). assert (Hn : (n < tcSize c)%nat) by (unfold n; lia).
    assert (S1 : tcSize c1 = tcSize c) by (unfold tcSize; rewrite D1; reflexivity).
    assert (EQ : forall w, inZone c2 w <-> inZone c w /\ w i == mid).
    { intro w. rewrite !inZone_Z. unfold c2. rewrite restrictUpper_Z by (rewrite ?D1, ?S1; auto). unfold c1 at 1. rewrite restrictLower_Z by auto.
      assert (X1 : colOf c n = 0%nat) by (unfold n; apply lastCol). assert (X2 : colOf c1 n = 0%nat) by (unfold n; rewrite <- S1; apply lastCol).
      rewrite X1, X2. replace (i + 1)%nat with (S i) by lia. cbn [ext bsat]. split; [intros [[H1 H2] H3]; split; [auto|lra]|intros [H1 H2]; repeat split; auto; lra]. }
    exists c2, mid. split; [reflexivity|]. split; [|split; [auto|apply EQ]].
    apply okCond_restrictUpper; [rewrite D1; auto|]. exists w0. apply EQ. split; [auto|]. replace (i + 1)%nat with (S i) in Ew0 by lia. cbn [ext] in Ew0. lra.
Qed.
Lemma toValuation_loop c : okCond c -> bounded c -> forall k, (k <= tcSize c)%nat ->
  exists c' vs, fold_left toValStep (seq 0 k) (c, []) = (c', vs) /\ length vs = k /\ okCond c' /\ dim c' = dim c /\
    forall w, inZone c' w -> inZone c w /\ forall i, (i < k)%nat -> w i == nth i vs 0.
Proof.
  intros O B. induction k as [|k IH]; intro Hk.
  - exists c, []. cbn. repeat split; auto; try apply O. intros; lia.
  - destruct IH as [c' [vs [E [L [O' [D' H]]]]]]; [lia|]. rewrite seq_S, fold_left_app, E. cbn [fold_left Nat.add].
    assert (S' : tcSize c' = tcSize c) by (unfold tcSize; rewrite D'; reflexivity).
    destruct (toValStep_ok c' vs k O') as [c2 [v [E2 [O2 [D2 H2]]]]]; [eapply bounded_sub; eauto; intros w Hw; apply H; auto|lia|].
    exists c2, (vs ++ [v]). split; [exact E2|]. split; [rewrite app_length; cbn; lia|]. split; [auto|]. split; [congruence|].
    intros w Hw. destruct (H2 w Hw) as [H3 H4]. destruct (H w H3) as [H5 H6]. split; [auto|]. intros i Hi.
    destruct (Nat.eq_dec i k) as [->|Ne]; [rewrite <- L, nth_middle; rewrite L; auto|]. rewrite app_nth1 by lia. apply H6. lia.
Qed.
Lemma toValuation_in c : okCond c -> bounded c ->
  length (toValuation c) = tcSize c /\ inZone c (fun i => nth i (toValuation c) 0).
Proof.
  intros O B. destruct (toValuation_loop c O B (tcSize c) (le_n _)) as [c' [vs [E [L [O' [D' H]]]]]]. unfold toValuation. rewrite E. cbn [snd].
  split; [auto|]. destruct O' as [_ [_ [w Hw]]]. destruct (H w Hw) as [H1 H2]. eapply inZone_ext; [|exact H1]. intros i Hi. apply H2. unfold tcSize. destruct O. lia.
Qed.

(** * toReset *)
Definition entry (rs : resets) (x : clock) (e : rhs) : Prop := In (x, e) rs.
Lemma overwriteFirst_keys x q : forall rs, map fst (overwriteFirst x q rs) = map fst rs.
Proof.
  induction rs as [|[y e] rs IH]; [reflexivity|]. cbn [overwriteFirst map fst]. destruct (y =? x)%nat eqn:E; cbn [map fst]; [|rewrite IH; auto].
  apply Nat.eqb_eq in E. subst. reflexivity.
Qed.
Lemma overwriteFirst_other x q y e : y <> x -> forall rs, entry (overwriteFirst x q rs) y e <-> entry rs y e.
Proof.
  intros Ne. unfold entry. induction rs as [|[z d] rs IH]; [reflexivity|]. cbn [overwriteFirst fst]. destruct (z =? x)%nat eqn:E.
  - apply Nat.eqb_eq in E. subst. cbn [In]. split; (intros [H|H]; [injection H as H1 H2; congruence|auto]).
  - cbn [In]. rewrite IH. reflexivity.
Qed.
Lemma overwriteFirst_in x q : forall rs, In x (map fst rs) -> entry (overwriteFirst x q rs) x (RConst q).
Proof.
  unfold entry. induction rs as [|[z d] rs IH]; intros H; [destruct H|]. cbn [overwriteFirst fst]. destruct (z =? x)%nat eqn:E; [left; auto|].
  apply Nat.eqb_neq in E. destruct H as [H|H]; [cbn in H; congruence|]. right. auto.
Qed.
Lemma toResetStep_ok vs rs x : NoDup (map fst rs) ->
  NoDup (map fst (toResetStep vs rs x)) /\ (forall y e, y <> x -> entry (toResetStep vs rs x) y e <-> entry rs y e) /\
  (~ In x (map fst rs) -> entry (toResetStep vs rs x) x (RConst (nth x vs 0))) /\
  (In x (map fst rs) -> nth x vs 0 == qfloor (nth x vs 0) -> entry (toResetStep vs rs x) x (RConst (nth x vs 0))) /\
  (~ nth x vs 0 == qfloor (nth x vs 0) -> forall e, entry rs x e -> entry (toResetStep vs rs x) x e).
Proof.
  intro ND. unfold toResetStep. cbv zeta.
  assert (EX : existsb (fun r => (fst r =? x)%nat) rs = true <-> In x (map fst rs)).
  { rewrite existsb_exists, in_map_iff. split; intros [r [A B]]; exists r; [apply Nat.eqb_eq in B|rewrite Nat.eqb_eq]; auto. }
  destruct (existsb (fun r => (fst r =? x)%nat) rs).
  - assert (I : In x (map fst rs)) by (apply EX; auto). destruct (Qeq_bool (nth x vs 0) (qfloor (nth x vs 0))) eqn:E.
    + apply Qeq_bool_eq in E. rewrite overwriteFirst_keys. split; [auto|]. split; [intros; apply overwriteFirst_other; auto|].
      split; [tauto|]. split; [intros; apply overwriteFirst_in; auto|tauto].
    + assert (E' : ~ nth x vs 0 == qfloor (nth x vs 0)) by (intro X; apply Qeq_eq_bool in X; congruence).
      split; [auto|]. split; [reflexivity|]. split; [tauto|]. split; [tauto|auto].
  - assert (I : ~ In x (map fst rs)) by (intro X; apply EX in X; discriminate).
    split; [rewrite map_app; cbn [map fst]; apply (Permutation.Permutation_NoDup (Permutation.Permutation_cons_append _ _)); constructor; auto|].
    split; [|split; [|split]].
    + intros y e Ne. unfold entry. rewrite in_app_iff. cbn [In]. split; [intros [H|[H|[]]]; [auto|injection H; congruence]|auto].
    + intros _. unfold entry. rewrite in_app_iff. right. left. reflexivity.
    + tauto.
    + intros _ e H. exfalso. apply I. apply in_map_iff. exists (x, e). auto.
Qed.
Lemma entry_apply rs v x e : NoDup (map fst rs) -> entry rs x e -> applyReset v rs x == match e with RConst q => q | RVar y => v y end.
Proof.
  intros ND H. apply in_split in H. destruct H as [a [b ->]]. apply (proj2 (applyReset_isReset _ v x) a e b eq_refl).
  rewrite map_app in ND. cbn [map fst] in ND. apply NoDup_remove_2 in ND. intro X. apply ND. apply in_or_app. auto.
Qed.
Lemma toReset_loop vs rs0 : NoDup (map fst rs0) -> forall n, 
  let rs := fold_left (toResetStep vs) (seq 0 n) rs0 in
  NoDup (map fst rs) /\ (forall y e, (n <= y)%nat -> entry rs y e <-> entry rs0 y e) /\
  (forall x, (x < n)%nat -> (~ In x (map fst rs0) \/ nth x vs 0 == qfloor (nth x vs 0)) -> entry rs x (RConst (nth x vs 0))) /\
  (forall x e, (x < n)%nat -> ~ nth x vs 0 == qfloor (nth x vs 0) -> entry rs0 x e -> entry rs x e).
Proof.
  intro ND. induction n as [|n IH]; cbv zeta in *; [cbn [seq fold_left]; split; [auto|]; split; [reflexivity|]; split; intros; lia|].
  rewrite seq_S, fold_left_app. cbn [fold_left Nat.add]. set (rs := fold_left (toResetStep vs) (seq 0 n) rs0) in *.
  destruct IH as [A [B [C D]]]. destruct (toResetStep_ok vs rs n A) as [A' [B' [C' [D' E']]]].
  assert (KEY : In n (map fst rs) <-> In n (map fst rs0)).
  { rewrite !in_map_iff. split; intros [[y e] [F G]]; cbn [fst] in F; subst y; exists (n, e); (split; [auto|]); apply (B n e (le_n _)); auto. }
  split; [auto|]. split; [|split].
  - intros y e Hy. rewrite B' by lia. apply B. lia.
  - intros x Hx Cond. destruct (Nat.eq_dec x n) as [->|Ne]; [|apply B'; [auto|]; apply C; auto; lia].
    destruct (in_dec Nat.eq_dec n (map fst rs)) as [I|I]; [|auto]. apply D'; [auto|]. destruct Cond as [Cond|Cond]; [|auto]. exfalso. apply Cond, KEY. auto.
  - intros x e Hx Cond H. destruct (Nat.eq_dec x n) as [->|Ne]; [|apply B'; [auto|]; apply D; auto; lia]. apply E'; [auto|]. apply B; auto.
Qed.

(** * the clocks after the reset *)
Lemma simple_at c x : okCond c -> isSimple c = true -> (x < tcSize c)%nat ->
  isPointAt c x = true \/ isUnitOpen (get c 0 (x + 1)) (get c (x + 1) 0) = true.
Proof.
  intros [D _] S H. unfold isSimple in S. rewrite forallb_forall in S. specialize (S 0%nat ltac:(apply in_seq; lia)). rewrite forallb_forall in S.
  specialize (S (x + 1)%nat ltac:(apply in_seq; unfold tcSize in H; lia)). unfold isSimpleB in S. apply orb_true_iff in S. destruct S as [S|S]; [left|right; exact S].
  unfold isPointAt. rewrite lastUp, lastLo. unfold isPoint in *. destruct (get c 0 (x + 1)) as [l ls|], (get c (x + 1) 0) as [u us|]; try discriminate.
  apply andb_true_iff in S. destruct S as [S S2]. apply andb_true_iff in S. destruct S as [S S1]. apply Qeq_bool_eq in S. subst.
  rewrite andb_true_r. rewrite andb_true_r. apply Qeq_eq_bool. lra.
Qed.
Lemma simple_bounded c : okCond c -> isSimple c = true -> bounded c.
Proof.
  intros O S i Hi. rewrite lastLo, lastUp. destruct (simple_at c i O S Hi) as [H|H].
  - unfold isPointAt in H. rewrite lastLo, lastUp in H. unfold isPoint in H. destruct (get c (i + 1) 0), (get c 0 (i + 1)); try discriminate; eauto 6.
  - unfold isUnitOpen in H. destruct (get c (i + 1) 0), (get c 0 (i + 1)); try discriminate; eauto 6.
Qed.
Lemma point_value c x : okCond c -> intCond c -> isPointAt c x = true -> (x < tcSize c)%nat ->
  exists z, forall w, inZone c w -> w x == inject_Z z.
Proof.
  intros [D _] IC H Hx. unfold isPointAt in H. rewrite lastLo, lastUp in H. assert (B : (x + 1 < dim c)%nat) by (unfold tcSize in Hx; lia).
  assert (I := IC (x + 1)%nat 0%nat B ltac:(lia)). unfold isPoint in H. destruct (get c (x + 1) 0) as [u us|] eqn:U, (get c 0 (x + 1)) as [l ls|] eqn:L; try discriminate.
  apply andb_true_iff in H. destruct H as [H H2]. apply andb_true_iff in H. destruct H as [H H1]. apply Qeq_bool_eq in H. subst.
  destruct I as [z Hz]. exists z. intros w Hw. assert (A1 := Hw (x + 1)%nat 0%nat B ltac:(lia)). assert (A2 := Hw 0%nat (x + 1)%nat ltac:(lia) B).
  rewrite U in A1. rewrite L in A2. replace (x + 1)%nat with (S x) in * by lia. cbn [ext bsat] in *. lra.
Qed.
Lemma open_value c x w : okCond c -> intCond c -> isUnitOpen (get c 0 (x + 1)) (get c (x + 1) 0) = true -> (x < tcSize c)%nat -> inZone c w -> ~ w x == qfloor (w x).
Proof.
  intros [D _] IC H Hx Hw E. assert (B : (x + 1 < dim c)%nat) by (unfold tcSize in Hx; lia).
  assert (I := IC (x + 1)%nat 0%nat B ltac:(lia)). unfold isUnitOpen in H. destruct (get c 0 (x + 1)) as [l ls|] eqn:L, (get c (x + 1) 0) as [u us|] eqn:U; try discriminate.
  apply andb_true_iff in H. destruct H as [H H2]. apply andb_true_iff in H. destruct H as [H H1]. apply Qeq_bool_eq in H. apply negb_true_iff in H1, H2. subst.
  destruct I as [z Hz]. assert (A1 := Hw (x + 1)%nat 0%nat B ltac:(lia)). assert (A2 := Hw 0%nat (x + 1)%nat ltac:(lia) B).
  rewrite U in A1. rewrite L in A2. replace (x + 1)%nat with (S x) in * by lia. cbn [ext bsat] in *. unfold qfloor in E. set (k := Qfloor (w x)) in *.
  assert (K1 : inject_Z z - 1 < inject_Z k) by lra. assert (K2 : inject_Z k < inject_Z z) by lra.
  rewrite <- Zlt_Qlt in K2. assert (K3 : inject_Z (z - 1) < inject_Z k) by (replace (z - 1)%Z with (z + -1)%Z by lia; rewrite inject_Z_plus; change (inject_Z (-1)) with (- (1)); lra). rewrite <- Zlt_Qlt in K3. lia.
Qed.
Lemma floor_int q z : q == inject_Z z -> q == qfloor q.
Proof. intro H. unfold qfloor. rewrite (Qfloor_comp _ _ H), Qfloor_Z. exact H. Qed.
Lemma full_all ren y x : renFull ren (ec y) = true -> (forall p, In p ren -> (snd p < tcSize (ec y))%nat) -> (x < tcSize (ec y))%nat ->
  In x (map snd ren) \/ isPointAt (ec y) x = true.
Proof.
  unfold renFull. intros F R Hx. apply Nat.eqb_eq in F.
  set (k := sortUniq (rightVariables ren ++ filter (isPointAt (ec y)) (seq 0 (tcSize (ec y))))) in *.
  assert (ND : NoDup k).
  { assert (A := sortUniq_asc (rightVariables ren ++ filter (isPointAt (ec y)) (seq 0 (tcSize (ec y))))). fold k in A. clear - A.
    induction A as [|a l H A IH]; constructor; auto. intro X. specialize (H a X). lia. }
  assert (SUB : incl k (seq 0 (tcSize (ec y)))).
  { intros z Hz. apply (proj1 (sortUniq_in _ _)) in Hz. apply in_app_or in Hz. destruct Hz as [Hz|Hz]; [|apply filter_In in Hz; tauto].
    apply (proj1 (sortUniq_in _ _)) in Hz. apply in_map_iff in Hz. destruct Hz as [p [<- Hp]]. apply in_seq. specialize (R p Hp). lia. }
  assert (K : incl (seq 0 (tcSize (ec y))) k) by (apply NoDup_length_incl; [auto|rewrite seq_length; lia|auto]).
  assert (H : In x k) by (apply K, in_seq; lia). apply (proj1 (sortUniq_in _ _)) in H. apply in_app_or in H.
  destruct H as [H|H]; [left; apply (proj1 (sortUniq_in _ _)); exact H|right; apply filter_In in H; tauto].
Qed.
Lemma unique_nodup ren : isRightUnique ren = true -> NoDup (map snd ren).
Proof.
  unfold isRightUnique, rightVariables. intro H. apply Nat.eqb_eq in H.
  assert (G : forall l, length (sortUniq l) = length l -> NoDup l).
  { assert (LE : forall x l, (length (insertU x l) <= S (length l))%nat).
    { intros x. induction l as [|a l IH]; [cbn; lia|]. cbn [insertU]. destruct (x <? a)%nat; [cbn; lia|]. destruct (x =? a)%nat; [cbn; lia|]. cbn [length]. lia. }
    assert (SL : forall l, (length (sortUniq l) <= length l)%nat).
    { unfold sortUniq. induction l as [|a l IH]; [cbn; lia|]. cbn [fold_right length]. specialize (LE a (fold_right insertU [] l)). lia. }
    induction l as [|a l IH]; intro E; [constructor|]. unfold sortUniq in *. cbn [fold_right length] in E.
    assert (L1 := LE a (fold_right insertU [] l)). assert (L2 := SL l). constructor; [|apply IH; lia].
    intro I. apply (proj2 (sortUniq_in l a)) in I. unfold sortUniq in I. assert (AS := sortUniq_asc l). unfold sortUniq in AS. set (k := fold_right insertU [] l) in *.
    assert (Z : forall k0, ascending k0 -> In a k0 -> insertU a k0 = k0).
    { clear. induction k0 as [|b k0 IH]; intros A I; [destruct I|]. cbn [insertU]. inversion A as [|? ? A1 A2]; subst.
      destruct I as [<-|I]; [rewrite Nat.ltb_irrefl, Nat.eqb_refl; auto|]. specialize (A1 a I) as A3. assert (X : (a <? b)%nat = false) by (apply Nat.ltb_ge; lia).
      assert (Y : (a =? b)%nat = false) by (apply Nat.eqb_neq; lia). rewrite X, Y. f_equal. auto. }
    rewrite (Z k AS I) in E. lia. }
  apply G. rewrite map_length. exact H.
Qed.

Lemma toReset_sound x y ren p p' : wfElem x -> wfElem y -> isSimple (ec y) = true -> intCond (ec y) -> renIn ren x y -> isRightUnique ren = true ->
  hasImpreciseClocks ren (ec y) = false -> inElem x p -> inElem y p' -> related ren p p' ->
  exists p'', inElem y p'' /\ related ren p p'' /\
    forall k, (k <= length (ew y))%nat -> applyReset (since (td p)) (toReset ren (ec y)) k == since (td p'') k.
Proof.
  intros Wx Wy SI IC RI RU HI Ip Ip' Rel. assert (Sy : tcSize (ec y) = S (length (ew y))) by (destruct Wy; auto).
  assert (Dy := dim_size y Wy). assert (Oy : okCond (ec y)) by (destruct Wy; auto).
  destruct (toValuation_in (ec y) Oy (simple_bounded _ Oy SI)) as [Lv Iv]. set (vs := toValuation (ec y)) in *.
  set (rs0 := map (fun q => (snd q, RVar (fst q))) ren).
  assert (K0 : map fst rs0 = map snd ren) by (unfold rs0; rewrite map_map; apply map_ext; auto).
  assert (ND : NoDup (map fst rs0)) by (rewrite K0; apply unique_nodup; auto).
  destruct (toReset_loop vs rs0 ND (tcSize (ec y))) as [A [_ [C D]]]. fold (toReset ren (ec y)) in A, C, D. change (fold_left (toResetStep vs) (seq 0 (tcSize (ec y))) rs0) with (toReset ren (ec y)) in *.
  (* the word given by the valuation *)
  set (pv := mkTW (ew y) (durs (tcSize (ec y)) (fun i => nth i vs 0))).
  assert (Ipv : inElem y pv) by (split; [reflexivity|apply inZone_durs; [lia|auto]]).
  assert (Lp : length (td p) = S (length (ew x))) by (destruct Ip as [E [L _]], Wx as [_ Sx]; congruence).
  assert (Lp' : length (td p') = S (length (ew y))) by (destruct Ip' as [E [L _]]; congruence).
  assert (Lpv : length (td pv) = S (length (ew y))) by (destruct Ipv as [E [L _]]; congruence).
  assert (Vpv : forall k, (k <= length (ew y))%nat -> since (td pv) k == nth k vs 0).
  { intros k Hk. rewrite since_acc by lia. unfold pv. cbn [td]. apply durs_acc. lia. }
  assert (Zp' : inZone (ec y) (accd (td p'))) by (destruct Ip' as [_ I]; apply inCond_iff in I; [apply I|auto]).
  assert (PT : forall k, (k <= length (ew y))%nat -> isPointAt (ec y) k = true -> since (td p') k == nth k vs 0 /\ nth k vs 0 == qfloor (nth k vs 0)).
  { intros k Hk P. destruct (point_value (ec y) k Oy IC P ltac:(lia)) as [z Hz]. split.
    - rewrite since_acc by lia. rewrite (Hz _ Zp'). symmetry. exact (Hz _ Iv).
    - apply (floor_int _ z). exact (Hz _ Iv). }
  assert (OP : forall k, (k <= length (ew y))%nat -> isPointAt (ec y) k = false -> ~ nth k vs 0 == qfloor (nth k vs 0)).
  { intros k Hk P. destruct (simple_at (ec y) k Oy SI ltac:(lia)) as [X|X]; [congruence|]. exact (open_value (ec y) k _ Oy IC X ltac:(lia) Iv). }
  assert (VP : forall k, (k <= length (ew y))%nat -> isPointAt (ec y) k = true \/ ~ In k (map snd ren) -> applyReset (since (td p)) (toReset ren (ec y)) k == nth k vs 0).
  { intros k Hk P. rewrite (entry_apply _ _ k (RConst (nth k vs 0)) A); [reflexivity|]. apply C; [lia|]. destruct P as [P|P]; [right; apply PT; auto|left; intro X; apply P; rewrite <- K0; exact X]. }
  assert (VR : forall k, (k <= length (ew y))%nat -> isPointAt (ec y) k = false -> In k (map snd ren) -> applyReset (since (td p)) (toReset ren (ec y)) k == since (td p') k).
  { intros k Hk P I. apply in_map_iff in I. destruct I as [[i j] [E I]]. cbn [snd] in E. subst j.
    rewrite (entry_apply _ _ k (RVar i) A); [exact (Rel i k I)|]. apply D; [lia|apply OP; auto|]. unfold entry, rs0. apply in_map_iff. exists (i, k). auto. }
  assert (CASE : ren = [] \/ renFull ren (ec y) = true \/ onlyTrivial ren (ec y) = true).
  { unfold hasImpreciseClocks in HI. destruct ren; [auto|]. cbn [andb] in HI. destruct (renFull _ _); [auto|]. destruct (onlyTrivial _ _); [auto|]. discriminate. }
  assert (TRIV : (forall i j, In (i, j) ren -> isPointAt (ec y) j = true) -> exists p'', inElem y p'' /\ related ren p p'' /\
    forall k, (k <= length (ew y))%nat -> applyReset (since (td p)) (toReset ren (ec y)) k == since (td p'') k).
  { intro TR. exists pv. split; [auto|]. split.
    - intros i j I. destruct (RI i j I) as [_ Hj]. rewrite (Rel i j I), (Vpv j Hj). apply PT; eauto.
    - intros k Hk. rewrite (Vpv k Hk). apply VP; [auto|]. destruct (in_dec Nat.eq_dec k (map snd ren)) as [I|I]; [left|right; auto].
      apply in_map_iff in I. destruct I as [[i j] [E I]]. cbn [snd] in E. subst. eauto. }
  destruct CASE as [->|[F|O]]; [apply TRIV; intros i j []| |apply TRIV; intros i j I; unfold onlyTrivial in O; rewrite forallb_forall in O; exact (O (i, j) I)].
  exists p'. split; [auto|]. split; [auto|]. intros k Hk. destruct (isPointAt (ec y) k) eqn:P; [rewrite VP by auto; symmetry; apply PT; auto|].
  apply VR; auto. destruct (full_all ren y k F) as [X|X]; [|lia|auto|congruence]. intros [i j] I. destruct (RI i j I). cbn [snd]. lia.
Qed.
