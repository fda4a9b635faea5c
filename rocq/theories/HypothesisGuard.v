(** The guards the hypothesis gives to the rows of the table. *)
From Coq Require Import QArith Qround ZArith Bool List Arith Lia Lqa.
From Verif Require Import BoundsModel ConstraintModel GuardSpec BoundsProofs ConstraintProofs ConstraintProofs2
  ZoneModel ZoneSpec ZoneProofs AutomatonModel TimedWordModel TimedWordSpec TimedConditionModel TimedConditionSpec TimedConditionProofs
  ElementaryModel ElementarySpec ElementaryProofs2 RegionalModel RegionalSpec RegionalProofs RegionalProofs4 ShapeProofs HypothesisModel HypothesisBox HypothesisChain.
Import ListNotations.
Open Scope Q_scope.

(** ** the shape of toGuard *)
Lemma toGuard1_cx m i k : In k (toGuard1 m i) -> cx k = i.
Proof.
  unfold toGuard1. intro H. apply in_app_or in H. destruct H as [H|H].
  - destruct (getLowerBound m i (tcSize m - 1)) as [l s|]; [|destruct H]. destruct (Qeq_bool l 0 && s); [destruct H|]. destruct H as [<-|[]]. reflexivity.
  - destruct (getUpperBound m i (tcSize m - 1)) as [l s|]; [|destruct H]. destruct H as [<-|[]]. reflexivity.
Qed.
Lemma toGuard_in m k : In k (toGuard m) <-> (cx k < tcSize m)%nat /\ In k (toGuard1 m (cx k)).
Proof.
  unfold toGuard. rewrite in_flat_map. split.
  - intros (i & Hi & Hk). assert (E := toGuard1_cx m i k Hk). subst i. apply in_seq in Hi. split; [lia|auto].
  - intros [Hi Hk]. exists (cx k). split; [apply in_seq; lia|auto].
Qed.
Lemma toGuard1_nd m i : NoDup (map (fun k => (cx k, isUpper k)) (toGuard1 m i)).
Proof.
  unfold toGuard1. destruct (getLowerBound m i (tcSize m - 1)) as [l s|]; [destruct (Qeq_bool l 0 && s)|]; destruct (getUpperBound m i (tcSize m - 1)) as [u s'|]; cbn [app map];
    repeat constructor; cbn [In]; try tauto. intros [E|[]]. destruct s, s'; cbn in E; discriminate E.
Qed.
Lemma toGuard_nd m : nonRedundant (toGuard m).
Proof.
  unfold nonRedundant, toGuard. generalize (seq_NoDup (tcSize m) 0). generalize (seq 0 (tcSize m)). intros l ND. induction ND as [|i l Ni ND IH]; cbn [flat_map map]; [constructor|].
  rewrite map_app. assert (D : forall a, In a (map (fun k => (cx k, isUpper k)) (toGuard1 m i)) -> In a (map (fun k => (cx k, isUpper k)) (flat_map (toGuard1 m) l)) -> False).
  { intros a H1 H2. apply in_map_iff in H1. destruct H1 as (k & E1 & K1). apply in_map_iff in H2. destruct H2 as (k' & E2 & K2). apply in_flat_map in K2. destruct K2 as (j & Hj & K2).
    apply toGuard1_cx in K1. apply toGuard1_cx in K2. rewrite <- E2 in E1. injection E1 as E1 _. apply Ni. congruence. }
  assert (ND1 := toGuard1_nd m i). revert D ND1. generalize (map (fun k => (cx k, isUpper k)) (toGuard1 m i)). intros l1 D ND1. induction ND1 as [|a l1 Na ND1 IH1]; cbn [app]; [exact IH|].
  constructor.
  - intro K. apply in_app_or in K. destruct K as [K|K]; [contradiction|]. apply (D a); [left; auto|auto].
  - apply IH1. intros b B1 B2. apply (D b); [right; auto|auto].
Qed.

(** ** one clock *)
Definition unitHi (u : bound) (q : Q) : Prop := exists c z, (u = Fin c true /\ c == inject_Z z /\ q == inject_Z z) \/ (u = Fin c false /\ c == inject_Z (z + 1) /\ inject_Z z < q /\ q < inject_Z (z + 1)).
Definition unitLo (l : bound) (q : Q) : Prop := exists e z, (l = Fin e true /\ e == inject_Z (- z) /\ q == inject_Z z) \/ (l = Fin e false /\ e == inject_Z (- z) /\ inject_Z z < q /\ q < inject_Z (z + 1)).
Lemma unit_split u l q : unitBounds u l q -> unitHi u q /\ unitLo l q.
Proof.
  intros (z & c & e & [(H1 & H2 & H3 & H4 & H5)|(H1 & H2 & H3 & H4 & H5 & H6)]).
  - split; [exists c, z|exists e, z]; left; (split; [auto|split; auto]); rewrite inject_Z_opp; auto.
  - split; [exists c, z|exists e, z]; right; (split; [auto|split; [|split; auto]]); rewrite ?inj_succ, ?inject_Z_opp; auto.
Qed.
Lemma codeOdd q z : inject_Z z < q -> q < inject_Z (z + 1) -> code q = (2 * z + 1)%Z.
Proof.
  intros A B. assert ((code q <= 2 * z + 1)%Z) by (apply code_le_odd; auto). assert ((2 * z + 1 <= code q)%Z) by (apply code_ge_odd; auto). lia.
Qed.
Lemma codeEven q z : q == inject_Z z -> code q = (2 * z)%Z.
Proof. intro A. rewrite (code_ext _ _ A). apply code_int. Qed.
Lemma injEq a b : inject_Z a == inject_Z b -> a = b.
Proof. unfold Qeq, inject_Z. cbn. lia. Qed.
Lemma toInt_eq q z : q == inject_Z z -> toInt q = z.
Proof. intro E. apply injEq. rewrite (toInt_int q z E). exact E. Qed.
Lemma hi_up m i q d : unitHi (getUpperBound m i (tcSize m - 1)) q -> (upSat (toGuard1 m i) i d <-> (code d <= code q)%Z).
Proof.
  intro H. assert (L : forall k, In k (match getLowerBound m i (tcSize m - 1) with Fin l s => if Qeq_bool l 0 && s then [] else [mkC i (if s then Oge else Ogt) (- toInt l)] | Inf => [] end) -> isUpper k = false).
  { intros k K. destruct (getLowerBound m i (tcSize m - 1)) as [l s|]; [|destruct K]. destruct (Qeq_bool l 0 && s); [destruct K|]. destruct K as [<-|[]]. destruct s; reflexivity. }
  unfold upSat, toGuard1. destruct H as (c & z & [(-> & Hc & Hq)|(-> & Hc & Hq & Hq')]).
  - rewrite (codeEven q z Hq), code_le_even. assert (E := toInt_eq c z Hc). split.
    + intro U. specialize (U (mkC i Ole (toInt c)) ltac:(apply in_or_app; right; left; reflexivity) eq_refl eq_refl). unfold holds in U. cbn [codr cc] in U. rewrite E in U. exact U.
    + intros U k K _ B. apply in_app_or in K. destruct K as [K|[<-|[]]]; [rewrite (L k K) in B; discriminate|]. unfold holds. cbn [codr cc]. rewrite E. exact U.
  - rewrite (codeOdd q z Hq Hq'), code_le_odd. assert (E := toInt_eq c _ Hc). split.
    + intro U. specialize (U (mkC i Olt (toInt c)) ltac:(apply in_or_app; right; left; reflexivity) eq_refl eq_refl). unfold holds in U. cbn [codr cc] in U. rewrite E in U. exact U.
    + intros U k K _ B. apply in_app_or in K. destruct K as [K|[<-|[]]]; [rewrite (L k K) in B; discriminate|]. unfold holds. cbn [codr cc]. rewrite E. exact U.
Qed.
Lemma lo_lo m i q d : 0 <= d -> unitLo (getLowerBound m i (tcSize m - 1)) q -> (loSat (toGuard1 m i) i d <-> (code q <= code d)%Z).
Proof.
  intros Hd H. assert (L : forall k, In k (match getUpperBound m i (tcSize m - 1) with Fin u s => [mkC i (if s then Ole else Olt) (toInt u)] | Inf => [] end) -> isUpper k = true).
  { intros k K. destruct (getUpperBound m i (tcSize m - 1)) as [l s|]; [|destruct K]. destruct K as [<-|[]]. destruct s; reflexivity. }
  unfold loSat, toGuard1. destruct H as (c & z & [(-> & Hc & Hq)|(-> & Hc & Hq & Hq')]).
  - rewrite (codeEven q z Hq), code_ge_even. assert (E := toInt_eq c _ Hc). rewrite E, Z.opp_involutive. destruct (Qeq_bool c 0) eqn:Z0; cbn [andb].
    + apply Qeq_bool_iff in Z0. rewrite inject_Z_opp in Hc. split; [intros _; lra|]. intros _ k K _ B. cbn [app] in K. rewrite (L k K) in B. discriminate.
    + split.
      * intro U. specialize (U (mkC i Oge z) ltac:(apply in_or_app; left; left; reflexivity) eq_refl eq_refl). exact U.
      * intros U k K _ B. apply in_app_or in K. destruct K as [[<-|[]]|K]; [exact U|]. rewrite (L k K) in B. discriminate.
  - rewrite (codeOdd q z Hq Hq'), code_ge_odd. assert (E := toInt_eq c _ Hc). rewrite E, Z.opp_involutive, andb_false_r. split.
    + intro U. specialize (U (mkC i Ogt z) ltac:(apply in_or_app; left; left; reflexivity) eq_refl eq_refl). exact U.
    + intros U k K _ B. apply in_app_or in K. destruct K as [[<-|[]]|K]; [exact U|]. rewrite (L k K) in B. discriminate.
Qed.
(** ** all clocks *)
Definition smallQ (q : Q) : Prop := q + 1 < inject_Z INT_MAX.
Lemma guard_sbox m N (q : nat -> Q) hi : tcSize m = N ->
  (forall i, (i < N)%nat -> smallQ (q i) /\ unitLo (getLowerBound m i (tcSize m - 1)) (q i)) ->
  ((hi = Some (fun i => code (q i)) /\ forall i, (i < N)%nat -> unitHi (getUpperBound m i (tcSize m - 1)) (q i)) \/ (hi = None /\ forall i, (i < N)%nat -> getUpperBound m i (tcSize m - 1) = Inf)) ->
  sbox N (toGuard m) (fun i => code (q i)) hi.
Proof.
  intros EN Lo Hi. unfold sbox. split; [|split; [apply toGuard_nd|split]].
  - intros k K. apply toGuard_in in K. destruct K as [Hx K]. rewrite EN in Hx. destruct (Lo _ Hx) as [Sm Lb]. unfold smallQ in Sm.
    unfold toGuard1 in K. apply in_app_or in K. destruct K as [K|K].
    + destruct Lb as (e & z & [(Hl & He & Hq)|(Hl & He & Hq & Hq')]); rewrite Hl in K; (destruct (Qeq_bool e 0 && _); [destruct K|]); destruct K as [<-|[]]; cbn [cc] in *; rewrite (toInt_eq _ _ He);
        apply inj_ltZ; rewrite Z.opp_involutive; lra.
    + destruct Hi as [[_ Hi]|[_ Hi]]; [|rewrite (Hi _ Hx) in K; destruct K]. destruct (Hi _ Hx) as (c & z & [(Hl & He & Hq)|(Hl & He & Hq & Hq')]); rewrite Hl in K; destruct K as [<-|[]]; cbn [cc] in *; rewrite (toInt_eq _ _ He);
        apply inj_ltZ; rewrite ?inj_succ in *; lra.
  - intros k K. apply toGuard_in in K. destruct K as [Hx K]. lia.
  - intros x d Hd. split.
    + assert (E : upSat (toGuard m) x d <-> ((x < N)%nat -> upSat (toGuard1 m x) x d)).
      { unfold upSat. split; [intros H Hx k K1 K2 K3; apply H; auto; apply toGuard_in; rewrite K2; split; [lia|auto]|]. intros H k K1 K2 K3. apply toGuard_in in K1. rewrite K2 in K1. destruct K1 as [K0 K1]. apply H; auto. lia. }
      rewrite E. destruct Hi as [[-> Hi]|[-> Hi]].
      * split; intros H Hx; specialize (H Hx); cbn [capZ] in *; apply (hi_up m x (q x) d (Hi x Hx)); auto.
      * split; intros H Hx; cbn [capZ]; [auto|]. intros k K1 K2 K3. unfold toGuard1 in K1. rewrite (Hi x Hx), app_nil_r in K1.
        destruct (getLowerBound m x (tcSize m - 1)) as [l s|]; [|destruct K1]. destruct (Qeq_bool l 0 && s); [destruct K1|]. destruct K1 as [<-|[]]. destruct s; discriminate.
    + assert (E : loSat (toGuard m) x d <-> ((x < N)%nat -> loSat (toGuard1 m x) x d)).
      { unfold loSat. split; [intros H Hx k K1 K2 K3; apply H; auto; apply toGuard_in; rewrite K2; split; [lia|auto]|]. intros H k K1 K2 K3. apply toGuard_in in K1. rewrite K2 in K1. destruct K1 as [K0 K1]. apply H; auto. lia. }
      rewrite E. split; intros H Hx; specialize (H Hx); apply (lo_lo m x (q x) d Hd (proj2 (Lo x Hx))); auto.
Qed.
(** ** the guard of a row, and of a row with everything after it *)
Definition smallTW (w : tword) : Prop := forall i, (i < length (td w))%nat -> smallQ (since (td w) i).
Lemma row_box x w : regionalF x w -> smallTW w -> sbox (length (td w)) (toGuard (ec (fel x))) (fun i => code (since (td w) i)) (Some (fun i => code (since (td w) i))).
Proof.
  intros R Sm. assert (RC := proj1 (proj2 (proj2 R))). destruct RC as [L [[D2 _] U]].
  assert (UB : forall i, (i < length (td w))%nat -> unitBounds (getUpperBound (ec (fel x)) i (tcSize (ec (fel x)) - 1)) (getLowerBound (ec (fel x)) i (tcSize (ec (fel x)) - 1)) (since (td w) i)).
  { intros i Hi. unfold since. rewrite L in *. apply U; lia. }
  apply guard_sbox; [auto| |left; split; [reflexivity|]].
  - intros i Hi. split; [apply Sm; auto|]. apply (unit_split _ _ _ (UB i Hi)).
  - intros i Hi. apply (unit_split _ _ _ (UB i Hi)).
Qed.
Lemma row_openBox x w : regionalF x w -> smallTW w -> sbox (length (td w)) (toGuard (removeUpperBound (ec (fel x)))) (fun i => code (since (td w) i)) None.
Proof.
  intros R Sm. assert (RC := proj1 (proj2 (proj2 R))). destruct RC as [L [[D2 _] U]]. set (m := ec (fel x)) in *.
  assert (DR : dim (removeUpperBound m) = dim m) by apply dim_mk. assert (SR : tcSize (removeUpperBound m) = tcSize m) by (unfold tcSize; rewrite DR; reflexivity).
  assert (CO : colOf (removeUpperBound m) (tcSize m - 1) = 0%nat) by (unfold colOf; rewrite SR, Nat.eqb_refl; reflexivity).
  assert (CO' : colOf m (tcSize m - 1) = 0%nat) by (unfold colOf; rewrite Nat.eqb_refl; reflexivity).
  assert (DS : dim m = S (tcSize m)) by (unfold tcSize; lia).
  apply guard_sbox; [congruence| |right; split; [reflexivity|]].
  - intros i Hi. split; [apply Sm; auto|]. rewrite SR. unfold getLowerBound. rewrite CO. unfold removeUpperBound. rewrite get_mk by lia. cbn [andb Nat.leb].
    assert (UB : unitBounds (getUpperBound m i (tcSize m - 1)) (getLowerBound m i (tcSize m - 1)) (since (td w) i)) by (unfold since; rewrite L in *; apply U; lia).
    apply unit_split in UB. destruct UB as [_ UB]. unfold getLowerBound in UB. rewrite CO' in UB. exact UB.
  - intros i Hi. rewrite SR. unfold getUpperBound. rewrite CO. unfold removeUpperBound. rewrite get_mk by lia. rewrite Nat.eqb_refl, andb_true_r. destruct (Nat.leb_spec 1 (i + 1)); [reflexivity|lia].
Qed.
