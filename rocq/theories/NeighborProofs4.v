(** Proofs about neighbour conditions: resets and the relaxed transition. *)
From Coq Require Import QArith ZArith Bool List Arith Lia Lqa Qround Permutation.
From Verif Require Import BoundsModel BoundsProofs ConstraintModel GuardSpec ConstraintProofs ConstraintProofs2 ConstraintProofs3 ZoneModel ZoneSpec ZoneProofs AutomatonModel AutomatonSpec AutomatonProofs TimedWordModel TimedWordSpec TimedConditionModel TimedConditionSpec TimedConditionProofs3
   RegionalModel RegionalSpec RegionalProofs RegionalProofs4 TableModel NeighborModel NeighborSpec NeighborProofs NeighborProofs3.
Import ListNotations.
Open Scope Q_scope.

Lemma lookup_split {A} (l : list (nat * A)) x r : NoDup (map fst l) -> In (x, r) l -> exists a b, l = a ++ (x, r) :: b /\ ~ In x (map fst b).
Proof.
  intros ND H. apply in_split in H. destruct H as (a & b & ->). exists a, b. split; [reflexivity|]. intro Hb. rewrite map_app in ND. cbn [map fst] in ND. apply NoDup_remove_2 in ND. apply ND. apply in_app_iff. auto.
Qed.
Lemma reset_at rs v w x r : NoDup (map fst rs) -> isReset rs v w -> In (x, r) rs -> w x == match r with RConst q => q | RVar y => v y end.
Proof. intros ND R H. destruct (lookup_split rs x r ND H) as (a & b & E & N). destruct (R x) as [_ R2]. eapply R2; eauto. Qed.
Lemma in_fst {A} (l : list (nat * A)) x : In x (map fst l) <-> exists r, In (x, r) l.
Proof. rewrite in_map_iff. split; [intros ([y r] & <- & H); exists r; exact H|intros [r H]; exists (x, r); auto]. Qed.
Lemma existsb_key (rs : resets) k : existsb (fun p => fst p =? k)%nat rs = true <-> In k (map fst rs).
Proof. rewrite existsb_exists, in_map_iff. split; intros (p & A & B); exists p; [apply Nat.eqb_eq in B; auto|split; [auto|apply Nat.eqb_eq; auto]]. Qed.
Lemma qfloor_int q : Qeq_bool q (qfloor q) = true <-> q == inject_Z (Qfloor q).
Proof. apply Qeq_bool_iff. Qed.
(** the clocks that are known after the reset *)
Lemma preciseAfter_iff P n rs k : In k (preciseAfterReset P n rs) <-> (k < n)%nat /\
  ((exists y, In (k, RVar y) rs /\ In y P) \/ (exists q, In (k, RConst q) rs /\ q == inject_Z (Qfloor q)) \/ (In k P /\ ~ In k (map fst rs))).
Proof.
  unfold preciseAfterReset. set (new := map fst (filter (preciseAssigned P n) rs)).
  assert (N : In k new <-> (k < n)%nat /\ ((exists y, In (k, RVar y) rs /\ In y P) \/ (exists q, In (k, RConst q) rs /\ q == inject_Z (Qfloor q)))).
  { unfold new. rewrite in_fst. split.
    - intros [r H]. apply filter_In in H. destruct H as [H1 H2]. unfold preciseAssigned in H2. cbn [fst snd] in H2. apply andb_true_iff in H2. destruct H2 as [H2 H3]. apply Nat.ltb_lt in H2. split; [exact H2|]. destruct r as [q|y].
      + right. exists q. split; [exact H1|]. apply qfloor_int. exact H3.
      + left. exists y. split; [exact H1|]. apply isPrecise_iff. exact H3.
    - intros [H1 [(y & H2 & H3)|(q & H2 & H3)]]; [exists (RVar y)|exists (RConst q)]; apply filter_In; (split; [exact H2|]); unfold preciseAssigned; cbn [fst snd]; apply andb_true_iff; (split; [apply Nat.ltb_lt; exact H1|]); [apply isPrecise_iff; exact H3|apply qfloor_int; exact H3]. }
  rewrite in_app_iff, filter_In, !andb_true_iff, !negb_true_iff, N. split.
  - intros [[H1 H2]|[H1 [[H2 H3] H4]]]; [split; [exact H1|tauto]|]. apply Nat.ltb_lt in H2. split; [exact H2|]. right. right. split; [exact H1|]. intro X. apply existsb_key in X. congruence.
  - intros [H1 [H2|[H2|[H2 H3]]]]; [left; auto|left; auto|]. right. split; [exact H2|]. split; [split; [apply Nat.ltb_lt; exact H1|]|].
    + destruct (isPrecise new k) eqn:E; [|reflexivity]. exfalso. apply isPrecise_iff in E. apply H3. unfold new in E. apply in_fst in E. destruct E as [r E]. apply filter_In in E. apply in_fst. exists r. apply E.
    + destruct (existsb (fun p => (fst p =? k)%nat) rs) eqn:E; [|reflexivity]. exfalso. apply H3. apply existsb_key. exact E.
Qed.
Lemma preciseAfter_sound P n rs v v' w w' : NoDup (map fst rs) -> isReset rs v w -> isReset rs v' w' -> (forall k, In k P -> sameUnit (v k) (v' k)) ->
  forall k, In k (preciseAfterReset P n rs) -> sameUnit (w k) (w' k).
Proof.
  intros ND R R' A k Hk. apply preciseAfter_iff in Hk. destruct Hk as [_ [(y & H1 & H2)|[(q & H1 & H2)|[H1 H2]]]].
  - eapply sameUnit_ext; [symmetry; apply (reset_at rs v w k _ ND R H1)|symmetry; apply (reset_at rs v' w' k _ ND R' H1)|apply A; exact H2].
  - eapply sameUnit_ext; [symmetry; apply (reset_at rs v w k _ ND R H1)|symmetry; apply (reset_at rs v' w' k _ ND R' H1)|apply sameUnit_refl].
  - eapply sameUnit_ext; [symmetry; apply (R k); exact H2|symmetry; apply (R' k); exact H2|apply A; exact H1].
Qed.
(** every other clock below n is unknown, or was set to a fraction *)
Lemma preciseAfter_max P n rs k : NoDup (map fst rs) -> (k < n)%nat -> ~ In k (preciseAfterReset P n rs) ->
  (exists q, In (k, RConst q) rs /\ ~ q == inject_Z (Qfloor q)) \/
  (exists v v' w w', nonneg v /\ nonneg v' /\ (forall j, In j P -> v j == v' j) /\ isReset rs v w /\ isReset rs v' w' /\ ~ sameUnit (w k) (w' k)).
Proof.
  intros ND Hk H. rewrite preciseAfter_iff in H.
  assert (G : forall y, ~ In y P -> (forall v w, isReset rs v w -> w k == v y) -> exists v v' w w', nonneg v /\ nonneg v' /\ (forall j, In j P -> v j == v' j) /\ isReset rs v w /\ isReset rs v' w' /\ ~ sameUnit (w k) (w' k)).
  { intros y Hy E. exists (fun _ => 0), (fun j => if (j =? y)%nat then 1 else 0), (applyReset (fun _ => 0) rs), (applyReset (fun j => if (j =? y)%nat then 1 else 0) rs).
    split; [intro; lra|]. split; [intro j; destruct (j =? y)%nat; lra|]. split; [intros j Hj; destruct (Nat.eqb_spec j y) as [->|]; [tauto|reflexivity]|]. split; [apply applyReset_isReset|]. split; [apply applyReset_isReset|].
    intro SU. apply (sameUnit_ext _ 0 _ 1) in SU; [|apply (E (fun _ => 0)), applyReset_isReset|rewrite (E _ _ (applyReset_isReset rs (fun j => if (j =? y)%nat then 1 else 0))); rewrite Nat.eqb_refl; reflexivity].
    destruct SU as [F _]. discriminate F. }
  destruct (in_dec Nat.eq_dec k (map fst rs)) as [I|I].
  - apply in_fst in I. destruct I as [[q|y] I].
    + left. exists q. split; [exact I|]. intro E. apply H. split; [exact Hk|]. right. left. eauto.
    + right. apply (G y).
      * intro Hy. apply H. split; [exact Hk|]. left. eauto.
      * intros v w R. apply (reset_at rs v w k _ ND R I).
  - right. apply (G k).
    + intro Hy. apply H. split; [exact Hk|]. right. right. auto.
    + intros v w R. apply (R k). exact I.
Qed.
(** ** embedIfImprecise *)
Lemma embed_keys rs P v : NoDup (map fst rs) -> NoDup (map fst (embedIfImprecise rs P v)).
Proof.
  intro ND. unfold embedIfImprecise. rewrite map_app, map_map. cbn [fst]. rewrite map_id. apply NoDup_app_intro.
  - clear -ND. induction rs as [|p l IH]; cbn [filter]; [constructor|]. inversion ND as [|? ? N1 N2]; subst. match goal with |- context [if ?b then _ else _] => destruct b end; [|apply IH; exact N2]. cbn [map]. constructor; [|apply IH; exact N2]. intro X. apply N1. apply in_map_iff in X. destruct X as (q & E & X). apply filter_In in X. rewrite <- E. apply in_map. apply X.
  - apply NoDup_filter. apply seq_NoDup.
  - intros a H1 H2. apply filter_In in H2. destruct H2 as [_ H2]. apply in_map_iff in H1. destruct H1 as (p & <- & H1). apply filter_In in H1. destruct H1 as [_ H1]. change (negb (isPrecise P (@fst nat rhs p)) = true) in H2. change (isPrecise P (@fst nat rhs p) = true) in H1. rewrite H1 in H2. discriminate.
Qed.
Lemma embed_sem rs P v u u' w : NoDup (map fst rs) -> isReset (embedIfImprecise rs P v) u u' -> isReset rs u w ->
  forall k, u' k == if isPrecise P k then w k else if (k <? length v)%nat then nth k v 0 else u k.
Proof.
  intros ND R W k. assert (ND' := embed_keys rs P v ND). destruct (isPrecise P k) eqn:E.
  - destruct (in_dec Nat.eq_dec k (map fst rs)) as [I|I].
    + apply in_fst in I. destruct I as [r I]. rewrite (reset_at rs u w k r ND W I). apply (reset_at _ u u' k r ND' R). unfold embedIfImprecise. apply in_app_iff. left. apply filter_In. auto.
    + destruct (W k) as [W1 _]. rewrite (W1 I). destruct (R k) as [R1 _]. apply R1. unfold embedIfImprecise. rewrite map_app, in_app_iff, map_map. cbn [fst]. rewrite map_id. intros [X|X].
      * apply I. apply in_map_iff in X. destruct X as (p & <- & X). apply filter_In in X. apply in_map. apply X.
      * apply filter_In in X. destruct X as [_ X]. rewrite E in X. discriminate.
  - destruct (Nat.ltb_spec k (length v)) as [L|L].
    + apply (reset_at _ u u' k (RConst (nth k v 0)) ND' R). unfold embedIfImprecise. apply in_app_iff. right. apply in_map_iff. exists k. split; [reflexivity|]. apply filter_In. split; [apply in_seq; lia|]. rewrite E. reflexivity.
    + destruct (R k) as [R1 _]. apply R1. unfold embedIfImprecise. rewrite map_app, in_app_iff, map_map. cbn [fst]. rewrite map_id. intros [X|X].
      * apply in_map_iff in X. destruct X as (p & <- & X). apply filter_In in X. destruct X as [_ X]. change (isPrecise P (@fst nat rhs p) = true) in X. change (isPrecise P (@fst nat rhs p) = false) in E. congruence.
      * apply filter_In in X. destruct X as [X _]. apply in_seq in X. lia.
Qed.
(** ** computeClockSize *)
Lemma fold_max_aux {A} (g : A -> nat -> nat) l n : (forall a n, (n <= g a n)%nat) -> (n <= fold_left (fun n a => g a n) l n)%nat.
Proof. intro H. revert n. induction l as [|a l IH]; intro n; cbn [fold_left]; [lia|]. specialize (IH (g a n)). specialize (H a n). lia. Qed.
Lemma fold_max_in {A} (g : A -> nat -> nat) (b : nat) l a n : (forall a n, (n <= g a n)%nat) -> In a l -> (forall m, (b <= g a m)%nat) -> (b <= fold_left (fun n a => g a n) l n)%nat.
Proof.
  intros H Ha Hb. apply in_split in Ha. destruct Ha as (l1 & l2 & ->). rewrite fold_left_app. cbn [fold_left]. etransitivity; [apply Hb|]. apply fold_max_aux. exact H.
Qed.
Lemma fold_max_eq {A} (g : A -> nat -> nat) (Q0 : nat -> Prop) l n : (forall a n, In a l -> g a n = n \/ Q0 (g a n)) -> fold_left (fun n a => g a n) l n = n \/ Q0 (fold_left (fun n a => g a n) l n).
Proof.
  revert n. induction l as [|a l IH]; intros n H; cbn [fold_left]; [auto|]. destruct (IH (g a n) (fun b m Hb => H b m (or_intror Hb))) as [E|E]; [|auto]. rewrite E. apply H. left; auto.
Qed.
Lemma clockSize_bound s a ts t c : In (a, ts) (snext s) -> In t ts -> In c (tgrd t) -> (cx c < computeClockSize s)%nat.
Proof.
  intros H1 H2 H3. unfold computeClockSize. apply (fold_max_in (fun p n => fold_left (fun n t => fold_left (fun n c => Nat.max n (cx c + 1)) (tgrd t) n) (snd p) n) (cx c + 1)) with (n := 0%nat) in H1; [lia| |].
  - intros p n. apply (fold_max_aux (fun t n => fold_left (fun n c => Nat.max n (cx c + 1)) (tgrd t) n)). intros t' n'. apply (fold_max_aux (fun c n => Nat.max n (cx c + 1))). intros; lia.
  - intro m. cbn [snd]. apply (fold_max_in (fun t n => fold_left (fun n c => Nat.max n (cx c + 1)) (tgrd t) n)) with (a := t); [|exact H2|].
    + intros t' n'. apply (fold_max_aux (fun c n => Nat.max n (cx c + 1))). intros; lia.
    + intro m'. apply (fold_max_in (fun c n => Nat.max n (cx c + 1))) with (a := c); [intros; lia|exact H3|intros; lia].
Qed.
Lemma clockSize_tight s : computeClockSize s = 0%nat \/ exists a ts t c, In (a, ts) (snext s) /\ In t ts /\ In c (tgrd t) /\ computeClockSize s = (cx c + 1)%nat.
Proof.
  unfold computeClockSize. set (Z0 := fun z => exists a ts t c, In (a, ts) (snext s) /\ In t ts /\ In c (tgrd t) /\ z = (cx c + 1)%nat).
  apply (fold_max_eq (fun p n => fold_left (fun n t => fold_left (fun n c => Nat.max n (cx c + 1)) (tgrd t) n) (snd p) n) Z0).
  intros [a ts] n Ha. cbn [snd]. apply (fold_max_eq (fun t n => fold_left (fun n c => Nat.max n (cx c + 1)) (tgrd t) n) Z0). intros t m Ht. apply (fold_max_eq (fun c n => Nat.max n (cx c + 1)) Z0). intros c z Hc.
  destruct (Nat.max_spec z (cx c + 1)) as [[_ E]|[_ E]]; [right; rewrite E|left; exact E]. exists a, ts, t, c. auto.
Qed.
(** ** the relaxed transition *)
Lemma relaxOne_spec c n v t t' : relaxOne c n v t = Some t' -> nbMatch c (tgrd t) = true /\ ttgt t' = ttgt t /\ trst t' = embedIfImprecise (trst t) (preciseAfterReset (nPrec c) n (trst t)) v /\
  isWeaker (tgrd t') (tgrd t) = true /\ isWeaker (tgrd t) (tgrd t') = false /\ (forall u, gsat (toRelaxedGuard c) u -> gsat (tgrd t') u) /\
  ((exists d, In d (tgrd t) /\ isUpper d = true) -> tgrd t' = toRelaxedGuard c) /\
  ((forall d, In d (tgrd t) -> isUpper d = false) -> forall d, In d (tgrd t') <-> In d (toRelaxedGuard c) /\ isUpper d = false).
Proof.
  unfold relaxOne. destruct (nbMatch c (tgrd t)) eqn:M; [|discriminate]. destruct (existsb _ (tgrd t)) eqn:U; cbn zeta; (destruct (isWeaker _ (tgrd t) && negb (isWeaker (tgrd t) _)) eqn:B; [|discriminate]);
    intro H; injection H as <-; apply andb_true_iff in B; destruct B as [B1 B2]; apply negb_true_iff in B2; cbn [ttgt trst tgrd]; do 5 (split; [auto|]).
  - split; [auto|]. split; [auto|]. intro N. exfalso. apply existsb_exists in U. destruct U as (k & Hk & Uk). specialize (N k Hk). unfold isUpper in N. destruct (codr k); congruence.
  - split; [intros u Hu d Hd; apply filter_In in Hd; apply Hu; apply Hd|]. split.
    + intros (d & Hd & Ud). exfalso. assert (X : existsb (fun k => match codr k with Olt | Ole => true | _ => false end) (tgrd t) = true) by (apply existsb_exists; exists d; split; [exact Hd|unfold isUpper in Ud; destruct (codr d); congruence]). congruence.
    + intros _ d. rewrite filter_In. unfold isUpper. destruct (codr d); split; intros [X Y]; split; auto; discriminate.
Qed.
