(** Properties of fractional orders and regional elementary languages
    (include/fractional_order.hh, include/forward_regional_elementary_language.hh,
    include/backward_regional_elementary_language.hh): C19, C43, C44. *)
From Coq Require Import QArith ZArith Bool List Lia Lqa Qround Arith Sorted Permutation.
From Verif Require Import BoundsModel BoundsProofs ConstraintModel ZoneModel ZoneSpec ZoneProofs
  AutomatonModel TimedWordModel TimedWordSpec TimedWordProofs TimedConditionModel TimedConditionSpec TimedConditionProofs TimedConditionProofs2
  TimedConditionProofs3 TimedConditionProofs4 ElementaryModel ElementarySpec ElementaryProofs ElementaryProofs2 RegionalModel RegionalSpec RegionalProofs RegionalProofs2 RegionalProofs3 RegionalProofs4 RegionalProofs5 RegionalProofs6.
Import ListNotations.
Open Scope Q_scope.

(** *** C19: fractional orders *)
(** the constructor sorts the values: [{..},{..},..] lists the zeros first and
    then the classes of equal values, in increasing order *)
Theorem C19_constructor :
  forall fs : list Q, (forall q, In q fs -> 0 <= q /\ q < 1) -> orderOf (foOf fs) (length fs) (fun i => nth i fs 0).
Proof. intros fs H. apply foOf_order. intros q Hq. apply H. auto. Qed.
Print Assumptions C19_constructor.
(** it is determined by the comparisons of the values only *)
Theorem C19_order_of_comparisons :
  forall (o : forder) (n : nat) (f g : nat -> Q), orderOf o n f ->
    (forall i, (i < n)%nat -> 0 <= g i) -> (forall i, (i < n)%nat -> (f i == 0 <-> g i == 0)) ->
    (forall i j, (i < n)%nat -> (j < n)%nat -> (f i < f j <-> g i < g j)) -> orderOf o n g.
Proof. exact orderOf_transfer. Qed.
Print Assumptions C19_order_of_comparisons.
(** letting all values grow at the same speed: the order stays as it is, then
    changes to successor(), the variables that reach or leave an integer being
    successorVariables() *)
Theorem C19_successor_is_time_passing :
  forall (o : forder) (n : nat) (v : nat -> Q), orderOf o n (fun i => frac (v i)) -> (0 < n)%nat ->
    exists q, 0 < q /\
      orderOf (foSucc o) n (fun i => frac (v i + q)) /\
      (forall i, (i < n)%nat -> (In i (foSuccVars o) <-> ~ sameUnit (v i) (v i + q))) /\
      foSuccVars o <> [] /\
      (forall e, 0 <= e -> e <= q ->
         (forall i, (i < n)%nat -> sameUnit (v i) (v i + e)) \/ (forall i, (i < n)%nat -> sameUnit (v i + q) (v i + e))).
Proof.
  intros o n v H Hn. destruct (order_succ o n v H Hn) as [q [Q0 [Q1 [Q2 Q3]]]]. exists q.
  destruct (Q1 (fun i => v i + q)) as [[M1 M2] O]; [intros; reflexivity|]. split; [auto|]. split; [auto|]. split; [|auto].
  intros i Hi. split; [intro K; apply unitUp_not; apply M1; auto|]. intro K.
  destruct (In_dec Nat.eq_dec i (foSuccVars o)) as [L|L]; [auto|]. exfalso. apply K. apply M2; auto.
Qed.
Print Assumptions C19_successor_is_time_passing.
Theorem C19_predecessor_is_time_reversed :
  forall (o : forder) (n : nat) (v : nat -> Q), orderOf o n (fun i => frac (v i)) -> (0 < n)%nat ->
    exists q, 0 < q /\
      orderOf (foPred o) n (fun i => frac (v i - q)) /\
      (forall i, (i < n)%nat -> (In i (foPredVars o) <-> ~ sameUnit (v i) (v i - q))) /\
      foPredVars o <> [] /\
      (forall e, 0 <= e -> e <= q ->
         (forall i, (i < n)%nat -> sameUnit (v i) (v i - e)) \/ (forall i, (i < n)%nat -> sameUnit (v i - q) (v i - e))).
Proof.
  intros o n v H Hn. destruct (order_pred o n v H Hn) as [q [Q0 [Q1 [Q2 [Q3 _]]]]]. exists q.
  destruct (Q1 (fun i => v i - q)) as [[M1 M2] O]; [intros; reflexivity|]. split; [auto|]. split; [auto|]. split; [|auto].
  intros i Hi. split; [intros K K'; apply (unitUp_not (v i - q) (v i)); [apply M1; auto|apply sameUnit_sym; auto]|]. intro K.
  destruct (In_dec Nat.eq_dec i (foPredVars o)) as [L|L]; [auto|]. exfalso. apply K. apply sameUnit_sym. apply (M2 i); auto.
Qed.
Print Assumptions C19_predecessor_is_time_reversed.
Theorem C19_successor_predecessor_inverse :
  forall (o : forder) (n : nat) (f : nat -> Q), orderOf o n f -> (0 < n)%nat -> foPred (foSucc o) = o /\ foSucc (foPred o) = o.
Proof. intros o n f H Hn. split; [eapply foPred_foSucc; eauto|eapply foSucc_foPred; eauto]. Qed.
Print Assumptions C19_successor_predecessor_inverse.
Theorem C19_extend_remove :
  forall (o : forder) (n : nat) (f : nat -> Q), orderOf o n f ->
    (forall g, g n == 0 -> (forall i, (i < n)%nat -> g i == f i) -> orderOf (foExtendN o) (S n) g) /\
    (forall g, g 0%nat == 0 -> (forall i, (i < n)%nat -> g (S i) == f i) -> orderOf (foExtendZero o) (S n) g) /\
    (forall m, n = S m -> f m == 0 -> orderOf (foRemoveN o) m f).
Proof.
  intros o n f H. split; [apply foExtendN_order; auto|]. split; [apply foExtendZero_order; auto|]. intros m -> F. apply foRemoveN_order; auto.
Qed.
Print Assumptions C19_extend_remove.
Lemma eqNats_iff : forall a b, eqNats a b = true <-> a = b.
Proof.
  induction a as [|x a IH]; destruct b as [|y b]; cbn; try (split; congruence). rewrite andb_true_iff, Nat.eqb_eq, IH. split; [intros [-> ->]; auto|intro K; injection K; auto].
Qed.
Lemma eqBlocks_iff : forall a b, eqBlocks a b = true <-> a = b.
Proof.
  induction a as [|x a IH]; destruct b as [|y b]; cbn; try (split; congruence). rewrite andb_true_iff, eqNats_iff, IH. split; [intros [-> ->]; auto|intro K; injection K; auto].
Qed.
(** operator== decides whether two orders are the orders of the same values *)
Lemma sorted_perm_eq : forall a b : list nat, StronglySorted lt a -> StronglySorted lt b -> (forall i, In i a <-> In i b) -> a = b.
Proof.
  induction a as [|x a IH]; intros [|y b] A B E; [auto|exfalso; apply (E y); cbn; auto|exfalso; apply (E x); cbn; auto|].
  inversion A as [|? ? A1 A2]; subst. inversion B as [|? ? B1 B2]; subst. rewrite Forall_forall in A2, B2.
  assert (X : x = y).
  { assert (K1 : In x (y :: b)) by (apply E; cbn; auto). assert (K2 : In y (x :: a)) by (apply E; cbn; auto).
    destruct K1 as [K1|K1]; [auto|]. destruct K2 as [K2|K2]; [auto|]. apply B2 in K1. apply A2 in K2. lia. }
  subst y. f_equal. apply IH; auto. intro i. split; intro K.
  - assert (L : In i (x :: b)) by (apply E; cbn; auto). destruct L as [L|L]; [|auto]. subst. apply A2 in K. lia.
  - assert (L : In i (x :: a)) by (apply E; cbn; auto). destruct L as [L|L]; [|auto]. subst. apply B2 in K. lia.
Qed.
Lemma ordAbove_unique f : forall a b lo lo', ordAbove lo a f -> ordAbove lo' b f -> Forall (StronglySorted lt) a -> Forall (StronglySorted lt) b ->
  (forall i, In i (concat a) <-> In i (concat b)) -> a = b.
Proof.
  induction a as [|x a IH]; intros [|y b] lo lo' A B SA SB E.
  - auto.
  - exfalso. destruct B as [N _]. destruct y as [|i y]; [congruence|]. apply (E i). cbn. auto.
  - exfalso. destruct A as [N _]. destruct x as [|i x]; [congruence|]. apply (E i). cbn. auto.
  - destruct A as [NA [va [_ [A1 A2]]]]. destruct B as [NB [vb [_ [B1 B2]]]]. inversion SA as [|? ? SA1 SA2]; subst. inversion SB as [|? ? SB1 SB2]; subst.
    assert (GA := ordAbove_gt a va f A2). assert (GB := ordAbove_gt b vb f B2).
    assert (V : va == vb).
    { destruct x as [|i x]; [congruence|]. destruct y as [|j y]; [congruence|].
      assert (K1 : In i (concat ((j :: y) :: b))) by (apply E; cbn; auto). assert (K2 : In j (concat ((i :: x) :: a))) by (apply E; cbn; auto).
      cbn [concat] in K1, K2. apply in_app_iff in K1. apply in_app_iff in K2. assert (Fi := A1 i (or_introl eq_refl)). assert (Fj := B1 j (or_introl eq_refl)).
      destruct K1 as [K1|K1]; [rewrite <- (B1 i K1); symmetry; auto|]. destruct K2 as [K2|K2]; [rewrite <- (A1 j K2); auto|].
      assert (X := GB i K1). assert (Y := GA j K2). lra. }
    assert (X : x = y).
    { apply sorted_perm_eq; auto. intro i. split; intro K.
      - assert (L : In i (concat (y :: b))) by (apply E; cbn; apply in_app_iff; auto). cbn in L. apply in_app_iff in L. destruct L as [L|L]; [auto|].
        assert (Fi := A1 i K). apply GB in L. lra.
      - assert (L : In i (concat (x :: a))) by (apply E; cbn; apply in_app_iff; auto). cbn in L. apply in_app_iff in L. destruct L as [L|L]; [auto|].
        assert (Fi := B1 i K). apply GA in L. lra. }
    subst y. f_equal. apply (IH b va vb); auto. intro i. split; intro K.
    + assert (L : In i (concat (x :: b))) by (apply E; cbn; apply in_app_iff; auto). cbn in L. apply in_app_iff in L. destruct L as [L|L]; [|auto].
      assert (Fi := A1 i L). apply GA in K. lra.
    + assert (L : In i (concat (x :: a))) by (apply E; cbn; apply in_app_iff; auto). cbn in L. apply in_app_iff in L. destruct L as [L|L]; [|auto].
      assert (Fi := A1 i L). apply GB in K. lra.
Qed.
Theorem C19_equality_exact :
  forall (a b : forder) (n : nat) (f g : nat -> Q), orderOf a n f -> orderOf b n g ->
    (foEqb a b = true <->
     (forall i, (i < n)%nat -> (f i == 0 <-> g i == 0)) /\
     (forall i j, (i < n)%nat -> (j < n)%nat -> (f i < f j <-> g i < g j))).
Proof.
  intros a b n f g A B. unfold foEqb. rewrite andb_true_iff, Nat.eqb_eq, eqBlocks_iff.
  assert (NN : forall o h, orderOf o n h -> forall i, (i < n)%nat -> 0 <= h i).
  { intros o h H i Hi. assert (K := proj2 (orderOf_in _ _ _ H i) Hi). destruct H as [_ [_ [_ H]]]. destruct (blocks o) as [|z r]; [destruct H|]. destruct H as [H1 H2].
    cbn in K. apply in_app_iff in K. destruct K as [K|K]; [rewrite (H1 i K); lra|]. apply Qlt_le_weak. apply (ordAbove_gt r 0 h H2 i K). }
  split.
  - intros [_ E]. assert (B' : orderOf a n g) by (destruct B as [B1 B2]; rewrite <- E in B2; split; [apply A|exact B2]). clear B E b.
    (* positions in the list of blocks decide both comparisons *)
    assert (IN := orderOf_in _ _ _ A). destruct A as [_ [P [_ A]]]. destruct B' as [_ [_ [_ B]]]. assert (ND : NoDup (concat (blocks a))) by (apply (Permutation_NoDup (Permutation_sym P)); apply seq_NoDup).
    destruct (blocks a) as [|z r]; [destruct A|]. destruct A as [A1 A2]. destruct B as [B1 B2].
    assert (AG := ordAbove_gt r 0 f A2). assert (BG := ordAbove_gt r 0 g B2).
    assert (CMP : forall (r : list (list nat)) lo lo' i j, ordAbove lo r f -> ordAbove lo' r g -> In i (concat r) -> In j (concat r) -> (f i < f j <-> g i < g j)).
    { clear. induction r as [|c r IH]; intros lo lo' i j HA HB Hi Hj; [destruct Hi|]. destruct HA as [N [v [_ [V1 V2]]]]. destruct HB as [_ [w [_ [W1 W2]]]].
      cbn in Hi, Hj. apply in_app_iff in Hi. apply in_app_iff in Hj.
      assert (GA := ordAbove_gt r v f V2). assert (GB := ordAbove_gt r w g W2).
      destruct Hi as [Hi|Hi], Hj as [Hj|Hj].
      - rewrite (V1 i Hi), (V1 j Hj), (W1 i Hi), (W1 j Hj). split; intro; lra.
      - rewrite (V1 i Hi), (W1 i Hi). specialize (GA j Hj). specialize (GB j Hj). tauto.
      - rewrite (V1 j Hj), (W1 j Hj). specialize (GA i Hi). specialize (GB i Hi). split; intro; lra.
      - apply (IH v w); auto. }
    split.
    + intros i Hi. apply IN in Hi. cbn in Hi. apply in_app_iff in Hi. destruct Hi as [Hi|Hi]; [assert (X := A1 i Hi); assert (Y := B1 i Hi); tauto|].
      assert (X := AG i Hi). assert (Y := BG i Hi). split; intro; lra.
    + intros i j Hi Hj. apply IN in Hi. apply IN in Hj. cbn in Hi, Hj. apply in_app_iff in Hi. apply in_app_iff in Hj.
      destruct Hi as [Hi|Hi], Hj as [Hj|Hj].
      * rewrite (A1 i Hi), (A1 j Hj), (B1 i Hi), (B1 j Hj). tauto.
      * assert (X := AG j Hj). assert (Y := BG j Hj). rewrite (A1 i Hi), (B1 i Hi). tauto.
      * assert (X := AG i Hi). assert (Y := BG i Hi). rewrite (A1 j Hj), (B1 j Hj). split; intro; lra.
      * apply (CMP r 0 0); auto.
  - intros [Z O]. split; [destruct A as [-> _]; destruct B as [-> _]; auto|].
    assert (A' : orderOf a n g) by (apply orderOf_transfer with f; auto; intros; apply (NN b g); auto).
    assert (IA := orderOf_in _ _ _ A'). assert (IB := orderOf_in _ _ _ B). destruct A' as [_ [_ [SA A']]]. destruct B as [_ [_ [SB B]]].
    destruct (blocks a) as [|za ra]; [destruct A'|]. destruct (blocks b) as [|zb rb]; [destruct B|]. destruct A' as [A1 A2]. destruct B as [B1 B2].
    inversion SA as [|? ? SA1 SA2]; subst. inversion SB as [|? ? SB1 SB2]; subst.
    assert (AG := ordAbove_gt ra 0 g A2). assert (BG := ordAbove_gt rb 0 g B2).
    assert (SW : forall (za zb : list nat) ra rb, (forall i, In i (concat (za :: ra)) <-> (i < n)%nat) -> (forall i, In i (concat (zb :: rb)) <-> (i < n)%nat) ->
      (forall i, In i za -> g i == 0) -> (forall i, In i zb -> g i == 0) -> (forall i, In i (concat ra) -> 0 < g i) -> (forall i, In i (concat rb) -> 0 < g i) ->
      (forall i, In i za -> In i zb) /\ (forall i, In i (concat ra) -> In i (concat rb))).
    { clear. intros za zb ra rb IA IB A1 B1 AG BG. split; intros i K.
      - assert (L : In i (concat (zb :: rb))) by (apply IB; apply IA; cbn; apply in_app_iff; auto). cbn in L. apply in_app_iff in L. destruct L as [L|L]; [auto|].
        apply BG in L. rewrite (A1 i K) in L. lra.
      - assert (L : In i (concat (zb :: rb))) by (apply IB; apply IA; cbn; apply in_app_iff; auto). cbn in L. apply in_app_iff in L. destruct L as [L|L]; [|auto].
        apply AG in K. rewrite (B1 i L) in K. lra. }
    destruct (SW za zb ra rb IA IB A1 B1 AG BG) as [S1 S2]. destruct (SW zb za rb ra IB IA B1 A1 BG AG) as [S3 S4].
    f_equal; [apply sorted_perm_eq; auto; intro i; split; auto|]. apply (ordAbove_unique g ra rb 0 0); auto. intro i; split; auto.
Qed.
Print Assumptions C19_equality_exact.
Example C19_nonvacuous :
  blocks (foOf [3 # 10; 0; 7 # 10; 3 # 10]) = [[1]; [0; 3]; [2]]%nat /\
  blocks (foSucc (foOf [3 # 10; 0; 7 # 10; 3 # 10])) = [[]; [1]; [0; 3]; [2]]%nat /\
  foSuccVars (foSucc (foOf [3 # 10; 0; 7 # 10; 3 # 10])) = [2%nat] /\
  orderOf (foOf [3 # 10; 0; 7 # 10; 3 # 10]) 4 (fun i => nth i [3 # 10; 0; 7 # 10; 3 # 10] 0).
Proof.
  split; [reflexivity|]. split; [reflexivity|]. split; [reflexivity|]. apply (C19_constructor [3 # 10; 0; 7 # 10; 3 # 10]).
  intros q H. cbn in H. repeat (destruct H as [<-|H]; [split; vm_compute; congruence|]). destruct H.
Qed.

(** *** C43: forward regional elementary languages *)
Theorem C43_fromTimedWord : forall w : tword, wfTW w -> regionalF (frFromTimedWord w) w.
Proof. exact frFromTimedWord_regional. Qed.
Print Assumptions C43_fromTimedWord.
Theorem C43_default : regionalF frDefault emptyTW.
Proof. exact frDefault_regional. Qed.
Print Assumptions C43_default.
(** a regional language is exactly one region, simple, and the region of each
    of its members *)
Theorem C43_members :
  forall (x : frel) (w w' : tword), regionalF x w ->
    (inElem (fel x) w' <-> tw w' = tw w /\ sameRegion (td w) (td w')) /\
    (inElem (fel x) w' -> regionalF x w') /\ elIsSimple (fel x) = true.
Proof.
  intros x w w' R. assert (M := regionalF_members x w w' R). split; [exact M|]. split.
  - intro H. apply M in H. destruct H. apply (regionalF_same x w); auto.
  - eapply regionCond_simple. apply R.
Qed.
Print Assumptions C43_members.
Theorem C43_successor_continuous :
  forall (x : frel) (w : tword), regionalF x w ->
    exists q, nextRegion delayed (td w) q /\ regionalF (frSucc x) (mkTW (tw w) (delayed (td w) q)).
Proof. exact frSucc_regional. Qed.
Print Assumptions C43_successor_continuous.
Theorem C43_successor_discrete :
  forall (x : frel) (w : tword) (a : letter), regionalF x w -> regionalF (frSuccAct x a) (concatChar w a).
Proof. exact frSuccAct_regional. Qed.
Print Assumptions C43_successor_discrete.
(** every further delay is reached by repeating successor() *)
Theorem C43_successors_cover_all_delays :
  forall (x : frel) (w : tword) (t : Q), regionalF x w -> 0 <= t ->
    exists k, regionalF (frSuccs k x) (mkTW (tw w) (delayed (td w) t)).
Proof. intros x w t R Ht. apply (frSuccs_reach (Z.to_nat (vol (addBack (td w) t) - vol (td w)))); auto. lia. Qed.
Print Assumptions C43_successors_cover_all_delays.
Theorem C43_immediatePrefix :
  forall (x : frel) (w : tword), regionalF x w -> nonnegTW w ->
    match frImmediatePrefix x with
    | None => sameTW w emptyTW
    | Some y => (exists w0 a, nonnegTW w0 /\ sameTW w (concatChar w0 a) /\ regionalF y w0) \/
                (exists q, nextRegion (fun d e => delayed d (- e)) (td w) q /\ nonnegTW (mkTW (tw w) (delayed (td w) (- q))) /\
                           regionalF y (mkTW (tw w) (delayed (td w) (- q))))
    end.
Proof.
  intros x w R N. assert (K := frPrefix_regional x w R (nonneg_last _ (proj2 N))). destruct (frImmediatePrefix x) as [y|].
  - destruct K as [[_ [w0 [a [W0 [S0 R0]]]]]|[q [K1 [K2 K3]]]].
    + left. exists w0, a. split; [|auto]. split; [auto|]. destruct (nonneg_Q _ _ S0 N) as [_ X]. cbn [concatChar td] in X. apply Forall_app in X. apply X.
    + right. exists q. split; [auto|]. split; [|auto]. assert (Q0 : 0 < q) by apply K1. destruct (timedPrefix_back w q N ltac:(lra) K2) as [X _]. exact X.
  - destruct K as [K1 K2]. split; [auto|]. destruct N as [W N]. unfold wfTW in W. rewrite K1 in W. destruct (td w) as [|a [|? ?]]; try discriminate.
    unfold since, T in K2. cbn in K2. cbn. constructor; [lra|constructor].
Qed.
Print Assumptions C43_immediatePrefix.
(** prefixes() terminates and lists exactly the regions of the prefixes of the
    members, the language itself last *)
Theorem C43_prefixes :
  forall (x : frel) (w : tword), regionalF x w -> nonnegTW w ->
    exists L n, (forall fuel, (n < fuel)%nat -> frPrefixes fuel x [] = L) /\ (exists L', L = L' ++ [x]) /\
      (forall y, In y L -> exists w', timedPrefix w' w /\ regionalF y w') /\
      (forall w', timedPrefix w' w -> exists y, In y L /\ regionalF y w').
Proof.
  intros x w R N. destruct (frPrefixes_spec (mu w) x w R N (le_n _)) as [L [A [_ [B [C D]]]]]. exists L, (mu w).
  split; [intros fuel Hf; rewrite A by auto; apply app_nil_r|]. auto.
Qed.
Print Assumptions C43_prefixes.
(** members of one region can be extended in the same ways *)
Theorem C43_extensions :
  forall (p x : frel) (w w' v : tword), regionalF p w -> regionalF p w' -> nonnegTW w' -> timedPrefix w v -> regionalF x v ->
    exists v', timedPrefix w' v' /\ regionalF x v'.
Proof. exact regionalF_extension. Qed.
Print Assumptions C43_extensions.
Example C43_nonvacuous :
  let w := mkTW [1%nat] [3 # 10; 1 # 2] in
  regionalF (frFromTimedWord w) w /\ nonnegTW w /\ blocks (fo (frFromTimedWord w)) = [[]; [1]; [0]]%nat /\
  blocks (fo (frSucc (frFromTimedWord w))) = [[0]; [1]]%nat.
Proof.
  cbv zeta. split; [apply C43_fromTimedWord; reflexivity|]. split; [split; [reflexivity|repeat constructor; vm_compute; congruence]|]. split; reflexivity.
Qed.

(** *** C44: backward regional elementary languages *)
Theorem C44_default : regionalBack brDefault emptyTW.
Proof. apply brDefault_regional. Qed.
Print Assumptions C44_default.
Theorem C44_predecessor_discrete :
  forall (x : frel) (w : tword) (a : letter), regionalBack x w -> regionalBack (brPredAct x a) (mkTW (a :: tw w) (0 :: td w)).
Proof. exact brPredAct_regional. Qed.
Print Assumptions C44_predecessor_discrete.
(** on the languages built from the default constructor by predecessor(a) and
    predecessor(), predecessor() is the next region when the start moves back *)
Theorem C44_predecessor_continuous :
  forall (x : frel) (w : tword), regionalBack x w ->
    exists q, nextRegion predelayed (td w) q /\ regionalBack (brPred x) (mkTW (tw w) (predelayed (td w) q)).
Proof. exact brPred_regional. Qed.
Print Assumptions C44_predecessor_continuous.
Theorem C44_members :
  forall (x : frel) (w w' : tword), regionalBack x w ->
    (inElem (fel x) w' <-> tw w' = tw w /\ sameRegion (td w) (td w')) /\ (inElem (fel x) w' -> regionalBack x w').
Proof.
  intros x w w' R. assert (M : inElem (fel x) w' <-> tw w' = tw w /\ sameRegion (td w) (td w')).
  { destruct R as [A [B [C D]]]. unfold inElem. rewrite <- A. rewrite (regionCond_exact _ _ C). reflexivity. }
  split; [exact M|]. intro H. apply M in H. destruct H. apply (regionalBack_same x w); auto.
Qed.
Print Assumptions C44_members.
(** fromTimedWord builds the documented order of the fractional parts of the
    T_{0,i}, which immediateSuffix() follows ... *)
Theorem C44_fromTimedWord_documented : forall w : tword, wfTW w -> regionalB (brFromTimedWord w) w.
Proof. exact brFromTimedWord_regional. Qed.
Print Assumptions C44_fromTimedWord_documented.
Theorem C44_immediateSuffix_continuous_partial :
  forall (x : frel) (w : tword), regionalB x w -> 0 < upto (td w) 0 ->
    hasSuffix (ec (fel x)) = true /\
    exists q, nextRegion (fun d e => predelayed d (- e)) (td w) q /\ q <= upto (td w) 0 /\
              regionalB (brImmediateSuffixC x) (mkTW (tw w) (predelayed (td w) (- q))).
Proof. exact brSuffixC_regional. Qed.
Print Assumptions C44_immediateSuffix_continuous_partial.
(** ... but which predecessor() does not: a language built by fromTimedWord
    may have a predecessor() without members *)
Theorem C44_predecessor_of_fromTimedWord_refuted :
  exists w : tword, nonnegTW w /\ regionalB (brFromTimedWord w) w /\ forall w', ~ inElem (fel (brPred (brFromTimedWord w))) w'.
Proof.
  exists (mkTW [1%nat] [3 # 10; 3 # 10]). split; [split; [reflexivity|repeat constructor; vm_compute; congruence]|].
  split; [apply C44_fromTimedWord_documented; reflexivity|]. intros w' [_ [L H]].
  assert (H0 := H 0%nat 0%nat (le_n _)). assert (H1 := H 1%nat 1%nat (le_n _)). assert (H2 := H 0%nat 1%nat (Nat.le_0_l _)). clear H.
  set (m := ec (fel (brPred (brFromTimedWord (mkTW [1%nat] [3 # 10; 3 # 10]))))) in *.
  assert (Sz : tcSize m = 2%nat) by (vm_compute; reflexivity). rewrite Sz in *.
  assert (E1 : getLowerBound m 0 0 = Fin (- (1)) true) by (vm_compute; reflexivity).
  assert (E2 : getLowerBound m 1 1 = Fin 0 false) by (vm_compute; reflexivity).
  assert (E3 : getUpperBound m 0 1 = Fin 1 false) by (vm_compute; reflexivity).
  rewrite E1 in H0. rewrite E2 in H1. rewrite E3 in H2. clearbody m.
  destruct (H0 ltac:(lia)) as [_ A]. destruct (H1 ltac:(lia)) as [_ B]. destruct (H2 ltac:(lia)) as [C _]. cbn [bsat] in A, B, C.
  destruct (td w') as [|x [|y [|? ?]]]; try discriminate. unfold T in A, B, C. cbn [Nat.sub skipn firstn sumQ] in A, B, C. lra.
Qed.
Print Assumptions C44_predecessor_of_fromTimedWord_refuted.
(** the hypothesis regionalBack is met by words of every length *)
Example C44_nonvacuous :
  exists w, regionalBack (brPred (brPredAct (brPred brDefault) 1%nat)) w /\ tw w = [1%nat] /\ 0 < upto (td w) 1.
Proof.
  assert (D := C44_default). destruct (C44_predecessor_continuous _ _ D) as [q [Nq R]].
  apply (C44_predecessor_discrete _ _ 1%nat) in R. destruct (C44_predecessor_continuous _ _ R) as [p [Np R2]].
  eexists. split; [exact R2|]. split; [reflexivity|]. destruct Nq as [Q0 _]. destruct Np as [P0 _].
  cbn [td tw emptyTW predelayed]. unfold upto, T. cbn [Nat.sub skipn firstn sumQ]. lra.
Qed.
