(** The renaming graph and the candidate renamings. *)
From Coq Require Import QArith Bool List Arith Lia Lqa.
From Verif Require Import BoundsModel BoundsProofs ConstraintModel ZoneModel ZoneSpec ZoneProofs ZoneProofs2 AutomatonModel
  TimedWordModel TimedWordSpec TimedConditionModel TimedConditionSpec TimedConditionProofs TimedConditionProofs4 ElementaryModel
  ElementarySpec RegionalModel RegionalSpec CexModel CexSpec CexProofs RenamingModel RenamingSpec RenamingProofs RenamingProofs2.
Import ListNotations.

(** * adding one edge *)
Definition edge (e : list (list nat)) (i j : nat) : Prop := In j (nth i e []).
Lemma pushAt_length x : forall v i, length (pushAt i x v) = length v.
Proof. induction v as [|l v IH]; intros [|i]; cbn [pushAt length]; auto. Qed.
Lemma pushAt_edge x : forall v i k y, edge (pushAt i x v) k y <-> edge v k y \/ (k = i /\ y = x /\ (i < length v)%nat).
Proof.
  unfold edge. induction v as [|l v IH]; intros i k y.
  - replace (pushAt i x []) with (@nil (list nat)) by (destruct i; reflexivity). cbn [length]. split; [auto|]. intros [H|[H0 [H1 H]]]; [exact H|lia].
  - destruct i as [|i]; destruct k as [|k]; cbn [pushAt nth length].
    + rewrite in_app_iff. cbn [In]. split; [intros [H|[<-|[]]]; auto; right; repeat split; lia|intros [H|[_ [-> _]]]; auto].
    + split; [auto|intros [H|[H _]]; [auto|lia]].
    + split; [auto|intros [H|[H _]]; [auto|lia]].
    + rewrite IH. split; intros [H|[H0 [-> H]]]; auto; right; repeat split; lia.
Qed.
Lemma push_many_length (g : nat -> nat * nat) : forall l e, length (fold_left (fun e x => pushAt (fst (g x)) (snd (g x)) e) l e) = length e.
Proof. induction l as [|a l IH]; intro e; [reflexivity|]. cbn [fold_left]. rewrite IH, pushAt_length. reflexivity. Qed.
Lemma push_many (g : nat -> nat * nat) : forall l e k y,
  edge (fold_left (fun e x => pushAt (fst (g x)) (snd (g x)) e) l e) k y <-> edge e k y \/ exists x, In x l /\ k = fst (g x) /\ y = snd (g x) /\ (k < length e)%nat.
Proof.
  induction l as [|a l IH]; intros e k y; cbn [fold_left].
  - split; [auto|]. intros [H|[x [[] _]]]. auto.
  - rewrite IH, pushAt_edge, pushAt_length. split.
    + intros [[H|[-> [-> H]]]|[x [H1 [-> [-> H2]]]]]; [auto| |].
      * right. exists a. cbn. auto.
      * right. exists x. cbn. auto.
    + intros [H|[x [[<-|H1] [-> [-> H2]]]]]; [auto|auto|]. right. exists x. auto.
Qed.

Section Graph.
Variables (l r : tcond).
Let N := tcSize l.
Let M := tcSize r.
Definition desc (c : tcond) : Prop := forall i k, (i <= k)%nat -> (k < tcSize c)%nat -> ble (ubN c k) (ubN c i) = true.
Hypotheses (Dl : desc l) (Dr : desc r).
Let u := ubN l.
Let v := ubN r.
Let same a b : Prop := ble a b = true /\ ble b a = true.
Lemma same_b a b : beqb a b = true <-> same a b.
Proof. unfold beqb, same. rewrite andb_true_iff. reflexivity. Qed.
Lemma same_sym a b : same a b -> same b a. Proof. unfold same; tauto. Qed.
Lemma same_trans a b c : same a b -> same b c -> same a c.
Proof. unfold same; intros [A B] [C D]. split; eapply ble_trans; eauto. Qed.

Record ginv (g : graphSt) : Prop := {
  gi_b1 : (gV1 g <= N)%nat; gi_b2 : (gV2 g <= M)%nat;
  gi_l1 : length (gE1 g) = N; gi_l2 : length (gE2 g) = M;
  gi_sound : forall i j, edge (gE1 g) i j -> (i < N)%nat /\ (j < M)%nat /\ same (u i) (v j);
  gi_sym : forall i j, edge (gE1 g) i j <-> edge (gE2 g) j i;
  gi_s1 : forall i, In i (gSame1 g) -> (gV1 g < N)%nat /\ (i <= gV1 g)%nat /\ same (u i) (u (gV1 g)) /\ (forall j, (gV2 g <= j)%nat -> (j < M)%nat -> ble (v j) (u i) = true);
  gi_s2 : forall j, In j (gSame2 g) -> (gV1 g < N)%nat /\ (j < M)%nat /\ same (v j) (u (gV1 g));
  gi_done : forall i j, (i < N)%nat -> (j < gV2 g)%nat -> same (u i) (v j) -> edge (gE1 g) i j;
  gi_pend : forall i j, (i < gV1 g)%nat -> (gV2 g <= j)%nat -> (j < M)%nat -> same (u i) (v j) -> In i (gSame1 g)
}.
Lemma ginv_init : ginv (mkG 0 0 [] [] (repeat [] N) (repeat [] M)).
Proof.
  assert (E : forall n i j, ~ edge (repeat [] n) i j).
  { unfold edge. induction n as [|n IH]; intros [|i] j; cbn [repeat nth In]; auto. }
  constructor; cbn [gV1 gV2 gSame1 gSame2 gE1 gE2].
  - lia.
  - lia.
  - apply repeat_length.
  - apply repeat_length.
  - intros i j H. destruct (E _ _ _ H).
  - intros i j. split; intro H; destruct (E _ _ _ H).
  - intros i [].
  - intros i [].
  - intros; lia.
  - intros; lia.
Qed.

(** the edges added by a round in which the two bounds are equal *)
Definition added1 (v1 v2 : nat) (s1 s2 : list nat) (e : list (list nat)) : list (list nat) :=
  pushAt v1 v2 (fold_left (fun e x => pushAt x v2 e) s1 (fold_left (fun e x => pushAt v1 x e) s2 e)).
Definition added2 (v1 v2 : nat) (s1 s2 : list nat) (e : list (list nat)) : list (list nat) :=
  pushAt v2 v1 (fold_left (fun e x => pushAt v2 x e) s1 (fold_left (fun e x => pushAt x v1 e) s2 e)).
Lemma added1_len v1 v2 s1 s2 e : length (added1 v1 v2 s1 s2 e) = length e.
Proof.
  unfold added1. rewrite pushAt_length. rewrite (push_many_length (fun x => (x, v2))). rewrite (push_many_length (fun x => (v1, x))). reflexivity.
Qed.
Lemma added2_len v1 v2 s1 s2 e : length (added2 v1 v2 s1 s2 e) = length e.
Proof.
  unfold added2. rewrite pushAt_length. rewrite (push_many_length (fun x => (v2, x))). rewrite (push_many_length (fun x => (x, v1))). reflexivity.
Qed.
Lemma added1_edge v1 v2 s1 s2 e i j : edge (added1 v1 v2 s1 s2 e) i j <->
  edge e i j \/ ((i < length e)%nat /\ ((i = v1 /\ j = v2) \/ (i = v1 /\ In j s2) \/ (In i s1 /\ j = v2))).
Proof.
  unfold added1. rewrite pushAt_edge. rewrite (push_many_length (fun x => (x, v2))), (push_many_length (fun x => (v1, x))).
  rewrite (push_many (fun x => (x, v2))), (push_many_length (fun x => (v1, x))). rewrite (push_many (fun x => (v1, x))). cbn [fst snd]. split.
  - intros [[[H|[x [A [-> [-> B]]]]]|[x [A [-> [-> B]]]]]|[-> [-> B]]]; auto 10.
  - intros [H|[B [[-> ->]|[[-> A]|[A ->]]]]]; auto 10. left. left. right. exists j. auto. left. right. exists i. auto.
Qed.
Lemma added2_edge v1 v2 s1 s2 e i j : edge (added2 v1 v2 s1 s2 e) i j <->
  edge e i j \/ ((i < length e)%nat /\ ((i = v2 /\ j = v1) \/ (i = v2 /\ In j s1) \/ (In i s2 /\ j = v1))).
Proof.
  unfold added2. rewrite pushAt_edge. rewrite (push_many_length (fun x => (v2, x))), (push_many_length (fun x => (x, v1))).
  rewrite (push_many (fun x => (v2, x))), (push_many_length (fun x => (x, v1))). rewrite (push_many (fun x => (x, v1))). cbn [fst snd]. split.
  - intros [[[H|[x [A [-> [-> B]]]]]|[x [A [-> [-> B]]]]]|[-> [-> B]]]; auto 10.
  - intros [H|[B [[-> ->]|[[-> A]|[A ->]]]]]; auto 10. left. right. exists j. auto. left. left. right. exists i. auto.
Qed.

Lemma ginv_step g : ginv g -> (gV1 g < N)%nat -> (gV2 g < M)%nat -> ginv (graphStep l r g).
Proof.
  intros [b1 b2 l1 l2 so sy s1 s2 dn pe] H1 H2. destruct g as [v1 v2 t1 t2 e1 e2]. cbn [gV1 gV2 gSame1 gSame2 gE1 gE2] in *.
  unfold graphStep. cbn [gV1 gV2 gSame1 gSame2 gE1 gE2]. fold u v N M. change (ubN l v1) with (u v1). change (ubN r v2) with (v v2).
  destruct (beqb (u v1) (v v2)) eqn:E.
  - apply same_b in E. fold (added1 v1 v2 t1 t2 e1). fold (added2 v1 v2 t1 t2 e2).
    change (ubN l (v1 + 1)) with (u (v1 + 1)%nat).
    set (nx := ((v1 + 1 <? N)%nat && beqb (u v1) (u (v1 + 1)))%bool).
    assert (NX : nx = true -> (v1 + 1 < N)%nat /\ same (u v1) (u (v1 + 1)%nat)).
    { unfold nx. intro X. apply andb_true_iff in X. destruct X as [X1 X2]. apply Nat.ltb_lt in X1. apply same_b in X2. auto. }
    assert (NX' : nx = false -> forall i, (v1 < i)%nat -> (i < N)%nat -> ~ same (u i) (u v1)).
    { unfold nx. intros X i Hi Hn Sm. apply andb_false_iff in X. destruct X as [X|X]; [apply Nat.ltb_ge in X; lia|].
      assert (beqb (u v1) (u (v1 + 1)) = true); [|congruence]. apply same_b. split.
      - eapply ble_trans; [exact (proj2 Sm)|]. apply Dl; [lia|auto].
      - apply Dl; [lia|]. fold N. lia. }
    constructor; cbn [gV1 gV2 gSame1 gSame2 gE1 gE2]; rewrite ?added1_len, ?added2_len; auto.
    + destruct nx; [destruct (NX eq_refl)|]; lia.
    + destruct nx; lia.
    + intros i j H. apply added1_edge in H. destruct H as [H|[Hi [[-> ->]|[[-> Hj]|[Hi' ->]]]]]; [auto|auto| |].
      * destruct (s2 j Hj) as [_ [A B]]. split; [auto|]. split; [auto|]. apply same_sym; auto.
      * destruct (s1 i Hi') as [A [B [C _]]]. split; [lia|]. split; [auto|]. eapply same_trans; eauto.
    + intros i j. rewrite added1_edge, added2_edge, sy. split.
      * intros [H|[Hi [[-> ->]|[[-> Hj]|[Hi' ->]]]]]; [auto| | |]; right; (split; [|auto 10]); try lia. rewrite l2. apply s2; auto.
      * intros [H|[Hi [[-> ->]|[[-> Hj]|[Hi' ->]]]]]; [auto| | |]; right; (split; [|auto 10]); try lia. destruct (s1 i Hj). lia.
    + (* same1 *) intros i Hi.
      assert (K : (i <= v1)%nat /\ same (u i) (u v1) /\ forall j, (v2 <= j)%nat -> (j < M)%nat -> ble (v j) (u i) = true).
      { apply in_app_or in Hi. destruct Hi as [Hi|[<-|[]]]; [destruct (s1 i Hi) as [_ X]; exact X|]. split; [lia|]. split; [split; apply ble_refl|].
        intros j A B. eapply ble_trans; [|exact (proj2 E)]. apply Dr; auto. }
      destruct K as [K1 [K2 K3]]. destruct nx.
      * destruct (NX eq_refl) as [A B]. split; [lia|]. split; [lia|]. split; [eapply same_trans; eauto|auto].
      * split; [lia|]. split; [lia|]. split; [auto|]. intros j A B. apply K3; lia.
    + intros j Hj. assert (K : (j < M)%nat /\ same (v j) (u v1)).
      { apply in_app_or in Hj. destruct Hj as [Hj|[<-|[]]]; [destruct (s2 j Hj) as [_ X]; exact X|]. split; [auto|apply same_sym; auto]. }
      destruct K as [K1 K2]. destruct nx; [|auto]. destruct (NX eq_refl) as [A B]. split; [lia|]. split; [auto|]. eapply same_trans; eauto.
    + intros i j Hi Hj Sm. apply added1_edge. destruct nx eqn:En.
      * left. apply dn; auto.
      * destruct (Nat.eq_dec j v2) as [->|Ne]; [|left; apply dn; auto; lia]. destruct (lt_eq_lt_dec i v1) as [[Lt|Eq]|Gt].
        -- right. split; [lia|]. right. right. split; [|auto]. exact (pe i v2 Lt (le_n _) H2 Sm).
        -- right. split; [lia|]. left. auto.
        -- exfalso. apply (NX' eq_refl i Gt Hi). eapply same_trans; [exact Sm|]. apply same_sym. auto.
    + intros i j Hi Hj Hm Sm. apply in_or_app. destruct nx eqn:En.
      * destruct (Nat.eq_dec i v1) as [->|Ne]; [right; left; auto|]. left. apply (pe i j); auto. lia.
      * left. apply (pe i j); auto. lia.
  - assert (E' : ~ same (u v1) (v v2)) by (intro X; apply same_b in X; congruence). unfold bltb.
    destruct (ble (v v2) (u v1)) eqn:EL; cbn [negb].
    + (* u v1 > v v2 *)
      assert (G : ble (u v1) (v v2) = false) by (destruct (ble (u v1) (v v2)) eqn:X; [exfalso; apply E'; split; auto|auto]).
      constructor; cbn [gV1 gV2 gSame1 gSame2 gE1 gE2]; auto; try solve [intros ? []]; try lia.
      intros i j Hi Hj Hm Sm. exfalso. assert (X : ble (u v1) (v v2) = true); [|congruence].
      eapply ble_trans; [apply (Dl i v1); [lia|exact H1]|]. eapply ble_trans; [exact (proj1 Sm)|]. apply Dr; auto.
    + (* u v1 < v v2 *)
      constructor; cbn [gV1 gV2 gSame1 gSame2 gE1 gE2]; auto; try solve [intros ? []]; try lia.
      * intros i j Hi Hj Sm. destruct (Nat.eq_dec j v2) as [->|Ne]; [|apply dn; auto; lia].
        destruct (le_lt_dec v1 i) as [Le|Lt].
        -- exfalso. assert (X : ble (v v2) (u v1) = true); [|congruence]. eapply ble_trans; [exact (proj2 Sm)|]. apply Dl; auto.
        -- exfalso. assert (In i t1) by (apply (pe i v2); auto). destruct (s1 i H) as [_ [_ [A B]]].
           assert (X : ble (v v2) (u v1) = true); [|congruence]. eapply ble_trans; [exact (B v2 (le_n _) H2)|]. exact (proj1 A).
      * intros i j Hi Hj Hm Sm. assert (H : In i t1) by (apply (pe i j); auto; lia). destruct (s1 i H) as [_ [_ [A B]]].
        exfalso. assert (X : ble (v v2) (u v1) = true); [|congruence]. eapply ble_trans; [exact (B v2 (le_n _) H2)|]. exact (proj1 A).
Qed.
Lemma step_measure g : (gV1 g < N)%nat -> (gV2 g < M)%nat ->
  (gV1 (graphStep l r g) + gV2 (graphStep l r g) = S (gV1 g + gV2 g))%nat.
Proof.
  intros _ _. unfold graphStep. destruct (beqb (ubN l (gV1 g)) (ubN r (gV2 g))).
  - cbv zeta. cbn [gV1 gV2]. destruct ((gV1 g + 1 <? tcSize l)%nat && beqb (ubN l (gV1 g)) (ubN l (gV1 g + 1))); lia.
  - destruct (bltb (ubN l (gV1 g)) (ubN r (gV2 g))); cbn [gV1 gV2]; lia.
Qed.
Lemma graphLoop_inv : forall fuel g, ginv g -> (N + M <= gV1 g + gV2 g + fuel)%nat ->
  ginv (graphLoop fuel l r g) /\ ((gV1 (graphLoop fuel l r g) >= N)%nat \/ (gV2 (graphLoop fuel l r g) >= M)%nat).
Proof.
  induction fuel as [|fuel IH]; intros g G F; cbn [graphLoop].
  - split; [auto|]. destruct G as [b1 b2]. left. lia.
  - fold N M. destruct ((gV1 g <? N)%nat && (gV2 g <? M)%nat) eqn:E.
    + apply andb_true_iff in E. destruct E as [E1 E2]. apply Nat.ltb_lt in E1, E2. apply IH; [apply ginv_step; auto|]. rewrite step_measure by auto. lia.
    + split; [auto|]. apply andb_false_iff in E. destruct E as [E|E]; apply Nat.ltb_ge in E; lia.
Qed.
Lemma map_edge e i j : edge (map sortUniq e) i j <-> edge e i j.
Proof.
  unfold edge. change (@nil nat) with (sortUniq []) at 1. rewrite map_nth. apply sortUniq_in.
Qed.
Lemma toGraph_exact i j :
  (edge (fst (toGraph l r)) i j <-> (i < N)%nat /\ (j < M)%nat /\ same (u i) (v j)) /\
  (edge (snd (toGraph l r)) j i <-> (i < N)%nat /\ (j < M)%nat /\ same (u i) (v j)).
Proof.
  unfold toGraph. cbv zeta. cbn [fst snd]. rewrite !map_edge. fold N M.
  destruct (graphLoop_inv (N + M) _ ginv_init) as [G F]; [cbn [gV1 gV2]; lia|].
  set (g := graphLoop (N + M) l r (mkG 0 0 [] [] (repeat [] N) (repeat [] M))) in *. destruct G as [b1 b2 l1 l2 so sy s1 s2 dn pe].
  rewrite <- sy. enough (K : edge (gE1 g) i j <-> (i < N)%nat /\ (j < M)%nat /\ same (u i) (v j)) by tauto. split; [auto|].
  intros [A [B C]]. destruct (le_lt_dec (gV2 g) j) as [Le|Lt]; [|auto]. exfalso.
  assert (F' : (gV1 g >= N)%nat) by lia. assert (H : In i (gSame1 g)) by (apply (pe i j); auto; lia). destruct (s1 i H) as [X _]. lia.
Qed.
End Graph.

(** the upper bounds on the time since the events descend *)
Lemma nonneg_desc x : wfElem x -> (forall w, inElem x w -> Forall (fun q => (0 <= q)%Q) (td w)) -> desc (ec x).
Proof.
  intros W NN i k Hik Hk. assert (D := dim_size x W). destruct W as [[D2 [C NE]] S0].
  assert (N2 := nonempty_nonneg2 _ NE). unfold ubN, getUpperBound. 
  assert (CO : colOf (ec x) (tcSize (ec x) - 1) = 0%nat).
  { unfold colOf. rewrite Nat.eqb_refl. reflexivity. }
  rewrite CO. apply (closed_tight (ec x) C N2); [unfold tcSize in *; lia|lia|lia|].
  intros w Hw. assert (A := Hw (i + 1)%nat 0%nat ltac:(unfold tcSize in *; lia) ltac:(lia)).
  assert (K := NN (mkTW (ew x) (durs (tcSize (ec x)) w)) (conj eq_refl (inZone_durs (ec x) w D2 Hw))). cbn [td] in K.
  assert (Mono : (w k <= w i)%Q).
  { assert (Acc : forall n, (accd (durs (tcSize (ec x)) w) (i + n) <= accd (durs (tcSize (ec x)) w) i)%Q).
    { assert (AD : forall d n, Forall (fun q => (0 <= q)%Q) d -> (accd d (i + n) <= accd d i)%Q).
      { clear. intros d n F. revert i n. induction F as [|q d Hq F IH]; intros i n.
        - unfold accd. rewrite !skipn_nil. apply Qle_refl.
        - destruct i as [|i].
          + clear IH. cbn [Nat.add]. revert n. assert (G : forall n d, Forall (fun q => (0 <= q)%Q) d -> (accd d n <= accd d 0)%Q).
            { induction n as [|n IHn]; intros d0 F0; [apply Qle_refl|]. destruct F0 as [|q0 d0 Hq0 F0]; [unfold accd; cbn; apply Qle_refl|].
              change (accd (q0 :: d0) (S n)) with (accd d0 n). rewrite accd_cons. specialize (IHn d0 F0). lra. }
            intro n. apply G. constructor; auto.
          + change (accd (q :: d) (S i + n)) with (accd d (i + n)). change (accd (q :: d) (S i)) with (accd d i). apply IH. }
      intro n. apply AD. auto. }
    specialize (Acc (k - i)%nat). replace (i + (k - i))%nat with k in Acc by lia. rewrite !durs_acc in Acc by lia. exact Acc. }
  replace (k + 1)%nat with (S k) by lia. replace (i + 1)%nat with (S i) in * by lia. cbn [ext] in *.
  destruct (get (ec x) (S i) 0) as [c s|]; cbn [bsat] in *; [|exact I]. destruct s; cbn in *; lra.
Qed.
