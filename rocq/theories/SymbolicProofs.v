(** Proofs about symbolic membership queries. *)
From Coq Require Import QArith ZArith Bool List Arith Lia Lqa.
From Verif Require Import BoundsModel BoundsProofs ConstraintModel GuardSpec ZoneModel ZoneSpec ZoneProofs AutomatonModel TimedWordModel TimedWordSpec TimedWordProofs
  TimedConditionModel TimedConditionSpec TimedConditionProofs TimedConditionProofs2 TimedConditionProofs3 TimedConditionProofs4 TimedConditionProofs5
  ElementaryModel ElementarySpec ElementaryProofs ElementaryProofs2 PropertiesConditions OracleModel OracleSpec SymbolicModel SymbolicSpec.
Import ListNotations.
Open Scope Q_scope.

(** ** counting regions *)
Lemma good_hull n a b : good n a -> good n b -> good n (tcHull a b).
Proof.
  intros [Oa [Ia [Ba Ta]]] [Ob [Ib [Bb Tb]]].
  assert (D : dim a = dim b) by (destruct Oa as [A _], Ob as [B _]; unfold tcSize in *; lia).
  assert (Da : (2 <= dim a)%nat) by apply Oa.
  split; [apply okCond_hull; auto; congruence|]. split; [|split].
  - intros i j Hi Hj. rewrite dim_tcHull in *. rewrite get_tcHull by auto.
    unfold bmax. destruct (blt (get a i j) (get b i j)); [apply Ib; lia|apply Ia; auto].
  - intros i j Hij Hj. unfold tcSize in Hj. rewrite dim_tcHull in Hj.
    assert (Hc := colOf_lt a j Da ltac:(unfold tcSize; auto)).
    assert (Ec : colOf (tcHull a b) j = colOf a j) by (unfold colOf, tcSize; rewrite dim_tcHull; reflexivity).
    assert (Ec' : colOf b j = colOf a j) by (unfold colOf, tcSize; rewrite D; reflexivity).
    assert (X := Ba i j Hij ltac:(unfold tcSize; auto)). assert (Y := Bb i j Hij ltac:(unfold tcSize; lia)).
    unfold getUpperBound, getLowerBound in *. rewrite Ec. rewrite Ec' in Y. rewrite !get_tcHull by (auto; lia).
    unfold bmax. destruct (blt _ _), (blt _ _); tauto.
  - unfold tcSize in *. rewrite dim_tcHull. auto.
Qed.

(** two regions with a common point coincide *)
Lemma simple_same a b d : okCond a -> intCond a -> isSimple a = true -> okCond b -> intCond b -> isSimple b = true ->
  inCond a d -> inCond b d -> forall d', inCond a d' <-> inCond b d'.
Proof.
  intros Oa Ia Sa Ob Ib Sb Ha Hb d'.
  rewrite (proj1 (C20_isSimple_exact a Oa Ia) Sa d d' Ha). rewrite (proj1 (C20_isSimple_exact b Ob Ib) Sb d d' Hb). reflexivity.
Qed.

Lemma find_index {A} (p : A -> bool) : forall l dflt, (exists x, In x l /\ p x = true) -> exists j, (j < length l)%nat /\ p (nth j l dflt) = true.
Proof. intros l dflt [x [H P]]. apply (In_nth _ _ dflt) in H. destruct H as [j [Hj <-]]. eauto. Qed.
(** a function on indexes from a total relation *)
Lemma index_fun (R : nat -> nat -> Prop) : forall n, (forall i, (i < n)%nat -> exists j, R i j) -> exists g, forall i, (i < n)%nat -> R i (g i).
Proof.
  induction n as [|n IH]; intro H; [exists (fun i => i); intros; lia|]. destruct IH as [g G]; [auto|]. destruct (H n ltac:(lia)) as [j J].
  exists (fun i => if (i =? n)%nat then j else g i). intros i Hi. destruct (Nat.eqb_spec i n) as [->|N]; [auto|]. apply G. lia.
Qed.

Lemma cover_exact n h L : good n h -> (forall c, In c L -> good n c /\ isSimple c = true) ->
  (forall c d, In c L -> inCond c d -> inCond h d) -> (forall d, (cnt d L <= 1)%nat) ->
  length (enumerate h) = length L -> forall d, inCond h d -> exists c, In c L /\ inCond c d.
Proof.
  intros [Oh [Ih [Bh Th]]] GL Sub Dis Len d Hd.
  destruct (C22_enumerate_conditions h Oh Ih Bh) as [E1 [E2 E3]]. set (E := enumerate h) in *.
  assert (W : forall i, (i < length L)%nat -> exists j, (j < length E)%nat /\ exists e, inCond (nth i L []) e /\ inCond (nth j E []) e).
  { intros i Hi. assert (Ii := nth_In L [] Hi). destruct (GL _ Ii) as [[O _] _]. destruct (okCond_inhabited _ O) as [e He].
    assert (K := Sub _ _ Ii He). apply E2 in K. destruct K as [c [Hc K]]. apply (In_nth _ _ []) in Hc. destruct Hc as [j [Hj <-]]. exists j. split; [auto|]. exists e. auto. }
  destruct (index_fun (fun i j => (j < length E)%nat /\ exists e, inCond (nth i L []) e /\ inCond (nth j E []) e) (length L) W) as [g G].
  assert (Same : forall i, (i < length L)%nat -> forall e, inCond (nth i L []) e <-> inCond (nth (g i) E []) e).
  { intros i Hi. destruct (G i Hi) as [Hj [e [H1 H2]]]. destruct (GL _ (nth_In L [] Hi)) as [[O [I _]] S]. destruct (E1 _ (nth_In E [] Hj)) as [O' [I' [_ S']]].
    apply (simple_same _ _ e); auto. }
  assert (Inj : forall i k, (i < length L)%nat -> (k < length L)%nat -> g i = g k -> i = k).
  { intros i k Hi Hk Eg. destruct (G i Hi) as [_ [e [H1 H2]]]. apply (cnt_unique e L (Dis e)); auto. apply Same; auto. rewrite <- Eg. exact H2. }
  assert (ND : NoDup (map g (seq 0 (length L)))).
  { apply NoDup_nth with (d := g 0%nat). rewrite map_length, seq_length. intros i k Hi Hk. rewrite !map_nth. rewrite !seq_nth by auto. cbn. apply Inj; auto. }
  assert (INC : incl (seq 0 (length E)) (map g (seq 0 (length L)))).
  { apply NoDup_length_incl; [exact ND|rewrite map_length, !seq_length; lia|]. intros j Hj. apply in_map_iff in Hj. destruct Hj as [i [<- Hi]]. apply in_seq in Hi.
    apply in_seq. destruct (G i ltac:(lia)) as [K _]. lia. }
  apply E2 in Hd. destruct Hd as [c [Hc Hd]]. apply (In_nth _ _ []) in Hc. destruct Hc as [j [Hj <-]].
  assert (K : In j (map g (seq 0 (length L)))) by (apply INC; apply in_seq; split; [apply Nat.le_0_l|exact Hj]). apply in_map_iff in K. destruct K as [i [<- Hi]]. apply in_seq in Hi.
  exists (nth i L []). split; [apply nth_In; lia|]. apply Same; auto. lia.
Qed.

(** ** reduce *)
Definition entryOK (n : nat) (p : tcond * nat) : Prop := good n (fst p) /\ snd p = length (enumerate (fst p)).
Lemma merge_exact n c x : entryOK n c -> entryOK n x -> (forall d, (cnt d [fst c] + cnt d [fst x] <= 1)%nat) ->
  length (enumerate (tcHull (fst c) (fst x))) = (snd c + snd x)%nat ->
  entryOK n (tcHull (fst c) (fst x), (snd c + snd x)%nat) /\
  forall d, (cnt d [tcHull (fst c) (fst x)] = cnt d [fst c] + cnt d [fst x])%nat.
Proof.
  intros [Gc Sc] [Gx Sx] Dis Len. assert (Gh := good_hull n _ _ Gc Gx). split; [split; auto|].
  intro d. destruct (Gc) as [Oc [Ic [Bc Tc]]]. destruct (Gx) as [Ox [Ix [Bx Tx]]].
  destruct (enumerate_spec _ Oc Ic Bc) as [C1 C2]. destruct (enumerate_spec _ Ox Ix Bx) as [X1 X2]. rewrite Tc in C1. rewrite Tx in X1.
  assert (CE : forall e, cnt e (enumerate (fst c) ++ enumerate (fst x)) = (cnt e [fst c] + cnt e [fst x])%nat) by (intro e; rewrite cnt_app, C2, X2, !cnt_one; reflexivity).
  assert (K : inCond (tcHull (fst c) (fst x)) d <-> inCond (fst c) d \/ inCond (fst x) d).
  { split; [|apply tcHull_contains; auto; congruence]. intro H.
    destruct (cover_exact n (tcHull (fst c) (fst x)) (enumerate (fst c) ++ enumerate (fst x)) Gh) with (d := d) as [y [Hy Y]]; auto.
    - intros y Hy. apply in_app_or in Hy. destruct Hy; auto.
    - intros y e Hy Y. apply tcHull_contains; auto; [congruence|]. apply in_app_or in Hy. destruct Hy as [Hy|Hy]; [left|right].
      + apply (C22_enumerate_conditions _ Oc Ic Bc). eauto.
      + apply (C22_enumerate_conditions _ Ox Ix Bx). eauto.
    - intro e. rewrite CE. apply Dis.
    - rewrite app_length, Len, Sc, Sx. reflexivity.
    - apply in_app_or in Hy. destruct Hy as [Hy|Hy]; [left|right].
      + apply (C22_enumerate_conditions _ Oc Ic Bc). eauto.
      + apply (C22_enumerate_conditions _ Ox Ix Bx). eauto. }
  specialize (Dis d). rewrite !cnt_one in *. rewrite <- !inCondb_ok in K.
  destruct (inCondb (tcHull (fst c) (fst x)) d), (inCondb (fst c) d), (inCondb (fst x) d); cbn in *; auto; try lia; exfalso; try (destruct K as [K1 K2]; intuition congruence).
Qed.
Lemma cnt_cons d c l : cnt d (c :: l) = (cnt d [c] + cnt d l)%nat.
Proof. change (c :: l) with ([c] ++ l). apply cnt_app. Qed.
Lemma findMerge_spec n : forall post c pre, entryOK n c -> Forall (entryOK n) (pre ++ post) ->
  (forall d, (cnt d (map fst (c :: pre ++ post)) <= 1)%nat) ->
  forall c' l', findMerge c pre post = Some (c', l') ->
    entryOK n c' /\ Forall (entryOK n) l' /\ S (length l') = length (pre ++ post) /\
    forall d, cnt d (map fst (c' :: l')) = cnt d (map fst (c :: pre ++ post)).
Proof.
  induction post as [|x r IH]; intros c pre Kc KL Dis c' l' H; [discriminate|]. cbn [findMerge] in H.
  destruct (Nat.eqb_spec (length (enumerate (tcHull (fst c) (fst x)))) (snd c + snd x)) as [E|E].
  - injection H as <- <-. apply Forall_app in KL. destruct KL as [K1 K2]. inversion K2 as [|? ? Kx K3]; subst.
    assert (Cn : forall d, cnt d (map fst (c :: pre ++ x :: r)) = (cnt d [fst c] + cnt d [fst x] + cnt d (map fst (pre ++ r)))%nat).
    { intro d. cbn [map]. rewrite !map_app. cbn [map]. rewrite (cnt_cons d (fst c)), !cnt_app, (cnt_cons d (fst x)). lia. }
    destruct (merge_exact n c x Kc Kx) as [M1 M2]; [intro d; specialize (Dis d); rewrite Cn in Dis; lia|exact E|].
    split; [exact M1|]. split; [apply Forall_app; auto|]. split; [rewrite !app_length; cbn; lia|].
    intro d. cbn [map fst]. rewrite cnt_cons, M2, Cn. reflexivity.
  - replace (pre ++ x :: r) with ((pre ++ [x]) ++ r) in * by (rewrite <- app_assoc; reflexivity). apply IH; auto.
Qed.
Lemma reduceLoop_spec n : forall fuel done rest, Forall (entryOK n) (done ++ rest) ->
  (forall d, (cnt d (map fst (done ++ rest)) <= 1)%nat) ->
  (length (done ++ rest) * length (done ++ rest) + length rest < fuel)%nat ->
  exists l, reduceLoop fuel done rest = Some l /\ Forall (entryOK n) l /\ forall d, cnt d (map fst l) = cnt d (map fst (done ++ rest)).
Proof.
  induction fuel as [|fuel IH]; intros done rest KL Dis F; [lia|]. destruct rest as [|c r]; cbn [reduceLoop].
  - rewrite app_nil_r in *. exists done. auto.
  - destruct (findMerge c [] r) as [[c' r']|] eqn:E.
    + apply Forall_app in KL. destruct KL as [K1 K2]. inversion K2 as [|? ? Kc K3]; subst.
      assert (Sp : forall d, cnt d (map fst (done ++ c :: r)) = (cnt d (map fst done) + cnt d (map fst (c :: r)))%nat) by (intro d; rewrite map_app, cnt_app; reflexivity).
      destruct (findMerge_spec n r c [] Kc K3) with (c' := c') (l' := r') as [P1 [P2 [P3 P4]]]; [intro d; specialize (Dis d); rewrite Sp in Dis; cbn [app]; lia|exact E|].
      cbn [app] in P3, P4.
      assert (Sp' : forall d, cnt d (map fst (done ++ c' :: r')) = cnt d (map fst (done ++ c :: r))) by (intro d; rewrite Sp, map_app, cnt_app, P4; reflexivity).
      assert (Ln : S (length (done ++ c' :: r')) = length (done ++ c :: r)) by (rewrite !app_length; cbn [length]; lia).
      destruct (IH [] (done ++ c' :: r')) as [l [R1 [R2 R3]]].
      * cbn. apply Forall_app. auto.
      * intro d. cbn [app]. rewrite Sp'. apply Dis.
      * cbn [app]. rewrite <- Ln in F. nia.
      * exists l. split; [exact R1|]. split; [auto|]. intro d. rewrite R3. cbn [app]. apply Sp'.
    + replace (done ++ c :: r) with ((done ++ [c]) ++ r) in * by (rewrite <- app_assoc; reflexivity). cbn [length] in F.
      destruct (IH (done ++ [c]) r) as [l R]; auto; [lia|]. exists l. exact R.
Qed.
Lemma enumerate_simple c : isSimple c = true -> enumerate c = [c].
Proof. intro E. unfold enumerate. rewrite E. reflexivity. Qed.
Lemma reduce_spec n (L : list elem) : (forall y, In y L -> good n (ec y) /\ isSimple (ec y) = true) -> (forall d, (cnt d (map ec L) <= 1)%nat) ->
  exists cs, tcsReduce L = Some cs /\ (forall c, In c cs -> good n c) /\ forall d, cnt d cs = cnt d (map ec L).
Proof.
  intros G Dis. destruct L as [|x L]; [exists []; split; [reflexivity|]; split; [intros ? []|reflexivity]|]. unfold tcsReduce.
  set (X := x :: L) in *. assert (M : map fst (map (fun y => (ec y, 1%nat)) X) = map ec X) by (rewrite map_map; reflexivity).
  destruct (reduceLoop_spec n (S (length X) * S (length X)) [] (map (fun y => (ec y, 1%nat)) X)) as [l [R1 [R2 R3]]].
  - cbn [app]. apply Forall_forall. intros p Hp. apply in_map_iff in Hp. destruct Hp as [y [<- Hy]]. destruct (G y Hy) as [A B]. split; [exact A|]. cbn [fst snd]. rewrite enumerate_simple; auto.
  - intro d. cbn [app]. rewrite M. apply Dis.
  - cbn [app]. rewrite map_length. nia.
  - change (match X with [] => Some [] | _ :: _ => option_map (map fst) (reduceLoop (S (length X) * S (length X)) [] (map (fun y => (ec y, 1%nat)) X)) end) with
      (option_map (map fst) (reduceLoop (S (length X) * S (length X)) [] (map (fun y => (ec y, 1%nat)) X))).
    rewrite R1. cbn [option_map]. exists (map fst l). split; [reflexivity|]. split.
    + intros c Hc. apply in_map_iff in Hc. destruct Hc as [p [<- Hp]]. rewrite Forall_forall in R2. apply R2. auto.
    + intro d. rewrite R3. cbn [app]. rewrite M. reflexivity.
Qed.
Lemma findMerge_length : forall post c pre c' l', findMerge c pre post = Some (c', l') -> S (length l') = length (pre ++ post).
Proof.
  induction post as [|x r IH]; intros c pre c' l' H; [discriminate|]. cbn [findMerge] in H. destruct (_ =? _)%nat.
  - injection H as <- <-. rewrite !app_length. cbn. lia.
  - apply IH in H. rewrite H, <- app_assoc. reflexivity.
Qed.
Lemma reduceLoop_length : forall fuel done rest l, reduceLoop fuel done rest = Some l -> (length l <= length (done ++ rest))%nat.
Proof.
  induction fuel as [|fuel IH]; intros done rest l H; [discriminate|]. cbn [reduceLoop] in H. destruct rest as [|c r].
  - injection H as <-. rewrite app_nil_r. auto.
  - destruct (findMerge c [] r) as [[c' r']|] eqn:E.
    + apply findMerge_length in E. apply IH in H. cbn [app] in *. rewrite !app_length in *. cbn [length] in *. lia.
    + apply IH in H. rewrite <- app_assoc in H. exact H.
Qed.
