From Coq Require Import QArith ZArith Bool List Lia Lqa Qround Arith.
From Verif Require Import BoundsModel BoundsProofs ConstraintModel ZoneModel ZoneSpec ZoneProofs ZoneProofs2
  AutomatonModel TimedWordModel TimedConditionModel TimedConditionSpec TimedConditionProofs TimedConditionProofs2 TimedConditionProofs3.
Import ListNotations.
Open Scope Q_scope.

(** * deciding membership, counting *)
Definition bsatb (b : bound) (q : Q) : bool :=
  match b with Fin c true => Qle_bool q c | Fin c false => Qltb q c | Inf => true end.
Lemma bsatb_ok b q : bsatb b q = true <-> bsat b q.
Proof. destruct b as [c [|]|]; cbn; [apply Qle_bool_iff|apply Qltb_true|tauto]. Qed.
Definition inCondb (m : tcond) (d : list Q) : bool :=
  (length d =? tcSize m)%nat &&
  forallb (fun p => bsatb (getUpperBound m (fst p) (snd p)) (T d (fst p) (snd p))
                    && bsatb (getLowerBound m (fst p) (snd p)) (- T d (fst p) (snd p))) (ijPairs (tcSize m)).
Lemma inCondb_ok m d : inCondb m d = true <-> inCond m d.
Proof.
  unfold inCondb, inCond. rewrite andb_true_iff, Nat.eqb_eq, forallb_forall. split.
  - intros [L H]. split; [auto|]. intros i j Hij Hj. specialize (H (i, j) (proj2 (in_ijPairs _ i j) (conj Hij Hj))).
    cbn [fst snd] in H. apply andb_true_iff in H. rewrite !bsatb_ok in H. exact H.
  - intros [L H]. split; [auto|]. intros [i j] Hp. apply in_ijPairs in Hp. destruct Hp as [Hij Hj]. cbn [fst snd].
    apply andb_true_iff. rewrite !bsatb_ok. auto.
Qed.

Definition b2n (b : bool) : nat := if b then 1%nat else 0%nat.
Definition cnt (d : list Q) (l : list tcond) : nat := length (filter (fun x => inCondb x d) l).
Lemma cnt_app d a b : cnt d (a ++ b) = (cnt d a + cnt d b)%nat.
Proof. unfold cnt. rewrite filter_app, app_length. reflexivity. Qed.
Lemma cnt_one d c : cnt d [c] = b2n (inCondb c d).
Proof. unfold cnt. cbn [filter]. destruct (inCondb c d); reflexivity. Qed.
Lemma cnt_partition d f l : (cnt d (filter f l) + cnt d (filter (fun x => negb (f x)) l) = cnt d l)%nat.
Proof.
  unfold cnt. induction l as [|x l IH]; cbn [filter]; auto.
  destruct (f x); cbn [negb filter]; destruct (inCondb x d); cbn [length]; lia.
Qed.

Lemma injZ_pred z : inject_Z (z - 1) == inject_Z z - 1.
Proof. unfold Z.sub. rewrite inject_Z_plus. reflexivity. Qed.
(** * the pieces *)
Definition inPiece (q : Q) (p : bound * bound) : bool := bsatb (snd p) q && bsatb (fst p) (- q).
Lemma inPiece_ok q p : inPiece q p = true <-> bsat (snd p) q /\ bsat (fst p) (- q).
Proof. unfold inPiece. rewrite andb_true_iff, !bsatb_ok. tauto. Qed.
(** the current upper bound of the loop, up to equality of numbers *)
Definition curIs (l : Q) (s : bool) (x : Q) : Prop := x == (if s then - l else - l + 1).

Lemma walk_in fuel : forall l s x upper p, curIs l s x -> In p (walk fuel l s (Fin x s) upper) ->
  isSimpleB (snd p) (fst p) = true /\ ble (snd p) upper = true /\
  (forall q, bsat (fst p) (- q) -> bsat (Fin l s) (- q)) /\
  ((exists z, l == inject_Z z) -> intB (fst p) /\ intB (snd p)).
Proof.
  induction fuel as [|fuel IH]; intros l s x upper p X H; cbn [walk] in H; [destruct H|].
  destruct (ble (Fin x s) upper) eqn:E; [|destruct H]. unfold curIs in X.
  destruct H as [<-|H].
  - cbn [fst snd]. split; [|split; [auto|split; [auto|]]].
    + unfold isSimpleB, isPoint, isUnitOpen. destruct s; cbn [negb].
      * assert (K : Qeq_bool (- l) x = true) by (apply Qeq_bool_iff; lra). rewrite K. reflexivity.
      * assert (K : Qeq_bool (- l + 1) x = true) by (apply Qeq_bool_iff; lra). rewrite K. rewrite andb_false_r. reflexivity.
    + intros [z Hz]. cbn [intB]. split; [exists z; auto|]. destruct s.
      * exists (- z)%Z. rewrite inject_Z_opp. lra.
      * exists (- z + 1)%Z. rewrite inject_Z_plus, inject_Z_opp. change (inject_Z 1) with 1. lra.
  - destruct s.
    + apply IH in H; [|unfold curIs; reflexivity]. destruct H as [A [B [C D]]]. split; [auto|]. split; [auto|]. split; [|auto].
      intros q Hq. apply C in Hq. cbn [bsat] in *. lra.
    + apply IH in H; [|unfold curIs; ring]. destruct H as [A [B [C D]]]. split; [auto|]. split; [auto|]. split.
      * intros q Hq. apply C in Hq. cbn [bsat] in *. lra.
      * intros [z Hz]. apply D. exists (z - 1)%Z. rewrite injZ_pred. lra.
Qed.

(** every number of the range lies in exactly one piece *)
Lemma walk_count fuel : forall l s x u t zl zu q, curIs l s x -> l == inject_Z zl -> u == inject_Z zu ->
  (Z.of_nat fuel >= 2 * (zu + zl) + (if s then 2 else 1))%Z ->
  length (filter (inPiece q) (walk fuel l s (Fin x s) (Fin u t))) =
  b2n (bsatb (Fin u t) q && bsatb (Fin l s) (- q)).
Proof.
  induction fuel as [|fuel IH]; intros l s x u t zl zu q X Hl Hu F.
  - cbn [walk filter length]. destruct (bsatb (Fin u t) q && bsatb (Fin l s) (- q)) eqn:B; [exfalso|reflexivity].
    apply andb_true_iff in B. rewrite !bsatb_ok in B. destruct B as [B1 B2].
    assert (K : inject_Z (- zl) <= inject_Z zu).
    { rewrite inject_Z_opp. destruct s, t; cbn [bsat] in *; lra. }
    rewrite <- Zle_Qle in K. destruct s; [lia|].
    assert (K' : inject_Z (- zl) < inject_Z zu).
    { rewrite inject_Z_opp. destruct t; cbn [bsat] in *; lra. }
    rewrite <- Zlt_Qlt in K'. lia.
  - cbn [walk]. destruct (ble (Fin x s) (Fin u t)) eqn:E.
    + cbn [filter]. unfold curIs in X.
      assert (REST : length (filter (inPiece q) (if s then walk fuel l false (Fin (- l + 1) false) (Fin u t) else walk fuel (l - 1) true (Fin (- l + 1) true) (Fin u t)))
                   = b2n (bsatb (Fin u t) q && (if s then bsatb (Fin l false) (- q) else bsatb (Fin (l - 1) true) (- q)))).
      { destruct s.
        - apply (IH l false (- l + 1) u t zl zu q); auto; [unfold curIs; reflexivity|lia].
        - apply (IH (l - 1) true (- l + 1) u t (zl - 1)%Z zu q); auto; [unfold curIs; ring| |lia].
          rewrite injZ_pred. lra. }
      rewrite ble_spec in E.
      destruct (inPiece q (Fin l s, Fin x s)) eqn:P.
      * apply inPiece_ok in P. cbn [fst snd] in P. destruct P as [P1 P2].
        assert (B1 : bsatb (Fin u t) q = true) by (apply bsatb_ok; apply E; auto).
        assert (B2 : bsatb (Fin l s) (- q) = true) by (apply bsatb_ok; auto).
        cbn [length]. rewrite REST, B1, B2. cbn [andb b2n].
        assert (B3 : (if s then bsatb (Fin l false) (- q) else bsatb (Fin (l - 1) true) (- q)) = false).
        { destruct s; destruct (bsatb _ (- q)) eqn:Z; auto; exfalso; apply bsatb_ok in Z; cbn [bsat] in *; lra. }
        rewrite B3. reflexivity.
      * rewrite REST. f_equal. f_equal. apply not_true_iff_false in P. rewrite inPiece_ok in P. cbn [fst snd] in P.
        destruct s.
        -- apply eq_true_iff_eq. rewrite !bsatb_ok. cbn [bsat] in *. split; intro H; [lra|].
           destruct (Qlt_le_dec (- q) l) as [Y|Y]; [auto|]. exfalso. apply P. lra.
        -- apply eq_true_iff_eq. rewrite !bsatb_ok. cbn [bsat] in *. split; intro H; [lra|].
           destruct (Qlt_le_dec (l - 1) (- q)) as [Y|Y]; [|auto]. exfalso. apply P. lra.
    + cbn [filter length]. destruct (bsatb (Fin u t) q && bsatb (Fin l s) (- q)) eqn:B; [exfalso|reflexivity].
      apply andb_true_iff in B. rewrite !bsatb_ok in B. destruct B as [B1 B2].
      assert (K : ble (Fin x s) (Fin u t) = true); [|congruence]. clear E.
      unfold curIs in X. destruct s.
      * apply ble_spec. intros p Hp. apply (bsat_down _ q); auto. cbn [bsat] in *. lra.
      * apply ble_spec. intros p Hp. cbn [bsat] in Hp, B2.
        assert (K : inject_Z (- zl) < inject_Z zu).
        { rewrite inject_Z_opp. destruct t; cbn [bsat] in *; lra. }
        rewrite <- Zlt_Qlt in K. apply int_le_lt in K. rewrite inject_Z_opp in K. destruct t; cbn [bsat] in *; lra.
Qed.

Lemma pieces_count l u q : intB l -> intB u -> l <> Inf -> u <> Inf ->
  length (filter (inPiece q) (pieces l u)) = b2n (bsatb u q && bsatb l (- q)).
Proof.
  intros Il Iu Nl Nu. destruct l as [l s|]; [|congruence]. destruct u as [u t|]; [|congruence].
  destruct Il as [zl Hl], Iu as [zu Hu]. unfold pieces.
  assert (FU : (Z.of_nat (walkFuel l (Fin u t)) >= 2 * (zu + zl) + (if s then 2 else 1))%Z).
  { unfold walkFuel.
    assert (C : Qceiling (u + l) = (zu + zl)%Z).
    { rewrite (Qceiling_comp (u + l) (inject_Z (zu + zl))); [apply Qceiling_Z|]. rewrite inject_Z_plus. lra. }
    rewrite C. destruct s; lia. }
  destruct s; apply (walk_count _ _ _ _ u t zl zu); auto; unfold curIs; reflexivity.
Qed.
Lemma pieces_in l u p : intB l -> In p (pieces l u) ->
  isSimpleB (snd p) (fst p) = true /\ ble (snd p) u = true /\ ble (fst p) l = true /\ intB (fst p) /\ intB (snd p).
Proof.
  intros Il H. destruct l as [l s|]; [|destruct H]. unfold pieces in H.
  assert (K : exists x, curIs l s x /\ In p (walk (walkFuel l u) l s (Fin x s) u)).
  { destruct s; eexists; (split; [|exact H]); unfold curIs; reflexivity. }
  destruct K as [x [X K]]. destruct (walk_in _ _ _ _ _ _ X K) as [A [B [C D]]].
  split; [auto|]. split; [auto|]. split; [|apply D; exact Il].
  apply ble_spec. intros q Hq. assert (Hq' : bsat (fst p) (- - q)) by (eapply bsat_ext; [|exact Hq]; ring).
  apply C in Hq'. eapply bsat_ext; [|exact Hq']. ring.
Qed.

(** * one step of refinement *)
Definition good (n : nat) (c : tcond) : Prop := okCond c /\ intCond c /\ boundedCond c /\ tcSize c = n.
Definition simpleAt (c : tcond) (p : nat * nat) : Prop :=
  isSimpleB (getUpperBound c (fst p) (snd p)) (getLowerBound c (fst p) (snd p)) = true.

Lemma isSimpleB_unit u l : intB u -> intB l -> isSimpleB u l = true ->
  exists q, bsat u q /\ bsat l (- q) /\ forall p, bsat u p -> bsat l (- p) -> sameUnit q p.
Proof.
  intros Iu Il H. destruct (isSimpleB_cases _ _ H) as [[c [X [_ E]]]|[c [X [_ [e [E E']]]]]].
  - exists c. destruct (proj2 (X c) ltac:(reflexivity)) as [A B]. split; [auto|]. split; [auto|]. intros p H1 H2.
    assert (K : p == c) by (apply X; auto). apply sameUnit_sat.
    split; (eapply bsat_ext; [|first [apply ruB_self|apply rlB_self]]); rewrite K; reflexivity.
  - exists (c + (1#2)). destruct (proj2 (X (c + (1#2))) ltac:(lra)) as [A B]. split; [auto|]. split; [auto|].
    intros p H1 H2. assert (K : c < p /\ p < c + 1) by (apply X; auto).
    rewrite E in Il. destruct Il as [z Hz].
    assert (F1 : Qfloor (c + (1#2)) = (- z)%Z) by (apply floor_unique; rewrite inject_Z_opp; lra).
    assert (F2 : Qfloor p = (- z)%Z) by (apply floor_unique; rewrite inject_Z_opp; lra).
    unfold sameUnit. rewrite F1, F2. rewrite inject_Z_opp. split; [auto|]. split; intro; lra.
Qed.

Lemma getBounds_mle c c' i j : (2 <= dim c)%nat -> mle c' c -> (i <= j)%nat -> (j < tcSize c)%nat ->
  ble (getUpperBound c' i j) (getUpperBound c i j) = true /\ ble (getLowerBound c' i j) (getLowerBound c i j) = true.
Proof.
  intros D [E H] Hij Hj. assert (Hc := colOf_lt c j D Hj).
  assert (Ec : colOf c' j = colOf c j) by (unfold colOf, tcSize; rewrite E; reflexivity).
  unfold getUpperBound, getLowerBound. rewrite Ec. split; apply H; rewrite ?E; auto; unfold tcSize in *; lia.
Qed.

Lemma restrict_piece n c i j p : good n c -> (i <= j)%nat -> (j < n)%nat ->
  In p (pieces (getLowerBound c i j) (getUpperBound c i j)) ->
  let x := restrictUpperBound (restrictLowerBound c i j (fst p) false) i j (snd p) false in
  good n x /\ simpleAt x (i, j) /\ (forall r, (fst r <= snd r)%nat -> (snd r < n)%nat -> simpleAt c r -> simpleAt x r) /\
  (forall d, inCond x d <-> inCond c d /\ inPiece (T d i j) p = true).
Proof.
  intros [O [I [B S]]] Hij Hj Hp x. destruct (O) as [D [C NE]]. subst n.
  assert (Hc := colOf_lt c j D Hj). assert (Hi : (i + 1 < dim c)%nat) by (unfold tcSize in *; lia).
  assert (IL : intB (getLowerBound c i j)) by (apply I; auto).
  assert (IU : intB (getUpperBound c i j)) by (apply I; auto).
  destruct (pieces_in _ _ _ IL Hp) as [P1 [P2 [P3 [P4 P5]]]].
  set (c1 := restrictLowerBound c i j (fst p) false) in *.
  assert (D1 : dim c1 = dim c) by (apply dim_restrictLower).
  assert (S1 : tcSize c1 = tcSize c) by (unfold tcSize; rewrite D1; reflexivity).
  assert (DX : dim x = dim c) by (unfold x; rewrite dim_restrictUpper; auto).
  assert (SX : tcSize x = tcSize c) by (unfold tcSize; rewrite DX; reflexivity).
  assert (C1 : colOf c1 j = colOf c j) by (unfold colOf; rewrite S1; reflexivity).
  assert (CX : colOf x j = colOf c j) by (unfold colOf; rewrite SX; reflexivity).
  assert (ZX : forall u, Z_ x u <-> Z_ c u /\ bsat (fst p) (u (colOf c j) - u (i + 1)%nat) /\ bsat (snd p) (u (i + 1)%nat - u (colOf c j))).
  { intro u. unfold x. rewrite restrictUpper_Z by (rewrite ?D1, ?S1; auto). unfold c1. rewrite restrictLower_Z by auto.
    fold c1. rewrite C1. tauto. }
  destruct (isSimpleB_unit _ _ P5 P4 P1) as [q [Q1 [Q2 Q3]]].
  assert (NX : nonemptyZ x).
  { destruct (realise c (i + 1)%nat (colOf c j) q C (nonempty_nonneg2 c NE) Hi Hc) as [w [Hw E]].
    - intro E. symmetry in E. revert E. apply colOf_neq; auto.
    - eapply ble_sat_1; [exact P2|exact Q1].
    - eapply ble_sat_1; [exact P3|exact Q2].
    - exists w. apply inZone_Z. apply ZX. split; [exact Hw|]. split.
      + eapply bsat_ext; [|exact Q2]. rewrite <- E. ring.
      + eapply bsat_ext; [|exact Q1]. symmetry; exact E. }
  assert (OX : okCond x) by (apply okCond_restrictUpper; [rewrite D1; auto|exact NX]).
  assert (IX : intCond x).
  { apply intCond_restrictUpper; rewrite ?D1, ?S1; auto; [lia|]. apply intCond_restrictLower; auto. lia. }
  assert (MX : mle x c).
  { unfold x, restrictUpperBound, c1, restrictLowerBound. eapply mle_trans; [apply canonize_mle|].
    match goal with |- mle (set1 ?A ?B ?E (bmin ?F ?G)) _ => apply (mle_trans _ A) end.
    - split; [apply dim_set1|]. rewrite dim_set1, dim_canonize, dim_set1. intros a b Ha Hb. rewrite get_set1 by (rewrite dim_canonize, dim_set1; auto).
      destruct ((a =? i + 1)%nat && (b =? _)%nat) eqn:K; [|apply ble_refl].
      apply andb_true_iff in K. destruct K as [K1 K2]. apply Nat.eqb_eq in K1. apply Nat.eqb_eq in K2. subst a b. apply bmin_le_r.
    - eapply mle_trans; [apply canonize_mle|]. split; [apply dim_set1|]. rewrite dim_set1. intros a b Ha Hb. rewrite get_set1 by auto.
      destruct ((a =? _)%nat && (b =? i + 1)%nat) eqn:K; [|apply ble_refl].
      apply andb_true_iff in K. destruct K as [K1 K2]. apply Nat.eqb_eq in K1. apply Nat.eqb_eq in K2. subst a b. apply bmin_le_r. }
  split; [|split; [|split]].
  - split; [auto|]. split; [auto|]. split; [|auto]. intros a b Hab Hb. rewrite SX in Hb.
    destruct (getBounds_mle c x a b D MX Hab Hb) as [G1 G2]. destruct (B a b Hab Hb) as [N1 N2]. split.
    + intro Z. rewrite Z in G1. destruct (getUpperBound c a b); [discriminate|congruence].
    + intro Z. rewrite Z in G2. destruct (getLowerBound c a b); [discriminate|congruence].
  - unfold simpleAt. cbn [fst snd]. destruct OX as [OX1 [OX2 OX3]]. apply (simple_entries x i j q); auto; [rewrite SX; auto|].
    intros w Hw. apply inZone_Z in Hw. apply ZX in Hw. destruct Hw as [_ [W1 W2]]. rewrite CX. apply Q3; auto.
    eapply bsat_ext; [|exact W1]. ring.
  - intros [a b] Hab Hb SA. unfold simpleAt in *. cbn [fst snd] in *.
    assert (Hc' := colOf_lt c b D Hb). assert (Ha : (a + 1 < dim c)%nat) by (unfold tcSize in *; lia).
    destruct (isSimpleB_unit _ _ (I _ _ Ha Hc') (I _ _ Hc' Ha) SA) as [q' [R1 [R2 R3]]].
    destruct OX as [OX1 [OX2 OX3]]. apply (simple_entries x a b q'); auto; [rewrite SX; auto|].
    intros w Hw. apply inZone_Z in Hw. apply ZX in Hw. destruct Hw as [W _].
    assert (CX' : colOf x b = colOf c b) by (unfold colOf; rewrite SX; reflexivity). rewrite CX'.
    apply R3; [apply W; auto|]. eapply bsat_ext; [|apply W; [exact Hc'|exact Ha]]. ring.
  - intro d. rewrite !inCond_iff by auto. rewrite SX, !inZone_Z, ZX, inPiece_ok.
    split.
    + intros [L [W [W1 W2]]]. assert (E := ext_col c d i j L Hij Hj). split; [auto|]. split.
      * eapply bsat_ext; [exact E|exact W2].
      * eapply bsat_ext; [|exact W1]. rewrite <- E. ring.
    + intros [[L W] [W2 W1]]. assert (E := ext_col c d i j L Hij Hj). split; [auto|]. split; [auto|]. split.
      * eapply bsat_ext; [|exact W1]. rewrite <- E. ring.
      * eapply bsat_ext; [symmetry; exact E|exact W2].
Qed.

Lemma cnt_map {A} d (f : A -> tcond) (g : A -> bool) l b :
  (forall x, In x l -> inCondb (f x) d = b && g x) -> cnt d (map f l) = (if b then length (filter g l) else 0)%nat.
Proof.
  unfold cnt. induction l as [|x l IH]; intro H; cbn [map filter]; [destruct b; auto|].
  rewrite (H x) by (left; auto). assert (IH' := IH ltac:(intros; apply H; right; auto)).
  destruct b; cbn [andb]; [destruct (g x)|]; cbn [length]; auto.
Qed.

Lemma refine_spec n i j c : good n c -> (i <= j)%nat -> (j < n)%nat ->
  let r := refine i j c in
  (forall x, In x (fst r) -> good n x /\ isSimple x = true) /\
  (forall x, In x (snd r) -> good n x /\ isSimple x = false /\ simpleAt x (i, j) /\
     forall q, (fst q <= snd q)%nat -> (snd q < n)%nat -> simpleAt c q -> simpleAt x q) /\
  (forall d, (cnt d (fst r) + cnt d (snd r) = b2n (inCondb c d))%nat).
Proof.
  intros G Hij Hj. cbv zeta. unfold refine. destruct (isSimple c) eqn:ES.
  - cbn [fst snd]. split; [|split].
    + intros x [<-|[]]. auto.
    + intros x [].
    + intro d. rewrite cnt_one. unfold cnt. cbn. lia.
  - destruct (isPoint (getUpperBound c i j) (getLowerBound c i j) || isUnitOpen (getUpperBound c i j) (getLowerBound c i j)) eqn:EP.
    + cbn [fst snd]. split; [|split].
      * intros x [].
      * intros x [<-|[]]. split; [auto|]. split; [auto|]. split; [exact EP|auto].
      * intro d. rewrite cnt_one. unfold cnt. cbn. lia.
    + cbn [fst snd]. split; [|split].
      * intros x Hx. apply filter_In in Hx. destruct Hx as [Hx Sx]. apply in_map_iff in Hx. destruct Hx as [p [<- Hp]].
        split; [apply (restrict_piece n c i j p G Hij Hj Hp)|auto].
      * intros x Hx. apply filter_In in Hx. destruct Hx as [Hx Sx]. apply negb_true_iff in Sx. apply in_map_iff in Hx. destruct Hx as [p [<- Hp]].
        destruct (restrict_piece n c i j p G Hij Hj Hp) as [R1 [R2 [R3 _]]]. auto.
      * intro d. rewrite cnt_partition.
        rewrite (cnt_map d _ (inPiece (T d i j)) _ (inCondb c d)).
        -- destruct (inCondb c d) eqn:IC; [|reflexivity]. cbn [b2n].
           destruct G as [O [I [B S]]]. destruct (O) as [D [C NE]]. subst n.
           assert (Hc := colOf_lt c j D Hj). assert (Hi : (i + 1 < dim c)%nat) by (unfold tcSize in *; lia).
           destruct (B i j Hij Hj) as [N1 N2].
           rewrite pieces_count; auto; [|apply I; auto|apply I; auto].
           apply inCondb_ok in IC. destruct IC as [_ IC]. destruct (IC i j Hij Hj) as [K1 K2].
           apply bsatb_ok in K1. apply bsatb_ok in K2. rewrite K1, K2. reflexivity.
        -- intros p Hp. destruct (restrict_piece n c i j p G Hij Hj Hp) as [_ [_ [_ R4]]].
           apply eq_true_iff_eq. rewrite andb_true_iff, !inCondb_ok. apply R4.
Qed.

Lemma cnt_flat d l : forall f g : tcond -> list tcond,
  (forall c, In c l -> (cnt d (f c) + cnt d (g c) = b2n (inCondb c d))%nat) ->
  (cnt d (flat_map f l) + cnt d (flat_map g l) = cnt d l)%nat.
Proof.
  intros f g. induction l as [|c l IH]; intro H; [reflexivity|]. cbn [flat_map]. rewrite !cnt_app.
  change (c :: l) with ([c] ++ l). rewrite cnt_app, cnt_one.
  assert (A := H c ltac:(left; auto)). assert (B := IH ltac:(intros; apply H; right; auto)). lia.
Qed.
Lemma flat_map_map {A B C} (f : B -> list C) (g : A -> B) l : flat_map f (map g l) = flat_map (fun x => f (g x)) l.
Proof. induction l as [|a l IH]; cbn; auto. rewrite IH. reflexivity. Qed.

Lemma enumLoop_spec n : forall ps done simple current,
  (forall q, In q (ijPairs n) <-> In q (done ++ ps)) ->
  (forall x, In x simple -> good n x /\ isSimple x = true) ->
  (forall x, In x current -> good n x /\ isSimple x = false /\ forall q, In q done -> simpleAt x q) ->
  current <> [] ->
  (forall x, In x (enumLoop ps simple current) -> good n x /\ isSimple x = true) /\
  (forall d, cnt d (enumLoop ps simple current) = (cnt d simple + cnt d current)%nat).
Proof.
  induction ps as [|[i j] ps IH]; intros done simple current HP HS HC NE; cbn [enumLoop].
  - exfalso. destruct current as [|c current]; [congruence|]. destruct (HC c ltac:(left; auto)) as [G [S0 SA]].
    destruct G as [O [I [B S]]]. assert (isSimple c = true); [|congruence].
    apply isSimple_spec; [apply O|]. intros a b Hab Hb. apply (SA (a, b)). rewrite app_nil_r in HP. apply HP. apply in_ijPairs. lia.
  - assert (Hij : (i <= j)%nat /\ (j < n)%nat).
    { apply in_ijPairs. apply HP. apply in_or_app. right. left. auto. }
    destruct Hij as [Hij Hj].
    rewrite !flat_map_map.
    assert (RS : forall c, In c current -> let r := refine i j c in
       (forall x, In x (fst r) -> good n x /\ isSimple x = true) /\
       (forall x, In x (snd r) -> good n x /\ isSimple x = false /\ simpleAt x (i, j) /\
          forall q, (fst q <= snd q)%nat -> (snd q < n)%nat -> simpleAt c q -> simpleAt x q) /\
       (forall d, (cnt d (fst r) + cnt d (snd r) = b2n (inCondb c d))%nat)).
    { intros c Hc. apply refine_spec; auto. apply (HC c Hc). }
    assert (HS' : forall x, In x (simple ++ flat_map (fun x => fst (refine i j x)) current) -> good n x /\ isSimple x = true).
    { intros x Hx. apply in_app_or in Hx. destruct Hx as [Hx|Hx]; [auto|]. apply in_flat_map in Hx.
      destruct Hx as [c [Hc Hx]]. apply (RS c Hc). exact Hx. }
    assert (HC' : forall x, In x (flat_map (fun x => snd (refine i j x)) current) ->
      good n x /\ isSimple x = false /\ forall q, In q (done ++ [(i, j)]) -> simpleAt x q).
    { intros x Hx. apply in_flat_map in Hx. destruct Hx as [c [Hc Hx]].
      destruct (proj1 (proj2 (RS c Hc)) x Hx) as [A [B [C E]]]. split; [auto|]. split; [auto|].
      intros q Hq. apply in_app_or in Hq. destruct Hq as [Hq|[<-|[]]]; [|auto].
      assert (Hq' : In q (ijPairs n)) by (apply HP; apply in_or_app; auto). destruct q as [a b]. apply in_ijPairs in Hq'.
      apply E; try apply Hq'. apply (HC c Hc). exact Hq. }
    assert (CN : forall d, (cnt d (flat_map (fun x => fst (refine i j x)) current) + cnt d (flat_map (fun x => snd (refine i j x)) current) = cnt d current)%nat).
    { intro d. apply cnt_flat. intros c Hc. apply (RS c Hc). }
    destruct (flat_map (fun x => snd (refine i j x)) current) as [|c' next] eqn:EN.
    + split; [exact HS'|]. intro d. rewrite cnt_app. specialize (CN d). unfold cnt at 2 in CN. cbn [filter length] in CN. lia.
    + destruct (IH (done ++ [(i, j)]) (simple ++ flat_map (fun x => fst (refine i j x)) current) (c' :: next)) as [A B]; auto.
      * intro q. rewrite HP. rewrite <- app_assoc. reflexivity.
      * congruence.
      * split; [exact A|]. intro d. rewrite B, cnt_app. specialize (CN d). lia.
Qed.

Lemma enumerate_spec m : okCond m -> intCond m -> boundedCond m ->
  (forall x, In x (enumerate m) -> good (tcSize m) x /\ isSimple x = true) /\
  (forall d, cnt d (enumerate m) = b2n (inCondb m d)).
Proof.
  intros O I B. assert (G : good (tcSize m) m) by (split; [auto|split; [auto|split; auto]]).
  unfold enumerate. destruct (isSimple m) eqn:E.
  - split; [intros x [<-|[]]; auto|]. intro d. apply cnt_one.
  - destruct (enumLoop_spec (tcSize m) (ijPairs (tcSize m)) [] [] [m]) as [A C].
    + intro q. reflexivity.
    + intros x [].
    + intros x [<-|[]]. split; [auto|]. split; [auto|]. intros q [].
    + discriminate.
    + split; [exact A|]. intro d. rewrite C, cnt_one. reflexivity.
Qed.

Lemma cnt_unique d l : (cnt d l <= 1)%nat -> forall a b, (a < length l)%nat -> (b < length l)%nat ->
  inCond (nth a l []) d -> inCond (nth b l []) d -> a = b.
Proof.
  unfold cnt. induction l as [|x l IH]; intros H a b Ha Hb Ca Cb; cbn [length] in *; [lia|].
  cbn [filter] in H.
  assert (POS : forall k, (k < length l)%nat -> inCond (nth k l []) d -> (1 <= length (filter (fun x => inCondb x d) l))%nat).
  { intros k Hk Ck. assert (K : In (nth k l []) (filter (fun x => inCondb x d) l)).
    { apply filter_In. split; [apply nth_In; auto|apply inCondb_ok; auto]. }
    destruct (filter (fun x0 : tcond => inCondb x0 d) l); [destruct K|cbn; lia]. }
  destruct a as [|a], b as [|b]; auto.
  - cbn [nth] in *. apply inCondb_ok in Ca. rewrite Ca in H. cbn [length] in H. assert (K := POS b ltac:(lia) Cb). lia.
  - cbn [nth] in *. apply inCondb_ok in Cb. rewrite Cb in H. cbn [length] in H. assert (K := POS a ltac:(lia) Ca). lia.
  - f_equal. cbn [nth] in *. apply IH; auto; try lia. destruct (inCondb x d); cbn [length] in H; lia.
Qed.
Lemma cnt_exists d l : (1 <= cnt d l)%nat <-> exists x, In x l /\ inCond x d.
Proof.
  unfold cnt. split.
  - intro H. destruct (filter (fun x => inCondb x d) l) as [|x r] eqn:E; [cbn in H; lia|].
    exists x. assert (K : In x (filter (fun x => inCondb x d) l)) by (rewrite E; left; auto).
    apply filter_In in K. rewrite inCondb_ok in K. exact K.
  - intros [x [A B]]. assert (K : In x (filter (fun x => inCondb x d) l)) by (apply filter_In; rewrite inCondb_ok; auto).
    destruct (filter (fun x => inCondb x d) l); [destruct K|cbn; lia].
Qed.
