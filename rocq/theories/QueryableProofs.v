(** Concatenations of queryable languages are queryable. *)
From Coq Require Import QArith ZArith Bool List Arith Lia Lqa.
From Verif Require Import BoundsModel BoundsProofs ConstraintModel ZoneModel ZoneSpec ZoneProofs AutomatonModel TimedWordModel TimedWordSpec
  TimedConditionModel TimedConditionSpec TimedConditionProofs TimedConditionProofs2 TimedConditionProofs3 TimedConditionProofs4 ElementaryModel ElementarySpec ElementaryProofs
  RegionalModel RegionalSpec OracleModel SymbolicModel SymbolicSpec CexModel CexSpec CexProofs RenamingModel RenamingProofs5.
Import ListNotations.
Open Scope Q_scope.

(** finite integer entries *)
Definition fiB (b : bound) : Prop := intB b /\ b <> Inf.
Definition fiCond (m : tcond) : Prop := forall i j, (i < dim m)%nat -> (j < dim m)%nat -> fiB (get m i j).
Lemma fiB_min a b : fiB a -> fiB b -> fiB (bmin a b).
Proof. intros. apply (bmin_case a b fiB); auto. Qed.
Lemma fiB_add a b : fiB a -> fiB b -> fiB (badd a b).
Proof. intros [A A'] [B B']. split; [apply intB_add; auto|]. destruct a, b; cbn; congruence. Qed.
Lemma fiCond_set1 m x y b : fiCond m -> fiB b -> fiCond (set1 m x y b).
Proof.
  intros H B i j Hi Hj. rewrite dim_set1 in *. rewrite get_set1 by auto.
  destruct ((i =? x)%nat && (j =? y)%nat); auto.
Qed.
Lemma fiCond_closeRow x m i : (x < dim m)%nat -> (i < dim m)%nat -> fiCond m -> fiCond (closeRow x m i).
Proof.
  intros Hx Hi H a j Ha Hj. rewrite dim_closeRow in *. unfold closeRow. rewrite get_mk by auto.
  destruct (a =? i)%nat; auto. apply fiB_min; [auto|]. apply fiB_add; auto.
Qed.
Lemma fiCond_fold_closeRow x l : forall m, (x < dim m)%nat -> (forall i, In i l -> (i < dim m)%nat) ->
  fiCond m -> fiCond (fold_left (closeRow x) l m).
Proof.
  induction l as [|i l IH]; intros m Hx Hl H; cbn [fold_left]; auto.
  apply IH; [rewrite dim_closeRow; auto|intros k Hk; rewrite dim_closeRow; apply Hl; right; auto|].
  apply fiCond_closeRow; auto. apply Hl; left; auto.
Qed.
Lemma fiCond_close1 m x : (x < dim m)%nat -> fiCond m -> fiCond (close1 m x).
Proof. intros Hx H. apply fiCond_fold_closeRow; auto. intros i Hi; apply in_seq in Hi; lia. Qed.
Lemma fiCond_fold_close1 l : forall m, (forall i, In i l -> (i < dim m)%nat) ->
  fiCond m -> fiCond (fold_left close1 l m).
Proof.
  induction l as [|i l IH]; intros m Hl H; cbn [fold_left]; auto.
  apply IH; [intros k Hk; rewrite dim_close1; apply Hl; right; auto|].
  apply fiCond_close1; auto. apply Hl; left; auto.
Qed.
Lemma fiCond_canonize m : fiCond m -> fiCond (canonize m).
Proof. intro H. apply fiCond_fold_close1; auto. intros i Hi; apply in_seq in Hi; lia. Qed.
Lemma fiCond_queryable m : (2 <= dim m)%nat -> fiCond m -> intCond m /\ boundedCond m.
Proof.
  intros D A. split; [intros i j Hi Hj; apply A; auto|]. intros i j Hij Hj. unfold tcSize in Hj. unfold getUpperBound, getLowerBound.
  assert (C : (colOf m j < dim m)%nat) by (unfold colOf; destruct (_ =? _)%nat eqn:E; [lia|apply Nat.eqb_neq in E; unfold tcSize in E; lia]).
  split; apply A; lia.
Qed.
Lemma queryable_fiCond m : okCond m -> intCond m -> boundedCond m -> fiCond m.
Proof.
  intros [D [C _]] I B.
  assert (X0 : forall i, (0 < i)%nat -> (i < dim m)%nat -> get m i 0 <> Inf /\ get m 0 i <> Inf).
  { intros i H0 Hi. destruct (B (i - 1)%nat (tcSize m - 1)%nat) as [U L]; [unfold tcSize; lia|unfold tcSize; lia|].
    unfold getUpperBound, getLowerBound, colOf in *. rewrite Nat.eqb_refl in *. replace (i - 1 + 1)%nat with i in * by lia. auto. }
  assert (X1 : forall i j, (0 < i)%nat -> (i < j)%nat -> (j < dim m)%nat -> get m i j <> Inf /\ get m j i <> Inf).
  { intros i j H0 Hij Hj. destruct (B (i - 1)%nat (j - 2)%nat) as [U L]; [lia|unfold tcSize; lia|].
    unfold getUpperBound, getLowerBound, colOf in *. destruct (j - 2 =? tcSize m - 1)%nat eqn:E; [apply Nat.eqb_eq in E; unfold tcSize in E; lia|].
    replace (i - 1 + 1)%nat with i in * by lia. replace (j - 2 + 2)%nat with j in * by lia. auto. }
  assert (X : forall i j, i <> j -> (i < dim m)%nat -> (j < dim m)%nat -> get m i j <> Inf).
  { intros i j N Hi Hj. destruct (Nat.eq_dec i 0) as [->|Ni]; [exact (proj2 (X0 j ltac:(lia) Hj))|]. destruct (Nat.eq_dec j 0) as [->|Nj]; [exact (proj1 (X0 i ltac:(lia) Hi))|].
    destruct (Nat.lt_ge_cases i j); [exact (proj1 (X1 i j ltac:(lia) ltac:(lia) Hj))|exact (proj2 (X1 j i ltac:(lia) ltac:(lia) Hi))]. }
  intros i j Hi Hj. split; [apply I; auto|]. destruct (Nat.eq_dec i j) as [->|N]; [|apply X; auto].
  intro E. set (k := if (j =? 0)%nat then 1%nat else 0%nat). assert (Hk : (k < dim m)%nat /\ k <> j) by (unfold k; destruct (j =? 0)%nat eqn:F; [apply Nat.eqb_eq in F|apply Nat.eqb_neq in F]; lia).
  destruct Hk as [Hk N]. specialize (C j j k Hj Hj Hk). rewrite E in C. assert (P := X j k ltac:(lia) Hj Hk). assert (Q := X k j N Hk Hj).
  destruct (get m j k), (get m k j); cbn in C; congruence.
Qed.
Lemma fiCond_concat a b : (2 <= dim a)%nat -> (2 <= dim b)%nat -> fiCond a -> fiCond b -> fiCond (tcConcat a b).
Proof.
  intros Da Db A B. unfold tcConcat. cbv zeta. apply fiCond_canonize. intros i j Hi Hj. rewrite dim_mk in *. rewrite get_mk by auto.
  assert (Ea : tcSize a = (dim a - 1)%nat) by (unfold tcSize; lia). assert (Eb : tcSize b = (dim b - 1)%nat) by (unfold tcSize; lia). rewrite Ea, Eb in *.
  assert (G : forall i j, (i < dim a - 1 + (dim b - 1))%nat -> (j < dim a - 1 + (dim b - 1))%nat -> fiB
    (if (i <=? dim a - 1)%nat && (j <=? dim a - 1)%nat then get a i j
     else if (1 <=? i)%nat && (i <=? dim a - 1)%nat then get a i 0
     else if (1 <=? j)%nat && (j <=? dim a - 1)%nat then get a 0 j
     else if (dim a - 1 <? i)%nat && (dim a - 1 <? j)%nat then get b (i - (dim a - 1) + 1) (j - (dim a - 1) + 1)
     else if (dim a - 1 <? i)%nat && (j =? 0)%nat then get b (i - (dim a - 1) + 1) 0
     else get b 0 (j - (dim a - 1) + 1))).
  { clear i j Hi Hj. intros i j Hi Hj.
    repeat match goal with |- context [if ?c then _ else _] => destruct c eqn:?; repeat rewrite ?andb_true_iff, ?andb_false_iff, ?Nat.leb_le, ?Nat.leb_gt, ?Nat.ltb_lt, ?Nat.ltb_ge, ?Nat.eqb_eq, ?Nat.eqb_neq in * end;
    first [apply A; lia|apply B; lia]. }
  specialize (G i j Hi Hj).
  match goal with |- fiB (if ?c then badd ?e _ else _) => set (e0 := e) in * end. clearbody e0.
  repeat match goal with |- context [if ?c then _ else _] => destruct c eqn:?; repeat rewrite ?andb_true_iff, ?andb_false_iff, ?Nat.leb_le, ?Nat.leb_gt, ?Nat.ltb_lt, ?Nat.ltb_ge, ?Nat.eqb_eq, ?Nat.eqb_neq in * end;
    auto; apply fiB_add; auto; apply B; lia.
Qed.
Lemma queryable_concat x y : queryable x -> queryable y -> queryable (elConcat x y).
Proof.
  intros [Wx [Ix [Bx Vx]]] [Wy [Iy [By Vy]]]. assert (W := wfElem_concat x y Wx Wy). split; [auto|].
  assert (F : fiCond (ec (elConcat x y))).
  { apply fiCond_concat; [apply Wx|apply Wy|apply queryable_fiCond; auto; apply Wx|apply queryable_fiCond; auto; apply Wy]. }
  destruct (fiCond_queryable _ (proj1 (proj1 W)) F) as [F1 F2]. split; [auto|]. split; [auto|]. unfold visible in *. cbn [elConcat ew]. apply Forall_app; auto.
Qed.
Lemma simple_allBounded m : (2 <= dim m)%nat -> isSimple m = true -> boundedCond m.
Proof.
  intros D H i j Hij Hj. unfold isSimple in H. rewrite forallb_forall in H. unfold tcSize in Hj.
  assert (G : forall a b, (a < b)%nat -> (b < dim m)%nat -> get m a b <> Inf /\ get m b a <> Inf).
  { intros a b Hab Hb. specialize (H a ltac:(apply in_seq; lia)). rewrite forallb_forall in H. specialize (H b ltac:(apply in_seq; lia)).
    unfold isSimpleB, isPoint, isUnitOpen in H. destruct (get m a b), (get m b a); try discriminate. split; discriminate. }
  unfold getUpperBound, getLowerBound, colOf. destruct (j =? tcSize m - 1)%nat eqn:E.
  - destruct (G 0%nat (i + 1)%nat); [lia| |split; auto]. unfold tcSize in *. lia.
  - apply Nat.eqb_neq in E. unfold tcSize in E. destruct (G (i + 1)%nat (j + 2)%nat); [lia|lia|]. split; auto.
Qed.
