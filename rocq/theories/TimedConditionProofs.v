From Coq Require Import QArith ZArith Bool List Lia Lqa Qround Arith.
From Verif Require Import BoundsModel BoundsProofs ConstraintModel ZoneModel ZoneSpec ZoneProofs ZoneProofs2 TimedConditionModel TimedConditionSpec.
Import ListNotations.
Open Scope Q_scope.

(** * from durations to the variables x_i and back *)
Definition accd (d : list Q) (k : nat) : Q := sumQ (skipn k d).

Lemma sumQ_app a b : sumQ (a ++ b) == sumQ a + sumQ b.
Proof. induction a as [|x a IH]; cbn [sumQ app]; [ring|]. rewrite IH. ring. Qed.

Lemma skipn_skipn' {A} a : forall b (l : list A), skipn a (skipn b l) = skipn (b + a) l.
Proof. induction b as [|b IH]; intros [|x l]; cbn [skipn plus]; auto. destruct a; reflexivity. Qed.

Lemma T_acc d i j : (i <= j)%nat -> T d i j == accd d i - accd d (S j).
Proof.
  intro H. unfold T, accd.
  rewrite <- (firstn_skipn (S j - i) (skipn i d)) at 2. rewrite sumQ_app.
  assert (E : skipn (S j - i) (skipn i d) = skipn (S j) d).
  { rewrite skipn_skipn'. f_equal. lia. }
  rewrite E. ring.
Qed.

Lemma accd_end d k : (length d <= k)%nat -> accd d k = 0.
Proof. intro H. unfold accd. rewrite skipn_all2 by auto. reflexivity. Qed.

Lemma accd_step d k : (k < length d)%nat -> accd d k == nth k d 0 + accd d (S k).
Proof.
  intro H. unfold accd. revert k H. induction d as [|x d IH]; intros [|k] H; cbn in H; try lia.
  - cbn. reflexivity.
  - cbn [skipn nth]. rewrite IH by lia. reflexivity.
Qed.

Fixpoint dursFrom (w : nat -> Q) (k n : nat) : list Q :=
  match n with
  | O => []
  | S O => [w k]
  | S n' => (w k - w (S k)) :: dursFrom w (S k) n'
  end.
Definition durs (n : nat) (w : nat -> Q) : list Q := dursFrom w 0 n.

Lemma dursFrom_length w n : forall k, length (dursFrom w k n) = n.
Proof. induction n as [|[|n] IH]; intro k; cbn [dursFrom length] in *; auto. Qed.
Lemma durs_length n w : length (durs n w) = n. Proof. apply dursFrom_length. Qed.

Lemma dursFrom_acc w n : forall k i, (i < n)%nat -> accd (dursFrom w k n) i == w (k + i)%nat.
Proof.
  induction n as [|[|n] IH]; intros k i H; [lia| |].
  - assert (i = 0%nat) by lia; subst. cbn. rewrite Nat.add_0_r. ring.
  - assert (E0 : accd (dursFrom w (S k) (S n)) 0 == w (S k)).
    { rewrite IH by lia. replace (S k + 0)%nat with (S k) by lia. reflexivity. }
    destruct i as [|i].
    + unfold accd in *. change (dursFrom w k (S (S n))) with ((w k - w (S k)) :: dursFrom w (S k) (S n)).
      cbn [skipn sumQ] in *. rewrite E0. replace (k + 0)%nat with k by lia. ring.
    + change (accd (dursFrom w k (S (S n))) (S i)) with (accd (dursFrom w (S k) (S n)) i).
      rewrite IH by lia. replace (S k + i)%nat with (k + S i)%nat by lia. reflexivity.
Qed.
Lemma durs_acc n w i : (i < n)%nat -> accd (durs n w) i == w i.
Proof. intro H. unfold durs. rewrite dursFrom_acc by auto. reflexivity. Qed.

Lemma colOf_lt m j : (2 <= dim m)%nat -> (j < tcSize m)%nat -> (colOf m j < dim m)%nat.
Proof. unfold colOf, tcSize. intros. destruct (Nat.eqb_spec j (pred (dim m) - 1)); lia. Qed.
Lemma colOf_neq m i j : (i <= j)%nat -> (j < tcSize m)%nat -> colOf m j <> (i + 1)%nat.
Proof. unfold colOf, tcSize. intros. destruct (Nat.eqb_spec j (pred (dim m) - 1)); lia. Qed.

Lemma ext_col m d i j : length d = tcSize m -> (i <= j)%nat -> (j < tcSize m)%nat ->
  ext (accd d) (i + 1) - ext (accd d) (colOf m j) == T d i j.
Proof.
  intros L H1 H2. rewrite T_acc by auto. replace (i + 1)%nat with (S i) by lia. cbn [ext].
  unfold colOf. destruct (Nat.eqb_spec j (tcSize m - 1)) as [E|E].
  - rewrite (accd_end d (S j)) by lia. cbn [ext]. reflexivity.
  - replace (j + 2)%nat with (S (S j)) by lia. cbn [ext]. reflexivity.
Qed.

(** every off-diagonal pair of matrix indices is one T_{i,j} *)
Lemma pair_cases n a b : (a < n)%nat -> (b < n)%nat -> a <> b ->
  exists i j, (i <= j)%nat /\ (j < pred n)%nat /\
    ((a = (i + 1)%nat /\ b = (if (j =? pred n - 1)%nat then 0%nat else (j + 2)%nat)) \/
     (b = (i + 1)%nat /\ a = (if (j =? pred n - 1)%nat then 0%nat else (j + 2)%nat))).
Proof.
  intros Ha Hb Hn. destruct a as [|a], b as [|b]; [lia| | |].
  - exists b, (pred n - 1)%nat. split; [lia|]. split; [lia|]. right. split; [lia|].
    rewrite Nat.eqb_refl. reflexivity.
  - exists a, (pred n - 1)%nat. split; [lia|]. split; [lia|]. left. split; [lia|].
    rewrite Nat.eqb_refl. reflexivity.
  - destruct (Nat.lt_ge_cases a b).
    + exists a, (b - 1)%nat. split; [lia|]. split; [lia|]. left. split; [lia|].
      destruct (Nat.eqb_spec (b - 1) (pred n - 1)); lia.
    + exists b, (a - 1)%nat. split; [lia|]. split; [lia|]. right. split; [lia|].
      destruct (Nat.eqb_spec (a - 1) (pred n - 1)); lia.
Qed.

Definition diagOK (m : matrix) : Prop := forall i, (i < dim m)%nat -> bsat (get m i i) 0.

Lemma zone_diag m w : inZone m w -> diagOK m.
Proof. intros H i Hi. eapply bsat_ext; [|apply (H i i Hi Hi)]. ring. Qed.
Lemma nonempty_diag m : nonemptyZ m -> diagOK m.
Proof. intros [w H]. eapply zone_diag; eauto. Qed.

Lemma inZone_inCond m d : (2 <= dim m)%nat -> length d = tcSize m -> inZone m (accd d) -> inCond m d.
Proof.
  intros D L H. split; [auto|]. intros i j Hij Hj.
  assert (Hc := colOf_lt m j D Hj). assert (E := ext_col m d i j L Hij Hj).
  assert (Hi : (i + 1 < dim m)%nat) by (unfold tcSize in *; lia).
  unfold getUpperBound, getLowerBound. split.
  - eapply bsat_ext; [exact E|]. apply H; auto.
  - eapply bsat_ext; [|apply (H _ _ Hc Hi)]. rewrite <- E. ring.
Qed.

Lemma inCond_inZone m d : (2 <= dim m)%nat -> diagOK m -> inCond m d -> inZone m (accd d).
Proof.
  intros D G [L H] a b Ha Hb. destruct (Nat.eq_dec a b) as [->|N].
  - eapply bsat_ext; [|apply G; auto]. ring.
  - destruct (pair_cases (dim m) a b Ha Hb N) as [i [j [Hij [Hj C]]]].
    fold (tcSize m) in *. fold (colOf m j) in C. assert (E := ext_col m d i j L Hij Hj).
    destruct (H i j Hij Hj) as [U Lw]. unfold getUpperBound, getLowerBound in *.
    destruct C as [[-> ->]|[-> ->]].
    + eapply bsat_ext; [|exact U]. rewrite E. reflexivity.
    + eapply bsat_ext; [|exact Lw]. rewrite <- E. ring.
Qed.

Lemma inCond_iff m d : okCond m -> (inCond m d <-> length d = tcSize m /\ inZone m (accd d)).
Proof.
  intros [D [C N]]. split.
  - intro H. split; [apply H|]. apply inCond_inZone; auto. apply nonempty_diag; auto.
  - intros [L H]. apply inZone_inCond; auto.
Qed.

Lemma ext_agree n u w i : agree n u w -> (i <= n)%nat -> ext u i == ext w i.
Proof. intros A H. destruct i; cbn [ext]; [reflexivity|]. apply A. lia. Qed.

Lemma inZone_durs m w : (2 <= dim m)%nat -> inZone m w -> inCond m (durs (tcSize m) w).
Proof.
  intros D H. apply inZone_inCond; auto. { apply durs_length. }
  eapply inZone_ext; [|exact H]. intros x Hx. symmetry. apply durs_acc. exact Hx.
Qed.

Lemma okCond_inhabited m : okCond m -> exists d, inCond m d.
Proof. intros [D [_ [w H]]]. exists (durs (tcSize m) w). apply inZone_durs; auto. Qed.

Lemma sameDurs_length d d' : sameDurs d d' -> length d = length d'.
Proof. induction 1; cbn; auto. Qed.
Lemma accd_ext d d' : sameDurs d d' -> forall k, accd d k == accd d' k.
Proof.
  unfold accd. induction 1 as [|x y d d' E F IH]; intro k; [reflexivity|].
  destruct k; cbn [skipn sumQ]; [|apply IH]. rewrite E. specialize (IH 0%nat). cbn [skipn] in IH.
  rewrite IH. reflexivity.
Qed.
Lemma inCond_same m d d' : sameDurs d d' -> inCond m d -> inCond m d'.
Proof.
  intros E [L H]. assert (L' : length d' = length d) by (symmetry; apply sameDurs_length; exact E).
  split; [congruence|]. intros i j Hij Hj. destruct (H i j Hij Hj) as [U W].
  assert (E' : T d i j == T d' i j).
  { rewrite !T_acc by auto. rewrite (accd_ext d d') by auto. rewrite (accd_ext d d' E (S j)). reflexivity. }
  split; (eapply bsat_ext; [|eassumption]); rewrite E'; reflexivity.
Qed.
Lemma durs_same d d' : length d = length d' -> (forall k, (k < length d)%nat -> accd d k == accd d' k) -> sameDurs d d'.
Proof.
  revert d'. induction d as [|x d IH]; intros [|y d'] L H; cbn in L; try lia; [constructor|].
  assert (HT : forall k, (k < length d)%nat -> accd d k == accd d' k).
  { intros k Hk. exact (H (S k) ltac:(cbn; lia)). }
  constructor; [|apply IH; auto; lia].
  assert (H0 := H 0%nat ltac:(cbn; lia)). unfold accd in H0. cbn [skipn sumQ] in H0.
  assert (sumQ d == sumQ d').
  { destruct d as [|z d]; [destruct d'; [reflexivity|cbn in L; lia]|]. exact (HT 0%nat ltac:(cbn; lia)). }
  lra.
Qed.

(** * restricting one T_{i,j} *)
Lemma dim_restrictUpper m i j b f : dim (restrictUpperBound m i j b f) = dim m.
Proof. unfold restrictUpperBound. rewrite dim_canonize. apply dim_set1. Qed.
Lemma dim_restrictLower m i j b f : dim (restrictLowerBound m i j b f) = dim m.
Proof. unfold restrictLowerBound. rewrite dim_canonize. apply dim_set1. Qed.

Lemma set1_min_Z' m x y c u : (x < dim m)%nat -> (y < dim m)%nat ->
  (Z_ (set1 m x y (bmin c (get m x y))) u <-> Z_ m u /\ bsat c (u x - u y)).
Proof.
  intros Hx Hy. rewrite <- (set1_min_Z m x y c u Hx Hy).
  split; intros H i j Hi Hj; specialize (H i j); rewrite dim_set1 in *; specialize (H Hi Hj);
    rewrite get_set1 in * by auto; destruct ((i =? x)%nat && (j =? y)%nat); auto;
    apply bsat_bmin in H; apply bsat_bmin; tauto.
Qed.

Lemma restrictUpper_Z m i j b u : (2 <= dim m)%nat -> (i <= j)%nat -> (j < tcSize m)%nat ->
  (Z_ (restrictUpperBound m i j b false) u <-> Z_ m u /\ bsat b (u (i + 1)%nat - u (colOf m j))).
Proof.
  intros D Hij Hj. unfold restrictUpperBound. rewrite canonize_Z.
  apply set1_min_Z'; [unfold tcSize in *; lia|apply colOf_lt; auto].
Qed.
Lemma restrictLower_Z m i j b u : (2 <= dim m)%nat -> (i <= j)%nat -> (j < tcSize m)%nat ->
  (Z_ (restrictLowerBound m i j b false) u <-> Z_ m u /\ bsat b (u (colOf m j) - u (i + 1)%nat)).
Proof.
  intros D Hij Hj. unfold restrictLowerBound. rewrite canonize_Z.
  apply set1_min_Z'; [apply colOf_lt; auto|unfold tcSize in *; lia].
Qed.

(** forcing a bound that is at most the present one *)
Lemma set1_force_Z m x y c u : (x < dim m)%nat -> (y < dim m)%nat -> ble c (get m x y) = true ->
  (Z_ (set1 m x y c) u <-> Z_ m u /\ bsat c (u x - u y)).
Proof.
  intros Hx Hy B. rewrite <- (set1_min_Z m x y c u Hx Hy).
  split; intros H i j Hi Hj; specialize (H i j); rewrite dim_set1 in *; specialize (H Hi Hj);
    rewrite get_set1 in * by auto; destruct ((i =? x)%nat && (j =? y)%nat); auto.
  - apply bsat_bmin. split; [eapply ble_sat_1; eauto|auto].
  - apply bsat_bmin in H. tauto.
Qed.

Lemma tcSize_restrictUpper m i j b f : tcSize (restrictUpperBound m i j b f) = tcSize m.
Proof. unfold tcSize. rewrite dim_restrictUpper. reflexivity. Qed.
Lemma tcSize_restrictLower m i j b f : tcSize (restrictLowerBound m i j b f) = tcSize m.
Proof. unfold tcSize. rewrite dim_restrictLower. reflexivity. Qed.

Lemma restrictUpper_exact m i j b d : okCond m -> (i <= j)%nat -> (j < tcSize m)%nat ->
  (length d = tcSize m /\ inZone (restrictUpperBound m i j b false) (accd d) <-> inCond m d /\ bsat b (T d i j)).
Proof.
  intros O Hij Hj. rewrite inCond_iff by auto. destruct O as [D [C N]].
  rewrite inZone_Z, restrictUpper_Z by auto. rewrite <- inZone_Z.
  split.
  - intros [L [H B]]. split; [tauto|]. eapply bsat_ext; [|exact B]. apply ext_col; auto.
  - intros [[L H] B]. split; [auto|]. split; [auto|]. eapply bsat_ext; [|exact B]. symmetry. apply ext_col; auto.
Qed.
Lemma restrictLower_exact m i j b d : okCond m -> (i <= j)%nat -> (j < tcSize m)%nat ->
  (length d = tcSize m /\ inZone (restrictLowerBound m i j b false) (accd d) <-> inCond m d /\ bsat b (- T d i j)).
Proof.
  intros O Hij Hj. rewrite inCond_iff by auto. destruct O as [D [C N]].
  rewrite inZone_Z, restrictLower_Z by auto. rewrite <- inZone_Z.
  split.
  - intros [L [H B]]. split; [tauto|]. eapply bsat_ext; [|exact B]. rewrite <- (ext_col m d i j) by auto. ring.
  - intros [[L H] B]. split; [auto|]. split; [auto|]. eapply bsat_ext; [|exact B]. rewrite <- (ext_col m d i j) by auto. ring.
Qed.

Lemma okCond_canonize m : (2 <= dim m)%nat -> nonemptyZ m -> okCond (canonize m).
Proof.
  intros D N. split; [rewrite dim_canonize; auto|]. split; [apply canonize_closed_sat; auto|].
  destruct N as [w H]. exists w. apply canonize_inZone; auto.
Qed.
Lemma okCond_restrictUpper m i j b : (2 <= dim m)%nat -> nonemptyZ (restrictUpperBound m i j b false) ->
  okCond (restrictUpperBound m i j b false).
Proof.
  intros D [w N]. apply okCond_canonize; [rewrite dim_set1; auto|]. exists w. apply canonize_inZone. exact N.
Qed.
Lemma okCond_restrictLower m i j b : (2 <= dim m)%nat -> nonemptyZ (restrictLowerBound m i j b false) ->
  okCond (restrictLowerBound m i j b false).
Proof.
  intros D [w N]. apply okCond_canonize; [rewrite dim_set1; auto|]. exists w. apply canonize_inZone. exact N.
Qed.
