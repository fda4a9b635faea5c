From Coq Require Import QArith ZArith Bool Lqa Lia.
From Verif Require Import BoundsModel.
Open Scope Q_scope.

Lemma Qltb_true a b : Qltb a b = true <-> a < b.
Proof.
  unfold Qltb. rewrite negb_true_iff. split.
  - intro H. apply Qnot_le_lt. intro H1. apply Qle_bool_iff in H1. congruence.
  - intro H. destruct (Qle_bool b a) eqn:E; [|reflexivity].
    apply Qle_bool_iff in E. exfalso. apply (Qlt_not_le _ _ H E).
Qed.

Lemma Qltb_false a b : Qltb a b = false <-> b <= a.
Proof.
  unfold Qltb. rewrite negb_false_iff. apply Qle_bool_iff.
Qed.

Lemma Qeqb_true a b : Qeq_bool a b = true <-> a == b.
Proof. split; [apply Qeq_bool_eq | apply Qeq_eq_bool]. Qed.

Lemma Qeqb_false a b : Qeq_bool a b = false <-> ~ a == b.
Proof.
  split.
  - intros H H1. apply Qeq_eq_bool in H1. congruence.
  - intro H. destruct (Qeq_bool a b) eqn:E; [|reflexivity].
    apply Qeq_bool_eq in E. contradiction.
Qed.

(** Case-splitting helper on the rational comparisons appearing in goals. *)
Ltac qcases :=
  repeat match goal with
  | H : Qltb _ _ = true |- _ => apply Qltb_true in H
  | H : Qltb _ _ = false |- _ => apply Qltb_false in H
  | H : Qeq_bool _ _ = true |- _ => apply Qeqb_true in H
  | H : Qeq_bool _ _ = false |- _ => apply Qeqb_false in H
  | H : Qle_bool _ _ = true |- _ => apply Qle_bool_iff in H
  | |- context [Qltb ?a ?b] => let E := fresh "E" in destruct (Qltb a b) eqn:E
  | |- context [Qeq_bool ?a ?b] => let E := fresh "E" in destruct (Qeq_bool a b) eqn:E
  | H0 : context [Qltb ?a ?b] |- _ => let E := fresh "E" in destruct (Qltb a b) eqn:E
  | H0 : context [Qeq_bool ?a ?b] |- _ => let E := fresh "E" in destruct (Qeq_bool a b) eqn:E
  end.

Lemma bsat_ext b p q : p == q -> bsat b p -> bsat b q.
Proof. destruct b as [c [|]|]; cbn; intros; try lra; auto. Qed.

Global Instance bsat_proper b : Proper (Qeq ==> iff) (bsat b).
Proof. intros p q H; split; apply bsat_ext; lra. Qed.

Lemma bsat_down b p q : q <= p -> bsat b p -> bsat b q.
Proof. destruct b as [c [|]|]; cbn; intros; try lra; auto. Qed.

Lemma ble_sat_1 a b : ble a b = true -> forall q, bsat a q -> bsat b q.
Proof.
  destruct a as [c [|]|], b as [d [|]|]; cbn; intros H q Hq; auto;
    try discriminate; qcases; try discriminate; try lra.
Qed.

Lemma ble_spec a b : ble a b = true <-> (forall q, bsat a q -> bsat b q).
Proof.
  split; [apply ble_sat_1|].
  destruct a as [c s|], b as [d t|]; cbn [ble]; auto.
  - intro H.
    destruct (Qltb c d) eqn:E1; [reflexivity|]. apply Qltb_false in E1.
    destruct s.
    + assert (H1 : bsat (Fin d t) c) by (apply H; cbn; lra).
      destruct t; cbn in H1; [|exfalso; lra].
      replace (Qeq_bool c d) with true; [reflexivity|].
      symmetry. apply Qeqb_true. lra.
    + assert (E2 : c == d).
      { destruct (Qlt_le_dec d c) as [L|L]; [|lra].
        exfalso. specialize (H ((c + d) * (1#2))).
        destruct t; cbn [bsat] in H; lra. }
      apply Qeqb_true in E2. rewrite E2. reflexivity.
  - intro H. exfalso. specialize (H (d + 1) I). destruct t; cbn in H; lra.
Qed.

Lemma ble_false_sat a b : ble a b = false <-> blt b a = true.
Proof. unfold blt. rewrite negb_true_iff. tauto. Qed.

Lemma ble_refl a : ble a a = true.
Proof. apply ble_spec; auto. Qed.

Lemma ble_trans a b c : ble a b = true -> ble b c = true -> ble a c = true.
Proof. rewrite !ble_spec; auto. Qed.

Lemma ble_total a b : ble a b = true \/ ble b a = true.
Proof.
  destruct a as [c s|], b as [d t|]; cbn; auto.
  destruct (Qltb c d) eqn:E1; [auto|].
  destruct (Qltb d c) eqn:E2; [auto|].
  apply Qltb_false in E1, E2.
  assert (E : c == d) by lra.
  apply Qeqb_true in E. assert (E' : Qeq_bool d c = true) by (apply Qeqb_true; lra).
  rewrite E, E'. destruct s, t; auto.
Qed.

Lemma blt_le a b : blt a b = true -> ble a b = true.
Proof.
  unfold blt. rewrite negb_true_iff. intro H. destruct (ble_total a b); congruence.
Qed.

Lemma ble_Inf a : ble a Inf = true.
Proof. destruct a; reflexivity. Qed.

(** ** min / max *)
Lemma bmin_le_l a b : ble (bmin a b) a = true.
Proof. unfold bmin. destruct (blt b a) eqn:E; [apply blt_le; auto | apply ble_refl]. Qed.

Lemma bmin_le_r a b : ble (bmin a b) b = true.
Proof.
  unfold bmin. destruct (blt b a) eqn:E; [apply ble_refl|].
  unfold blt in E. rewrite negb_false_iff in E. exact E.
Qed.

Lemma bmin_glb a b c : ble c a = true -> ble c b = true -> ble c (bmin a b) = true.
Proof. unfold bmin. destruct (blt b a); auto. Qed.

Lemma bmin_case a b (P : bound -> Prop) : P a -> P b -> P (bmin a b).
Proof. unfold bmin. destruct (blt b a); auto. Qed.

Lemma bsat_bmin a b q : bsat (bmin a b) q <-> bsat a q /\ bsat b q.
Proof.
  split.
  - intro H; split; [apply (ble_sat_1 _ _ (bmin_le_l a b)) | apply (ble_sat_1 _ _ (bmin_le_r a b))]; auto.
  - intros [Ha Hb]. apply bmin_case; auto.
Qed.

Lemma bmax_ge_l a b : ble a (bmax a b) = true.
Proof. unfold bmax. destruct (blt a b) eqn:E; [apply blt_le; auto | apply ble_refl]. Qed.

Lemma bmax_ge_r a b : ble b (bmax a b) = true.
Proof.
  unfold bmax. destruct (blt a b) eqn:E; [apply ble_refl|].
  unfold blt in E. rewrite negb_false_iff in E. exact E.
Qed.

Lemma bmax_case a b (P : bound -> Prop) : P a -> P b -> P (bmax a b).
Proof. unfold bmax. destruct (blt a b); auto. Qed.

Lemma bmax_lub a b c : ble a c = true -> ble b c = true -> ble (bmax a b) c = true.
Proof. unfold bmax. destruct (blt a b); auto. Qed.

Lemma bsat_bmax a b q : bsat (bmax a b) q <-> bsat a q \/ bsat b q.
Proof.
  split.
  - apply bmax_case; auto.
  - intros [H|H]; [apply (ble_sat_1 _ _ (bmax_ge_l a b)) | apply (ble_sat_1 _ _ (bmax_ge_r a b))]; auto.
Qed.

(** ** addition *)
(** [Qred] only normalizes the fraction *)
Ltac qred :=
  repeat match goal with
  | |- context [Qred ?x] => let r := fresh "r" in let E := fresh "E" in set (r := Qred x) in *; assert (E : r == x) by apply Qred_correct; clearbody r
  | H : context [Qred ?x] |- _ => let r := fresh "r" in let E := fresh "E" in set (r := Qred x) in *; assert (E : r == x) by apply Qred_correct; clearbody r
  end.
Lemma badd_sat a b p q : bsat a p -> bsat b q -> bsat (badd a b) (p + q).
Proof.
  destruct a as [c [|]|], b as [d [|]|]; cbn [badd bsat andb]; intros; qred; try lra; auto.
Qed.

Lemma badd_mono a b c d : ble a b = true -> ble c d = true -> ble (badd a c) (badd b d) = true.
Proof.
  destruct a as [a1 a2|], b as [b1 b2|], c as [c1 c2|], d as [d1 d2|]; cbn [badd ble]; auto; try discriminate.
  intros H1 H2. qred. rename r into s1, r0 into s2, E into E1, E0 into E2.
  destruct (Qltb s1 s2) eqn:E; [reflexivity|].
  apply Qltb_false in E.
  assert (Hab : a1 <= b1) by (qcases; try discriminate; lra).
  assert (Hcd : c1 <= d1) by (qcases; try discriminate; lra).
  assert (Ea : a1 == b1) by lra. assert (Ec : c1 == d1) by lra.
  replace (Qeq_bool s1 s2) with true by (symmetry; apply Qeqb_true; lra).
  qcases; try lra. destruct a2, b2, c2, d2; cbn in *; auto.
Qed.

Lemma badd_comm_le a b : ble (badd a b) (badd b a) = true.
Proof.
  apply ble_spec. intro q.
  destruct a as [c [|]|], b as [d [|]|]; cbn [badd bsat andb]; intros; qred; try lra; auto.
Qed.

Lemma badd_assoc_le1 a b c : ble (badd a (badd b c)) (badd (badd a b) c) = true.
Proof.
  apply ble_spec. intro q.
  destruct a as [x [|]|], b as [y [|]|], c as [z [|]|]; cbn [badd bsat andb]; intros; qred; try lra; auto.
Qed.

Lemma badd_assoc_le2 a b c : ble (badd (badd a b) c) (badd a (badd b c)) = true.
Proof.
  apply ble_spec. intro q.
  destruct a as [x [|]|], b as [y [|]|], c as [z [|]|]; cbn [badd bsat andb]; intros; qred; try lra; auto.
Qed.

(** [(0,true)] is the unit; bounds [>= (0,true)] admit the difference 0. *)
Definition bzero : bound := Fin 0 true.

Lemma bzero_le_sat b : ble bzero b = true <-> bsat b 0.
Proof.
  rewrite ble_spec. split.
  - intro H. apply H. cbn. lra.
  - intros H q Hq. cbn in Hq. apply (bsat_down b 0 q); auto.
Qed.

Lemma badd_zero_le a b : ble bzero b = true -> ble a (badd a b) = true.
Proof.
  intro H. apply ble_spec. intros q Hq.
  apply bzero_le_sat in H. apply (bsat_ext _ (q + 0) q); [lra|]. apply badd_sat; auto.
Qed.

Lemma badd_zero_le_l a b : ble bzero b = true -> ble a (badd b a) = true.
Proof.
  intro H. eapply ble_trans; [apply (badd_zero_le a b H)|]. apply badd_comm_le.
Qed.

(** The sum of two bounds is non-negative iff the two half-lines
    [{q | q |= a}] and [{q | -q |= b}] meet. *)
Lemma badd_nonneg_iff a b :
  ble bzero (badd a b) = true <-> exists q, bsat a q /\ bsat b (- q).
Proof.
  rewrite bzero_le_sat. split.
  - destruct a as [c s|], b as [d t|]; cbn [badd bsat].
    + destruct s, t; cbn [andb]; intro H; qred.
      * exists c; split; lra.
      * exists ((c - d) * (1#2)); split; lra.
      * exists ((c - d) * (1#2)); split; lra.
      * exists ((c - d) * (1#2)); split; lra.
    + intros _. exists (c - 1). destruct s; split; auto; lra.
    + intros _. exists (1 - d). destruct t; split; auto; lra.
    + intros _. exists 0. auto.
  - intros [q [Ha Hb]]. apply (bsat_ext _ (q + - q) 0); [lra|]. apply badd_sat; auto.
Qed.
