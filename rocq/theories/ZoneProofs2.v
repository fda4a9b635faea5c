(** Zones: guards, intersection, elapse, inclusion, extrapolation, resets. *)
From Coq Require Import QArith ZArith Bool List Lqa Lia.
From Verif Require Import BoundsModel ConstraintModel GuardSpec BoundsProofs ConstraintProofs ZoneModel ZoneSpec ZoneProofs.
Import ListNotations.
Open Scope Q_scope.

(** ** tighten *)
Lemma set1_min_Z m x y c u : (x < dim m)%nat -> (y < dim m)%nat ->
  (Z_ (set1 m x y (bmin (get m x y) c)) u <-> Z_ m u /\ bsat c (u x - u y)).
Proof.
  intros Hx Hy. split.
  - intro H. assert (Hxy := H x y). rewrite dim_set1, get_set1, !Nat.eqb_refl in Hxy by auto. cbn [andb] in Hxy.
    specialize (Hxy Hx Hy). apply bsat_bmin in Hxy. split; [|tauto].
    intros i j Hi Hj. assert (Hij := H i j). rewrite dim_set1, get_set1 in Hij by auto. specialize (Hij Hi Hj).
    destruct ((i =? x)%nat && (j =? y)%nat) eqn:E; auto.
    apply andb_true_iff in E. rewrite !Nat.eqb_eq in E. destruct E; subst. apply bsat_bmin in Hij. tauto.
  - intros [H Hc] i j Hi Hj. rewrite dim_set1 in *. rewrite get_set1 by auto.
    destruct ((i =? x)%nat && (j =? y)%nat) eqn:E; auto.
    apply andb_true_iff in E. rewrite !Nat.eqb_eq in E. destruct E; subst. apply bsat_bmin. split; auto.
Qed.

Lemma dim_tighten m x y c : dim (tighten m x y c) = dim m.
Proof. unfold tighten. rewrite !dim_close1. apply dim_set1. Qed.

Lemma tighten_Z m x y c u : (x < dim m)%nat -> (y < dim m)%nat ->
  (Z_ (tighten m x y c) u <-> Z_ m u /\ bsat c (u x - u y)).
Proof.
  intros Hx Hy. unfold tighten.
  rewrite close1_Z by (rewrite dim_close1, dim_set1; auto).
  rewrite close1_Z by (rewrite dim_set1; auto).
  apply set1_min_Z; auto.
Qed.

Lemma set1_Cl_other m x y b k : (x < dim m)%nat -> (y < dim m)%nat -> (k < dim m)%nat ->
  ble b (get m x y) = true -> k <> x -> k <> y -> Cl m k -> Cl (set1 m x y b) k.
Proof.
  intros Hx Hy Hk Hb Kx Ky C i j Hi Hj. rewrite dim_set1 in *. rewrite !get_set1 by auto.
  assert (E1 : (k =? y)%nat = false) by (apply Nat.eqb_neq; auto).
  assert (E2 : (k =? x)%nat = false) by (apply Nat.eqb_neq; auto).
  rewrite E1, E2, andb_false_r. cbn [andb].
  destruct ((i =? x)%nat && (j =? y)%nat) eqn:E; [|apply C; auto].
  apply andb_true_iff in E. rewrite !Nat.eqb_eq in E. destruct E; subst.
  eapply ble_trans; [exact Hb|]. apply C; auto.
Qed.

Lemma tighten_closed m x y c : (x < dim m)%nat -> (y < dim m)%nat -> closed m ->
  nonneg2 (tighten m x y c) -> closed (tighten m x y c).
Proof.
  intros Hx Hy C N. apply closed_Cl. rewrite dim_tighten. intros k Hk.
  unfold tighten in *. change (close1 (close1 (set1 m x y (bmin (get m x y) c)) x) y)
    with (fold_left close1 [x; y] (set1 m x y (bmin (get m x y) c))) in *.
  apply fold_close1_Cl; rewrite ?dim_set1; auto.
  - intros z [<-|[<-|[]]]; auto.
  - destruct (Nat.eq_dec k x) as [->|Kx]; [left; left; auto|].
    destruct (Nat.eq_dec k y) as [->|Ky]; [left; right; left; auto|].
    right. apply set1_Cl_other; auto; [apply bmin_le_l|].
    apply (proj1 (closed_Cl m) C); auto.
Qed.

(** clocks of a guard are in range *)
Definition gclocks (n : nat) (g : guard) : Prop := forall k, In k g -> (S (cx k) < n)%nat.

Lemma dim_tightenC m k : dim (tightenC m k) = dim m.
Proof. unfold tightenC; destruct (codr k); apply dim_tighten. Qed.

Lemma tightenC_exact m k w : (S (cx k) < dim m)%nat ->
  (inZone (tightenC m k) w <-> inZone m w /\ holds k (w (cx k))).
Proof.
  intro H. rewrite !inZone_Z. unfold tightenC, holds.
  destruct (codr k); rewrite tighten_Z by lia; cbn [ext bsat]; intuition lra.
Qed.

Lemma dim_tightenG g : forall m, dim (tightenG m g) = dim m.
Proof.
  induction g as [|k g IH]; intros m; cbn [tightenG fold_left]; auto.
  fold (tightenG (tightenC m k) g). rewrite IH. apply dim_tightenC.
Qed.

Lemma tightenG_exact g : forall m w, gclocks (dim m) g ->
  (inZone (tightenG m g) w <-> inZone m w /\ gsat g w).
Proof.
  induction g as [|k g IH]; intros m w Hg; cbn [tightenG fold_left].
  - split; [intro H; split; [auto|apply gsat_nil]|tauto].
  - fold (tightenG (tightenC m k) g).
    rewrite IH by (rewrite dim_tightenC; intros k' Hk'; apply Hg; right; auto).
    rewrite tightenC_exact by (apply Hg; left; auto). rewrite gsat_cons. tauto.
Qed.

Lemma tightenC_closed m k : (S (cx k) < dim m)%nat -> closed m -> nonneg2 (tightenC m k) -> closed (tightenC m k).
Proof. intros H C; unfold tightenC; destruct (codr k); apply tighten_closed; auto; lia. Qed.

Lemma tighten_mle m x y c : (x < dim m)%nat -> (y < dim m)%nat -> mle (tighten m x y c) m.
Proof.
  intros Hx Hy. unfold tighten. eapply mle_trans; [apply close1_mle|]. eapply mle_trans; [apply close1_mle|].
  split; [apply dim_set1|]. rewrite dim_set1. intros i j Hi Hj. rewrite get_set1 by auto.
  destruct ((i =? x)%nat && (j =? y)%nat) eqn:E; [|apply ble_refl].
  apply andb_true_iff in E. rewrite !Nat.eqb_eq in E. destruct E; subst. apply bmin_le_l.
Qed.

Lemma tightenG_mle g : forall m, gclocks (dim m) g -> mle (tightenG m g) m.
Proof.
  induction g as [|k g IH]; intros m Hg; cbn [tightenG fold_left]; [apply mle_refl|].
  fold (tightenG (tightenC m k) g).
  eapply mle_trans; [apply IH; rewrite dim_tightenC; intros k' Hk'; apply Hg; right; auto|].
  assert (H : (S (cx k) < dim m)%nat) by (apply Hg; left; auto).
  unfold tightenC; destruct (codr k); apply tighten_mle; lia.
Qed.

Lemma tightenG_closed g : forall m, gclocks (dim m) g -> closed m -> nonneg2 (tightenG m g) -> closed (tightenG m g).
Proof.
  induction g as [|k g IH]; intros m Hg C N; cbn [tightenG fold_left] in *; auto.
  fold (tightenG (tightenC m k) g) in *.
  assert (Hg' : gclocks (dim (tightenC m k)) g).
  { rewrite dim_tightenC. intros k' Hk'; apply Hg; right; auto. }
  apply IH; auto. apply tightenC_closed; auto; [apply Hg; left; auto|].
  apply (nonneg2_mle _ _ (tightenG_mle g _ Hg') N).
Qed.

(** ** intersection *)
Lemma dim_zand a b : dim (zand a b) = dim a.
Proof. unfold zand. rewrite dim_canonize. apply dim_mk. Qed.

Lemma zand_Z a b u : dim a = dim b -> (Z_ (zand a b) u <-> Z_ a u /\ Z_ b u).
Proof.
  intro D. unfold zand. rewrite canonize_Z. split.
  - intro H. split; intros i j Hi Hj; [|rewrite <- D in *];
      specialize (H i j); rewrite dim_mk, get_mk in H by auto; specialize (H Hi Hj); apply bsat_bmin in H; tauto.
  - intros [Ha Hb] i j Hi Hj. rewrite dim_mk in *. rewrite get_mk by auto. apply bsat_bmin.
    split; [apply Ha|apply Hb]; auto; rewrite <- D; auto.
Qed.

Lemma zand_exact a b w : dim a = dim b -> (inZone (zand a b) w <-> inZone a w /\ inZone b w).
Proof. intro; rewrite !inZone_Z; apply zand_Z; auto. Qed.

Lemma zand_closed a b : nonneg2 (zand a b) -> closed (zand a b).
Proof. apply canonize_closed. Qed.

(** ** elapse *)
Lemma dim_elapse m : dim (elapse m) = dim m. Proof. apply dim_mk. Qed.
Lemma dim_reverseElapse m : dim (reverseElapse m) = dim m. Proof. apply dim_mk. Qed.

(** the over-approximation needs nothing *)
Lemma elapse_sound m w d : 0 <= d -> inZone m w -> inZone (elapse m) (delay w d).
Proof.
  intros Hd H i j Hi Hj. rewrite dim_elapse in *. unfold elapse. rewrite get_mk by auto.
  destruct j as [|j]; cbn [Nat.eqb]; [cbn; auto|].
  specialize (H i (S j) Hi Hj). destruct i as [|i]; cbn [ext] in *; unfold delay.
  - eapply bsat_down; [|exact H]. lra.
  - eapply bsat_ext; [|exact H]. ring.
Qed.

Lemma elapse_complete m w' : (0 < dim m)%nat -> closed m -> nonneg2 m -> inZone (elapse m) w' ->
  exists w d, 0 <= d /\ inZone m w /\ forall x, w' x == w x + d.
Proof.
  intros Hn C N H.
  destruct (extend_one m (map S (seq 0 (pred (dim m)))) (ext w') 0 C N Hn) as [q Hq].
  - intros s Hs. apply in_map_iff in Hs. destruct Hs as [k [<- Hk]]. apply in_seq in Hk. lia.
  - intros i j Hi Hj. apply in_map_iff in Hi, Hj. destruct Hi as [a [<- Ha]], Hj as [b [<- Hb]].
    apply in_seq in Ha, Hb.
    assert (Hab := H (S a) (S b)). rewrite dim_elapse in Hab. unfold elapse in Hab.
    rewrite get_mk in Hab by lia. cbn [Nat.eqb] in Hab. apply Hab; lia.
  - assert (Hq' : forall k, (S k < dim m)%nat -> bsat (get m 0 (S k)) (q - w' k) /\ bsat (get m (S k) 0) (w' k - q)).
    { intros k Hk. apply (Hq (S k)). apply in_map. apply in_seq. lia. }
    set (d := if Qltb q 0 then 0 else q).
    assert (Hd : 0 <= d).
    { unfold d. destruct (Qltb q 0) eqn:E; [lra|]. apply Qltb_false in E; auto. }
    assert (Hqd : q <= d).
    { unfold d. destruct (Qltb q 0) eqn:E; [|lra]. apply Qltb_true in E; lra. }
    exists (fun k => w' k - d), d. split; [auto|]. split; [|intro x; ring].
    intros i j Hi Hj. destruct i as [|i], j as [|j]; cbn [ext].
    + eapply bsat_ext; [|apply bzero_le_sat, nonneg2_diag; auto]. ring.
    + destruct (Hq' j Hj) as [A _].
      assert (B := H 0%nat (S j)). rewrite dim_elapse in B. unfold elapse in B.
      rewrite get_mk in B by auto. cbn [Nat.eqb ext] in B. specialize (B Hi Hj).
      unfold d. destruct (Qltb q 0); [eapply bsat_ext; [|exact B]|eapply bsat_ext; [|exact A]]; ring.
    + destruct (Hq' i Hi) as [_ A]. eapply bsat_down; [|exact A]. lra.
    + assert (B := H (S i) (S j)). rewrite dim_elapse in B. unfold elapse in B.
      rewrite get_mk in B by auto. cbn [Nat.eqb ext] in B. specialize (B Hi Hj).
      eapply bsat_ext; [|exact B]. ring.
Qed.

Lemma elapse_closed m : closed m -> closed (elapse m).
Proof.
  intros C i j k Hi Hj Hk. rewrite dim_elapse in *. unfold elapse. rewrite !get_mk by auto.
  destruct j as [|j]; cbn [Nat.eqb].
  - destruct (k =? 0)%nat; destruct (get m i k); cbn; auto.
  - destruct k as [|k]; cbn [Nat.eqb]; [apply ble_Inf|]. apply C; auto.
Qed.

(** reverseElapse *)
Lemma reverseElapse_sound m w d : 0 <= d -> (forall x, (S x < dim m)%nat -> 0 <= w x) ->
  inZone m (delay w d) -> inZone (reverseElapse m) w.
Proof.
  intros Hd Hw H i j Hi Hj. rewrite dim_reverseElapse in *. unfold reverseElapse. rewrite get_mk by auto.
  destruct i as [|i]; cbn [Nat.eqb].
  - destruct j as [|j]; cbn [ext bsat bz]; [lra|]. specialize (Hw j Hj). lra.
  - specialize (H (S i) j Hi Hj). destruct j as [|j]; cbn [ext] in *; unfold delay in H.
    + eapply bsat_down; [|exact H]. lra.
    + eapply bsat_ext; [|exact H]. ring.
Qed.

Lemma reverseElapse_complete m w : (0 < dim m)%nat -> closed m -> nonneg2 m -> inZone (reverseElapse m) w ->
  (forall x, (S x < dim m)%nat -> 0 <= w x) /\ exists d, 0 <= d /\ inZone m (delay w d).
Proof.
  intros Hn C N H.
  assert (Hg : forall i j, (S i < dim m)%nat -> (j < dim m)%nat -> bsat (get m (S i) j) (w i - ext w j)).
  { intros i j Hi Hj. assert (B := H (S i) j). rewrite dim_reverseElapse in B. unfold reverseElapse in B.
    rewrite get_mk in B by auto. cbn [Nat.eqb ext] in B. apply B; auto. }
  split.
  { intros x Hx. assert (B := H 0%nat (S x)). rewrite dim_reverseElapse in B. unfold reverseElapse in B.
    rewrite get_mk in B by auto. cbn [Nat.eqb ext bsat bz] in B. specialize (B Hn Hx). lra. }
  destruct (extend_one m (map S (seq 0 (pred (dim m)))) (ext w) 0 C N Hn) as [q Hq].
  - intros s Hs. apply in_map_iff in Hs. destruct Hs as [k [<- Hk]]. apply in_seq in Hk. lia.
  - intros i j Hi Hj. apply in_map_iff in Hi, Hj. destruct Hi as [a [<- Ha]], Hj as [b [<- Hb]].
    apply in_seq in Ha, Hb. cbn [ext]. apply (Hg a (S b)); lia.
  - assert (Hq' : forall k, (S k < dim m)%nat -> bsat (get m 0 (S k)) (q - w k) /\ bsat (get m (S k) 0) (w k - q)).
    { intros k Hk. apply (Hq (S k)). apply in_map. apply in_seq. lia. }
    set (d := if Qltb 0 q then 0 else - q).
    assert (Hd : 0 <= d).
    { unfold d. destruct (Qltb 0 q) eqn:E; [lra|]. apply Qltb_false in E; lra. }
    assert (Hqd : - d <= q).
    { unfold d. destruct (Qltb 0 q) eqn:E; [|lra]. apply Qltb_true in E; lra. }
    exists d. split; [auto|]. intros i j Hi Hj. destruct i as [|i], j as [|j]; cbn [ext]; unfold delay.
    + eapply bsat_ext; [|apply bzero_le_sat, nonneg2_diag; auto]. ring.
    + destruct (Hq' j Hj) as [A _]. eapply bsat_down; [|exact A]. lra.
    + destruct (Hq' i Hi) as [_ A]. assert (B := Hg i 0%nat Hi Hj). cbn [ext] in B.
      unfold d. destruct (Qltb 0 q); [eapply bsat_ext; [|exact B]|eapply bsat_ext; [|exact A]]; ring.
    + assert (B := Hg i (S j) Hi Hj). cbn [ext] in B. eapply bsat_ext; [|exact B]. ring.
Qed.

(** ** inclusion *)
Lemma beqb_bmax a b : beqb (bmax a b) a = true <-> ble b a = true.
Proof.
  unfold beqb. rewrite andb_true_iff. split.
  - intros [H _]. eapply ble_trans; [apply bmax_ge_r|exact H].
  - intro H. split; [apply bmax_lub; auto; apply ble_refl|apply bmax_ge_l].
Qed.

Lemma zincludes_spec a b :
  zincludes a b = true <-> forall i j, (i < dim a)%nat -> (j < dim a)%nat -> ble (get b i j) (get a i j) = true.
Proof.
  unfold zincludes. rewrite forallb_forall. split.
  - intros H i j Hi Hj. specialize (H i). rewrite forallb_forall in H. apply beqb_bmax. apply H; apply in_seq; lia.
  - intros H i Hi. rewrite forallb_forall. intros j Hj. apply in_seq in Hi, Hj. apply beqb_bmax. apply H; lia.
Qed.

Lemma zincludes_sound a b w : dim a = dim b -> zincludes a b = true -> inZone b w -> inZone a w.
Proof.
  intros D H Hb. rewrite zincludes_spec in H. intros i j Hi Hj.
  eapply ble_sat_1; [apply H; auto|]. apply Hb; rewrite <- D; auto.
Qed.

Lemma zincludes_complete a b : dim a = dim b -> closed b -> nonneg2 b ->
  (forall i, (i < dim b)%nat -> ble (get b i i) (get a i i) = true) ->
  (forall w, inZone b w -> inZone a w) -> zincludes a b = true.
Proof.
  intros D C N Hd H. apply zincludes_spec. intros i j Hi Hj.
  destruct (Nat.eq_dec i j) as [->|Hij]; [apply Hd; rewrite <- D; auto|].
  apply (closed_tight b C N); rewrite <- ?D; auto.
  intros w Hw. apply H; auto.
Qed.

Lemma zstrictEqual_spec a b :
  zstrictEqual a b = true <-> forall i j, (i < dim a)%nat -> (j < dim a)%nat -> i <> j -> bequiv (get a i j) (get b i j).
Proof.
  unfold zstrictEqual. rewrite forallb_forall. split.
  - intros H i j Hi Hj Hij. specialize (H i). rewrite forallb_forall in H.
    assert (K : (i =? j)%nat || beqb (get a i j) (get b i j) = true) by (apply H; apply in_seq; lia).
    apply Nat.eqb_neq in Hij. rewrite Hij in K. cbn in K. unfold beqb in K. apply andb_true_iff in K. exact K.
  - intros H i Hi. rewrite forallb_forall. intros j Hj. apply in_seq in Hi, Hj.
    destruct (i =? j)%nat eqn:E; auto. apply Nat.eqb_neq in E. cbn. unfold beqb. apply andb_true_iff. apply H; lia.
Qed.

Lemma zstrictEqual_exact a b : dim a = dim b -> closed a -> nonneg2 a -> closed b -> nonneg2 b ->
  (zstrictEqual a b = true <-> forall w, inZone a w <-> inZone b w).
Proof.
  intros D Ca Na Cb Nb. rewrite zstrictEqual_spec. split.
  - intros H w. split; intros Hw i j Hi Hj.
    + rewrite <- D in *. destruct (Nat.eq_dec i j) as [->|Hij].
      * eapply bsat_ext; [|apply bzero_le_sat, (nonneg2_diag b); auto; rewrite <- D; auto]. ring.
      * eapply ble_sat_1; [apply H; auto|]. apply Hw; auto.
    + destruct (Nat.eq_dec i j) as [->|Hij].
      * eapply bsat_ext; [|apply bzero_le_sat, (nonneg2_diag a); auto]. ring.
      * eapply ble_sat_1; [apply H; auto|]. apply Hw; rewrite <- D; auto.
  - intros H i j Hi Hj Hij. split.
    + apply (closed_tight a Ca Na); auto. intros w Hw. apply H in Hw. apply Hw; rewrite <- D; auto.
    + apply (closed_tight b Cb Nb); rewrite <- ?D; auto. intros w Hw. apply H in Hw. apply Hw; auto.
Qed.

(** ** enlarging operations *)
Lemma Z_enlarge a b : mle a b -> forall w, inZone a w -> inZone b w.
Proof. intros H w; apply mle_Z; auto. Qed.

Lemma set1_enlarge m x y b : ble (get m x y) b = true -> mle m (set1 m x y b).
Proof.
  intro H. split; [symmetry; apply dim_set1|]. intros i j Hi Hj. rewrite get_set1 by auto.
  destruct ((i =? x)%nat && (j =? y)%nat) eqn:E; [|apply ble_refl].
  apply andb_true_iff in E. rewrite !Nat.eqb_eq in E. destruct E; subst. auto.
Qed.

Lemma abstractize_mle M m : mle m (abstractize M m).
Proof.
  unfold abstractize. split; [symmetry; apply dim_mk|]. intros i j Hi Hj. rewrite get_mk by auto.
  destruct (blt (Fin M true) (get m i j)); [apply ble_Inf|].
  destruct (blt (get m i j) (Fin (- M) false)) eqn:E; [apply blt_le; auto|apply ble_refl].
Qed.

Lemma extraInner_mle mc i m j : mle m (extraInner mc i m j).
Proof.
  unfold extraInner. destruct (_ || _ || _); [|apply mle_refl]. apply set1_enlarge. apply ble_Inf.
Qed.

Lemma fold_mle {A} (f : matrix -> A -> matrix) (H : forall m a, mle m (f m a)) l :
  forall m, mle m (fold_left f l m).
Proof.
  induction l as [|a l IH]; intros m; cbn [fold_left]; [apply mle_refl|].
  eapply mle_trans; [apply H|apply IH].
Qed.

Lemma extraOuter_mle mc m i : mle m (extraOuter mc m i).
Proof.
  unfold extraOuter. cbv zeta.
  set (m1 := if bfst_gt _ _ then _ else m).
  assert (H1 : mle m m1).
  { unfold m1. destruct (bfst_gt _ _); [|apply mle_refl]. apply set1_enlarge, ble_Inf. }
  set (m2 := if bfst_neg_gt _ _ then _ else m1).
  assert (H2 : mle m1 m2).
  { unfold m2. destruct (bfst_neg_gt _ _) eqn:E; [|apply mle_refl]. apply set1_enlarge.
    unfold bfst_neg_gt in E. destruct (get m1 0 (S i)) as [c s|]; [|discriminate].
    apply Qltb_true in E. cbn. destruct (Qltb c (- nth i mc 0)) eqn:E'; auto.
    apply Qltb_false in E'. lra. }
  eapply mle_trans; [exact H1|]. eapply mle_trans; [exact H2|].
  apply fold_mle. intros; apply extraInner_mle.
Qed.

Lemma extrapolate_mle mc m : mle m (extrapolate mc m).
Proof. apply fold_mle. intros; apply extraOuter_mle. Qed.

Lemma dim_extrapolate mc m : dim (extrapolate mc m) = dim m.
Proof. symmetry. apply extrapolate_mle. Qed.

Lemma zeroDiag_exact m w : nonneg2 m -> (inZone (zeroDiag m) w <-> inZone m w).
Proof.
  intro N. unfold zeroDiag. split; intros H i j Hi Hj.
  - assert (B := H i j). rewrite dim_mk in B. rewrite get_mk in B by auto. specialize (B Hi Hj).
    destruct (i =? j)%nat eqn:E; auto. apply Nat.eqb_eq in E; subst.
    eapply bsat_ext; [|apply bzero_le_sat, (nonneg2_diag m); auto]. ring.
  - rewrite dim_mk in *. rewrite get_mk by auto. destruct (i =? j)%nat eqn:E; auto.
    apply Nat.eqb_eq in E; subst. cbn. lra.
Qed.

(** ** unconstrain: projection *)
Lemma dim_unconstrain m x : dim (unconstrain m x) = dim m. Proof. apply dim_mk. Qed.

Lemma ext_upd w x q i : ext (upd w x q) i = if (i =? S x)%nat then q else ext w i.
Proof. destruct i as [|i]; cbn [ext]; [reflexivity|]. unfold upd. reflexivity. Qed.

Lemma unconstrain_sound m x w q : inZone m w -> inZone (unconstrain m x) (upd w x q).
Proof.
  intros H i j Hi Hj. rewrite dim_unconstrain in *. unfold unconstrain. rewrite get_mk by auto.
  rewrite !ext_upd. destruct (i =? S x)%nat; cbn [orb]; [cbn; auto|].
  destruct (j =? S x)%nat; [cbn; auto|]. apply H; auto.
Qed.

Lemma unconstrain_complete m x w : closed m -> nonneg2 m -> (S x < dim m)%nat ->
  inZone (unconstrain m x) w -> exists q, inZone m (upd w x q).
Proof.
  intros C N Hx H.
  set (S0 := filter (fun i => negb (i =? S x)%nat) (seq 0 (dim m))).
  assert (HS : forall s, In s S0 <-> (s < dim m)%nat /\ s <> S x).
  { intro s. unfold S0. rewrite filter_In, in_seq, negb_true_iff, Nat.eqb_neq. intuition lia. }
  assert (Hg : forall i j, In i S0 -> In j S0 -> bsat (get m i j) (ext w i - ext w j)).
  { intros i j Hi Hj. apply HS in Hi, Hj. assert (B := H i j). rewrite dim_unconstrain in B. unfold unconstrain in B.
    rewrite get_mk in B by tauto. destruct (i =? S x)%nat eqn:E1; [apply Nat.eqb_eq in E1; tauto|].
    destruct (j =? S x)%nat eqn:E2; [apply Nat.eqb_eq in E2; tauto|]. apply B; tauto. }
  destruct (extend_one m S0 (ext w) (S x) C N Hx) as [q Hq]; auto.
  { intros s Hs. apply HS in Hs; tauto. }
  exists q. intros i j Hi Hj. rewrite !ext_upd.
  destruct (i =? S x)%nat eqn:E1; destruct (j =? S x)%nat eqn:E2.
  - apply Nat.eqb_eq in E1, E2; subst. eapply bsat_ext; [|apply bzero_le_sat, (nonneg2_diag m); eauto]. ring.
  - apply Nat.eqb_eq in E1; subst. apply Nat.eqb_neq in E2. apply Hq. apply HS; auto.
  - apply Nat.eqb_eq in E2; subst. apply Nat.eqb_neq in E1. apply Hq. apply HS; auto.
  - apply Nat.eqb_neq in E1, E2. apply Hg; apply HS; auto.
Qed.

(** ** adding an equality to an unconstrained clock *)
Lemma set1_Z_unc m x y b u : (x < dim m)%nat -> (y < dim m)%nat -> get m x y = Inf ->
  (Z_ (set1 m x y b) u <-> Z_ m u /\ bsat b (u x - u y)).
Proof.
  intros Hx Hy E. rewrite <- (set1_min_Z m x y b u Hx Hy), E.
  unfold set1. split; intros H i j Hi Hj; rewrite dim_mk in *; specialize (H i j); rewrite dim_mk in H;
    rewrite get_mk in * by auto; specialize (H Hi Hj); destruct ((i =? x)%nat && (j =? y)%nat) eqn:E'; auto.
  - rewrite bsat_bmin. split; cbn; auto.
  - apply bsat_bmin in H; tauto.
Qed.

Lemma unc_get_row m x j : (S x < dim m)%nat -> (j < dim m)%nat -> get (unconstrain m x) (S x) j = Inf.
Proof. intros; unfold unconstrain; rewrite get_mk by auto. rewrite Nat.eqb_refl; auto. Qed.
Lemma unc_get_col m x i : (S x < dim m)%nat -> (i < dim m)%nat -> get (unconstrain m x) i (S x) = Inf.
Proof. intros; unfold unconstrain; rewrite get_mk by auto. rewrite Nat.eqb_refl, orb_true_r; auto. Qed.

Lemma equate_Z m x y b1 b2 u : (S x < dim m)%nat -> (y < dim m)%nat -> y <> S x ->
  (Z_ (set1 (set1 (unconstrain m x) (S x) y b1) y (S x) b2) u <->
   Z_ (unconstrain m x) u /\ bsat b1 (u (S x) - u y) /\ bsat b2 (u y - u (S x))).
Proof.
  intros Hx Hy Hne.
  rewrite set1_Z_unc.
  - rewrite set1_Z_unc; rewrite ?dim_unconstrain; auto; [tauto|]. apply unc_get_row; auto.
  - rewrite dim_set1, dim_unconstrain; auto.
  - rewrite dim_set1, dim_unconstrain; auto.
  - rewrite get_set1 by (rewrite dim_unconstrain; auto).
    destruct ((y =? S x)%nat && (S x =? y)%nat) eqn:E.
    + apply andb_true_iff in E. rewrite !Nat.eqb_eq in E. lia.
    + apply unc_get_col; auto.
Qed.

(** meaning of one reset on one valuation *)
Definition rval (w : valuation) (r : rhs) : Q := match r with RConst q => q | RVar y => w y end.
Definition rclock (r : rhs) (n : nat) : Prop := match r with RConst _ => True | RVar y => (S y < n)%nat end.

Definition canonicalZ (m : matrix) : Prop := closed m /\ nonneg2 m.

Lemma dim_zrename m r : dim (zrename m r) = dim m.
Proof.
  destruct r as [x [q|y]]; cbn [zrename]; auto. destruct (x =? y)%nat; auto.
  rewrite dim_canonize, !dim_set1. apply dim_unconstrain.
Qed.
Lemma dim_zassign m r : dim (zassign m r) = dim m.
Proof.
  destruct r as [x [q|y]]; cbn [zassign]; auto. rewrite dim_canonize, !dim_set1. apply dim_unconstrain.
Qed.

(** forward image contained in the result: needs nothing *)
Lemma zrename_sound m x y w : (S x < dim m)%nat -> (S y < dim m)%nat -> inZone m w ->
  inZone (zrename m (x, RVar y)) (upd w x (w y)).
Proof.
  intros Hx Hy H. cbn [zrename]. destruct (x =? y)%nat eqn:E.
  - apply Nat.eqb_eq in E; subst. eapply inZone_ext; [|exact H]. intros z _. unfold upd.
    destruct (z =? y)%nat eqn:E; [apply Nat.eqb_eq in E; subst|]; reflexivity.
  - apply Nat.eqb_neq in E. apply canonize_inZone. apply equate_Z; [lia|lia|lia|].
    split; [apply unconstrain_sound; auto|]. rewrite !ext_upd, Nat.eqb_refl.
    assert ((S y =? S x)%nat = false) as -> by (apply Nat.eqb_neq; lia). cbn [ext bsat bz]. split; lra.
Qed.

Lemma zrename_complete m x y w' : (S x < dim m)%nat -> (S y < dim m)%nat -> canonicalZ m ->
  inZone (zrename m (x, RVar y)) w' ->
  exists w, inZone m w /\ forall z, w' z == upd w x (w y) z.
Proof.
  intros Hx Hy [C N] H. cbn [zrename] in H. destruct (x =? y)%nat eqn:E.
  - apply Nat.eqb_eq in E; subst. exists w'. split; auto. intro z. unfold upd.
    destruct (z =? y)%nat eqn:E; [apply Nat.eqb_eq in E; subst|]; reflexivity.
  - apply Nat.eqb_neq in E. rewrite canonize_inZone, inZone_Z in H. rewrite equate_Z in H by lia.
    destruct H as (H & H1 & H2). cbn [ext bsat bz] in H1, H2.
    destruct (unconstrain_complete m x w' C N Hx H) as [q Hq].
    exists (upd w' x q). split; auto. intro z. unfold upd.
    assert ((y =? x)%nat = false) as -> by (apply Nat.eqb_neq; auto).
    destruct (z =? x)%nat eqn:Ez; [|reflexivity]. apply Nat.eqb_eq in Ez; subst. lra.
Qed.

Lemma zassign_sound m x q w : (S x < dim m)%nat -> inZone m w ->
  inZone (zassign m (x, RConst q)) (upd w x q).
Proof.
  intros Hx H. cbn [zassign]. apply canonize_inZone. rewrite inZone_Z.
  rewrite set1_Z_unc; rewrite ?dim_set1, ?dim_unconstrain; auto; [|lia|].
  - rewrite set1_Z_unc; rewrite ?dim_set1, ?dim_unconstrain; auto; [|lia|].
    + split; [split|].
      * apply unconstrain_sound; auto.
      * rewrite !ext_upd, Nat.eqb_refl. cbn [Nat.eqb ext bsat]. lra.
      * rewrite !ext_upd, Nat.eqb_refl. cbn [Nat.eqb ext bsat]. lra.
    + apply unc_get_col; auto; lia.
  - rewrite get_set1 by (rewrite dim_unconstrain; lia). cbn [Nat.eqb andb]. apply unc_get_row; auto; lia.
Qed.

Lemma zassign_complete m x q w' : (S x < dim m)%nat -> canonicalZ m ->
  inZone (zassign m (x, RConst q)) w' ->
  exists w, inZone m w /\ forall z, w' z == upd w x q z.
Proof.
  intros Hx [C N] H. cbn [zassign] in H. rewrite canonize_inZone, inZone_Z in H.
  rewrite set1_Z_unc in H; rewrite ?dim_set1, ?dim_unconstrain; auto; [|lia|].
  - rewrite set1_Z_unc in H; rewrite ?dim_set1, ?dim_unconstrain; auto; [|lia|].
    + destruct H as [[H H1] H2]. cbn [ext bsat] in H1, H2.
      destruct (unconstrain_complete m x w' C N Hx H) as [p Hp].
      exists (upd w' x p). split; auto. intro z. unfold upd.
      destruct (z =? x)%nat eqn:Ez; [|reflexivity]. apply Nat.eqb_eq in Ez; subst. lra.
    + apply unc_get_col; auto; lia.
  - rewrite get_set1 by (rewrite dim_unconstrain; lia). cbn [Nat.eqb andb]. apply unc_get_row; auto; lia.
Qed.

Lemma canonical_of_nonempty_canonize m : nonemptyZ m -> canonicalZ (canonize m).
Proof.
  intros [w Hw]. apply canonize_inZone in Hw. assert (N := nonneg2_of_point _ _ Hw).
  split; auto. apply canonize_closed; auto.
Qed.

(** sequential reading of the resets, as the zone code executes them *)
Definition seqRename (w : valuation) (r : clock * rhs) : valuation :=
  match r with (x, RVar y) => upd w x (w y) | _ => w end.
Definition seqAssign (w : valuation) (r : clock * rhs) : valuation :=
  match r with (x, RConst q) => upd w x q | _ => w end.
Definition seqApply (w : valuation) (rs : resets) : valuation :=
  fold_left seqAssign rs (fold_left seqRename rs w).

Definition rwf (n : nat) (rs : resets) : Prop :=
  forall x r, In (x, r) rs -> (S x < n)%nat /\ rclock r n.

Lemma zstep_nonempty (f : matrix -> clock * rhs -> matrix) m r w :
  inZone (f m r) w -> nonemptyZ (f m r).
Proof. exists w; auto. Qed.

Lemma zrename_canonical m x r w : (S x < dim m)%nat -> rclock r (dim m) -> canonicalZ m -> inZone m w ->
  canonicalZ (zrename m (x, r)) /\ inZone (zrename m (x, r)) (seqRename w (x, r)).
Proof.
  intros Hx Hr Hc Hw. destruct r as [q|y]; cbn [seqRename]; [cbn [zrename]; auto|].
  assert (H := zrename_sound m x y w Hx Hr Hw). split; auto.
  cbn [zrename] in *. destruct (x =? y)%nat; auto.
  apply canonical_of_nonempty_canonize. eexists. apply canonize_inZone. exact H.
Qed.

Lemma zassign_canonical m x r w : (S x < dim m)%nat -> canonicalZ m -> inZone m w ->
  canonicalZ (zassign m (x, r)) /\ inZone (zassign m (x, r)) (seqAssign w (x, r)).
Proof.
  intros Hx Hc Hw. destruct r as [q|y]; cbn [seqAssign]; [|cbn [zassign]; auto].
  assert (H := zassign_sound m x q w Hx Hw). split; auto.
  cbn [zassign] in *. apply canonical_of_nonempty_canonize. eexists. apply canonize_inZone. exact H.
Qed.

Lemma seqRename_ext r w w' n : (forall z, (z < n)%nat -> w z == w' z) ->
  rclock (snd r) (S n) -> forall z, (z < n)%nat -> seqRename w r z == seqRename w' r z.
Proof.
  destruct r as [x [q|y]]; cbn [seqRename snd rclock]; intros H Hr z Hz; auto. unfold upd.
  destruct (z =? x)%nat; auto. apply H; lia.
Qed.
Lemma seqAssign_ext r w w' n : (forall z, (z < n)%nat -> w z == w' z) ->
  forall z, (z < n)%nat -> seqAssign w r z == seqAssign w' r z.
Proof.
  destruct r as [x [q|y]]; cbn [seqAssign]; intros H z Hz; auto. unfold upd.
  destruct (z =? x)%nat; auto. reflexivity.
Qed.

Lemma fold_zrename_exact rs : forall m n, dim m = S n -> canonicalZ m -> nonemptyZ m -> rwf (S n) rs ->
  let m' := fold_left zrename rs m in
  dim m' = S n /\ canonicalZ m' /\ nonemptyZ m' /\
  (forall w, inZone m w -> inZone m' (fold_left seqRename rs w)) /\
  (forall w', inZone m' w' -> exists w, inZone m w /\ agree n w' (fold_left seqRename rs w)).
Proof.
  induction rs as [|[x r] rs IH]; intros m n D Hc Hn Hr; cbn [fold_left].
  - repeat split; auto; try apply Hc. intros w' H'. exists w'. split; auto. intros z _; reflexivity.
  - destruct (Hr x r (or_introl eq_refl)) as [Hx Hry]. rewrite <- D in Hx, Hry.
    destruct Hn as [w0 Hw0].
    destruct (zrename_canonical m x r w0 Hx Hry Hc Hw0) as [Hc1 Hn1].
    assert (D1 : dim (zrename m (x, r)) = S n) by (rewrite dim_zrename; auto).
    destruct (IH (zrename m (x, r)) n D1 Hc1 (ex_intro _ _ Hn1)) as (D' & Hc' & Hn' & F & B).
    { intros x' r' H; apply Hr; right; auto. }
    split; [auto|]. split; [auto|]. split; [auto|]. split.
    + intros w Hw. apply F. apply zrename_canonical; auto.
    + intros w' Hw'. destruct (B w' Hw') as [w1 [Hw1 E1]].
      assert (exists w, inZone m w /\ forall z, w1 z == seqRename w (x, r) z) as [w [Hw Ew]].
      { destruct r as [q|y].
        - exists w1. split; [exact Hw1|]. intro; reflexivity.
        - cbn [seqRename]. apply zrename_complete; auto. }
      exists w. split; auto. intros z Hz. rewrite (E1 z Hz).
      assert (G : forall rs u u', (forall r, In r rs -> rclock (snd r) (S n)) ->
                (forall z, (z < n)%nat -> u z == u' z) ->
                forall z, (z < n)%nat -> fold_left seqRename rs u z == fold_left seqRename rs u' z).
      { clear. induction rs as [|r rs IH]; intros u u' Hr H z Hz; cbn [fold_left]; auto.
        apply IH; [intros; apply Hr; right; auto| |auto]. intros z' Hz'.
        apply (seqRename_ext r u u' n); auto. apply Hr; left; auto. }
      apply G; auto. intros [x' r'] H. destruct (Hr x' r' (or_intror H)); auto.
Qed.

Lemma fold_zassign_exact rs : forall m n, dim m = S n -> canonicalZ m -> nonemptyZ m -> rwf (S n) rs ->
  let m' := fold_left zassign rs m in
  dim m' = S n /\ canonicalZ m' /\ nonemptyZ m' /\
  (forall w, inZone m w -> inZone m' (fold_left seqAssign rs w)) /\
  (forall w', inZone m' w' -> exists w, inZone m w /\ agree n w' (fold_left seqAssign rs w)).
Proof.
  induction rs as [|[x r] rs IH]; intros m n D Hc Hn Hr; cbn [fold_left].
  - repeat split; auto; try apply Hc. intros w' H'. exists w'. split; auto. intros z _; reflexivity.
  - destruct (Hr x r (or_introl eq_refl)) as [Hx Hry]. rewrite <- D in Hx, Hry.
    destruct Hn as [w0 Hw0].
    destruct (zassign_canonical m x r w0 Hx Hc Hw0) as [Hc1 Hn1].
    assert (D1 : dim (zassign m (x, r)) = S n) by (rewrite dim_zassign; auto).
    destruct (IH (zassign m (x, r)) n D1 Hc1 (ex_intro _ _ Hn1)) as (D' & Hc' & Hn' & F & B).
    { intros x' r' H; apply Hr; right; auto. }
    split; [auto|]. split; [auto|]. split; [auto|]. split.
    + intros w Hw. apply F. apply zassign_canonical; auto.
    + intros w' Hw'. destruct (B w' Hw') as [w1 [Hw1 E1]].
      assert (exists w, inZone m w /\ forall z, w1 z == seqAssign w (x, r) z) as [w [Hw Ew]].
      { destruct r as [q|y].
        - cbn [seqAssign]. apply zassign_complete; auto.
        - exists w1. split; [exact Hw1|]. intro; reflexivity. }
      exists w. split; auto. intros z Hz. rewrite (E1 z Hz).
      assert (G : forall rs u u', (forall z, (z < n)%nat -> u z == u' z) ->
                forall z, (z < n)%nat -> fold_left seqAssign rs u z == fold_left seqAssign rs u' z).
      { clear. induction rs as [|r rs IH]; intros u u' H z Hz; cbn [fold_left]; auto.
        apply IH; auto. intros z' Hz'. apply (seqAssign_ext r u u' n); auto. }
      apply G; auto.
Qed.

Lemma zapplyResets_seq rs m n : dim m = S n -> canonicalZ m -> nonemptyZ m -> rwf (S n) rs ->
  let m' := zapplyResets m rs in
  dim m' = S n /\ canonicalZ m' /\ nonemptyZ m' /\
  (forall w, inZone m w -> inZone m' (seqApply w rs)) /\
  (forall w', inZone m' w' -> exists w, inZone m w /\ agree n w' (seqApply w rs)).
Proof.
  intros D Hc Hn Hr.
  destruct (fold_zrename_exact rs m n D Hc Hn Hr) as (D1 & C1 & N1 & F1 & B1).
  destruct (fold_zassign_exact rs _ n D1 C1 N1 Hr) as (D2 & C2 & N2 & F2 & B2).
  unfold zapplyResets, seqApply. cbv zeta. split; [auto|]. split; [auto|]. split; [auto|]. split.
  - intros w Hw. apply F2, F1, Hw.
  - intros w' Hw'. destruct (B2 w' Hw') as [w1 [Hw1 E1]]. destruct (B1 w1 Hw1) as [w [Hw E]].
    exists w. split; auto. intros z Hz. rewrite (E1 z Hz).
    assert (G : forall rs u u', (forall z, (z < n)%nat -> u z == u' z) ->
              forall z, (z < n)%nat -> fold_left seqAssign rs u z == fold_left seqAssign rs u' z).
    { clear. induction rs as [|r rs IH]; intros u u' H z Hz; cbn [fold_left]; auto.
      apply IH; auto. intros z' Hz'. apply (seqAssign_ext r u u' n); auto. }
    apply G; auto.
Qed.
