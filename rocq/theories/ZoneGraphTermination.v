(** The construction of the zone automaton ends. *)
From Coq Require Import QArith ZArith Bool List Lqa Lia Arith Qround.
From Verif Require Import BoundsModel BoundsProofs ConstraintModel GuardSpec ConstraintProofs ZoneModel ZoneSpec ZoneProofs ZoneProofs2 ZoneProofs3
  AutomatonModel AutomatonSpec AutomatonProofs TimedWordModel TimedWordSpec ZoneGraphModel ZoneGraphSpec ZoneGraphProofs AlmostFull.
Import ListNotations.
Open Scope Q_scope.

(** ** bounds on a grid *)
Definition onGrid (D : Z) (q : Q) : Prop := exists z, q * inject_Z D == inject_Z z.
Definition gridB (D : Z) (b : bound) : Prop := match b with Fin q _ => onGrid D q | Inf => True end.
Definition gridM (D : Z) (m : matrix) : Prop := forall i j, gridB D (get m i j).

Lemma grid_add D p q : onGrid D p -> onGrid D q -> onGrid D (p + q).
Proof. intros [a Ha] [b Hb]. exists (a + b)%Z. rewrite inject_Z_plus. lra. Qed.
Lemma grid_opp D p : onGrid D p -> onGrid D (- p).
Proof. intros [a Ha]. exists (- a)%Z. rewrite inject_Z_opp. lra. Qed.
Lemma grid_Z D z : onGrid D (inject_Z z).
Proof. exists (z * D)%Z. rewrite inject_Z_mult. reflexivity. Qed.
Lemma grid_0 D : onGrid D 0. Proof. apply (grid_Z D 0). Qed.
Lemma grid_times D E q : onGrid D q -> onGrid (D * E) q.
Proof. intros [a Ha]. exists (a * E)%Z. rewrite !inject_Z_mult, Qmult_assoc, Ha. reflexivity. Qed.
Lemma grid_times_l D E q : onGrid D q -> onGrid (E * D) q.
Proof. intro H. rewrite Z.mul_comm. apply grid_times. auto. Qed.
Lemma grid_own q : onGrid (Zpos (Qden q)) q.
Proof. exists (Qnum q). destruct q as [a b]. unfold Qeq, inject_Z. cbn. lia. Qed.
Lemma gridB_add D a b : gridB D a -> gridB D b -> gridB D (badd a b).
Proof.
  destruct a, b; cbn [badd gridB]; auto. intros A B. destruct (grid_add _ _ _ A B) as [z Hz]. exists z. rewrite Qred_correct. exact Hz.
Qed.
Lemma gridB_min D a b : gridB D a -> gridB D b -> gridB D (bmin a b).
Proof. intros. apply bmin_case; auto. Qed.
Lemma get_mk_out n f i j : (~ (i < n)%nat \/ ~ (j < n)%nat) -> get (mk n f) i j = Inf.
Proof.
  intros H. unfold get, mk. destruct (Nat.lt_ge_cases i n) as [L|L].
  - destruct H as [H|H]; [lia|]. rewrite (nth_indep _ [] (map (f 0%nat) (seq 0 n))) by (rewrite map_length, seq_length; auto).
    rewrite (map_nth (fun i => map (f i) (seq 0 n)) (seq 0 n) 0%nat i). apply nth_overflow. rewrite map_length, seq_length. lia.
  - rewrite (nth_overflow (map _ _) []) by (rewrite map_length, seq_length; lia). destruct j; reflexivity.
Qed.
Lemma gridM_mk D n f : (forall i j, gridB D (f i j)) -> gridM D (mk n f).
Proof.
  intros H i j. destruct (Nat.lt_ge_cases i n); [destruct (Nat.lt_ge_cases j n)|].
  - rewrite get_mk; auto.
  - rewrite get_mk_out; [exact I|right; lia].
  - rewrite get_mk_out; [exact I|left; lia].
Qed.
Lemma gridB_bz D : gridB D bz. Proof. apply grid_0. Qed.
Lemma gridM_set1 D m x y b : gridM D m -> gridB D b -> gridM D (set1 m x y b).
Proof. intros H K. apply gridM_mk. intros i j. destruct (_ && _); auto. Qed.
Lemma gridM_closeRow D x m i : gridM D m -> gridM D (closeRow x m i).
Proof. intros H. apply gridM_mk. intros a j. destruct (_ =? _)%nat; auto. apply gridB_min; auto. apply gridB_add; auto. Qed.
Lemma fold_keeps {B} (P : matrix -> Prop) (f : matrix -> B -> matrix) l : (forall m b, In b l -> P m -> P (f m b)) -> forall m, P m -> P (fold_left f l m).
Proof. induction l as [|b l IH]; intros H m Hm; cbn [fold_left]; [auto|]. apply IH; [intros; apply H; [right; auto|auto]|]. apply H; [left; auto|auto]. Qed.
Lemma gridM_close1 D m x : gridM D m -> gridM D (close1 m x).
Proof. intro H. apply (fold_keeps (gridM D)); auto. intros; apply gridM_closeRow; auto. Qed.
Lemma gridM_canonize D m : gridM D m -> gridM D (canonize m).
Proof. intro H. apply (fold_keeps (gridM D)); auto. intros; apply gridM_close1; auto. Qed.
Lemma gridM_tighten D m x y c : gridM D m -> gridB D c -> gridM D (tighten m x y c).
Proof. intros H K. unfold tighten. apply gridM_close1, gridM_close1, gridM_set1; auto. apply gridB_min; auto. Qed.
Lemma gridM_tightenG D g m : gridM D m -> gridM D (tightenG m g).
Proof.
  apply (fold_keeps (gridM D)). intros m0 k _ H. unfold tightenC. destruct (codr k); apply gridM_tighten; auto; cbn [gridB]; try apply grid_opp; apply grid_Z.
Qed.
Lemma gridM_unconstrain D m x : gridM D m -> gridM D (unconstrain m x).
Proof. intros H. apply gridM_mk. intros i j. destruct (_ || _); [exact I|auto]. Qed.
Lemma gridM_applyResets D m rs : gridM D m -> (forall x q, In (x, RConst q) rs -> onGrid D q) -> gridM D (zapplyResets m rs).
Proof.
  intros H K. unfold zapplyResets. apply (fold_keeps (gridM D)).
  - intros m0 [x [q|y]] I H0; cbn [zassign]; auto. apply gridM_canonize, gridM_set1; [apply gridM_set1; [apply gridM_unconstrain; auto|]|]; cbn [gridB]; [apply grid_opp|]; eapply K; eauto.
  - apply (fold_keeps (gridM D)); auto. intros m0 [x [q|y]] I H0; cbn [zrename]; auto. destruct (_ =? _)%nat; auto.
    apply gridM_canonize, gridM_set1; [apply gridM_set1; [apply gridM_unconstrain; auto|]|]; apply gridB_bz.
Qed.
Lemma gridM_elapse D m : gridM D m -> gridM D (elapse m).
Proof. intros H. apply gridM_mk. intros i j. destruct (_ =? _)%nat; [exact I|auto]. Qed.
Lemma gridM_zeroDiag D m : gridM D m -> gridM D (zeroDiag m).
Proof. intros H. apply gridM_mk. intros i j. destruct (_ =? _)%nat; [apply gridB_bz|auto]. Qed.
Lemma gridM_extrapolate D mc m : (forall i, onGrid D (nth i mc 0)) -> gridM D m -> gridM D (extrapolate mc m).
Proof.
  intros HM. apply (fold_keeps (gridM D)). intros m0 i _ H. unfold extraOuter. apply (fold_keeps (gridM D)).
  - intros m1 j _ H1. unfold extraInner. destruct (_ || _ || _); auto. apply gridM_set1; cbn; auto.
  - destruct (bfst_gt _ _); destruct (bfst_neg_gt _ _); repeat apply gridM_set1; auto; cbn; auto; apply grid_opp; auto.
Qed.

(** ** capped entries *)
Definition capB (K : Q) (b : bound) : Prop := match b with Fin q _ => q <= K | Inf => True end.
Definition capM (K : Q) (m : matrix) : Prop := forall i j, capB K (get m i j).
Lemma capB_mono K L b : K <= L -> capB K b -> capB L b.
Proof. destruct b; cbn; auto. intros. lra. Qed.
Lemma capM_mk K n f : (forall i j, (i < n)%nat -> (j < n)%nat -> capB K (f i j)) -> capM K (mk n f).
Proof.
  intros H i j. destruct (Nat.lt_ge_cases i n); [destruct (Nat.lt_ge_cases j n)|].
  - rewrite get_mk; auto.
  - rewrite get_mk_out; [exact I|right; lia].
  - rewrite get_mk_out; [exact I|left; lia].
Qed.
Lemma capM_closeRow K x m i : 0 <= K -> capM K m -> capM (2 * K) (closeRow x m i).
Proof.
  intros HK H. apply capM_mk. intros a j _ _. destruct (_ =? _)%nat; [|apply (capB_mono K); [lra|auto]].
  apply bmin_case; [apply (capB_mono K); [lra|auto]|]. assert (H1 := H x j). assert (H2 := H i x). destruct (get m x j), (get m i x); cbn [badd capB] in *; auto. qred. lra.
Qed.
Fixpoint dbl (n : nat) (K : Q) : Q := match n with O => K | S m => dbl m (2 * K) end.
Lemma dbl_nonneg n : forall K, 0 <= K -> 0 <= dbl n K /\ K <= dbl n K.
Proof. induction n as [|n IH]; intros K H; cbn [dbl]; [lra|]. destruct (IH (2 * K)); lra. Qed.
Lemma capM_close1 K m x : 0 <= K -> capM K m -> capM (dbl (dim m) K) (close1 m x).
Proof.
  unfold close1. assert (G : forall l K m, 0 <= K -> capM K m -> capM (dbl (length l) K) (fold_left (closeRow x) l m)).
  { induction l as [|i l IH]; intros K0 m0 HK H; cbn [fold_left length dbl]; [auto|]. apply IH; [lra|]. apply capM_closeRow; auto. }
  intros HK H. specialize (G (seq 0 (dim m)) K m HK H). rewrite seq_length in G. exact G.
Qed.
Fixpoint dbls (d n : nat) (K : Q) : Q := match n with O => K | S m => dbls d m (dbl d K) end.
Lemma dbls_nonneg d n : forall K, 0 <= K -> 0 <= dbls d n K /\ K <= dbls d n K.
Proof. induction n as [|n IH]; intros K H; cbn [dbls]; [lra|]. destruct (dbl_nonneg d K H). destruct (IH (dbl d K)); lra. Qed.
Lemma capM_canonize K m : 0 <= K -> capM K m -> capM (dbls (dim m) (dim m) K) (canonize m).
Proof.
  unfold canonize. assert (G : forall l d K m, dim m = d -> 0 <= K -> capM K m -> capM (dbls d (length l) K) (fold_left close1 l m)).
  { induction l as [|i l IH]; intros d K0 m0 E HK H; cbn [fold_left length dbls]; [auto|]. apply IH; [rewrite dim_close1; auto|apply dbl_nonneg; auto|]. subst d. apply capM_close1; auto. }
  intros HK H. specialize (G (seq 0 (dim m)) (dim m) K m eq_refl HK H). rewrite seq_length in G. exact G.
Qed.
Lemma capM_zeroDiag K m : 0 <= K -> capM K m -> capM K (zeroDiag m).
Proof. intros HK H. apply capM_mk. intros i j _ _. destruct (_ =? _)%nat; [exact HK|auto]. Qed.

(** ** what extrapolation does *)
Definition row0 (C : Q) (n : nat) (m : matrix) : Prop := forall j, (j < n)%nat -> ble (get m 0 (S j)) (Fin C true) = true.
Definition capRow (mc : list Q) (n i : nat) (m : matrix) : Prop := forall j, (j <= n)%nat -> capB (nth i mc 0) (get m (S i) j).
Definition capEnt (mc : list Q) (i j : nat) (m : matrix) : Prop := capB (nth i mc 0) (get m (S i) j).

Lemma fold_each (P : nat -> matrix -> Prop) (f : matrix -> nat -> matrix) (OK : matrix -> Prop) :
  (forall m b, OK m -> OK (f m b)) -> forall l m,
  (forall m b, OK m -> In b l -> P b (f m b)) -> (forall m a b, OK m -> P a m -> P a (f m b)) -> OK m -> forall b, In b l -> P b (fold_left f l m).
Proof.
  intros HO. induction l as [|c l IH]; intros m HE HK OM b I; [destruct I|]. cbn [fold_left].
  destruct (in_dec Nat.eq_dec b l) as [J|J]; [apply IH; auto; intros; apply HE; auto; right; auto|].
  destruct I as [->|I]; [|contradiction].
  assert (G : forall l m, OK m -> P b m -> P b (fold_left f l m)).
  { induction l0 as [|c l0 IH0]; intros m0 O0 H0; cbn [fold_left]; [auto|]. apply IH0; auto. }
  apply G; auto. apply HE; auto. left; auto.
Qed.
Lemma bfst_gt_false b c : bfst_gt b c = false -> capB c b.
Proof. destruct b; cbn; [|discriminate]. apply Qltb_false. Qed.
Lemma cap_set1_Inf K m x y i j : capB K (get m i j) -> capB K (get (set1 m x y Inf) i j).
Proof.
  intro H. unfold set1. destruct (Nat.lt_ge_cases i (dim m)); [destruct (Nat.lt_ge_cases j (dim m))|].
  - rewrite get_mk by auto. destruct (_ && _); [exact I|auto].
  - rewrite get_mk_out; [exact I|right; lia].
  - rewrite get_mk_out; [exact I|left; lia].
Qed.
Lemma cap_set1_Inf_here K m x y : capB K (get (set1 m x y Inf) x y).
Proof.
  unfold set1. destruct (Nat.lt_ge_cases x (dim m)); [destruct (Nat.lt_ge_cases y (dim m))|].
  - rewrite get_mk by auto. rewrite !Nat.eqb_refl. exact I.
  - rewrite get_mk_out; [exact I|right; lia].
  - rewrite get_mk_out; [exact I|left; lia].
Qed.
Lemma cap_set1_row0 K m y b i j : capB K (get m (S i) j) -> capB K (get (set1 m 0 y b) (S i) j).
Proof.
  intro H. unfold set1. destruct (Nat.lt_ge_cases (S i) (dim m)); [destruct (Nat.lt_ge_cases j (dim m))|].
  - rewrite get_mk by auto. cbn [Nat.eqb andb]. auto.
  - rewrite get_mk_out; [exact I|right; lia].
  - rewrite get_mk_out; [exact I|left; lia].
Qed.
Lemma inner_keeps mc i a j m b : capEnt mc a j m -> capEnt mc a j (extraInner mc i m b).
Proof. unfold capEnt, extraInner. intro H. destruct (_ || _ || _); auto. apply cap_set1_Inf. auto. Qed.
Lemma inners_keep mc i a j l : forall m, capEnt mc a j m -> capEnt mc a j (fold_left (extraInner mc i) l m).
Proof. apply (fold_keeps (capEnt mc a j)). intros; apply inner_keeps; auto. Qed.
Lemma outer_keeps mc i a j m : capEnt mc a j m -> capEnt mc a j (extraOuter mc m i).
Proof.
  intro H. unfold extraOuter. apply inners_keep. unfold capEnt in *.
  destruct (bfst_gt _ _); destruct (bfst_neg_gt _ _); try apply cap_set1_row0; try apply cap_set1_Inf; auto.
Qed.
Lemma outer_caps mc i m : capRow mc (length mc) i (extraOuter mc m i).
Proof.
  intros j Hj. unfold extraOuter. cbv zeta. set (m1 := if bfst_gt _ _ then _ else m). set (m2 := if bfst_neg_gt _ _ then _ else m1).
  destruct j as [|j].
  - apply (inners_keep mc i i 0). unfold capEnt.
    assert (H1 : capB (nth i mc 0) (get m1 (S i) 0)).
    { unfold m1. destruct (bfst_gt (get m (S i) 0) (nth i mc 0)) eqn:E; [apply cap_set1_Inf_here|apply bfst_gt_false; auto]. }
    unfold m2. destruct (bfst_neg_gt _ _); auto. apply cap_set1_row0. auto.
  - apply (fold_each (fun j m => capEnt mc i (S j) m) (extraInner mc i) (fun _ => True)); auto.
    + intros m0 b _ _. unfold capEnt, extraInner. destruct (_ || _ || _) eqn:E; [apply cap_set1_Inf_here|].
      apply orb_false_iff in E. destruct E as [E _]. apply orb_false_iff in E. destruct E as [E _]. apply bfst_gt_false. auto.
    + intros m0 a b _ H. apply inner_keeps. auto.
    + apply in_seq. lia.
Qed.
Lemma extrapolate_caps mc m i j : (i < length mc)%nat -> (j <= length mc)%nat -> capB (nth i mc 0) (get (extrapolate mc m) (S i) j).
Proof.
  intros Hi Hj. unfold extrapolate.
  refine (fold_each (fun i m => capRow mc (length mc) i m) (extraOuter mc) (fun _ => True) (fun _ _ _ => I) (seq 0 (length mc)) m _ _ I i _ j Hj).
  - intros m0 b _ _. apply outer_caps.
  - intros m0 a b _ H j0 H0. apply outer_keeps. apply H. auto.
  - apply in_seq. lia.
Qed.
Lemma row0_set1 C n m x y b : row0 C n m -> (n < dim m)%nat -> (x = 0%nat -> ble b (Fin C true) = true) -> row0 C n (set1 m x y b).
Proof.
  intros H L K j Hj. rewrite get_set1 by lia. destruct (0 =? x)%nat eqn:E; cbn [andb]; [|auto]. apply Nat.eqb_eq in E. destruct (_ =? _)%nat; auto.
Qed.
Lemma extrapolate_row0 C n mc m : (forall i, - nth i mc 0 <= C) -> dim m = S n -> row0 C n m -> row0 C n (extrapolate mc m).
Proof.
  intros HM D H. unfold extrapolate.
  apply (fold_keeps (fun m => dim m = S n /\ row0 C n m)); [|auto]. intros m0 i _ [D0 H0]. split; [rewrite <- (proj1 (extraOuter_mle mc m0 i)); auto|].
  unfold extraOuter. cbv zeta. set (m1 := if bfst_gt _ _ then _ else m0). set (m2 := if bfst_neg_gt _ _ then _ else m1).
  assert (H1 : dim m1 = S n /\ row0 C n m1).
  { unfold m1. destruct (bfst_gt _ _); [|auto]. split; [rewrite dim_set1; auto|]. apply row0_set1; [auto|lia|intros; lia]. }
  assert (H2 : dim m2 = S n /\ row0 C n m2).
  { unfold m2. destruct (bfst_neg_gt _ _); [|auto]. destruct H1. split; [rewrite dim_set1; auto|]. apply row0_set1; [auto|lia|intros _]. cbn [ble].
    specialize (HM i). destruct (Qltb _ _) eqn:E; auto. apply Qltb_false in E. destruct (Qeq_bool _ _) eqn:E2; auto. apply Qeqb_false in E2. exfalso; apply E2; lra. }
  apply (fold_keeps (fun m => dim m = S n /\ row0 C n m)); [|auto]. intros m3 j _ [D3 H3]. split; [rewrite <- (proj1 (extraInner_mle mc i m3 j)); auto|].
  unfold extraInner. destruct (_ || _ || _); [|auto]. apply row0_set1; [auto|lia|intros; lia].
Qed.
Lemma set1_00 m x y b : (0 < dim m)%nat -> (x <> 0 \/ y <> 0)%nat -> get (set1 m x y b) 0 0 = get m 0 0.
Proof. intros L H. rewrite get_set1 by auto. destruct x; [destruct y; [lia|reflexivity]|reflexivity]. Qed.
Lemma extrapolate_00 n mc m : dim m = S n -> get (extrapolate mc m) 0 0 = get m 0 0.
Proof.
  intro D. unfold extrapolate. apply (fold_keeps (fun m' => dim m' = S n /\ get m' 0 0 = get m 0 0)); [|auto]. intros m0 i _ [D0 H0]. split; [rewrite <- (proj1 (extraOuter_mle mc m0 i)); auto|].
  unfold extraOuter. cbv zeta. set (m1 := if bfst_gt _ _ then _ else m0). set (m2 := if bfst_neg_gt _ _ then _ else m1).
  assert (H1 : dim m1 = S n /\ get m1 0 0 = get m 0 0).
  { unfold m1. destruct (bfst_gt _ _); [|auto]. split; [rewrite dim_set1; auto|]. rewrite set1_00 by lia. auto. }
  assert (H2 : dim m2 = S n /\ get m2 0 0 = get m 0 0).
  { unfold m2. destruct (bfst_neg_gt _ _); [|auto]. destruct H1. split; [rewrite dim_set1; auto|]. rewrite set1_00 by lia. auto. }
  apply (fold_keeps (fun m' => dim m' = S n /\ get m' 0 0 = get m 0 0)); [|auto]. intros m3 j _ [D3 H3]. split; [rewrite <- (proj1 (extraInner_mle mc i m3 j)); auto|].
  unfold extraInner. destruct (_ || _ || _); [|auto]. rewrite set1_00 by lia. auto.
Qed.
Lemma extrapolate_out mc m N : (forall i j, (N <= j)%nat -> get m i j = Inf) -> dim m = N -> forall i j, (N <= j)%nat -> get (extrapolate mc m) i j = Inf.
Proof.
  intros H D. set (P := fun m' => dim m' = N /\ forall i j, (N <= j)%nat -> get m' i j = Inf).
  assert (S1 : forall m' x y b, P m' -> P (set1 m' x y b)).
  { intros m' x y b [D' H']. split; [rewrite dim_set1; auto|]. intros i j Hj. unfold set1. apply get_mk_out. right. lia. }
  assert (G : P (extrapolate mc m)); [|apply G]. unfold extrapolate. apply (fold_keeps P); [|split; auto]. intros m0 i _ H0.
  unfold extraOuter. apply (fold_keeps P).
  - intros m1 j _ H1. unfold extraInner. destruct (_ || _ || _); auto.
  - destruct (bfst_gt _ _); destruct (bfst_neg_gt _ _); auto.
Qed.
Lemma row0_mle C n a b : dim a = S n -> mle a b -> row0 C n b -> row0 C n a.
Proof. intros D [E M] H j Hj. eapply ble_trans; [apply M; lia|auto]. Qed.
Lemma row0_zeroDiag C n m : dim m = S n -> row0 C n m -> row0 C n (zeroDiag m).
Proof. intros D H j Hj. unfold zeroDiag. rewrite get_mk by lia. cbn [Nat.eqb]. auto. Qed.

(** ** values after the resets *)
Lemma seqApply_lower C n rs w : rwf (S n) rs -> (forall x q, In (x, RConst q) rs -> - q <= C) ->
  (forall y, (y < n)%nat -> - w y <= C) -> forall y, (y < n)%nat -> - seqApply w rs y <= C.
Proof.
  intros RW HC. unfold seqApply.
  assert (G1 : forall l w, incl l rs -> (forall y, (y < n)%nat -> - w y <= C) -> forall y, (y < n)%nat -> - fold_left seqRename l w y <= C).
  { induction l as [|[x r] l IH]; intros w0 IC H; cbn [fold_left]; [auto|]. apply IH; [intros a Ha; apply IC; right; auto|].
    intros y Hy. destruct r as [q|z]; cbn [seqRename]; auto. unfold upd. destruct (_ =? _)%nat; auto. apply H.
    destruct (RW x (RVar z) (IC _ (or_introl eq_refl))) as [_ K]. cbn in K. lia. }
  assert (G2 : forall l w, incl l rs -> (forall y, (y < n)%nat -> - w y <= C) -> forall y, (y < n)%nat -> - fold_left seqAssign l w y <= C).
  { induction l as [|[x r] l IH]; intros w0 IC H; cbn [fold_left]; [auto|]. apply IH; [intros a Ha; apply IC; right; auto|].
    intros y Hy. destruct r as [q|z]; cbn [seqAssign]; auto. unfold upd. destruct (_ =? _)%nat; auto. apply (HC x). apply IC. left; auto. }
  intros H. apply G2; [apply incl_refl|]. apply G1; [apply incl_refl|auto].
Qed.
Lemma zgPost_keeps C D n now t z : dim now = S n -> rwf (S n) (trst t) -> gclocks (S n) (tgrd t) ->
  (forall x q, In (x, RConst q) (trst t) -> - q <= C /\ onGrid D q) -> gridM D now -> row0 C n now ->
  zgPost now t = Some z -> dim z = S n /\ closed z /\ nonneg2 z /\ gridM D z /\ row0 C n z /\ (forall i, (i < S n)%nat -> get z i i = bz) /\ (forall i j, (S n <= j)%nat -> get z i j = Inf).
Proof.
  intros Dn RW GC HC G R H. unfold zgPost in H. cbv zeta in H.
  destruct (isSatNoCanon (canonize (tightenG now (tgrd t)))) eqn:E1; [|discriminate].
  apply nonneg2_canonize_sat in E1.
  assert (C1 := canonical_of_nonempty_canonize _ E1).
  assert (N1 : nonemptyZ (canonize (tightenG now (tgrd t)))) by (destruct E1 as [w Hw]; exists w; apply canonize_inZone; auto).
  assert (D1 : dim (canonize (tightenG now (tgrd t))) = S n) by (rewrite dim_canonize, dim_tightenG; auto).
  assert (G1 : gridM D (canonize (tightenG now (tgrd t)))) by (apply gridM_canonize, gridM_tightenG; auto).
  assert (R1 : row0 C n (canonize (tightenG now (tgrd t)))).
  { apply (row0_mle C n _ now); auto. eapply mle_trans; [apply canonize_mle|]. apply tightenG_mle. rewrite Dn. auto. }
  set (z1 := canonize (tightenG now (tgrd t))) in *.
  destruct (zapplyResets_seq (trst t) z1 n D1 C1 N1 RW) as (D2 & C2 & N2 & _ & B2).
  assert (G2 : gridM D (zapplyResets z1 (trst t))) by (apply gridM_applyResets; auto; intros x q I; apply (HC x q I)).
  set (z2 := zapplyResets z1 (trst t)) in *.
  destruct (isSatNoCanon (canonize (canonize z2))) eqn:E2; [|discriminate]. injection H as <-.
  assert (R2 : row0 C n z2).
  { intros j Hj. destruct C2 as [C2 C2']. apply (closed_tight z2 C2 C2'); [lia|lia|lia|]. intros w' Hw'. destruct (B2 w' Hw') as [w [Hw E]].
    cbn [ext bsat]. rewrite (E j Hj). assert (X := seqApply_lower C n (trst t) w RW (fun x q I => proj1 (HC x q I))). enough (- seqApply w (trst t) j <= C) by lra.
    apply X; auto. intros y Hy. assert (Y := Hw 0%nat (S y) ltac:(lia) ltac:(lia)). assert (Y2 := ble_sat_1 _ _ (R1 y Hy) _ Y). cbn [ext bsat] in Y2. lra. }
  assert (N3 : nonemptyZ (canonize z2)) by (destruct N2 as [w Hw]; exists w; apply canonize_inZone; auto).
  destruct (canonical_of_nonempty_canonize _ N3) as [C3 C3'].
  split; [rewrite dim_zeroDiag, !dim_canonize; auto|]. split; [apply zeroDiag_closed; auto|]. split; [|split; [|split; [|split]]].
  - destruct (closed_sat _ C3 C3') as [w Hw]. apply (nonneg2_of_point _ (ext w)). apply (zeroDiag_exact _ w C3'). auto.
  - apply gridM_zeroDiag, gridM_canonize, gridM_canonize. auto.
  - apply row0_zeroDiag; [rewrite !dim_canonize; auto|]. apply (row0_mle C n _ z2); [rewrite !dim_canonize; auto| |auto]. eapply mle_trans; apply canonize_mle.
  - intros i Hi. unfold zeroDiag. rewrite get_mk by (rewrite !dim_canonize; lia). rewrite Nat.eqb_refl. reflexivity.
  - intros i j Hj. unfold zeroDiag. apply get_mk_out. rewrite !dim_canonize. right. lia.
Qed.

(** ** numbering bounds *)
Definition bcode (C : Q) (D : Z) (b : bound) : nat :=
  match b with Inf => 0%nat | Fin q s => S (2 * Z.to_nat (Qfloor ((C - q) * inject_Z D)) + if s then 0 else 1)%nat end.
Lemma bcode_le C D a b : (0 < D)%Z -> onGrid D C -> gridB D a -> gridB D b -> capB C a -> capB C b -> (bcode C D a <= bcode C D b)%nat -> ble b a = true.
Proof.
  intros HD GC Ga Gb Ca Cb H. destruct a as [p s|]; [|apply ble_Inf]. destruct b as [q t|]; [|cbn in H; lia].
  cbn [gridB capB] in *. assert (X1 : onGrid D (C - p)) by (apply grid_add; auto; apply grid_opp; auto). assert (X2 : onGrid D (C - q)) by (apply grid_add; auto; apply grid_opp; auto).
  destruct X1 as [z1 X1]. destruct X2 as [z2 X2]. cbn [bcode] in H. rewrite (Qfloor_comp _ _ X1), (Qfloor_comp _ _ X2), !Qfloor_Z in H.
  assert (PD : 0 < inject_Z D) by (change 0 with (inject_Z 0); rewrite <- Zlt_Qlt; auto).
  assert (P1 : (0 <= z1)%Z) by (rewrite Zle_Qle, <- X1; apply Qmult_le_0_compat; lra).
  assert (P2 : (0 <= z2)%Z) by (rewrite Zle_Qle, <- X2; apply Qmult_le_0_compat; lra).
  assert (CASE : (z1 < z2)%Z \/ (z1 = z2 /\ (s = true \/ t = false))) by (destruct s, t; lia).
  cbn [ble]. destruct CASE as [L|[-> ST]].
  - assert (q < p) as Y. { rewrite Zlt_Qlt, <- X1, <- X2 in L. apply Qmult_lt_r in L; auto. lra. }
    apply Qltb_true in Y. rewrite Y. reflexivity.
  - assert (q == p) as Y. { rewrite <- X1 in X2. apply Qmult_inj_r in X2; lra. }
    destruct (Qltb q p) eqn:E; auto. rewrite (proj2 (Qeqb_true q p) Y). destruct ST as [->| ->]; destruct t || destruct s; reflexivity.
Qed.

(** ** the parameters of an automaton *)
Definition allTrans (A : ta) : list trans := flat_map (fun p => flat_map snd (snext (snd p))) (tstates A).
Lemma edge_allTrans A l a t : edge A l a t -> In t (allTrans A).
Proof.
  intros (s & ts & H1 & H2 & H3). unfold allTrans. apply in_flat_map. exists (l, s). split; [auto|]. apply in_flat_map. exists (a, ts). auto.
Qed.
Definition constsOf (rs : resets) : list Q := flat_map (fun r => match snd r with RConst q => [q] | _ => [] end) rs.
Lemma constsOf_in rs x q : In (x, RConst q) rs -> In q (constsOf rs).
Proof. intro H. apply in_flat_map. eexists. split; [exact H|]. left. reflexivity. Qed.
Lemma common_grid l : exists D, (0 < D)%Z /\ forall q, In q l -> onGrid D q.
Proof.
  induction l as [|q l [D [HD H]]]; [exists 1%Z; split; [lia|intros q []]|]. exists (Zpos (Qden q) * D)%Z. split; [lia|].
  intros p [<-|I]; [apply grid_times, grid_own|apply grid_times_l; auto].
Qed.
Lemma common_bound l : exists C : Z, (0 <= C)%Z /\ forall q, In q l -> q <= inject_Z C /\ - q <= inject_Z C.
Proof.
  induction l as [|q l [C [HC H]]]; [exists 0%Z; split; [lia|intros q []]|]. exists (Z.max C (Z.max (Qceiling q) (Qceiling (- q)))). split; [lia|].
  intros p [<-|I].
  - assert (X := Qle_ceiling q). assert (Y := Qle_ceiling (- q)). assert (X1 : inject_Z (Qceiling q) <= inject_Z (Z.max C (Z.max (Qceiling q) (Qceiling (- q))))) by (rewrite <- Zle_Qle; lia).
    assert (Y1 : inject_Z (Qceiling (- q)) <= inject_Z (Z.max C (Z.max (Qceiling q) (Qceiling (- q))))) by (rewrite <- Zle_Qle; lia). lra.
  - destruct (H p I). assert (X1 : inject_Z C <= inject_Z (Z.max C (Z.max (Qceiling q) (Qceiling (- q))))) by (rewrite <- Zle_Qle; lia). lra.
Qed.

Section Termination.
  Variables (quick : bool) (pick : picker) (A : ta).
  Hypothesis (PK : picks pick) (CB : clocksBelow (length (tmax A)) A).
  Notation n := (length (tmax A)).
  Variables (D C : Z).
  Hypothesis (HD : (0 < D)%Z) (HC : (0 <= C)%Z).
  Hypothesis (HR : forall l a t x q, edge A l a t -> In (x, RConst q) (trst t) -> - q <= inject_Z C /\ onGrid D q).
  Hypothesis (HM : forall i, nth i (zgMc A) 0 <= inject_Z C /\ - nth i (zgMc A) 0 <= inject_Z C).
  Let Cq := inject_Z C.
  Let K := inject_Z (Qceiling (dbls (S n) (S n) Cq)).
  Let locs := tinit A ++ map ttgt (allTrans A).

  Lemma Cq0 : 0 <= Cq. Proof. unfold Cq. change 0 with (inject_Z 0). rewrite <- Zle_Qle. auto. Qed.
  Lemma KC : Cq <= K /\ dbls (S n) (S n) Cq <= K /\ 0 <= K.
  Proof. assert (X := Qle_ceiling (dbls (S n) (S n) Cq)). fold K in X. destruct (dbls_nonneg (S n) (S n) Cq Cq0). lra. Qed.
  Lemma mc_int i : onGrid D (nth i (zgMc A) 0).
  Proof.
    unfold zgMc. destruct (Nat.lt_ge_cases i n) as [L|L].
    - rewrite (nth_indep _ 0 (inject_Z 0)) by (rewrite map_length; auto). rewrite map_nth. apply grid_Z.
    - rewrite nth_overflow by (rewrite map_length; auto). apply grid_0.
  Qed.

  Definition okN (nd : zn) : Prop :=
    In (znLoc nd) locs /\ dim (znZone nd) = S n /\ gridM D (znZone nd) /\ row0 Cq n (znZone nd) /\ capM K (znZone nd).
  Definition measures : list (zn -> nat) :=
    map (fun l nd => if (znLoc nd =? l)%nat then 1%nat else 0%nat) locs ++
    flat_map (fun i => map (fun j nd => bcode K D (get (znZone nd) i j)) (seq 0 (S n))) (seq 0 (S n)).
  Lemma measures_spec a b : okN a -> okN b -> allLe measures a b -> znLoc a = znLoc b /\ zincludes (znZone a) (znZone b) = true.
  Proof.
    intros (L1 & D1 & G1 & _ & C1) (L2 & D2 & G2 & _ & C2) H. split.
    - specialize (H (fun nd => if (znLoc nd =? znLoc a)%nat then 1%nat else 0%nat)). cbv beta in H. rewrite Nat.eqb_refl in H.
      destruct (znLoc b =? znLoc a)%nat eqn:E; [apply Nat.eqb_eq in E; auto|]. exfalso. cut (1 <= 0)%nat; [lia|]. apply H. unfold measures. apply in_or_app. left. apply in_map_iff. exists (znLoc a). auto.
    - apply zincludes_spec. rewrite D1. intros i j Hi Hj. apply (bcode_le K D); auto; [apply grid_Z|].
      apply (H (fun nd => bcode K D (get (znZone nd) i j))). unfold measures. apply in_or_app. right. apply in_flat_map. exists i. split; [apply in_seq; lia|].
      apply in_map_iff. exists j. split; [reflexivity|apply in_seq; lia].
  Qed.

  Lemma edge_rw l c t : edge A l c t -> rwf (S n) (trst t) /\ gclocks (S n) (tgrd t).
  Proof.
    intro E. destruct (CB l c t E) as [G R]. split.
    - intros x r H. destruct (R x r H) as [H1 H2]. split; [lia|]. destruct r; cbn; auto. specialize (H2 y eq_refl). lia.
    - intros k H. specialize (G k H). lia.
  Qed.
  (** the node made from a successor zone *)
  Lemma zgAbs_okN nd c t z m : okN nd -> edge A (znLoc nd) c t -> zgPost (elapse (znZone nd)) t = Some z ->
    okN (mkZN (ttgt t) m (zgAbs quick A z)) /\
    forall Z, zincludes Z (zgAbs quick A z) = true -> dim Z = S n -> zincludes Z (if quick then z else zeroDiag (extrapolate (zgMc A) z)) = true.
  Proof.
    intros (L1 & D1 & G1 & R1 & C1) E H. destruct (edge_rw _ _ _ E) as [RW GC].
    assert (DE : dim (elapse (znZone nd)) = S n) by (unfold elapse; rewrite dim_mk; auto).
    destruct (zgPost_keeps Cq D n (elapse (znZone nd)) t z DE RW GC (fun x q I => HR _ _ _ x q E I) (gridM_elapse D _ G1)) as (D2 & C2 & N2 & G2 & R2 & Z2 & O2); auto.
    { intros j Hj. unfold elapse. rewrite get_mk by lia. cbn [Nat.eqb]. auto. }
    set (e := extrapolate (zgMc A) z).
    assert (De : dim e = S n) by (unfold e; rewrite dim_extrapolate; auto).
    assert (Ge : gridM D e) by (apply gridM_extrapolate; auto; apply mc_int).
    assert (Re : row0 Cq n e) by (apply extrapolate_row0; auto; intro i; apply HM).
    assert (X0 := Cq0). assert (XK := KC).
    assert (Ce : capM Cq e).
    { intros i j. destruct (Nat.lt_ge_cases i (S n)) as [Hi|Hi]; [|unfold get; rewrite (nth_overflow e) by (unfold dim in De; lia); destruct j; exact I].
      destruct (Nat.lt_ge_cases j (S n)) as [Hj|Hj]; [|unfold e; rewrite (extrapolate_out (zgMc A) z (S n)); [exact I|exact O2|auto|lia]].
      destruct i as [|i].
      - destruct j as [|j]; [unfold e; rewrite (extrapolate_00 n), Z2 by (auto; lia); exact X0|]. specialize (Re j ltac:(lia)). destruct (get e 0 (S j)) as [q s|]; [|exact I]. cbn [capB]. 
        destruct s; [apply (ble_sat_1 _ _ Re q); cbn; lra|]. cbn [ble] in Re. destruct (Qltb q Cq) eqn:E2; [apply Qltb_true in E2; lra|]. destruct (Qeq_bool q Cq) eqn:E3; [apply Qeqb_true in E3; lra|discriminate].
      - apply (capB_mono (nth i (zgMc A) 0)); [apply HM|]. apply extrapolate_caps; unfold zgMc; rewrite map_length; lia. }
    assert (LT : In (ttgt t) locs) by (apply in_or_app; right; apply in_map; eapply edge_allTrans; eauto).
    split.
    - split; [exact LT|]. cbn [znZone]. split; [rewrite dim_zgAbs; auto|]. unfold zgAbs. fold e. destruct quick.
      + split; [apply gridM_zeroDiag, gridM_canonize; auto|]. split.
        * apply row0_zeroDiag; [rewrite dim_canonize; auto|]. apply (row0_mle _ _ _ e); [rewrite dim_canonize; auto|apply canonize_mle|auto].
        * apply capM_zeroDiag; [lra|]. intros i j. apply (capB_mono (dbls (S n) (S n) Cq)); [lra|]. rewrite <- De. apply capM_canonize; auto.
      + split; [apply gridM_zeroDiag; auto|]. split; [apply row0_zeroDiag; auto|]. intros i j. apply (capB_mono Cq); [lra|apply capM_zeroDiag; auto].
    - intros Z HZ DZ. unfold zgAbs in HZ. fold e in HZ |- *. destruct quick; [|exact HZ].
      rewrite zincludes_spec in HZ |- *. intros i j Hi Hj. eapply ble_trans; [|apply HZ; auto].
      unfold zeroDiag. rewrite get_mk by (rewrite dim_canonize; lia). destruct (i =? j)%nat eqn:Eij.
      + apply Nat.eqb_eq in Eij. subst j. rewrite Z2 by lia. apply ble_refl.
      + apply (closed_tight z C2 N2); [lia|lia|apply Nat.eqb_neq; auto|]. intros w Hw.
        assert (Y : inZone (canonize e) w) by (apply canonize_inZone; exact (Z_enlarge _ _ (extrapolate_mle (zgMc A) z) w Hw)).
        apply Y; rewrite dim_canonize; lia.
  Qed.

  Notation nodes s := (zaNodes (zgA s)).
  Definition grows (s s' : zgst) : Prop :=
    exists news, nodes s' = nodes s ++ news /\ zgQ s' = zgQ s ++ seq (length (nodes s)) (length news) /\
      Forall okN news /\ BadExt okN (allLe measures) (rev (nodes s)) (rev (nodes s')).
  Lemma grows_refl s s' : nodes s' = nodes s -> zgQ s' = zgQ s -> grows s s'.
  Proof. intros E1 E2. exists []. rewrite E1, E2, !app_nil_r. split; [auto|]. split; [auto|]. split; [constructor|constructor]. Qed.
  Lemma grows_trans a b c : grows a b -> grows b c -> grows a c.
  Proof.
    intros (n1 & E1 & Q1 & F1 & B1) (n2 & E2 & Q2 & F2 & B2). exists (n1 ++ n2). rewrite E2, E1, app_assoc. split; [auto|].
    split; [|split; [apply Forall_app; auto|rewrite <- E1, <- E2; eapply be_trans; eauto]].
    rewrite Q2, Q1, E1, !app_length, seq_app, app_assoc. reflexivity.
  Qed.
  Lemma zgEdge_grows s src nd c t : okN nd -> edge A (znLoc nd) c t -> Forall okN (nodes s) ->
    grows s (zgEdge quick pick A src (elapse (znZone nd)) s (c, t)).
  Proof.
    intros ON E FN. unfold zgEdge. destruct (zgFound s); [apply grows_refl; reflexivity|]. destruct (lookup A (ttgt t)) as [q|]; [|apply grows_refl; reflexivity].
    destruct (zgPost _ t) as [z0|] eqn:EP; [|apply grows_refl; reflexivity]. cbv zeta.
    destruct (zgAbs_okN nd c t z0 (isMatch q) ON E EP) as [ON' INC].
    set (z := if quick then z0 else zeroDiag (extrapolate (zgMc A) z0)) in *.
    assert (P := PK (nodes s) (fun n0 => (znLoc n0 =? ttgt t)%nat && zincludes (znZone n0) z)).
    destruct (pick _ _) as [k|]; cbn [zgA zgQ zaNodes].
    - destruct (_ && _); apply grows_refl; reflexivity.
    - assert (G : grows s (mkZG (mkZA (nodes s ++ [mkZN (ttgt t) (isMatch q) (zgAbs quick A z0)]) (zaEdges (zgA s) ++ [mkZE src c t (length (nodes s))]) (zaInit (zgA s))) (zgQ s ++ [length (nodes s)]) None)).
      { eexists. cbn [zgA zgQ zaNodes]. split; [reflexivity|]. split; [reflexivity|]. split; [constructor; [exact ON'|constructor]|].
        rewrite rev_app_distr. cbn [rev app]. apply be_step; [apply be_refl|exact ON'|]. intros [x [I L]]. apply in_rev in I.
        rewrite Forall_forall in FN. assert (OX := FN x I). destruct (measures_spec x _ OX ON' L) as [M1 M2]. cbn [znLoc znZone] in M1, M2.
        specialize (P x I). cbv beta in P. rewrite M1, Nat.eqb_refl in P. cbn [andb] in P.
        rewrite (INC (znZone x) M2 (proj1 (proj2 OX))) in P. discriminate. }
      assert (EZ : (if quick then zeroDiag (canonize (extrapolate (zgMc A) z)) else z) = zgAbs quick A z0) by (unfold z, zgAbs; destruct quick; reflexivity).
      rewrite EZ. destruct (_ && _); exact G.
  Qed.
  Lemma zgEdges_grow : forall cts s src nd, okN nd -> (forall c t, In (c, t) cts -> edge A (znLoc nd) c t) -> Forall okN (nodes s) ->
    grows s (fold_left (zgEdge quick pick A src (elapse (znZone nd))) cts s).
  Proof.
    induction cts as [|[c t] cts IH]; intros s src nd ON E FN; cbn [fold_left]; [apply grows_refl; reflexivity|].
    assert (G := zgEdge_grows s src nd c t ON (E c t (or_introl eq_refl)) FN). eapply grows_trans; [exact G|].
    apply IH; auto; [intros; apply E; right; auto|]. destruct G as (news & E1 & _ & F1 & _). rewrite E1. apply Forall_app. auto.
  Qed.
  Lemma outOf_in l c t : In (c, t) (outOf A l) -> edge A l c t.
  Proof.
    unfold outOf, edge. destruct (lookup A l) as [q|] eqn:E; [|intros []]. intro H. apply in_flat_map in H. destruct H as [[a ts] [H1 H2]]. cbn [fst snd] in H2.
    apply in_map_iff in H2. destruct H2 as [t' [E2 H2]]. injection E2 as <- <-. exists q, ts. split; [apply lookup_some; auto|auto].
  Qed.
  Lemma loop_ends : forall ns, Bar okN (allLe measures) ns -> forall s, BadExt okN (allLe measures) ns (rev (nodes s)) -> Forall okN (nodes s) ->
    (forall k, In k (zgQ s) -> (k < length (nodes s))%nat) -> exists fuel s', zgLoop fuel quick pick A s = Some s'.
  Proof.
    induction 1 as [ns HB IH]. 
    assert (INNER : forall m s, (length (zgQ s) <= m)%nat -> rev (nodes s) = ns -> Forall okN (nodes s) ->
      (forall k, In k (zgQ s) -> (k < length (nodes s))%nat) -> exists fuel s', zgLoop fuel quick pick A s = Some s').
    { induction m as [|m IHm]; intros s L EN FN QL.
      - exists O. cbn [zgLoop]. destruct (zgFound s); [eauto|]. destruct (zgQ s); [eauto|cbn in L; lia].
      - destruct (zgFound s) as [w|] eqn:F; [exists O; cbn [zgLoop]; rewrite F; eauto|]. destruct (zgQ s) as [|k q] eqn:EQ; [exists O; cbn [zgLoop]; rewrite F, EQ; eauto|].
        assert (KL := QL k (or_introl eq_refl)). destruct (nth_error (nodes s) k) as [nd|] eqn:EK; [|apply nth_error_None in EK; lia].
        assert (ON : okN nd) by (rewrite Forall_forall in FN; apply FN; eapply nth_error_In; eauto).
        assert (G := zgEdges_grow (outOf A (znLoc nd)) (mkZG (zgA s) q None) k nd ON (outOf_in _) FN).
        set (s1 := fold_left (zgEdge quick pick A k (elapse (znZone nd))) (outOf A (znLoc nd)) (mkZG (zgA s) q None)) in *.
        assert (T : exists fuel s', zgLoop fuel quick pick A s1 = Some s').
        { destruct G as (news & E1 & Q1 & F1 & B1). cbn [zgA zgQ] in E1, Q1, B1.
          assert (FN1 : Forall okN (nodes s1)) by (rewrite E1; apply Forall_app; auto).
          assert (QL1 : forall k, In k (zgQ s1) -> (k < length (nodes s1))%nat).
          { intros k0 I. rewrite Q1 in I. rewrite E1, app_length. apply in_app_or in I. destruct I as [I|I]; [specialize (QL k0 (or_intror I)); lia|apply in_seq in I; lia]. }
          rewrite EN in B1. destruct (be_first _ _ _ _ B1) as [EQN|(y & Oy & Ny & BE)].
          - assert (news = []) as ->. { assert (X : length (rev (nodes s1)) = length (rev (nodes s))) by congruence. rewrite !rev_length, E1, app_length in X. destruct news; [auto|cbn in X; lia]. }
            cbn [length seq] in Q1. rewrite app_nil_r in Q1. apply IHm; auto. rewrite Q1. cbn in L. lia.
          - apply (IH y Oy Ny s1); auto. }
        destruct T as (fuel & s' & T). exists (S fuel), s'. cbn [zgLoop]. rewrite F, EQ, EK. exact T. }
    intros s B FN QL. destruct (be_first _ _ _ _ B) as [EQN|(y & Oy & Ny & BE)].
    - apply (INNER (length (zgQ s))); auto.
    - apply (IH y Oy Ny s); auto.
  Qed.
  Lemma ta2za_ends0 : exists fuel s, ta2za fuel quick pick A = Some s.
  Proof.
    apply (loop_ends (rev (nodes (zgInit A)))).
    - apply (AF_Bar okN (allLe measures) (allLe measures)); [apply AF_allLe|auto].
    - constructor.
    - apply Forall_forall. intros nd H. unfold zgInit in H. cbn [zgA zaNodes] in H. apply in_map_iff in H. destruct H as (l & <- & I).
      split; [apply in_or_app; auto|]. cbn [znZone]. split; [apply dim_mk|]. split; [apply gridM_mk; intros; apply gridB_bz|]. split.
      + intros j Hj. unfold zzero. rewrite get_mk by lia. apply (proj2 (ble_spec bz (Fin Cq true))). intros q Hq. assert (X := Cq0). cbn in *. lra.
      + apply capM_mk. intros. assert (X := KC). cbn. lra.
    - intros k H. unfold zgInit in *. cbn [zgA zgQ zaNodes] in *. rewrite map_length. apply in_seq in H. lia.
  Qed.
End Termination.

Theorem ta2za_ends quick pick A : picks pick -> clocksBelow (length (tmax A)) A -> exists fuel s, ta2za fuel quick pick A = Some s.
Proof.
  intros PK CB. set (cs := flat_map (fun t => constsOf (trst t)) (allTrans A)).
  assert (IN : forall l a t x q, edge A l a t -> In (x, RConst q) (trst t) -> In q cs).
  { intros l a t x q E H. apply in_flat_map. exists t. split; [eapply edge_allTrans; eauto|eapply constsOf_in; eauto]. }
  destruct (common_grid cs) as (D & HD & GD). destruct (common_bound (cs ++ 0 :: zgMc A)) as (C & HC & BC).
  apply (ta2za_ends0 quick pick A PK CB D C HD HC).
  - intros l a t x q E H. assert (J := IN l a t x q E H). split; [apply BC; apply in_or_app; auto|auto].
  - intro i. destruct (Nat.lt_ge_cases i (length (zgMc A))) as [L|L]; [apply BC, in_or_app; right; right; apply nth_In; auto|].
    rewrite nth_overflow by auto. apply BC, in_or_app. right. left. auto.
Qed.
