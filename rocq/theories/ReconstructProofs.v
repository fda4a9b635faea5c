(** Words reconstructed from symbolic runs are accepted. *)
From Coq Require Import QArith ZArith Bool List Lqa Lia.
From Verif Require Import BoundsModel ConstraintModel GuardSpec BoundsProofs ConstraintProofs ZoneModel ZoneSpec ZoneProofs ZoneProofs2 ZoneProofs3 ZoneProofs4 ZoneProofs5 SampleProofs AutomatonModel AutomatonSpec AutomatonProofs TimedWordModel TimedWordSpec ZoneGraphModel ZoneGraphSpec ZoneGraphProofs.
Import ListNotations.
Open Scope Q_scope.

(** *** closures of canonical zones *)
Lemma clM_closed m : closed m -> closed (clM m).
Proof.
  intros C i j k Hi Hj Hk. rewrite dim_clM in *. rewrite !get_clM by auto. rewrite <- cl_badd. apply cl_mono. apply C; auto.
Qed.
Lemma clM_nonneg2 m : nonneg2 m -> nonneg2 (clM m).
Proof. intros N i j Hi Hj. rewrite dim_clM in *. rewrite !get_clM by auto. rewrite <- cl_badd. apply (cl_mono bzero). apply N; auto. Qed.
Lemma cl_elapse m w : inCl (elapse m) w <-> inZone (elapse (clM m)) w.
Proof.
  unfold inCl, inZone. rewrite dim_clM, !dim_elapse, dim_clM.
  assert (E : forall i j, (i < dim m)%nat -> (j < dim m)%nat -> get (clM (elapse m)) i j = get (elapse (clM m)) i j).
  { intros i j Hi Hj. rewrite get_clM by (rewrite dim_elapse; auto). unfold elapse. rewrite !get_mk by (rewrite ?dim_clM; auto). destruct (j =? 0)%nat; [reflexivity|]. rewrite get_clM; auto. }
  split; intros H i j Hi Hj; specialize (H i j Hi Hj); [rewrite <- E|rewrite E]; auto.
Qed.
Lemma cl_reverse m w : inCl (reverseElapse m) w <-> inZone (reverseElapse (clM m)) w.
Proof.
  unfold inCl, inZone. rewrite dim_clM, !dim_reverseElapse, dim_clM.
  assert (E : forall i j, (i < dim m)%nat -> (j < dim m)%nat -> get (clM (reverseElapse m)) i j = get (reverseElapse (clM m)) i j).
  { intros i j Hi Hj. rewrite get_clM by (rewrite dim_reverseElapse; auto). unfold reverseElapse. rewrite !get_mk by (rewrite ?dim_clM; auto). destruct (i =? 0)%nat; [reflexivity|]. rewrite get_clM; auto. }
  split; intros H i j Hi Hj; specialize (H i j Hi Hj); [rewrite <- E|rewrite E]; auto.
Qed.
Lemma cl_bmin a b q : bsat (cl (bmin a b)) q <-> bsat (cl a) q /\ bsat (cl b) q.
Proof.
  split.
  - intro H. split; (eapply ble_sat_1; [apply cl_mono|exact H]); [apply bmin_le_l|apply bmin_le_r].
  - intros [H1 H2]. apply (bmin_case a b (fun x => bsat (cl x) q)); auto.
Qed.
Lemma inCl_zand_intro a b w : dim a = dim b -> inCl a w -> inCl b w -> inCl (zand a b) w.
Proof.
  intros D Ha Hb. set (m := mk (dim a) (fun i j => bmin (get a i j) (get b i j))).
  assert (K : inCl m w).
  { apply inCl_get. unfold m. rewrite dim_mk. intros i j Hi Hj. rewrite get_mk by auto. apply cl_bmin. rewrite inCl_get in Ha, Hb. split; [apply Ha|apply Hb]; auto; lia. }
  change (zand a b) with (canonize m). apply (clM_canonize m w K). exact K.
Qed.
Lemma inCl_zand_elim a b w : dim a = dim b -> inCl (zand a b) w -> inCl a w /\ inCl b w.
Proof.
  intros D H. unfold zand in H. set (m := mk (dim a) (fun i j => bmin (get a i j) (get b i j))) in *.
  apply (inCl_mle _ m) in H; [|apply canonize_mle]. rewrite inCl_get in H. unfold m in H. rewrite dim_mk in H.
  split; apply inCl_get; intros i j Hi Hj; [|rewrite <- D in *]; specialize (H i j Hi Hj); rewrite get_mk in H by auto; apply cl_bmin in H; apply H.
Qed.
(** the closure of a nonempty zone of nonnegative valuations *)
Lemma inCl_nonneg m : (0 < dim m)%nat -> nonemptyZ m -> (forall w, inZone m w -> forall x, (S x < dim m)%nat -> 0 <= w x) ->
  forall w, inCl m w -> forall x, (S x < dim m)%nat -> 0 <= w x.
Proof.
  intros Hd N NN w Hw x Hx. destruct N as [p Hp]. destruct (canonical_of_nonempty_canonize m (ex_intro _ p Hp)) as [C K].
  apply (clM_canonize m p (inZone_inCl _ _ Hp)) in Hw.
  assert (B : ble (get (canonize m) 0 (S x)) bz = true).
  { apply (closed_tight _ C K); rewrite ?dim_canonize; try lia. intros u Hu. apply (proj1 (canonize_inZone m u)) in Hu. specialize (NN u Hu x Hx). cbn [ext bsat bz]. lra. }
  rewrite inCl_get in Hw. rewrite dim_canonize in Hw. specialize (Hw 0%nat (S x) Hd Hx). cbn [ext] in Hw.
  apply cl_mono in B. assert (X := ble_sat_1 _ _ B _ Hw). cbn in X. lra.
Qed.

(** *** points *)
Lemma ztop_closed n : closed (ztop n).
Proof. intros i j k Hi Hj Hk. unfold ztop in *. rewrite dim_mk in *. rewrite !get_mk by auto. reflexivity. Qed.
Lemma zpoint_closed_fold v l : forall m, (forall i, In i l -> (S i < dim m)%nat) -> closed m -> inZone m v -> closed (fold_left (zpoint1 v) l m).
Proof.
  induction l as [|i l IH]; intros m Hl C H; cbn [fold_left]; [auto|].
  assert (Hi : (S i < dim m)%nat) by (apply Hl; left; auto).
  assert (Z1 : inZone (tighten m (S i) 0 (Fin (v i) true)) v).
  { rewrite inZone_Z, tighten_Z by lia. split; [apply inZone_Z; auto|]. cbn [ext bsat]. lra. }
  assert (C1 : closed (tighten m (S i) 0 (Fin (v i) true))).
  { apply tighten_closed; try lia; auto. eapply nonneg2_of_point. apply inZone_Z. exact Z1. }
  assert (Z2 : inZone (zpoint1 v m i) v).
  { unfold zpoint1. rewrite inZone_Z, tighten_Z by (rewrite dim_tighten; lia). split; [apply inZone_Z; auto|]. cbn [ext bsat]. lra. }
  apply IH; auto.
  - unfold zpoint1. rewrite !dim_tighten. intros; apply Hl; right; auto.
  - unfold zpoint1. apply tighten_closed; rewrite ?dim_tighten; try lia; auto. eapply nonneg2_of_point. apply inZone_Z. exact Z2.
Qed.
Lemma dim_zpoint n v : dim (zpoint n v) = S n.
Proof. unfold zpoint. destruct (zpoint_fold v (seq 0 n) (ztop (S n))) as [D _]; [intros i Hi; apply in_seq in Hi; unfold ztop; rewrite dim_mk; lia|]. rewrite D. apply dim_mk. Qed.
Lemma zpoint_canonical n v : canonicalZ (zpoint n v).
Proof.
  split.
  - unfold zpoint. apply zpoint_closed_fold; [|apply ztop_closed|apply ztop_all]. intros i Hi. apply in_seq in Hi. unfold ztop. rewrite dim_mk. lia.
  - apply nonempty_nonneg2. exists v. apply zpoint_exact. intros x _; reflexivity.
Qed.
Lemma zpoint_closure n v w : inCl (zpoint n v) w -> agree n w v.
Proof.
  intros H x Hx. assert (P : inZone (zpoint n v) v) by (apply zpoint_exact; intros y _; reflexivity).
  assert (M := inCl_mid _ _ _ P H). apply zpoint_exact in M. specialize (M x Hx). cbn beta in M. lra.
Qed.

(** *** the guard, backwards *)
Lemma guardBack_spec g : forall z z2, gclocks (dim z) g -> canonicalZ z -> guardBack z g = Some z2 ->
  dim z2 = dim z /\ canonicalZ z2 /\ forall w, inZone z2 w <-> inZone z w /\ gsat g w.
Proof.
  induction g as [|k g IH]; intros z z2 G [C N] H; cbn [guardBack] in H.
  - injection H as <-. split; [auto|]. split; [split; auto|]. intro w. split; [intro; split; auto; apply gsat_nil|tauto].
  - cbv zeta in H. destruct (isSatNoCanon (tightenC z k)) eqn:E; [|discriminate]. apply isSatNoCanon_spec in E.
    assert (Hk : (S (cx k) < dim z)%nat) by (apply G; left; auto).
    destruct (IH (tightenC z k) z2) as (D & K & X); auto.
    + rewrite dim_tightenC. intros k' Hk'. apply G; right; auto.
    + split; [apply tightenC_closed; auto|auto].
    + split; [rewrite D; apply dim_tightenC|]. split; [auto|]. intro w. rewrite X, tightenC_exact, gsat_cons by auto. tauto.
Qed.

(** *** bounds of a box cut with a zone *)
Lemma box_bounds n (Bx : nat -> Q -> Prop) P c : (forall k p q, p == q -> Bx k p -> Bx k q) ->
  dim P = S n -> dim c = S n -> closed P -> nonneg2 P -> canonicalZ c ->
  (forall w, inZone c w <-> (forall k, (k < n)%nat -> Bx k (w k)) /\ inZone (elapse P) w) ->
  forall i j, (i < n)%nat -> (j < n)%nat -> i <> j ->
    ble (bmin (get P (S j) (S i)) (badd (get c (S j) 0) (get c 0 (S i)))) (get c (S j) (S i)) = true.
Proof.
  intros BE DP Dc CP NP [Cc Nc] HZ.
  assert (LE : forall a b, (a < S n)%nat -> (b < n)%nat -> a <> S b -> ble (get c a (S b)) (get P a (S b)) = true).
  { intros a b Ha Hb Hab. apply (closed_tight c Cc Nc); try lia. intros w Hw. apply HZ in Hw. destruct Hw as [_ Hw].
    specialize (Hw a (S b)). rewrite dim_elapse in Hw. specialize (Hw ltac:(lia) ltac:(lia)). unfold elapse in Hw. rewrite get_mk in Hw by lia. exact Hw. }
  set (M := mk (S n) (fun a b => match a, b with
     | O, O => bz
     | S j, O => get c (S j) 0
     | O, S i => get c 0 (S i)
     | S j, S i => if (j =? i)%nat then bz else bmin (get P (S j) (S i)) (badd (get c (S j) 0) (get c 0 (S i)))
     end)).
  assert (DM : dim M = S n) by apply dim_mk.
  assert (GM : forall a b, (a < S n)%nat -> (b < S n)%nat -> get M a b = match a, b with
     | O, O => bz
     | S j, O => get c (S j) 0
     | O, S i => get c 0 (S i)
     | S j, S i => if (j =? i)%nat then bz else bmin (get P (S j) (S i)) (badd (get c (S j) 0) (get c 0 (S i)))
     end) by (intros a b Ha Hb; unfold M; rewrite get_mk by auto; reflexivity).
  assert (MD : forall a, (a < S n)%nat -> get M a a = bz).
  { intros [|a] Ha; rewrite GM by auto; [reflexivity|]. rewrite Nat.eqb_refl. reflexivity. }
  assert (MO : forall j i, (j < n)%nat -> (i < n)%nat -> j <> i -> get M (S j) (S i) = bmin (get P (S j) (S i)) (badd (get c (S j) 0) (get c 0 (S i)))).
  { intros j i Hj Hi Hji. rewrite GM by lia. destruct (j =? i)%nat eqn:E; [apply Nat.eqb_eq in E; congruence|reflexivity]. }
  assert (F1 : forall a b, (a < S n)%nat -> (b < S n)%nat -> a <> b -> ble (get c a b) (get M a b) = true).
  { intros [|a] [|b] Ha Hb Hab; try congruence; [rewrite GM by auto; apply ble_refl|rewrite GM by auto; apply ble_refl|].
    rewrite MO by lia. apply bmin_glb; [apply LE; lia|]. apply Cc; lia. }
  assert (CM : closed M).
  { intros a b k Ha Hb Hk. rewrite DM in *.
    destruct (Nat.eq_dec a b) as [->|Hab].
    { rewrite (MD b Hb). destruct (Nat.eq_dec k b) as [->|Hkb]; [rewrite (MD b Hb); reflexivity|].
      eapply ble_trans; [apply (Nc b k); lia|]. apply badd_mono; apply F1; auto. }
    destruct (Nat.eq_dec k a) as [->|Hka]; [rewrite (MD a Ha); apply badd_zero_le_l; reflexivity|].
    destruct (Nat.eq_dec k b) as [->|Hkb]; [rewrite (MD b Hb); apply badd_zero_le; reflexivity|].
    destruct a as [|a]; [|destruct b as [|b]].
    - rewrite (GM 0%nat b) by auto. destruct b as [|b]; [congruence|]. eapply ble_trans; [apply (Cc 0%nat (S b) k); lia|]. apply badd_mono; apply F1; auto.
    - rewrite (GM (S a) 0%nat) by auto. eapply ble_trans; [apply (Cc (S a) 0%nat k); lia|]. apply badd_mono; apply F1; auto.
    - rewrite (MO a b) by lia. destruct k as [|k].
      { rewrite (GM (S a) 0%nat), (GM 0%nat (S b)) by lia. apply bmin_le_r. }
      rewrite (MO a k), (MO k b) by lia.
      apply (bmin_case (get P (S a) (S k)) _ (fun x => ble _ (badd x _) = true)); apply (bmin_case (get P (S k) (S b)) _ (fun x => ble _ (badd _ x) = true)).
      + eapply ble_trans; [apply bmin_le_l|]. apply CP; lia.
      + eapply ble_trans; [apply bmin_le_r|]. eapply ble_trans; [|apply badd_assoc_le2]. apply badd_mono; [|apply ble_refl].
        eapply ble_trans; [apply (Cc (S a) 0%nat (S k)); lia|]. apply badd_mono; [apply LE; lia|apply ble_refl].
      + eapply ble_trans; [apply bmin_le_r|]. eapply ble_trans; [|apply badd_assoc_le1]. apply badd_mono; [apply ble_refl|].
        eapply ble_trans; [apply (Cc 0%nat (S b) (S k)); lia|]. apply badd_mono; [apply ble_refl|apply LE; lia].
      + eapply ble_trans; [apply bmin_le_r|]. eapply ble_trans; [|apply badd_assoc_le1]. apply badd_mono; [apply ble_refl|].
        eapply ble_trans; [|apply badd_assoc_le2]. apply badd_zero_le_l. apply Nc; lia. }
  assert (NM : nonneg2 M).
  { intros a b Ha Hb. rewrite DM in *. destruct (Nat.eq_dec a b) as [->|Hab]; [rewrite (MD b Hb); reflexivity|].
    eapply ble_trans; [apply (Nc a b); lia|]. apply badd_mono; apply F1; auto. }
  intros i j Hi Hj Hij. rewrite <- (MO j i) by auto. apply (closed_tight M CM NM); try lia.
  intros w Hw. assert (HW : inZone c w); [|apply HW; lia].
  assert (U : forall k, (k < n)%nat -> bsat (get c (S k) 0) (w k) /\ bsat (get c 0 (S k)) (- w k)).
  { intros k Hk. assert (X := Hw (S k) 0%nat ltac:(lia) ltac:(lia)). assert (Y := Hw 0%nat (S k) ltac:(lia) ltac:(lia)). rewrite GM in X, Y by lia. cbn [ext] in X, Y.
    split; [eapply bsat_ext; [|exact X]|eapply bsat_ext; [|exact Y]]; ring. }
  apply HZ. split.
  - intros k Hk. destruct (U k Hk) as [U1 U2]. destruct (realise c (S k) 0%nat (w k) Cc Nc) as [p [Hp E]]; try lia; auto.
    apply HZ in Hp. apply (BE k (p k)); [|apply (proj1 Hp k Hk)]. cbn [ext] in E. lra.
  - intros a b Ha Hb. rewrite dim_elapse in *. unfold elapse. rewrite get_mk by lia. destruct b as [|b]; cbn [Nat.eqb]; [exact I|].
    destruct a as [|a].
    + eapply ble_sat_1; [apply LE; lia|]. cbn [ext]. eapply bsat_ext; [|apply (U b); lia]. ring.
    + destruct (Nat.eq_dec a b) as [->|Hab]; [eapply bsat_ext; [|apply bzero_le_sat, (nonneg2_diag P); [auto|lia]]; cbn [ext]; ring|].
      assert (X := Hw (S a) (S b) ltac:(lia) ltac:(lia)). rewrite MO in X by lia. apply bsat_bmin in X. apply X.
Qed.

(** *** one step *)
(** no clock is assigned twice, and no renaming reads an assigned clock *)
Definition readsKept (rs : resets) : Prop := NoDup (map fst rs) /\ forall x y, In (x, RVar y) rs -> ~ In y (map fst rs).
Lemma readsKept_raceFree rs : readsKept rs -> raceFree rs.
Proof.
  intros [ND K]. split; [auto|]. intros a x y b E z Hz. exfalso. apply (K x y).
  - rewrite E. apply in_or_app. right. left. reflexivity.
  - rewrite E, map_app. apply in_or_app. left. apply in_map_iff. exists (y, RVar z). auto.
Qed.
Lemma readsKept_revFind rs x : readsKept rs -> In x (map fst rs) -> revFind rs x = None.
Proof.
  intros [_ K] Hx. assert (F : forall z, ~ In (z, RVar x) rs) by (intros z Hz; apply (K z x Hz Hx)). clear K Hx. unfold revFind.
  match goal with |- fold_left ?f _ _ = _ => cut (forall acc, fold_left f rs acc = acc); [intro K; apply K|] end.
  induction rs as [|[y [q|z]] rs IH]; intros acc; cbn [fold_left]; auto.
  - apply IH. intros z Hz. apply (F z). right; auto.
  - destruct (z =? x)%nat eqn:E; [apply Nat.eqb_eq in E; subst; exfalso; apply (F y); left; auto|]. cbn [andb]. apply IH. intros z' Hz. apply (F z'). right; auto.
Qed.
Lemma elapse_iff m w : (0 < dim m)%nat -> closed m -> nonneg2 m -> (inZone (elapse m) w <-> exists u d, 0 <= d /\ inZone m u /\ forall x, w x == u x + d).
Proof.
  intros Hd C N. split; [apply elapse_complete; auto|]. intros (u & d & H1 & H2 & H3). apply (inZone_ext _ (delay u d)); [|apply elapse_sound; auto].
  intros x _. symmetry. apply H3.
Qed.
Lemma tightNext_exact n P t : dim P = S n -> closed P -> rwf (S n) (trst t) -> raceFree (trst t) -> gclocks (S n) (tgrd t) ->
  (exists v, inZone (elapse P) v /\ gsat (tgrd t) v) ->
  dim (tightNext P t) = S n /\ closed (tightNext P t) /\ nonemptyZ (tightNext P t) /\ exactPost n (elapse P) t (tightNext P t).
Proof.
  intros D C RW RF GC [v [Hv G]].
  assert (DE : dim (elapse P) = S n) by (rewrite dim_elapse; auto).
  assert (X : forall w, inZone (tightenG (elapse P) (tgrd t)) w <-> inZone (elapse P) w /\ gsat (tgrd t) w) by (intro w; apply tightenG_exact; rewrite DE; auto).
  assert (NE : nonemptyZ (tightenG (elapse P) (tgrd t))) by (exists v; apply X; auto).
  assert (CA : canonicalZ (tightenG (elapse P) (tgrd t))).
  { split; [apply tightenG_closed; [rewrite DE; auto|apply elapse_closed; auto|]|]; apply nonempty_nonneg2; auto. }
  assert (DT : dim (tightenG (elapse P) (tgrd t)) = S n) by (rewrite dim_tightenG; auto).
  assert (Y := zapplyResets_exact (trst t) _ n DT CA NE RW RF).
  assert (NZ : nonemptyZ (zapplyResets (tightenG (elapse P) (tgrd t)) (trst t))).
  { exists (applyReset v (trst t)). apply Y. exists v. split; [apply X; auto|intros x _; reflexivity]. }
  destruct (zapplyResets_seq (trst t) _ n DT CA NE RW) as (D' & _).
  unfold tightNext. split; [rewrite dim_canonize; auto|]. split; [apply canonize_closed_sat; auto|]. split.
  - destruct NZ as [w Hw]. exists w. apply canonize_inZone. auto.
  - intro w'. rewrite canonize_inZone, Y. split.
    + intros (w & Hw & A). apply X in Hw. exists w. tauto.
    + intros (w & H1 & H2 & A). exists w. split; [apply X; auto|auto].
Qed.

Lemma recon_step n P t post z2 :
  dim P = S n -> closed P -> nonemptyZ P -> (forall w, inZone P w -> forall x, (x < n)%nat -> 0 <= w x) ->
  readsKept (trst t) -> rwf (S n) (trst t) -> gclocks (S n) (tgrd t) ->
  length post = n -> inCl (tightNext P t) (vOf post) ->
  guardBack (zrevertResets (zpoint n (vOf post)) (trst t)) (tgrd t) = Some z2 ->
  isSatisfiable (zand (reverseElapse z2) (canonize P)) = true ->
  let z3 := zand z2 (elapse (canonize (zand (reverseElapse z2) (canonize P)))) in
  let before := zsample z3 in
  let preV := zsample (zand (canonize P) (reverseElapse (zpoint (length before) (vOf before)))) in
  length preV = n /\ inCl P (vOf preV) /\
  exists d, 0 <= d /\ d == match preV with [] => 0 | p :: _ => nth 0 before 0 - p end /\
    agree n (vOf before) (delay (vOf preV) d) /\
    (inZone P (vOf preV) -> inZone (elapse P) (vOf before) /\ gsat (tgrd t) (vOf before) /\ agree n (applyReset (vOf before) (trst t)) (vOf post)) /\
    (exists v, inZone (elapse P) v /\ gsat (tgrd t) v).
Proof.
  intros D C NE NN RK RW GC LP HP GB SAT. cbv zeta.
  set (pre := canonize P) in *. set (z0 := zpoint n (vOf post)) in *. set (tmp := zand (reverseElapse z2) pre) in *.
  assert (Dpre : dim pre = S n) by (unfold pre; rewrite dim_canonize; auto).
  assert (Cpre : canonicalZ pre) by (apply canonical_of_nonempty_canonize; auto).
  assert (Epre : forall w, inZone pre w <-> inZone P w) by (intro w; apply canonize_inZone).
  assert (NP : nonneg2 P) by (apply nonempty_nonneg2; auto).
  (* the zone before the jump *)
  destruct (zrevertResets_gen (trst t) z0 n) as [C1 E1].
  { apply dim_zpoint. } { apply zpoint_canonical. } { exists (vOf post). apply zpoint_exact. intros x _; reflexivity. }
  { intros x Hx. apply readsKept_revFind; auto. } { intros x r Hx. destruct (RW x r Hx). lia. }
  assert (D1 : dim (zrevertResets z0 (trst t)) = S n).
  { unfold zrevertResets. assert (F : forall l m, dim (fold_left (zrevert1 (trst t)) l m) = dim m) by (induction l as [|x l IH]; intro m; cbn [fold_left]; [auto|]; rewrite IH, dim_zrevert1; auto). rewrite F. apply dim_zpoint. }
  destruct (guardBack_spec (tgrd t) _ z2 ltac:(rewrite D1; auto) C1 GB) as (D2 & [C2 N2] & E2). rewrite D1 in D2.
  assert (B2 : forall w, inZone z2 w <-> (forall x, (x < n)%nat -> ~ In x (map fst (trst t)) -> w x == vOf post x) /\ gsat (tgrd t) w).
  { intro w. rewrite E2, E1. split.
    - intros [(w' & H1 & H2) G]. split; [|auto]. intros x Hx Hn. rewrite (H2 x Hx Hn). apply zpoint_exact in H1. apply H1; auto.
    - intros [H G]. split; [|auto]. exists (vOf post). split; [apply zpoint_exact; intros x _; reflexivity|auto]. }
  assert (Dr : dim (reverseElapse z2) = dim pre) by (rewrite dim_reverseElapse; lia).
  assert (Nt : nonemptyZ tmp) by (apply isSatisfiable_exact; auto).
  assert (Dt : dim (canonize tmp) = S n) by (rewrite dim_canonize; unfold tmp; rewrite dim_zand, dim_reverseElapse; auto).
  assert (Ct := canonical_of_nonempty_canonize tmp Nt).
  assert (Et : forall w, inZone (canonize tmp) w <-> inZone P w /\ exists d, 0 <= d /\ inZone z2 (delay w d)).
  { intro w. rewrite canonize_inZone. unfold tmp. rewrite zand_exact, Epre by auto. split.
    - intros [H1 H2]. split; [auto|]. destruct (reverseElapse_complete z2 w) as [_ K]; auto. lia.
    - intros [H1 (d & Hd & H2)]. split; [|auto]. eapply reverseElapse_sound; eauto. intros x Hx. apply (NN w); auto. lia. }
  set (z3 := zand z2 (elapse (canonize tmp))).
  assert (D3 : dim z3 = S n) by (unfold z3; rewrite dim_zand; auto).
  assert (E3 : forall w, inZone z3 w <-> inZone z2 w /\ inZone (elapse P) w).
  { intro w. unfold z3. rewrite zand_exact by (rewrite dim_elapse; lia). rewrite !elapse_iff by (try lia; auto; apply Ct). split.
    - intros [H (u & d & Hd & Hu & E)]. split; [auto|]. exists u, d. apply Et in Hu. tauto.
    - intros [H (u & d & Hd & Hu & E)]. split; [auto|]. exists u, d. split; [auto|]. split; [|auto]. apply Et. split; [auto|]. exists d. split; [auto|].
      apply (inZone_ext _ w); auto. intros x _. unfold delay. apply E. }
  assert (N3 : nonemptyZ z3).
  { destruct Nt as [w Hw]. apply (proj2 (canonize_inZone tmp w)) in Hw. apply Et in Hw. destruct Hw as [Hw (d & Hd & H2)]. exists (delay w d). apply E3. split; [auto|]. apply elapse_sound; auto. }
  assert (GE : exists v, inZone (elapse P) v /\ gsat (tgrd t) v).
  { destruct N3 as [v Hv]. apply E3 in Hv. exists v. split; [apply Hv|]. apply B2, Hv. }
  assert (NNE : forall w, inZone (elapse P) w -> forall x, (x < n)%nat -> 0 <= w x).
  { intros w Hw x Hx. apply elapse_complete in Hw; try lia; auto. destruct Hw as (u & d & Hd & Hu & E). specialize (NN u Hu x Hx). rewrite (E x). lra. }
  assert (NN3 : forall w, inCl z3 w -> forall x, (S x < dim z3)%nat -> 0 <= w x).
  { apply inCl_nonneg; [lia|auto|]. intros w Hw x Hx. apply E3 in Hw. apply (NNE w); [apply Hw|lia]. }
  destruct N3 as [p3 Hp3]. assert (N3 : nonemptyZ z3) by (exists p3; auto).
  destruct (zsample_closure z3 p3 ltac:(lia) (inZone_inCl _ _ Hp3) NN3) as [LB HB].
  set (before := zsample z3) in *. rewrite D3 in LB. cbn [pred] in LB.
  assert (HBe : inCl (elapse P) (vOf before)).
  { unfold z3 in HB. apply inCl_zand_elim in HB; [|rewrite dim_elapse; lia]. destruct HB as [_ HB]. apply cl_elapse in HB.
    (* closures of tmp are closures of P *)
    apply cl_elapse. eapply inZone_ext; [intros x _; reflexivity|]. 
    apply elapse_complete in HB; [|rewrite dim_clM; lia|apply clM_closed, Ct|apply clM_nonneg2, Ct]. destruct HB as (u & d & Hd & Hu & E).
    apply (inZone_ext _ (delay u d)); [intros x _; symmetry; apply E|]. apply elapse_sound; [auto|].
    change (inCl P u). change (inCl (canonize tmp) u) in Hu. apply (inCl_mle _ tmp) in Hu; [|apply canonize_mle]. unfold tmp in Hu. apply inCl_zand_elim in Hu; [|auto].
    apply (inCl_mle pre P); [apply canonize_mle|apply Hu]. }
  rewrite LB. set (bp := zpoint n (vOf before)).
  assert (Dbp : dim (reverseElapse bp) = S n) by (rewrite dim_reverseElapse; apply dim_zpoint).
  assert (NNP : forall w, inCl P w -> forall x, (x < n)%nat -> 0 <= w x).
  { intros w Hw x Hx. apply (inCl_nonneg P) with (w := w); auto; try lia. intros u Hu y Hy. apply (NN u Hu). lia. }
  assert (EclP : forall w, inCl pre w <-> inCl P w).
  { destruct NE as [p Hp]. apply (clM_canonize P p (inZone_inCl _ _ Hp)). }
  assert (W4 : exists w4, inCl (zand pre (reverseElapse bp)) w4).
  { apply cl_elapse in HBe. apply elapse_complete in HBe; [|rewrite dim_clM; lia|apply clM_closed; auto|apply clM_nonneg2; auto]. destruct HBe as (u & d & Hd & Hu & E).
    exists u. apply inCl_zand_intro; [lia|apply EclP; exact Hu|]. apply inZone_inCl. apply (reverseElapse_sound bp u d Hd).
    - intros x Hx. apply (NNP u Hu). unfold bp in Hx. rewrite dim_zpoint in Hx. lia.
    - apply zpoint_exact. intros x _. unfold delay. symmetry. apply E. }
  destruct W4 as [w4 Hw4].
  set (z4 := zand pre (reverseElapse bp)) in *.
  assert (D4 : dim z4 = S n) by (unfold z4; rewrite dim_zand; auto).
  assert (S4 : forall w, inCl z4 w -> inCl P w /\ inCl (reverseElapse bp) w).
  { intros w Hw. unfold z4 in Hw. apply inCl_zand_elim in Hw; [|lia]. split; [apply EclP|]; apply Hw. }
  destruct (zsample_closure z4 w4 ltac:(lia) Hw4) as [L4 H4].
  { intros w Hw x Hx. apply (NNP w); [apply S4; auto|lia]. }
  set (preV := zsample z4) in *. rewrite D4 in L4. cbn [pred] in L4. apply S4 in H4. destruct H4 as [H4 H5].
  split; [auto|]. split; [exact H4|].
  apply cl_reverse in H5. apply reverseElapse_complete in H5; [|rewrite dim_clM; unfold bp; rewrite dim_zpoint; lia|apply clM_closed, zpoint_canonical|apply clM_nonneg2, zpoint_canonical].
  destruct H5 as [_ (d & Hd & H5)]. change (inCl bp (delay (fun k => nth k preV 0) d)) in H5. unfold bp in H5. apply zpoint_closure in H5.
  set (d' := match preV with [] => 0 | p :: _ => nth 0 before 0 - p end).
  assert (AD : agree n (vOf before) (delay (vOf preV) d') /\ 0 <= d').
  { destruct n as [|n']; [split; [intros x Hx; lia|]|].
    - destruct preV; [|discriminate]. unfold d'. lra.
    - assert (Ed : d' == d).
      { unfold d'. destruct preV as [|p l] eqn:EP; [discriminate|]. specialize (H5 0%nat ltac:(lia)). unfold delay, vOf in H5. cbn [nth] in H5. lra. }
      split; [|lra]. intros x Hx. specialize (H5 x Hx). unfold delay, vOf in *. lra. }
  destruct AD as [AD Hd'].
  exists d'. split; [auto|]. split; [reflexivity|]. split; [exact AD|]. split; [|exact GE].
  intro HPV.
  assert (BE : inZone (elapse P) (vOf before)).
  { apply (inZone_ext _ (delay (vOf preV) d')); [|apply elapse_sound; auto]. rewrite dim_elapse, D. cbn [pred]. intros x Hx. symmetry. apply AD; auto. }
  split; [exact BE|].
  assert (B3 : inZone z3 (vOf before)).
  { set (Bx := fun (k : nat) (q : Q) => (~ In k (map fst (trst t)) -> q == vOf post k) /\ forall c, In c (tgrd t) -> cx c = k -> holds c q).
    assert (HBx : forall w, inZone z2 w <-> forall k, (k < n)%nat -> Bx k (w k)).
    { intro w. rewrite B2. split.
      - intros [H1 H2] k Hk. split; [auto|]. intros c Hc <-. apply H2; auto.
      - intros H. split; [intros x Hx; apply (H x Hx)|]. intros c Hc. assert (Hk := GC c Hc). apply (H (cx c)); auto. lia. }
    apply (zsample_if z3 P); [lia|auto| | |].
    - destruct (canonical_of_nonempty_canonize z3 N3) as [C3 K3]. intros i Hi. rewrite dim_canonize in Hi. apply (closed_tight _ C3 K3); rewrite ?dim_canonize; try lia.
      intros w Hw. apply (proj1 (canonize_inZone z3 w)) in Hw. apply E3 in Hw. assert (X := NNE w (proj2 Hw) i ltac:(lia)). cbn [ext bsat bz]. lra.
    - intros i j Hji Hi. apply (box_bounds n Bx P (canonize z3)); auto; try lia.
      + intros k p q Epq [H1 H2]. split; [intro Hk; rewrite <- Epq; auto|]. intros c Hc Ec. specialize (H2 c Hc Ec). unfold holds in *. destruct (codr c); lra.
      + rewrite dim_canonize; auto.
      + apply canonical_of_nonempty_canonize; auto.
      + intro w. rewrite canonize_inZone, E3, HBx. tauto.
    - intros i j Hji Hi. specialize (BE (S j) (S i)). rewrite dim_elapse in BE. specialize (BE ltac:(lia) ltac:(lia)). unfold elapse in BE. rewrite get_mk in BE by lia. exact BE. }
  apply E3 in B3. destruct B3 as [B3 _]. apply B2 in B3. destruct B3 as [B3 G]. split; [exact G|].
  (* what the resets make of it *)
  destruct (tightNext_exact n P t D C RW (readsKept_raceFree _ RK) GC GE) as (DT & _ & [pz Hpz] & EX).
  assert (MID := inCl_mid _ _ _ Hpz HP). apply EX in MID. apply EX in Hpz.
  destruct MID as (u & _ & _ & Au). destruct Hpz as (v & _ & _ & Av).
  destruct RK as [ND RK].
  intros x Hx. destruct (in_dec Nat.eq_dec x (map fst (trst t))) as [Hin|Hni].
  - apply in_map_iff in Hin. destruct Hin as [[x' r] [Ex Hin]]. cbn [fst] in Ex. subst x'.
    assert (VA : forall o, applyReset o (trst t) x = ZoneProofs2.rval o r) by (intro o; unfold applyReset; apply ZoneProofs3.applyReset_in; auto).
    assert (Aux := Au x Hx). assert (Avx := Av x Hx). rewrite VA in Aux, Avx |- *. cbn beta in Aux.
    destruct r as [q|y]; cbn [ZoneProofs2.rval] in *; [lra|].
    assert (Hy : (y < n)%nat) by (destruct (RW x (RVar y) Hin) as [_ K]; cbn in K; lia).
    assert (Ny := RK x y Hin).
    assert (VN : forall o, applyReset o (trst t) y = o y) by (intro o; unfold applyReset; apply applyReset_notin; exact Ny).
    assert (Auy := Au y Hy). assert (Avy := Av y Hy). rewrite VN in Auy, Avy. cbn beta in Auy. rewrite (B3 y Hy Ny). lra.
  - assert (VN : applyReset (vOf before) (trst t) x = vOf before x) by (unfold applyReset; apply applyReset_notin; exact Hni).
    rewrite VN. apply B3; auto.
Qed.
