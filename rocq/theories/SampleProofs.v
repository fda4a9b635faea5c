(** Sampling zones: the sampled point is always in the closure of the zone, and
    when it can be in the zone at all. *)
From Coq Require Import QArith ZArith Bool List Lqa Lia.
From Verif Require Import BoundsModel ConstraintModel GuardSpec BoundsProofs ConstraintProofs ZoneModel ZoneSpec ZoneProofs ZoneProofs2 ZoneProofs3 ZoneProofs5.
Import ListNotations.
Open Scope Q_scope.

(** ** closures *)
Definition cl (b : bound) : bound := match b with Fin q _ => Fin q true | Inf => Inf end.
Definition clM (m : matrix) : matrix := mk (dim m) (fun i j => cl (get m i j)).
Definition inCl (m : matrix) (w : valuation) : Prop := inZone (clM m) w.
Lemma dim_clM m : dim (clM m) = dim m. Proof. apply dim_mk. Qed.
Lemma get_clM m i j : (i < dim m)%nat -> (j < dim m)%nat -> get (clM m) i j = cl (get m i j).
Proof. intros. apply get_mk; auto. Qed.
Lemma inCl_get m w : inCl m w <-> forall i j, (i < dim m)%nat -> (j < dim m)%nat -> bsat (cl (get m i j)) (ext w i - ext w j).
Proof. unfold inCl, inZone. rewrite dim_clM. split; intros H i j Hi Hj; specialize (H i j Hi Hj); rewrite get_clM in *; auto. Qed.
Lemma cl_weak b q : bsat b q -> bsat (cl b) q.
Proof. destruct b as [c [|]|]; cbn; auto. lra. Qed.
Lemma inZone_inCl m w : inZone m w -> inCl m w.
Proof. rewrite inCl_get. intros H i j Hi Hj. apply cl_weak. auto. Qed.
Lemma ble_val a b : ble a b = true -> match a, b with Fin p _, Fin q _ => p <= q | Inf, Fin _ _ => False | _, _ => True end.
Proof.
  destruct a as [p s|], b as [q t|]; cbn; auto; [|discriminate]. destruct (Qltb p q) eqn:E; [apply Qltb_true in E; lra|]. destruct (Qeq_bool p q) eqn:E2; [|discriminate]. apply Qeqb_true in E2. lra.
Qed.
Lemma ble_cl_val a b : match a, b with Fin p _, Fin q _ => p <= q | Inf, Fin _ _ => False | _, _ => True end -> ble (cl a) (cl b) = true.
Proof.
  intro H. apply ble_spec. intros q Hq. destruct a as [p s|], b as [r t|]; cbn in *; auto; [lra|contradiction].
Qed.
Lemma cl_mono a b : ble a b = true -> ble (cl a) (cl b) = true.
Proof. intro H. apply ble_cl_val. apply ble_val. auto. Qed.
Lemma cl_badd a b : cl (badd a b) = badd (cl a) (cl b).
Proof. destruct a, b; reflexivity. Qed.
Lemma cl_cl a : cl (cl a) = cl a. Proof. destruct a; reflexivity. Qed.
Lemma inCl_mle a b w : mle a b -> inCl a w -> inCl b w.
Proof.
  intros [D M]. rewrite !inCl_get. intros H i j Hi Hj. rewrite <- D in *. eapply ble_sat_1; [apply cl_mono, M; auto|]. apply H; auto.
Qed.
Lemma inCl_ext m w w' : agree (pred (dim m)) w w' -> inCl m w -> inCl m w'.
Proof. intros E. apply inZone_ext. rewrite dim_clM. auto. Qed.
(** half way from a point of the closure to a point of the zone is in the zone *)
Lemma inCl_mid m p w : inZone m p -> inCl m w -> inZone m (fun x => (w x + p x) * (1#2)).
Proof.
  intros Hp Hw. rewrite inCl_get in Hw. intros i j Hi Hj. specialize (Hp i j Hi Hj). specialize (Hw i j Hi Hj).
  assert (E : ext (fun x => (w x + p x) * (1#2)) i - ext (fun x => (w x + p x) * (1#2)) j == ((ext w i - ext w j) + (ext p i - ext p j)) * (1#2)).
  { destruct i, j; cbn [ext]; lra. }
  eapply bsat_ext; [symmetry; exact E|]. destruct (get m i j) as [c [|]|]; cbn in *; auto; lra.
Qed.

(** canonize commutes with closure, up to equal bounds *)
Definition simM (a b : matrix) : Prop := dim a = dim b /\ forall i j, (i < dim a)%nat -> (j < dim a)%nat -> bequiv (cl (get a i j)) (cl (get b i j)).
Lemma bequiv_vals a b : bequiv (cl a) (cl b) <-> match a, b with Fin p _, Fin q _ => p == q | Inf, Inf => True | _, _ => False end.
Proof.
  split.
  - intros [H1 H2]. apply ble_val in H1. apply ble_val in H2. destruct a, b; cbn in *; auto. lra.
  - destruct a, b; intro H; try contradiction; split; apply ble_cl_val; auto; lra.
Qed.
Lemma bmin_vals a b : match a, b with
  | Fin p _, Fin q _ => exists c s, bmin a b = Fin c s /\ (c == p \/ c == q) /\ c <= p /\ c <= q
  | Fin p _, Inf => bmin a b = a | Inf, Fin _ _ => bmin a b = b | Inf, Inf => bmin a b = Inf end.
Proof.
  assert (L := bmin_le_l a b). assert (R := bmin_le_r a b). assert (C := bmin_case a b (fun x => x = a \/ x = b) (or_introl eq_refl) (or_intror eq_refl)).
  destruct a as [p s|], b as [q t|]; try reflexivity.
  apply ble_val in L. apply ble_val in R. destruct C as [C|C]; rewrite C in *; [exists p, s|exists q, t]; (split; [auto|]); split; auto; lra.
Qed.
Lemma sim_min a b c d : bequiv (cl a) (cl c) -> bequiv (cl b) (cl d) -> bequiv (cl (bmin a b)) (cl (bmin c d)).
Proof.
  intros H1 H2. apply bequiv_vals in H1. apply bequiv_vals in H2. apply bequiv_vals.
  assert (X := bmin_vals a b). assert (Y := bmin_vals c d).
  destruct a as [p s|], c as [p' s'|]; try contradiction; destruct b as [q t|], d as [q' t'|]; try contradiction.
  - destruct X as (x & sx & -> & X1 & X2 & X3). destruct Y as (y & sy & -> & Y1 & Y2 & Y3). lra.
  - rewrite X, Y. exact H1.
  - rewrite X, Y. exact H2.
  - rewrite X. exact I.
Qed.
Lemma sim_add a b c d : bequiv (cl a) (cl c) -> bequiv (cl b) (cl d) -> bequiv (cl (badd a b)) (cl (badd c d)).
Proof. intros. rewrite !cl_badd. apply bequiv_add; auto. Qed.
Lemma simM_closeRow x a b i : (x < dim a)%nat -> (i < dim a)%nat -> simM a b -> simM (closeRow x a i) (closeRow x b i).
Proof.
  intros Hx Hi [D M]. split; [rewrite !dim_closeRow; auto|]. rewrite dim_closeRow. intros k j Hk Hj. unfold closeRow. rewrite !get_mk by lia.
  destruct (k =? i)%nat; [|auto]. apply sim_min; [auto|]. apply sim_add; auto.
Qed.
Lemma simM_close1 x a b : (x < dim a)%nat -> simM a b -> simM (close1 a x) (close1 b x).
Proof.
  intros Hx S. unfold close1. rewrite <- (proj1 S).
  assert (G : forall l a b, (forall i, In i l -> (i < dim a)%nat) -> (x < dim a)%nat -> simM a b -> simM (fold_left (closeRow x) l a) (fold_left (closeRow x) l b)).
  { induction l as [|i l IH]; intros a0 b0 Hl Hx0 S0; cbn [fold_left]; [auto|]. apply IH; rewrite ?dim_closeRow; auto; [intros; apply Hl; right; auto|]. apply simM_closeRow; auto. apply Hl; left; auto. }
  apply G; auto. intros i Hi. apply in_seq in Hi. lia.
Qed.
Lemma simM_canonize a b : simM a b -> simM (canonize a) (canonize b).
Proof.
  intros S. unfold canonize. rewrite <- (proj1 S).
  assert (G : forall l a b, (forall i, In i l -> (i < dim a)%nat) -> simM a b -> simM (fold_left close1 l a) (fold_left close1 l b)).
  { induction l as [|i l IH]; intros a0 b0 Hl S0; cbn [fold_left]; [auto|]. apply IH; rewrite ?dim_close1; auto; [intros; apply Hl; right; auto|]. apply simM_close1; auto. apply Hl; left; auto. }
  apply G; auto. intros i Hi. apply in_seq in Hi. lia.
Qed.
Lemma simM_clM m : simM m (clM m).
Proof. split; [rewrite dim_clM; auto|]. intros i j Hi Hj. rewrite get_clM, cl_cl by auto. apply bequiv_refl. Qed.
Lemma clM_canonize m w0 : inCl m w0 -> closed (clM (canonize m)) /\ nonneg2 (clM (canonize m)) /\ forall w, inCl (canonize m) w <-> inCl m w.
Proof.
  intros H0. assert (S := simM_canonize _ _ (simM_clM m)). destruct S as [D S]. rewrite dim_canonize in *. rewrite dim_canonize, dim_clM in D.
  assert (H1 : inZone (canonize (clM m)) w0) by (apply canonize_inZone; exact H0).
  assert (C1 := canonize_closed_sat (clM m) (ex_intro _ w0 H0)).
  split; [|split].
  - intros i j k Hi Hj Hk. rewrite dim_clM, dim_canonize in *. rewrite !get_clM by (rewrite dim_canonize; auto).
    assert (X := C1 i j k). rewrite dim_canonize, dim_clM in X. specialize (X Hi Hj Hk). apply cl_mono in X. rewrite cl_badd in X.
    eapply ble_trans; [apply (S i j Hi Hj)|]. eapply ble_trans; [exact X|]. apply badd_mono; apply (S _ _); auto.
  - intros i j Hi Hj. rewrite dim_clM, dim_canonize in *. rewrite !get_clM by (rewrite dim_canonize; auto). apply bzero_le_sat.
    assert (X := H1 i j). assert (Y := H1 j i). rewrite dim_canonize, dim_clM in X, Y. specialize (X Hi Hj). specialize (Y Hj Hi). apply cl_weak in X. apply cl_weak in Y.
    apply (bsat_ext _ ((ext w0 i - ext w0 j) + (ext w0 j - ext w0 i))); [ring|]. apply badd_sat; (eapply ble_sat_1; [apply (S _ _); auto|auto]).
  - intro w. split; [apply inCl_mle, canonize_mle|]. rewrite (inCl_get (canonize m)). intros H i j Hi Hj. rewrite dim_canonize in *.
    eapply ble_sat_1; [apply (S i j Hi Hj)|]. apply cl_weak. assert (X : inZone (canonize (clM m)) w) by (apply canonize_inZone; exact H). apply X; rewrite dim_canonize, dim_clM; auto.
Qed.

(** ** the sampled point is in the closure *)
Lemma sample_value_cl m val i :
  closed (clM m) -> nonneg2 (clM m) -> nonnegZone (clM m) -> (S i < dim m)%nat -> length val = i ->
  okOn (clM m) (seq 0 (S i)) (ext (fun k => nth k val 0)) ->
  exists v, sampleStep m val i = val ++ [v] /\
    forall s, (s <= i)%nat -> bsat (get (clM m) (S i) s) (v - ext (fun k => nth k val 0) s)
                           /\ bsat (get (clM m) s (S i)) (ext (fun k => nth k val 0) s - v).
Proof.
  intros C N NN Hi Hlen Hok. set (u := ext (fun k => nth k val 0)) in *.
  assert (HiD : (S i < dim (clM m))%nat) by (rewrite dim_clM; auto).
  destruct (extend_one (clM m) (seq 0 (S i)) u (S i) C N HiD) as [q Hq]; auto.
  { intros s Hs. apply in_seq in Hs. lia. }
  assert (Hq' : forall s, (s <= i)%nat -> bsat (cl (get m (S i) s)) (q - u s) /\ bsat (cl (get m s (S i))) (u s - q)).
  { intros s Hs. rewrite <- !get_clM by lia. apply Hq. apply in_seq. lia. }
  assert (GOAL : forall v, (forall s, (s <= i)%nat -> bsat (cl (get m (S i) s)) (v - u s) /\ bsat (cl (get m s (S i))) (u s - v)) ->
    forall s, (s <= i)%nat -> bsat (get (clM m) (S i) s) (v - u s) /\ bsat (get (clM m) s (S i)) (u s - v)).
  { intros v H s Hs. rewrite !get_clM by lia. apply H; auto. }
  clear Hq. unfold sampleStep. cbv zeta.
  set (lb := get m 0 (S i)). set (ub := get m (S i) 0).
  assert (Hlb : exists l sl, lb = Fin l sl /\ 0 <= - l).
  { specialize (NN i HiD). rewrite get_clM in NN by lia. fold lb in NN. destruct lb as [l sl|]; [|discriminate]. exists l, sl. split; [auto|]. apply ble_val in NN. cbn in NN. lra. }
  destruct Hlb as [l [sl [Elb Hl0]]].
  assert (Hql : - l <= q).
  { destruct (Hq' 0%nat ltac:(lia)) as [_ A]. fold lb in A. rewrite Elb in A. cbn in A. lra. }
  destruct (isPoint ub lb) eqn:EP.
  - unfold isPoint in EP. destruct ub as [uu us|] eqn:Eub; [|discriminate]. rewrite Elb in EP.
    apply andb_true_iff in EP. destruct EP as [EP _]. apply andb_true_iff in EP. destruct EP as [EP _].
    apply Qeqb_true in EP. exists uu. split; auto. apply GOAL.
    assert (Equ : q == uu).
    { destruct (Hq' 0%nat ltac:(lia)) as [A _]. fold ub in A. rewrite Eub in A. cbn in A. lra. }
    intros s Hs. destruct (Hq' s Hs) as [A B]. split; [eapply bsat_ext; [|exact A]|eapply bsat_ext; [|exact B]]; lra.
  - set (lower := fold_left (loUpd m i val) (seq 0 i) (match bval lb with Some b => qmax 0 (- b) | None => 0 end)).
    set (upper := fold_left (upUpd m i val) (seq 0 i) (bval ub)).
    set (v := if bincl lb then lower
              else match upper with
                   | None => lower + (1#2)
                   | Some u => if Qltb (1#2) (u - lower) then lower + (1#2) else (lower + u) * (1#2)
                   end).
    exists v. split; [destruct ub; reflexivity|]. apply GOAL.
    assert (Hlow := lo_fold m i val (seq 0 i) (match bval lb with Some b => qmax 0 (- b) | None => 0 end)).
    cbv zeta in Hlow. fold lower in Hlow. destruct Hlow as (L1 & L2 & L3).
    assert (L1' : - l <= lower).
    { rewrite Elb in L1. cbn [bval] in L1. destruct (qmax_spec 0 (- l)) as (_ & X & _). lra. }
    assert (Lq : lower <= q).
    { apply L3.
      - rewrite Elb. cbn [bval]. apply qmax_spec; lra.
      - intros j b s Hj E. apply in_seq in Hj. destruct (Hq' (S j) ltac:(lia)) as [_ B]. rewrite E in B. cbn in B. lra. }
    assert (Hup := up_fold m i val (seq 0 i) (bval ub)). fold upper in Hup.
    assert (LV : lower <= v).
    { unfold v. destruct (bincl lb); [lra|]. destruct upper as [U|]; [|lra]. destruct (Qltb (1#2) (U - lower)); [lra|].
      destruct Hup as (U1 & U2 & U3). assert (Uq : q <= U).
      { apply U3.
        - intros u0 E0. destruct (Hq' 0%nat ltac:(lia)) as [A _]. fold ub in A. destruct ub as [ub0 us|]; [|discriminate]. injection E0 as ->. cbn in A. lra.
        - intros j b s Hj E. apply in_seq in Hj. destruct (Hq' (S j) ltac:(lia)) as [A _]. rewrite E in A. cbn in A. lra. }
      lra. }
    intros s Hs. split.
    + destruct upper as [U|] eqn:EU.
      * destruct Hup as (U1 & U2 & U3).
        assert (Uq : q <= U).
        { apply U3.
          - intros u0 E0. destruct (Hq' 0%nat ltac:(lia)) as [A _]. fold ub in A. destruct ub as [ub0 us|]; [|discriminate]. injection E0 as ->. cbn in A. lra.
          - intros j b t Hj E. apply in_seq in Hj. destruct (Hq' (S j) ltac:(lia)) as [A _]. rewrite E in A. cbn in A. lra. }
        assert (VU : v <= U).
        { unfold v. destruct (bincl lb); [lra|]. destruct (Qltb (1#2) (U - lower)) eqn:EB; [apply Qltb_true in EB; lra|lra]. }
        destruct s as [|s].
        -- fold ub. destruct ub as [ub0 us|]; cbn; auto. specialize (U1 ub0 eq_refl). lra.
        -- destruct (get m (S i) (S s)) as [b t|] eqn:E; cbn; auto. assert (K := U2 s b t ltac:(apply in_seq; lia) E). lra.
      * destruct Hup as [U1 U2]. destruct s as [|s]; [fold ub; destruct ub; [discriminate|exact I]|]. rewrite (U2 s) by (apply in_seq; lia). exact I.
    + destruct s as [|s].
      * fold lb. rewrite Elb. cbn. lra.
      * destruct (get m (S s) (S i)) as [b t|] eqn:E; cbn; auto. assert (K := L2 s b t ltac:(apply in_seq; lia) E). lra.
Qed.
Lemma sample_fold_cl m : closed (clM m) -> nonneg2 (clM m) -> nonnegZone (clM m) ->
  forall n, (n < dim m)%nat ->
  let val := fold_left (sampleStep m) (seq 0 n) [] in
  length val = n /\ okOn (clM m) (seq 0 (S n)) (ext (fun k => nth k val 0)).
Proof.
  intros HC HN NN. induction n as [|n IH]; intros Hn.
  - cbn. split; auto. intros i j [<-|[]] [<-|[]]. eapply bsat_ext; [|apply bzero_le_sat, (nonneg2_diag (clM m)); [auto|rewrite dim_clM; lia]].
    cbn [ext]. ring.
  - specialize (IH ltac:(lia)). cbv zeta in *. destruct IH as [L Hok].
    rewrite seq_S, fold_left_app. cbn [fold_left plus].
    set (val := fold_left (sampleStep m) (seq 0 n) []) in *.
    destruct (sample_value_cl m val n HC HN NN Hn L Hok) as [v [-> Hv]].
    split; [rewrite app_length; cbn; lia|].
    assert (E1 : forall k, (k <= n)%nat -> ext (fun k => nth k (val ++ [v]) 0) k = ext (fun k => nth k val 0) k).
    { intros [|k] Hk; cbn [ext]; auto. rewrite app_nth1 by lia. auto. }
    assert (E2 : ext (fun k => nth k (val ++ [v]) 0) (S n) = v).
    { cbn [ext]. rewrite app_nth2 by lia. rewrite L, Nat.sub_diag. reflexivity. }
    intros i j Hi Hj. apply in_seq in Hi, Hj.
    destruct (Nat.eq_dec i (S n)) as [->|Ni], (Nat.eq_dec j (S n)) as [->|Nj]; rewrite ?E2, ?E1 by lia.
    + eapply bsat_ext; [|apply bzero_le_sat, (nonneg2_diag (clM m)); [auto|rewrite dim_clM; lia]]. ring.
    + apply Hv; lia.
    + apply Hv; lia.
    + apply Hok; apply in_seq; lia.
Qed.
Theorem zsample_closure m w0 : (0 < dim m)%nat -> inCl m w0 -> (forall w, inCl m w -> forall x, (S x < dim m)%nat -> 0 <= w x) ->
  length (zsample m) = pred (dim m) /\ inCl m (fun k => nth k (zsample m) 0).
Proof.
  intros Hd H0 NN. destruct (clM_canonize m w0 H0) as (C & N & E). assert (D := dim_canonize m).
  assert (NZ : nonnegZone (clM (canonize m))).
  { intros i Hi. rewrite dim_clM, D in Hi. apply (closed_tight _ C N); rewrite ?dim_clM, ?D; try lia. intros w Hw.
    assert (X := NN w (proj1 (E w) Hw) i Hi). cbn. lra. }
  destruct (sample_fold_cl (canonize m) C N NZ (pred (dim (canonize m))) ltac:(lia)) as [L Hok].
  unfold zsample. cbv zeta. split; [rewrite L, D; auto|].
  apply E. intros i j Hi Hj. rewrite dim_clM in *. apply Hok; apply in_seq; lia.
Qed.

(** ** when the sampled point is in the zone *)
(** as [sample_value], asking only that the strict bounds against earlier
    clocks hold of the value picked *)
Lemma sample_value_if m val i :
  canonicalZ m -> nonnegZone m -> (S i < dim m)%nat -> length val = i ->
  okOn m (seq 0 (S i)) (ext (fun k => nth k val 0)) ->
  (forall v, sampleStep m val i = val ++ [v] -> bsat (get m 0 (S i)) (- v) -> forall j, (j < i)%nat -> bsat (get m (S j) (S i)) (nth j val 0 - v)) ->
  exists v, sampleStep m val i = val ++ [v] /\
    forall s, (s <= i)%nat -> bsat (get m (S i) s) (v - ext (fun k => nth k val 0) s)
                           /\ bsat (get m s (S i)) (ext (fun k => nth k val 0) s - v).
Proof.
  intros [C N] NN Hi Hlen Hok SS. set (u := ext (fun k => nth k val 0)) in *.
  destruct (extend_one m (seq 0 (S i)) u (S i) C N Hi) as [q Hq]; auto.
  { intros s Hs. apply in_seq in Hs. lia. }
  assert (Hq' : forall s, (s <= i)%nat -> bsat (get m (S i) s) (q - u s) /\ bsat (get m s (S i)) (u s - q)).
  { intros s Hs. apply Hq. apply in_seq. lia. }
  clear Hq. unfold sampleStep in *. cbv zeta in *.
  set (lb := get m 0 (S i)) in *. set (ub := get m (S i) 0) in *.
  assert (Hlb : exists l sl, lb = Fin l sl).
  { specialize (NN i Hi). fold lb in NN. destruct lb as [l sl|]; [eauto|discriminate]. }
  destruct Hlb as [l [sl Elb]].
  assert (Hl0 : 0 <= - l).
  { specialize (NN i Hi). fold lb in NN. rewrite Elb in NN. apply ble_val in NN. cbn in NN. lra. }
  assert (Hql : - l <= q).
  { destruct (Hq' 0%nat ltac:(lia)) as [_ A]. fold lb in A. rewrite Elb in A. apply bsat_le in A. subst u; cbn [ext] in A. lra. }
  destruct (isPoint ub lb) eqn:EP.
  - unfold isPoint in EP. destruct ub as [uu us|] eqn:Eub; [|discriminate]. rewrite Elb in EP.
    apply andb_true_iff in EP. destruct EP as [EP _]. apply andb_true_iff in EP. destruct EP as [EP _].
    apply Qeqb_true in EP. exists uu. split; auto.
    assert (Equ : q == uu).
    { destruct (Hq' 0%nat ltac:(lia)) as [A _]. fold ub in A. rewrite Eub in A. apply bsat_le in A. subst u; cbn [ext] in A. lra. }
    intros s Hs. destruct (Hq' s Hs) as [A B]. split; [eapply bsat_ext; [|exact A]|eapply bsat_ext; [|exact B]]; lra.
  - set (lower := fold_left (loUpd m i val) (seq 0 i) (match bval lb with Some b => qmax 0 (- b) | None => 0 end)) in *.
    set (upper := fold_left (upUpd m i val) (seq 0 i) (bval ub)) in *.
    set (v := if bincl lb then lower
              else match upper with
                   | None => lower + (1#2)
                   | Some u => if Qltb (1#2) (u - lower) then lower + (1#2) else (lower + u) * (1#2)
                   end) in *.
    assert (EV : val ++ [v] = val ++ [v]) by reflexivity.
    exists v. split; [destruct ub; reflexivity|].
    assert (Hlow := lo_fold m i val (seq 0 i) (match bval lb with Some b => qmax 0 (- b) | None => 0 end)).
    cbv zeta in Hlow. fold lower in Hlow. destruct Hlow as (L1 & L2 & L3).
    assert (L1' : - l <= lower).
    { rewrite Elb in L1. cbn [bval] in L1. destruct (qmax_spec 0 (- l)) as (_ & X & _). lra. }
    assert (Lq : lower <= q).
    { apply L3.
      - rewrite Elb. cbn [bval]. apply qmax_spec; lra.
      - intros j b s Hj E. apply in_seq in Hj. destruct (Hq' (S j) ltac:(lia)) as [_ B]. rewrite E in B.
        apply bsat_le in B. subst u; cbn [ext] in B. lra. }
    assert (Hup := up_fold m i val (seq 0 i) (bval ub)). fold upper in Hup.
    assert (LB : forall s, (s <= i)%nat -> match get m s (S i) with Fin b _ => u s - lower <= b | Inf => True end).
    { intros [|s] Hs.
      - fold lb. rewrite Elb. subst u; cbn [ext]. lra.
      - destruct (get m (S s) (S i)) as [b t|] eqn:E; auto. assert (K := L2 s b t ltac:(apply in_seq; lia) E).
        subst u; cbn [ext]. lra. }
    destruct (bincl lb) eqn:EI.
    + assert (S0 : bsat lb (- v)) by (rewrite Elb in EI |- *; cbn [bincl] in EI; subst sl; unfold v; cbn; lra).
      assert (SS' := SS v EV S0). intros s Hs. split.
      * destruct (Hq' s Hs) as [A _]. eapply bsat_down; [|exact A]. unfold v. lra.
      * destruct s as [|s].
        -- fold lb. eapply bsat_ext; [|exact S0]. subst u. cbn [ext]. ring.
        -- apply SS'. lia.
    + destruct upper as [U|] eqn:EU.
      * destruct Hup as (U1 & U2 & U3).
        assert (Uq : q <= U).
        { apply U3.
          - intros u0 E0. destruct (Hq' 0%nat ltac:(lia)) as [A _]. fold ub in A. destruct ub as [ub0 us|]; [|discriminate].
            injection E0 as ->. apply bsat_le in A. subst u; cbn [ext] in A. lra.
          - intros j b s Hj E. apply in_seq in Hj. destruct (Hq' (S j) ltac:(lia)) as [A _]. rewrite E in A.
            apply bsat_le in A. subst u; cbn [ext] in A. lra. }
        assert (UB : forall s, (s <= i)%nat -> match get m (S i) s with Fin b _ => U - u s <= b | Inf => True end).
        { intros [|s] Hs.
          - fold ub. destruct ub as [ub0 us|]; auto. specialize (U1 ub0 eq_refl). subst u; cbn [ext]. lra.
          - destruct (get m (S i) (S s)) as [b t|] eqn:E; auto. assert (K := U2 s b t ltac:(apply in_seq; lia) E).
            subst u; cbn [ext]. lra. }
        assert (Hv : (v == q /\ lower == U) \/ (lower < v /\ v < U)).
        { unfold v. destruct (Qltb (1#2) (U - lower)) eqn:EB; [apply Qltb_true in EB; right; lra|].
          apply Qltb_false in EB. destruct (Qlt_le_dec lower U); [right; lra|left; lra]. }
        destruct Hv as [[Hv _]|[V1 V2]].
        -- intros s Hs. destruct (Hq' s Hs) as [A B]. split; [eapply bsat_ext; [|exact A]|eapply bsat_ext; [|exact B]]; lra.
        -- intros s Hs. specialize (UB s Hs). specialize (LB s Hs). split; apply bsat_strict.
           ++ destruct (get m (S i) s); auto. lra.
           ++ destruct (get m s (S i)); auto. lra.
      * destruct Hup as [U1 U2].
        intros s Hs. specialize (LB s Hs). split; apply bsat_strict; unfold v.
        -- destruct s as [|s]; [fold ub; destruct ub; [discriminate|auto]|]. rewrite (U2 s) by (apply in_seq; lia). auto.
        -- destruct (get m s (S i)); auto. lra.
Qed.
Lemma fold_sample_nth m : forall b a val k, length val = a -> (k < a)%nat -> nth k (fold_left (sampleStep m) (seq a b) val) 0 = nth k val 0.
Proof.
  induction b as [|b IH]; intros a val k L Hk; cbn [seq fold_left]; [auto|].
  rewrite IH; [|unfold sampleStep; rewrite app_length; cbn; lia|lia]. unfold sampleStep. rewrite app_nth1 by lia. auto.
Qed.
(** [P]: bounds between clocks that the sampled point is known to satisfy; every
    bound between two clocks comes from it or from the bounds of the clocks *)
Theorem zsample_if m (P : matrix) : (0 < dim m)%nat -> nonemptyZ m ->
  nonnegZone (canonize m) ->
  (forall i j, (j < i)%nat -> (S i < dim m)%nat ->
     ble (bmin (get P (S j) (S i)) (badd (get (canonize m) (S j) 0) (get (canonize m) 0 (S i)))) (get (canonize m) (S j) (S i)) = true) ->
  (forall i j, (j < i)%nat -> (S i < dim m)%nat -> bsat (get P (S j) (S i)) (nth j (zsample m) 0 - nth i (zsample m) 0)) ->
  inZone m (fun k => nth k (zsample m) 0).
Proof.
  intros Hd HN NN HP HS. assert (HC := canonical_of_nonempty_canonize m HN). assert (D := dim_canonize m).
  set (c := canonize m) in *. unfold zsample in *. cbv zeta in *. fold c in HS |- *.
  assert (G : forall n, (n < dim c)%nat -> let val := fold_left (sampleStep c) (seq 0 n) [] in
    length val = n /\ okOn c (seq 0 (S n)) (ext (fun k => nth k val 0))).
  { induction n as [|n IH]; intros Hn.
    - cbn. split; auto. intros i j [<-|[]] [<-|[]]. eapply bsat_ext; [|apply bzero_le_sat, (nonneg2_diag c); [apply HC|lia]]. cbn [ext]. ring.
    - specialize (IH ltac:(lia)). cbv zeta in *. destruct IH as [L Hok].
      rewrite seq_S, fold_left_app. cbn [fold_left plus].
      set (val := fold_left (sampleStep c) (seq 0 n) []) in *.
      destruct (sample_value_if c val n HC NN Hn L Hok) as [v [EV Hv]].
      { intros v EV S0 j Hj. eapply ble_sat_1; [apply (HP n j Hj); lia|].
        assert (X : nth j (fold_left (sampleStep c) (seq 0 (pred (dim c))) []) 0 = nth j val 0 /\ nth n (fold_left (sampleStep c) (seq 0 (pred (dim c))) []) 0 = v).
        { replace (pred (dim c)) with (n + (pred (dim c) - n))%nat by lia. rewrite seq_app, fold_left_app. fold val.
          replace (pred (dim c) - n)%nat with (S (pred (dim c) - n - 1)) by lia. cbn [seq fold_left plus]. rewrite EV.
          rewrite !fold_sample_nth by (rewrite ?app_length; cbn; lia). split; [rewrite app_nth1 by lia; auto|]. rewrite app_nth2, L, Nat.sub_diag by lia. reflexivity. }
        destruct X as [X1 X2]. specialize (HS n j Hj ltac:(lia)). rewrite X1, X2 in HS.
        apply bsat_bmin. split; [exact HS|]. apply (bsat_ext _ ((nth j val 0) + (- v))); [ring|]. apply badd_sat; [|exact S0].
        assert (Y := Hok (S j) 0%nat ltac:(apply in_seq; lia) ltac:(apply in_seq; lia)). cbn [ext] in Y. eapply bsat_ext; [|exact Y]. ring. }
      rewrite EV. split; [rewrite app_length; cbn; lia|].
      assert (E1 : forall k, (k <= n)%nat -> ext (fun k => nth k (val ++ [v]) 0) k = ext (fun k => nth k val 0) k).
      { intros [|k] Hk; cbn [ext]; auto. rewrite app_nth1 by lia. auto. }
      assert (E2 : ext (fun k => nth k (val ++ [v]) 0) (S n) = v).
      { cbn [ext]. rewrite app_nth2 by lia. rewrite L, Nat.sub_diag. reflexivity. }
      intros i j Hi Hj. apply in_seq in Hi, Hj.
      destruct (Nat.eq_dec i (S n)) as [->|Ni], (Nat.eq_dec j (S n)) as [->|Nj]; rewrite ?E2, ?E1 by lia.
      + eapply bsat_ext; [|apply bzero_le_sat, (nonneg2_diag c); [apply HC|lia]]. ring.
      + apply Hv; lia.
      + apply Hv; lia.
      + apply Hok; apply in_seq; lia. }
  destruct (G (pred (dim c)) ltac:(lia)) as [L Hok]. apply canonize_inZone. fold c. intros i j Hi Hj. apply Hok; apply in_seq; lia.
Qed.
