(** Zones: sampling a valuation. *)
From Coq Require Import QArith ZArith Bool List Lqa Lia.
From Verif Require Import BoundsModel ConstraintModel GuardSpec BoundsProofs ConstraintProofs ZoneModel ZoneSpec ZoneProofs ZoneProofs2 ZoneProofs3.
Import ListNotations.
Open Scope Q_scope.

Lemma qmax_spec a b : a <= qmax a b /\ b <= qmax a b /\ forall q, a <= q -> b <= q -> qmax a b <= q.
Proof. unfold qmax. destruct (Qltb a b) eqn:E; [apply Qltb_true in E|apply Qltb_false in E]; repeat split; intros; lra. Qed.
Lemma qmin_spec a b : qmin a b <= a /\ qmin a b <= b /\ forall q, q <= a -> q <= b -> q <= qmin a b.
Proof. unfold qmin. destruct (Qltb b a) eqn:E; [apply Qltb_true in E|apply Qltb_false in E]; repeat split; intros; lra. Qed.

Lemma lo_fold m i val l : forall lower,
  let L := fold_left (loUpd m i val) l lower in
  lower <= L /\ (forall j b s, In j l -> get m (S j) (S i) = Fin b s -> - b + nth j val 0 <= L) /\
  (forall q, lower <= q -> (forall j b s, In j l -> get m (S j) (S i) = Fin b s -> - b + nth j val 0 <= q) -> L <= q).
Proof.
  induction l as [|j l IH]; intros lower; cbn [fold_left]; cbv zeta.
  - split; [lra|]. split; [intros j b s []|]. intros; auto.
  - destruct (IH (loUpd m i val lower j)) as (A & B & C).
    assert (X : lower <= loUpd m i val lower j /\
                (forall b s, get m (S j) (S i) = Fin b s -> - b + nth j val 0 <= loUpd m i val lower j) /\
                (forall q, lower <= q -> (forall b s, get m (S j) (S i) = Fin b s -> - b + nth j val 0 <= q) -> loUpd m i val lower j <= q)).
    { unfold loUpd. destruct (get m (S j) (S i)) as [b s|]; cbn [bval].
      - destruct (qmax_spec lower (- b + nth j val 0)) as (X1 & X2 & X3). split; [auto|]. split.
        + intros b' s' [= <- <-]; auto.
        + intros q H1 H2. apply X3; eauto.
      - split; [lra|]. split; [discriminate|]. auto. }
    destruct X as (X1 & X2 & X3). split; [eapply Qle_trans; eauto|]. split.
    + intros j' b s [<-|Hj] E; [eapply Qle_trans; [apply (X2 b s E)|auto]|eapply B; eauto].
    + intros q H1 H2. apply C; [apply X3; auto; intros b s E; apply (H2 j b s); auto; left; auto|].
      intros; eapply H2; eauto; right; auto.
Qed.

Lemma up_fold m i val l : forall upper,
  match fold_left (upUpd m i val) l upper with
  | None => upper = None /\ forall j, In j l -> get m (S i) (S j) = Inf
  | Some U =>
     (forall u, upper = Some u -> U <= u) /\ (forall j b s, In j l -> get m (S i) (S j) = Fin b s -> U <= b + nth j val 0) /\
     (forall q, (forall u, upper = Some u -> q <= u) -> (forall j b s, In j l -> get m (S i) (S j) = Fin b s -> q <= b + nth j val 0) -> q <= U)
  end.
Proof.
  induction l as [|j l IH]; intros upper; cbn [fold_left].
  - destruct upper as [u|]; [|split; auto; intros j []]. split; [intros u' [= <-]; lra|].
    split; [intros j b s []|]. intros q H _; apply H; auto.
  - specialize (IH (upUpd m i val upper j)).
    destruct (fold_left (upUpd m i val) l (upUpd m i val upper j)) as [U|].
    + destruct IH as (A & B & C).
      unfold upUpd in A, C. destruct (get m (S i) (S j)) as [b s|] eqn:E; cbn [bval] in A, C.
      * destruct upper as [u|].
        -- destruct (qmin_spec u (b + nth j val 0)) as (X1 & X2 & X3). specialize (A _ eq_refl). split; [intros u' [= <-]; lra|].
           split.
           ++ intros j' b' s' [<-|Hj] E'; [rewrite E in E'; injection E' as <- <-; lra|eapply B; eauto].
           ++ intros q H1 H2. apply C; [intros u' [= <-]; apply X3; [apply H1; auto|apply (H2 j b s); auto; left; auto]|].
              intros; eapply H2; eauto; right; auto.
        -- specialize (A _ eq_refl). split; [discriminate|]. split.
           ++ intros j' b' s' [<-|Hj] E'; [rewrite E in E'; injection E' as <- <-; lra|eapply B; eauto].
           ++ intros q H1 H2. apply C; [intros u' [= <-]; apply (H2 j b s); auto; left; auto|].
              intros; eapply H2; eauto; right; auto.
      * split; [auto|]. split.
        -- intros j' b' s' [<-|Hj] E'; [congruence|eapply B; eauto].
        -- intros q H1 H2. apply C; auto. intros; eapply H2; eauto; right; auto.
    + destruct IH as [A B]. unfold upUpd in A. destruct (get m (S i) (S j)) as [b s|] eqn:E; cbn [bval] in A.
      * destruct upper; discriminate.
      * split; auto. intros j' [<-|Hj]; auto.
Qed.

Definition inclOrInf (b : bound) : Prop := match b with Fin _ s => s = true | Inf => True end.

(** the code may pick the lower bound itself only when no strict bound can be tight there *)
Definition sampleSafe (m : matrix) : Prop :=
  forall i, (S i < dim m)%nat -> bincl (get m 0 (S i)) = true -> isPoint (get m (S i) 0) (get m 0 (S i)) = false ->
  forall j, (j < i)%nat -> inclOrInf (get m (S j) (S i)).

Definition nonnegZone (m : matrix) : Prop := forall i, (S i < dim m)%nat -> ble (get m 0 (S i)) bz = true.

Lemma bsat_le b s q : bsat (Fin b s) q -> q <= b.
Proof. destruct s; cbn; lra. Qed.
Lemma bsat_strict b q : (match b with Fin c _ => q < c | Inf => True end) -> bsat b q.
Proof. destruct b as [c [|]|]; cbn; intros; auto; lra. Qed.

Lemma sample_value m val i :
  canonicalZ m -> nonnegZone m -> sampleSafe m -> (S i < dim m)%nat -> length val = i ->
  okOn m (seq 0 (S i)) (ext (fun k => nth k val 0)) ->
  exists v, sampleStep m val i = val ++ [v] /\
    forall s, (s <= i)%nat -> bsat (get m (S i) s) (v - ext (fun k => nth k val 0) s)
                           /\ bsat (get m s (S i)) (ext (fun k => nth k val 0) s - v).
Proof.
  intros [C N] NN SS Hi Hlen Hok. set (u := ext (fun k => nth k val 0)) in *.
  destruct (extend_one m (seq 0 (S i)) u (S i) C N Hi) as [q Hq]; auto.
  { intros s Hs. apply in_seq in Hs. lia. }
  assert (Hq' : forall s, (s <= i)%nat -> bsat (get m (S i) s) (q - u s) /\ bsat (get m s (S i)) (u s - q)).
  { intros s Hs. apply Hq. apply in_seq. lia. }
  clear Hq. unfold sampleStep. cbv zeta.
  set (lb := get m 0 (S i)). set (ub := get m (S i) 0).
  assert (Hlb : exists l sl, lb = Fin l sl).
  { specialize (NN i Hi). fold lb in NN. destruct lb as [l sl|]; [eauto|discriminate]. }
  destruct Hlb as [l [sl Elb]].
  assert (Hl0 : 0 <= - l).
  { specialize (NN i Hi). fold lb in NN. rewrite Elb in NN. cbn in NN.
    destruct (Qltb l 0) eqn:E; [apply Qltb_true in E; lra|]. destruct (Qeq_bool l 0) eqn:E'; [|discriminate].
    apply Qeqb_true in E'. lra. }
  assert (Hql : - l <= q).
  { destruct (Hq' 0%nat ltac:(lia)) as [_ A]. fold lb in A. rewrite Elb in A. apply bsat_le in A. cbn [u ext] in A.
    subst u; cbn [ext] in A. lra. }
  destruct (isPoint ub lb) eqn:EP.
  - (* point *)
    unfold isPoint in EP. destruct ub as [uu us|] eqn:Eub; [|discriminate]. rewrite Elb in EP.
    apply andb_true_iff in EP. destruct EP as [EP _]. apply andb_true_iff in EP. destruct EP as [EP _].
    apply Qeqb_true in EP. exists uu. split; auto.
    assert (Equ : q == uu).
    { destruct (Hq' 0%nat ltac:(lia)) as [A _]. fold ub in A. rewrite Eub in A. apply bsat_le in A.
      subst u; cbn [ext] in A. lra. }
    intros s Hs. destruct (Hq' s Hs) as [A B]. split; [eapply bsat_ext; [|exact A]|eapply bsat_ext; [|exact B]]; lra.
  - assert (EV : forall (A : Type) (f : Q -> A) (d : A), match ub with Fin _ _ => d | Inf => d end = d)
      by (intros; destruct ub; auto).
    set (lower := fold_left (loUpd m i val) (seq 0 i) (match bval lb with Some b => qmax 0 (- b) | None => 0 end)).
    set (upper := fold_left (upUpd m i val) (seq 0 i) (bval ub)).
    set (v := if bincl lb then lower
              else match upper with
                   | None => lower + (1#2)
                   | Some u => if Qltb (1#2) (u - lower) then lower + (1#2) else (lower + u) * (1#2)
                   end).
    exists v. split; [destruct ub; reflexivity|].
    assert (Hlow := lo_fold m i val (seq 0 i) (match bval lb with Some b => qmax 0 (- b) | None => 0 end)).
    cbv zeta in Hlow. fold lower in Hlow. destruct Hlow as (L1 & L2 & L3).
    assert (L1' : - l <= lower).
    { rewrite Elb in L1. cbn [bval] in L1. destruct (qmax_spec 0 (- l)) as (_ & X & _). lra. }
    assert (Lq : lower <= q).
    { apply L3.
      - rewrite Elb. cbn [bval]. apply qmax_spec; lra.
      - intros j b s Hj E. apply in_seq in Hj. destruct (Hq' (S j) ltac:(lia)) as [_ B]. rewrite E in B.
        apply bsat_le in B. subst u; cbn [ext] in B. lra. }
    assert (Hup := up_fold m i val (seq 0 i) (bval ub)). fold upper in Hup.
    (* lower bounds, non strict *)
    assert (LB : forall s, (s <= i)%nat -> match get m s (S i) with Fin b _ => u s - lower <= b | Inf => True end).
    { intros [|s] Hs.
      - fold lb. rewrite Elb. subst u; cbn [ext]. lra.
      - destruct (get m (S s) (S i)) as [b t|] eqn:E; auto. assert (K := L2 s b t ltac:(apply in_seq; lia) E).
        subst u; cbn [ext]. lra. }
    destruct (bincl lb) eqn:EI.
    + (* take the lower bound *)
      intros s Hs. split.
      * destruct (Hq' s Hs) as [A _]. eapply bsat_down; [|exact A]. unfold v. lra.
      * specialize (LB s Hs). unfold v. destruct s as [|s].
        -- fold lb in LB |- *. rewrite Elb in *. cbn [bincl] in EI. subst sl. exact LB.
        -- assert (I := SS i Hi EI EP s ltac:(lia)). destruct (get m (S s) (S i)) as [b t|]; cbn in I; [subst t; exact LB|cbn; auto].
    + (* strictly inside, or the only value *)
      destruct upper as [U|] eqn:EU.
      * destruct Hup as (U1 & U2 & U3).
        assert (Uq : q <= U).
        { apply U3.
          - intros u0 E0. destruct (Hq' 0%nat ltac:(lia)) as [A _]. fold ub in A. destruct ub as [ub0 us|]; [|discriminate].
            injection E0 as ->. apply bsat_le in A. subst u; cbn [ext] in A. lra.
          - intros j b s Hj E. apply in_seq in Hj. destruct (Hq' (S j) ltac:(lia)) as [A _]. rewrite E in A.
            apply bsat_le in A. subst u; cbn [ext] in A. lra. }
        assert (UB : forall s, (s <= i)%nat -> match get m (S i) s with Fin b _ => U - u s <= b | Inf => True end).
        { intros [|s] Hs.
          - fold ub. destruct ub as [ub0 us|]; auto. specialize (U1 ub0 eq_refl). subst u; cbn [ext]. lra.
          - destruct (get m (S i) (S s)) as [b t|] eqn:E; auto. assert (K := U2 s b t ltac:(apply in_seq; lia) E).
            subst u; cbn [ext]. lra. }
        assert (Hv : (v == q /\ lower == U) \/ (lower < v /\ v < U)).
        { unfold v. destruct (Qltb (1#2) (U - lower)) eqn:EB; [apply Qltb_true in EB; right; lra|].
          apply Qltb_false in EB. destruct (Qlt_le_dec lower U); [right; lra|left; lra]. }
        destruct Hv as [[Hv _]|[V1 V2]].
        -- intros s Hs. destruct (Hq' s Hs) as [A B]. split; [eapply bsat_ext; [|exact A]|eapply bsat_ext; [|exact B]]; lra.
        -- intros s Hs. specialize (UB s Hs). specialize (LB s Hs). split; apply bsat_strict.
           ++ destruct (get m (S i) s); auto. lra.
           ++ destruct (get m s (S i)); auto. lra.
      * destruct Hup as [U1 U2].
        intros s Hs. specialize (LB s Hs). split; apply bsat_strict; unfold v.
        -- destruct s as [|s]; [fold ub; destruct ub; [discriminate|auto]|]. rewrite (U2 s) by (apply in_seq; lia). auto.
        -- destruct (get m s (S i)); auto. lra.
Qed.

Lemma sample_fold m : canonicalZ m -> nonnegZone m -> sampleSafe m ->
  forall n, (n < dim m)%nat ->
  let val := fold_left (sampleStep m) (seq 0 n) [] in
  length val = n /\ okOn m (seq 0 (S n)) (ext (fun k => nth k val 0)).
Proof.
  intros HC NN SS. induction n as [|n IH]; intros Hn.
  - cbn. split; auto. intros i j [<-|[]] [<-|[]]. eapply bsat_ext; [|apply bzero_le_sat, (nonneg2_diag m); [apply HC|lia]].
    cbn [ext]. ring.
  - specialize (IH ltac:(lia)). cbv zeta in *. destruct IH as [L Hok].
    rewrite seq_S, fold_left_app. cbn [fold_left plus].
    set (val := fold_left (sampleStep m) (seq 0 n) []) in *.
    destruct (sample_value m val n HC NN SS Hn L Hok) as [v [-> Hv]].
    split; [rewrite app_length; cbn; lia|].
    assert (E1 : forall k, (k <= n)%nat -> ext (fun k => nth k (val ++ [v]) 0) k = ext (fun k => nth k val 0) k).
    { intros [|k] Hk; cbn [ext]; auto. rewrite app_nth1 by lia. auto. }
    assert (E2 : ext (fun k => nth k (val ++ [v]) 0) (S n) = v).
    { cbn [ext]. rewrite app_nth2 by lia. rewrite L, Nat.sub_diag. reflexivity. }
    intros i j Hi Hj. apply in_seq in Hi, Hj.
    destruct (Nat.eq_dec i (S n)) as [->|Ni], (Nat.eq_dec j (S n)) as [->|Nj]; rewrite ?E2, ?E1 by lia.
    + eapply bsat_ext; [|apply bzero_le_sat, (nonneg2_diag m); [apply HC|lia]]. ring.
    + apply Hv; lia.
    + apply Hv; lia.
    + apply Hok; apply in_seq; lia.
Qed.

Lemma zsample_in m : (0 < dim m)%nat -> nonemptyZ m ->
  nonnegZone (canonize m) -> sampleSafe (canonize m) ->
  length (zsample m) = pred (dim m) /\ inZone m (fun k => nth k (zsample m) 0).
Proof.
  intros Hd HN NN SS. assert (HC := canonical_of_nonempty_canonize m HN).
  assert (D := dim_canonize m).
  destruct (sample_fold (canonize m) HC NN SS (pred (dim (canonize m))) ltac:(lia)) as [L Hok].
  unfold zsample. cbv zeta. split; [rewrite L, D; auto|].
  apply canonize_inZone. intros i j Hi Hj. apply Hok; apply in_seq; lia.
Qed.

(** the zone 0 < x0, x0 < x1, 0 <= x2, x1 - 1 < x2 *)
Definition sampleBad : matrix :=
  [ [bz; Fin 0 false; Fin 0 true; Fin 0 true];
    [Inf; bz; Fin 0 false; Inf];
    [Inf; Inf; bz; Fin 1 false];
    [Inf; Inf; Inf; bz] ].
Lemma sampleBad_bad :
  isSatisfiable sampleBad = true /\
  isSatisfiable (zand sampleBad (zpoint 3 (fun k => nth k (zsample sampleBad) 0))) = false.
Proof. vm_compute. auto. Qed.

(** ** relatively open zones *)
Lemma ext_move w0 w1 t i : ext (fun x => w0 x + t * (w0 x - w1 x)) i == ext w0 i + t * (ext w0 i - ext w1 i).
Proof. destruct i; cbn [ext]; ring. Qed.
Lemma relOpen_bound b p q : bsat b p -> bsat b q -> (match b with Fin c true => p == q | _ => True end) ->
  exists e, 0 < e /\ forall t, 0 <= t -> t <= e -> bsat b (p + t * (p - q)).
Proof.
  intros Hp Hq K. destruct b as [c [|]|]; cbn [bsat] in *.
  - exists 1. split; [lra|]. intros t T0 T1. assert (E : p + t * (p - q) == p) by (rewrite K; ring). lra.
  - destruct (Qlt_le_dec q p) as [L|L].
    + exists ((c - p) * (1 # 2) / (p - q)). assert (P : 0 < p - q) by lra. split.
      { apply Qlt_shift_div_l; lra. }
      intros t T0 T1. assert (X : t * (p - q) <= (c - p) * (1 # 2) / (p - q) * (p - q)) by (apply Qmult_le_compat_r; lra).
      assert (Y : (c - p) * (1 # 2) / (p - q) * (p - q) == (c - p) * (1 # 2)) by (field; lra). lra.
    + exists 1. split; [lra|]. intros t T0 T1. assert (X : 0 <= t * (q - p)) by (apply Qmult_le_0_compat; lra).
      assert (Y : t * (p - q) == - (t * (q - p))) by ring. lra.
  - exists 1. split; [lra|]. auto.
Qed.
Lemma finite_eps {A} (P : A -> Q -> Prop) : (forall a e e', 0 < e' -> e' <= e -> P a e -> P a e') ->
  forall l : list A, (forall a, In a l -> exists e, 0 < e /\ P a e) -> exists e, 0 < e /\ forall a, In a l -> P a e.
Proof.
  intros M. induction l as [|a l IH]; intros H.
  - exists 1. split; [lra|]. intros a [].
  - destruct IH as [e [E1 E2]]; [intros; apply H; right; auto|]. destruct (H a (or_introl eq_refl)) as [e' [E3 E4]].
    destruct (qmin_spec e e') as [Q1 [Q2 _]]. assert (Q0 : 0 < qmin e e') by (unfold qmin; destruct (Qltb e' e); auto).
    exists (qmin e e'). split; [auto|]. intros b [<-|Hb]; [apply (M a e'); auto|]. apply (M b e); auto.
Qed.
(** every non-strict bound between different clocks is half of an equality *)
Lemma relOpen_zone m :
  (forall i j c, (i < dim m)%nat -> (j < dim m)%nat -> i <> j -> get m i j = Fin c true ->
     exists c', c' == - c /\ ble (get m j i) (Fin c' true) = true) ->
  relOpen (inZone m).
Proof.
  intros H w0 w1 H0 H1.
  destruct (finite_eps (fun p e => forall t, 0 <= t -> t <= e -> bsat (get m (fst p) (snd p)) (ext w0 (fst p) - ext w0 (snd p)
      + t * ((ext w0 (fst p) - ext w0 (snd p)) - (ext w1 (fst p) - ext w1 (snd p)))))) with (l := list_prod (seq 0 (dim m)) (seq 0 (dim m))) as [e [E1 E2]].
  - intros [i j] e e' Q0 Q1 P t T0 T1. apply P; lra.
  - intros [i j] Hij. apply in_prod_iff in Hij. destruct Hij as [Hi Hj]. apply in_seq in Hi, Hj. cbn [fst snd]. apply relOpen_bound.
    + apply H0; lia.
    + apply H1; lia.
    + destruct (get m i j) as [c [|]|] eqn:E; auto. destruct (Nat.eq_dec i j) as [->|N].
      * ring.
      * destruct (H i j c) as [c' [C1 C2]]; auto; try lia.
        assert (A0 := H0 i j ltac:(lia) ltac:(lia)). assert (A1 := H1 i j ltac:(lia) ltac:(lia)). rewrite E in *.
        assert (B0 := ble_sat_1 _ _ C2 _ (H0 j i ltac:(lia) ltac:(lia))). assert (B1 := ble_sat_1 _ _ C2 _ (H1 j i ltac:(lia) ltac:(lia))).
        cbn [bsat] in *. lra.
  - exists e. split; [auto|]. intros t T0 T1 i j Hi Hj. eapply bsat_ext; [|apply (E2 (i, j)); [apply in_prod_iff; split; apply in_seq; lia|exact T0|exact T1]].
    cbn [fst snd]. rewrite !ext_move. ring.
Qed.
Lemma relOpen_and P R : relOpen P -> relOpen R -> relOpen (fun w => P w /\ R w).
Proof.
  intros A B w0 w1 [P0 R0] [P1 R1]. destruct (A w0 w1 P0 P1) as [e [E1 E2]]. destruct (B w0 w1 R0 R1) as [e' [E3 E4]].
  destruct (qmin_spec e e') as [Q1 [Q2 _]]. exists (qmin e e'). split; [unfold qmin; destruct (Qltb e' e); auto|].
  intros t T0 T1. split; [apply E2|apply E4]; lra.
Qed.
Lemma relOpen_iff P R : (forall w, P w <-> R w) -> relOpen P -> relOpen R.
Proof.
  intros E A w0 w1 R0 R1. destruct (A w0 w1 (proj2 (E _) R0) (proj2 (E _) R1)) as [e [E1 E2]]. exists e. split; [auto|].
  intros t T0 T1. apply E. apply E2; auto.
Qed.
Lemma relOpen_point m i j c : closed m -> nonneg2 m -> nonemptyZ m -> relOpen (inZone m) -> (i < dim m)%nat -> (j < dim m)%nat -> i <> j ->
  get m i j = Fin c true -> (forall w, inZone m w -> ext w i - ext w j == c) .
Proof.
  intros C N NE RO Hi Hj Nij E w1 H1.
  destruct (Qlt_le_dec (ext w1 i - ext w1 j) c) as [L|L].
  2:{ specialize (H1 i j Hi Hj). rewrite E in H1. cbn [bsat] in H1. lra. }
  exfalso.
  (* the bound is attained *)
  assert (A : exists w0, inZone m w0 /\ ext w1 i - ext w1 j < ext w0 i - ext w0 j /\ forall w, inZone m w -> ext w i - ext w j <= ext w0 i - ext w0 j).
  { destruct (realise m i j c C N Hi Hj Nij) as [w0 [W1 W2]]; [rewrite E; cbn; lra|eapply bsat_down; [|apply (H1 j i); auto]; lra|]. exists w0. split; [auto|]. split; [lra|]. intros w Hw.
    specialize (Hw i j Hi Hj). rewrite E in Hw. cbn [bsat] in Hw. lra. }
  destruct A as [w0 [W0 [W1 W2]]]. destruct (RO w0 w1 W0 H1) as [e [E1 E2]]. specialize (E2 e ltac:(lra) ltac:(lra)).
  apply W2 in E2. rewrite !ext_move in E2.
  assert (X : 0 < e * ((ext w0 i - ext w0 j) - (ext w1 i - ext w1 j))) by (apply Qmult_lt_0_compat; lra).
  assert (Y : e * ((ext w0 i - ext w0 j) - (ext w1 i - ext w1 j)) == e * (ext w0 i - ext w1 i) - e * (ext w0 j - ext w1 j)) by ring.
  lra.
Qed.

Lemma zsample_relOpen m : (0 < dim m)%nat -> nonemptyZ m -> relOpen (inZone m) ->
  (forall w, inZone m w -> forall x, (S x < dim m)%nat -> 0 <= w x) ->
  length (zsample m) = pred (dim m) /\ inZone m (fun k => nth k (zsample m) 0).
Proof.
  intros Hd NE RO NN. set (c := canonize m).
  assert (D : dim c = dim m) by apply dim_canonize.
  assert (C : closed c) by (apply canonize_closed_sat; auto).
  assert (NE' : nonemptyZ c) by (destruct NE as [w Hw]; exists w; apply canonize_inZone; auto).
  assert (N2 := nonempty_nonneg2 c NE').
  assert (TG := closed_tight c C N2).
  assert (RO' : relOpen (inZone c)) by (apply (relOpen_iff (inZone m)); [intro w; symmetry; apply canonize_inZone|auto]).
  apply zsample_in; auto.
  - intros i Hi. rewrite dim_canonize in Hi. apply TG; try lia. intros w Hw. assert (Hw' := proj1 (canonize_inZone m w) Hw).
    assert (K := NN w Hw' i Hi). unfold bz. cbn [bsat ext]. lra.
  - intros i Hi B P j Hj. exfalso. fold c in Hi, B, P. rewrite D in Hi.
    destruct (get c 0 (S i)) as [l [|]|] eqn:E; try discriminate B.
    assert (K := relOpen_point c 0 (S i) l C N2 NE' RO' ltac:(lia) ltac:(lia) ltac:(lia) E).
      assert (U : ble (get c (S i) 0) (Fin (- l) true) = true).
      { apply TG; try lia. intros w Hw. specialize (K w Hw). cbn [bsat] in *. lra. }
      destruct NE' as [w Hw]. assert (X := K w Hw). assert (Y := Hw (S i) 0%nat ltac:(lia) ltac:(lia)).
      destruct (get c (S i) 0) as [u [|]|] eqn:EU; [| |discriminate U].
      * unfold isPoint in P. cbn [bsat] in Y. assert (U' := ble_sat_1 _ _ U u ltac:(cbn; lra)). cbn [bsat] in U'.
        assert (Z : Qeq_bool (- l) u = true) by (apply Qeq_bool_iff; lra). rewrite Z in P. discriminate P.
      * cbn [bsat] in Y. assert (A : - l < u) by lra.
        assert (U' := ble_sat_1 _ _ U ((u + - l) * (1 # 2)) ltac:(cbn; lra)). cbn [bsat] in U'. lra.
Qed.
