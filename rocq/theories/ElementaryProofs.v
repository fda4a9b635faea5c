From Coq Require Import QArith ZArith Bool List Lia Lqa Qround Arith.
From Verif Require Import BoundsModel BoundsProofs ConstraintModel ZoneModel ZoneSpec ZoneProofs ZoneProofs2
  AutomatonModel TimedWordModel TimedWordSpec TimedWordProofs TimedConditionModel TimedConditionSpec TimedConditionProofs TimedConditionProofs2
  TimedConditionProofs3 TimedConditionProofs4 TimedConditionProofs5 ElementaryModel ElementarySpec.
Import ListNotations.
Open Scope Q_scope.

(** * fixing durations *)
Lemma T_diag d i : (i < length d)%nat -> T d i i == nth i d 0.
Proof. intro H. rewrite T_acc by lia. rewrite (accd_step d i H). ring. Qed.

Lemma set1_mle m x y b : (x < dim m)%nat -> (y < dim m)%nat -> mle (set1 m x y (bmin b (get m x y))) m.
Proof.
  intros Hx Hy. split; [apply dim_set1|]. rewrite dim_set1. intros a c Ha Hc. rewrite get_set1 by auto.
  destruct ((a =? x)%nat && (c =? y)%nat) eqn:K; [|apply ble_refl].
  apply andb_true_iff in K. destruct K as [K1 K2]. apply Nat.eqb_eq in K1. apply Nat.eqb_eq in K2. subst. apply bmin_le_r.
Qed.
Lemma restrictUpper_mle m i j b : (2 <= dim m)%nat -> (i <= j)%nat -> (j < tcSize m)%nat -> mle (restrictUpperBound m i j b false) m.
Proof.
  intros D Hij Hj. eapply mle_trans; [apply canonize_mle|]. apply set1_mle; [unfold tcSize in *; lia|apply colOf_lt; auto].
Qed.
Lemma restrictLower_mle m i j b : (2 <= dim m)%nat -> (i <= j)%nat -> (j < tcSize m)%nat -> mle (restrictLowerBound m i j b false) m.
Proof.
  intros D Hij Hj. eapply mle_trans; [apply canonize_mle|]. apply set1_mle; [apply colOf_lt; auto|unfold tcSize in *; lia].
Qed.
Lemma restrictUpper_le m i j b : (2 <= dim m)%nat -> (i <= j)%nat -> (j < tcSize m)%nat ->
  ble (getUpperBound (restrictUpperBound m i j b false) i j) b = true.
Proof.
  intros D Hij Hj. unfold getUpperBound.
  assert (Ec : colOf (restrictUpperBound m i j b false) j = colOf m j) by (unfold colOf; rewrite tcSize_restrictUpper; reflexivity).
  rewrite Ec. unfold restrictUpperBound.
  assert (Hc := colOf_lt m j D Hj). assert (Hi : (i + 1 < dim m)%nat) by (unfold tcSize in *; lia).
  match goal with |- ble (get (canonize ?A) _ _) _ = true => destruct (canonize_mle A) as [_ H] end.
  specialize (H (i + 1)%nat (colOf m j)). rewrite dim_canonize, dim_set1, get_set1, !Nat.eqb_refl in H by auto.
  apply ble_spec. intros p Hp. eapply ble_sat_1 in Hp; [|apply H; auto]. cbn [andb] in Hp. apply bsat_bmin in Hp. apply Hp.
Qed.
Lemma restrictLower_le m i j b : (2 <= dim m)%nat -> (i <= j)%nat -> (j < tcSize m)%nat ->
  ble (getLowerBound (restrictLowerBound m i j b false) i j) b = true.
Proof.
  intros D Hij Hj. unfold getLowerBound.
  assert (Ec : colOf (restrictLowerBound m i j b false) j = colOf m j) by (unfold colOf; rewrite tcSize_restrictLower; reflexivity).
  rewrite Ec. unfold restrictLowerBound.
  assert (Hc := colOf_lt m j D Hj). assert (Hi : (i + 1 < dim m)%nat) by (unfold tcSize in *; lia).
  match goal with |- ble (get (canonize ?A) _ _) _ = true => destruct (canonize_mle A) as [_ H] end.
  specialize (H (colOf m j) (i + 1)%nat). rewrite dim_canonize, dim_set1, get_set1, !Nat.eqb_refl in H by auto.
  apply ble_spec. intros p Hp. eapply ble_sat_1 in Hp; [|apply H; auto]. cbn [andb] in Hp. apply bsat_bmin in Hp. apply Hp.
Qed.
Lemma inCond_mle m m' d : (2 <= dim m)%nat -> mle m' m -> inCond m' d -> inCond m d.
Proof.
  intros D M [L H]. assert (E : tcSize m' = tcSize m) by (unfold tcSize; destruct M as [M _]; rewrite M; reflexivity).
  split; [congruence|]. intros i j Hij Hj. rewrite E in H. destruct (H i j Hij Hj) as [A B].
  destruct (getBounds_mle m m' i j D M Hij Hj) as [G1 G2]. split; eapply ble_sat_1; eauto.
Qed.

Lemma restrictEq_spec m i q : (2 <= dim m)%nat -> (i < tcSize m)%nat ->
  dim (restrictEq m i q) = dim m /\ mle (restrictEq m i q) m /\
  (forall d, inCond (restrictEq m i q) d -> T d i i == q) /\
  (forall u, Z_ (restrictEq m i q) u <-> Z_ m u /\ u (i + 1)%nat - u (colOf m i) == q).
Proof.
  intros D Hi. unfold restrictEq. set (m1 := restrictUpperBound m i i (Fin q true) false).
  assert (D1 : dim m1 = dim m) by apply dim_restrictUpper.
  assert (S1 : tcSize m1 = tcSize m) by apply tcSize_restrictUpper.
  assert (C1 : colOf m1 i = colOf m i) by (unfold colOf; rewrite S1; reflexivity).
  split; [rewrite dim_restrictLower; auto|]. split.
  { eapply mle_trans; [apply restrictLower_mle; rewrite ?D1, ?S1; auto|]. apply restrictUpper_mle; auto. }
  split.
  - intros d H.
    assert (H1 : inCond m1 d) by (eapply inCond_mle; [|apply (restrictLower_mle m1 i i (Fin (- q) true)); rewrite ?S1|exact H]; rewrite ?D1; auto).
    destruct H as [_ H]. specialize (H i i (le_n i)). rewrite tcSize_restrictLower, S1 in H. specialize (H Hi).
    destruct H as [_ B]. eapply ble_sat_1 in B; [|apply restrictLower_le; rewrite ?S1; rewrite ?D1; auto].
    destruct H1 as [_ H1]. specialize (H1 i i (le_n i)). rewrite S1 in H1. specialize (H1 Hi).
    destruct H1 as [A _]. eapply ble_sat_1 in A; [|apply restrictUpper_le; auto]. cbn [bsat] in *. lra.
  - intro u. rewrite restrictLower_Z by (rewrite ?D1, ?S1; auto). unfold m1. rewrite restrictUpper_Z by auto.
    fold m1. rewrite C1. cbn [bsat]. split.
    + intros [[A B] C]. split; [auto|]. lra.
    + intros [A B]. split; [split; [auto|]|]; lra.
Qed.
Lemma restrictEq'_spec m i q : (2 <= dim m)%nat -> (i < tcSize m)%nat ->
  dim (restrictEq' m i q) = dim m /\ mle (restrictEq' m i q) m /\
  (forall d, inCond (restrictEq' m i q) d -> T d i i == q) /\
  (forall u, Z_ (restrictEq' m i q) u <-> Z_ m u /\ u (i + 1)%nat - u (colOf m i) == q).
Proof.
  intros D Hi. unfold restrictEq'. set (m1 := restrictLowerBound m i i (Fin (- q) true) false).
  assert (D1 : dim m1 = dim m) by apply dim_restrictLower.
  assert (S1 : tcSize m1 = tcSize m) by apply tcSize_restrictLower.
  assert (C1 : colOf m1 i = colOf m i) by (unfold colOf; rewrite S1; reflexivity).
  split; [rewrite dim_restrictUpper; auto|]. split.
  { eapply mle_trans; [apply restrictUpper_mle; rewrite ?D1, ?S1; auto|]. apply restrictLower_mle; auto. }
  split.
  - intros d H.
    assert (H1 : inCond m1 d) by (eapply inCond_mle; [|apply (restrictUpper_mle m1 i i (Fin q true)); rewrite ?S1|exact H]; rewrite ?D1; auto).
    destruct H as [_ H]. specialize (H i i (le_n i)). rewrite tcSize_restrictUpper, S1 in H. specialize (H Hi).
    destruct H as [B _]. eapply ble_sat_1 in B; [|apply restrictUpper_le; rewrite ?S1; rewrite ?D1; auto].
    destruct H1 as [_ H1]. specialize (H1 i i (le_n i)). rewrite S1 in H1. specialize (H1 Hi).
    destruct H1 as [_ A]. eapply ble_sat_1 in A; [|apply restrictLower_le; auto]. cbn [bsat] in *. lra.
  - intro u. rewrite restrictUpper_Z by (rewrite ?D1, ?S1; auto). unfold m1. rewrite restrictLower_Z by auto.
    fold m1. rewrite C1. cbn [bsat]. split.
    + intros [[A B] C]. split; [auto|]. lra.
    + intros [A B]. split; [split; [auto|]|]; lra.
Qed.

Definition fixes (f : tcond -> nat -> Q -> tcond) : Prop := forall m i q, (2 <= dim m)%nat -> (i < tcSize m)%nat ->
  dim (f m i q) = dim m /\ mle (f m i q) m /\
  (forall d, inCond (f m i q) d -> T d i i == q) /\
  (forall u, Z_ (f m i q) u <-> Z_ m u /\ u (i + 1)%nat - u (colOf m i) == q).

Lemma fix_fold f (F : fixes f) (g : nat -> Q) : forall l m, (2 <= dim m)%nat -> (forall i, In i l -> (i < tcSize m)%nat) ->
  let r := fold_left (fun m i => f m i (g i)) l m in
  dim r = dim m /\ mle r m /\
  (forall d, inCond r d -> forall i, In i l -> T d i i == g i) /\
  (forall u, Z_ r u <-> Z_ m u /\ forall i, In i l -> u (i + 1)%nat - u (colOf m i) == g i).
Proof.
  induction l as [|i l IH]; intros m D Hl; cbn [fold_left]; cbv zeta.
  - split; [auto|]. split; [apply mle_refl|]. split; [intros d _ i []|]. intro u. split; [intro H; split; [auto|intros i []]|tauto].
  - destruct (F m i (g i) D (Hl i (or_introl eq_refl))) as [A [B [C E]]].
    assert (S1 : tcSize (f m i (g i)) = tcSize m) by (unfold tcSize; rewrite A; reflexivity).
    destruct (IH (f m i (g i))) as [A' [B' [C' E']]].
    { rewrite A; auto. } { intros k Hk. rewrite S1. apply Hl; right; auto. }
    split; [congruence|]. split; [eapply mle_trans; eauto|]. split.
    + intros d H k [<-|Hk]; [|apply C'; auto]. apply C. eapply inCond_mle; [|exact B'|exact H]. rewrite A; auto.
    + intro u. rewrite E', E. unfold colOf. rewrite S1. split.
      * intros [[H1 H2] H3]. split; [auto|]. intros k [<-|Hk]; auto.
      * intros [H1 H2]. split; [split; [auto|]|]; intros; apply H2; [left|right]; auto.
Qed.
Lemma fix_fold_inCondD f (F : fixes f) (g : nat -> Q) l m d : (2 <= dim m)%nat -> diagOK m -> (forall i, In i l -> (i < tcSize m)%nat) ->
  (inCond (fold_left (fun m i => f m i (g i)) l m) d <-> inCond m d /\ forall i, In i l -> nth i d 0 == g i).
Proof.
  intros D G0 Hl. destruct (fix_fold f F g l m D Hl) as [A [B [E Z]]].
  set (r := fold_left (fun m i => f m i (g i)) l m) in *.
  assert (SR : tcSize r = tcSize m) by (unfold tcSize; rewrite A; reflexivity). split.
  - intro H. assert (H' : inCond m d) by (eapply inCond_mle; eauto). split; [auto|].
    intros i Hi. rewrite <- T_diag by (destruct H' as [-> _]; auto). apply E; auto.
  - intros [H H1]. assert (L : length d = tcSize m) by apply H.
    apply inZone_inCond; [rewrite A; auto|congruence|]. apply inZone_Z. apply Z. split.
    + apply inZone_Z. apply inCond_inZone; auto.
    + intros i Hi. rewrite (ext_col m d i i L (le_n i) (Hl i Hi)). rewrite T_diag by (rewrite L; auto). auto.
Qed.
Lemma fix_fold_inCond f (F : fixes f) (g : nat -> Q) l m d : okCond m -> (forall i, In i l -> (i < tcSize m)%nat) ->
  (inCond (fold_left (fun m i => f m i (g i)) l m) d <-> inCond m d /\ forall i, In i l -> nth i d 0 == g i).
Proof. intros [D [C N]] Hl. apply fix_fold_inCondD; auto. apply nonempty_diag; auto. Qed.

(** what the membership test needs *)
Definition sizedEL (x : elem) : Prop := (2 <= dim (ec x))%nat /\ diagOK (ec x) /\ tcSize (ec x) = S (length (ew x)).
Lemma elContains_exactD x w : sizedEL x -> wfTW w -> (elContains x w = true <-> inElem x w).
Proof.
  intros [D [G0 S]] W. unfold elContains, inElem. destruct (eqLetters (tw w) (ew x)) eqn:E.
  - apply eqLetters_iff in E.
    assert (L : length (td w) = tcSize (ec x)) by (unfold wfTW in W; rewrite W, S, E; reflexivity).
    rewrite isSatisfiable_exact.
    assert (Hl : forall i, In i (seq 0 (tcSize (ec x))) -> (i < tcSize (ec x))%nat) by (intros i Hi; apply in_seq in Hi; lia).
    assert (F : fixes restrictEq) by (intros m i q; apply restrictEq_spec).
    assert (FI := fix_fold_inCondD restrictEq F (fun i => nth i (td w) 0) (seq 0 (tcSize (ec x))) (ec x)).
    destruct (fix_fold restrictEq F (fun i => nth i (td w) 0) _ (ec x) D Hl) as [A [B [C Z]]].
    set (r := fold_left (fun m i => restrictEq m i (nth i (td w) 0)) (seq 0 (tcSize (ec x))) (ec x)) in *.
    split.
    + intros [v Hv]. split; [auto|].
      assert (SR : tcSize r = tcSize (ec x)) by (unfold tcSize; rewrite A; reflexivity).
      assert (K := inZone_durs r v ltac:(rewrite A; auto) Hv). apply (FI (durs (tcSize r) v) D G0 Hl) in K. destruct K as [K1 K2].
      eapply inCond_same; [|exact K1].
      assert (LE : length (durs (tcSize r) v) = length (td w)) by (rewrite durs_length; congruence).
      assert (K3 : forall i, (i < length (td w))%nat -> nth i (durs (tcSize r) v) 0 == nth i (td w) 0).
      { intros i Hi. apply K2. apply in_seq. lia. }
      revert LE K3. generalize (durs (tcSize r) v) (td w). clear.
      induction l as [|a l IH]; intros [|b l'] LE K; try discriminate; constructor.
      * apply (K 0%nat). cbn; lia.
      * apply IH; [cbn in LE; lia|]. intros i Hi. apply (K (Datatypes.S i)). cbn; lia.
    + intros [_ H]. exists (accd (td w)). apply inZone_Z. apply Z. split.
      * apply inZone_Z. apply inCond_inZone; auto.
      * intros i Hi. rewrite (ext_col (ec x) (td w) i i L (le_n i) (Hl i Hi)). apply T_diag. rewrite L; auto.
  - split; [discriminate|]. intros [H _]. apply eqLetters_iff in H. congruence.
Qed.
Lemma wfElem_sized x : wfElem x -> sizedEL x.
Proof. intros [[D [C N]] H]. split; [auto|]. split; [apply nonempty_diag; auto|auto]. Qed.
Lemma elContains_exact x w : wfElem x -> wfTW w -> (elContains x w = true <-> inElem x w).
Proof. intros W. apply elContains_exactD. apply wfElem_sized; auto. Qed.

Lemma elConstrain_exact x p w : wfElem x -> (wordSize p <= tcSize (ec x))%nat ->
  (inElem (elConstrain x p) w <-> inElem x w /\ forall i, (i < wordSize p)%nat -> nth i (td w) 0 == nth i (td p) 0).
Proof.
  intros [O S] W. unfold inElem, elConstrain. cbn [ew ec].
  assert (F : fixes restrictEq') by (intros m i q; apply restrictEq'_spec).
  rewrite (fix_fold_inCond restrictEq' F (fun i => nth i (td p) 0) _ (ec x) (td w) O).
  - split.
    + intros [A [B C]]. split; [auto|]. intros i Hi. apply C. apply in_seq. lia.
    + intros [[A B] C]. split; [auto|]. split; [auto|]. intros i Hi. apply in_seq in Hi. apply C. lia.
  - intros i Hi. apply in_seq in Hi. lia.
Qed.

(** * concatenation *)
Lemma addBack_snoc l a q : addBack (l ++ [a]) q = l ++ [a + q].
Proof. induction l as [|x l IH]; cbn [app addBack]; [reflexivity|]. rewrite IH. destruct l; reflexivity. Qed.
Lemma joined_concat x y d : wfTW x -> wfTW y -> (joined (td x) (td y) d <-> sameDurs d (td (concatTW x y))).
Proof.
  intros Wx Wy. unfold joined, concatTW. cbn [td]. split.
  - intros [p [a [b [s [E1 [E2 H]]]]]]. rewrite E1, E2. cbn [hd tl]. rewrite addBack_snoc, <- app_assoc. exact H.
  - intro H. unfold wfTW in *. destruct (td y) as [|b s] eqn:Ey; [discriminate|].
    destruct (exists_last (l := td x)) as [p [a E]]; [intro E; rewrite E in Wx; discriminate|].
    rewrite E in *. cbn [hd tl] in H. rewrite addBack_snoc, <- app_assoc in H. exists p, a, b, s. auto.
Qed.
Lemma sameDurs_sym a b : sameDurs a b -> sameDurs b a.
Proof. unfold sameDurs. induction 1; constructor; auto. symmetry; auto. Qed.
Lemma elConcat_exact x y w : wfElem x -> wfElem y ->
  (inElem (elConcat x y) w <-> exists w1 w2, inElem x w1 /\ inElem y w2 /\ sameTW w (concatTW w1 w2)).
Proof.
  intros [Ox Sx] [Oy Sy]. unfold inElem, elConcat. cbn [ew ec]. rewrite tcConcat_exact by auto. split.
  - intros [A [d1 [d2 [B [C J]]]]]. exists (mkTW (ew x) d1), (mkTW (ew y) d2). cbn [tw td].
    split; [auto|]. split; [auto|]. split; [exact A|].
    apply (joined_concat (mkTW (ew x) d1) (mkTW (ew y) d2)); [..|exact J]; unfold wfTW; cbn [tw td];
      [destruct B as [-> _]|destruct C as [-> _]]; auto.
  - intros [w1 [w2 [[A1 B1] [[A2 B2] [A B]]]]]. cbn [tw] in A. split; [unfold concatTW in A; cbn [tw] in A; congruence|].
    exists (td w1), (td w2). split; [auto|]. split; [auto|]. apply joined_concat; auto; unfold wfTW.
    + rewrite A1. destruct B1 as [-> _]. auto.
    + rewrite A2. destruct B2 as [-> _]. auto.
Qed.
Lemma wfElem_concat x y : wfElem x -> wfElem y -> wfElem (elConcat x y).
Proof.
  intros [Ox Sx] [Oy Sy]. split; [apply okCond_concat; auto|]. cbn [elConcat ew ec].
  rewrite tcSize_concat by (try apply Ox; apply Oy). rewrite app_length. lia.
Qed.

(** * sampling *)
Definition partialIn (m : tcond) (d : list Q) : Prop := forall i j, (i <= j)%nat -> (j < length d)%nat ->
  bsat (getUpperBound m i j) (T d i j) /\ bsat (getLowerBound m i j) (- T d i j).

Lemma sample_next m d : okCond m -> (length d < tcSize m)%nat -> partialIn m d ->
  exists t, forall k, (k <= length d)%nat ->
    bsat (getUpperBound m k (length d)) (accd d k + t) /\ bsat (getLowerBound m k (length d)) (- (accd d k + t)).
Proof.
  intros [D [C N]] L P. set (i := length d) in *.
  assert (NN := nonempty_nonneg2 m N).
  set (u := fun s => accd d (pred s)).
  assert (SB : forall s, In s (seq 1 (S i)) -> (s < dim m)%nat).
  { intros s Hs. apply in_seq in Hs. unfold tcSize in L. lia. }
  assert (OK : okOn m (seq 1 (S i)) u).
  { intros a b Ha Hb. assert (La := SB a Ha). assert (Lb := SB b Hb). apply in_seq in Ha. apply in_seq in Hb. unfold u.
    destruct (lt_eq_lt_dec a b) as [[H|H]|H].
    - destruct (P (pred a) (pred b - 1)%nat) as [A _]; [lia|unfold i in *; lia|].
      unfold getUpperBound in A.
      assert (Ec : colOf m (pred b - 1) = b) by (unfold colOf; destruct (Nat.eqb_spec (pred b - 1) (tcSize m - 1)); lia).
      rewrite Ec in A. replace (pred a + 1)%nat with a in A by lia. eapply bsat_ext; [|exact A].
      rewrite T_acc by lia. replace (S (pred b - 1)) with (pred b) by lia. reflexivity.
    - subst b. eapply bsat_ext; [|apply bzero_le_sat, nonneg2_diag; auto]. ring.
    - destruct (P (pred b) (pred a - 1)%nat) as [_ A]; [lia|unfold i in *; lia|].
      unfold getLowerBound in A.
      assert (Ec : colOf m (pred a - 1) = a) by (unfold colOf; destruct (Nat.eqb_spec (pred a - 1) (tcSize m - 1)); lia).
      rewrite Ec in A. replace (pred b + 1)%nat with b in A by lia. eapply bsat_ext; [|exact A].
      rewrite T_acc by lia. replace (S (pred a - 1)) with (pred a) by lia. ring. }
  destruct (extend_one m (seq 1 (S i)) u (colOf m i) C NN (colOf_lt m i D L) SB OK) as [q Hq].
  exists (- q). intros k Hk. destruct (Hq (k + 1)%nat) as [A B]; [apply in_seq; lia|].
  unfold u in A, B. replace (pred (k + 1)) with k in A, B by lia. unfold getUpperBound, getLowerBound. split.
  - eapply bsat_ext; [|exact B]. ring.
  - eapply bsat_ext; [|exact A]. ring.
Qed.

Lemma sampleRange_spec m d i : forall j lower upper sum, (j <= length d)%nat -> sum == accd d j ->
  let r := sampleRange m d i j lower upper sum in
  let lo k := - bval (getLowerBound m k i) - accd d k in
  let up k := bval (getUpperBound m k i) - accd d k in
  lower <= fst r /\ snd r <= upper /\ (forall k, (k < j)%nat -> lo k <= fst r /\ snd r <= up k) /\
  (forall t, lower <= t -> t <= upper -> (forall k, (k < j)%nat -> lo k <= t /\ t <= up k) -> fst r <= t /\ t <= snd r).
Proof.
  induction j as [|j IH]; intros lower upper sum Hj Hs; cbn [sampleRange]; cbv zeta.
  - cbn [fst snd]. split; [lra|]. split; [lra|]. split; [intros k Hk; lia|]. auto.
  - set (sum' := sum + nth j d 0).
    assert (Hs' : sum' == accd d j) by (unfold sum'; rewrite Hs, (accd_step d j) by lia; ring).
    set (lo := - bval (getLowerBound m j i) - sum'). set (up := bval (getUpperBound m j i) - sum').
    destruct (IH (if Qltb lower lo then lo else lower) (if Qltb up upper then up else upper) sum' ltac:(lia) Hs') as [A [B [C E]]].
    set (r := sampleRange m d i j (if Qltb lower lo then lo else lower) (if Qltb up upper then up else upper) sum') in *.
    assert (A' : lower <= fst r /\ lo <= fst r).
    { destruct (Qltb lower lo) eqn:Z; [apply Qltb_true in Z|apply Qltb_false in Z]; split; lra. }
    assert (B' : snd r <= upper /\ snd r <= up).
    { destruct (Qltb up upper) eqn:Z; [apply Qltb_true in Z|apply Qltb_false in Z]; split; lra. }
    split; [apply A'|]. split; [apply B'|]. split.
    + intros k Hk. destruct (Nat.eq_dec k j) as [->|]; [|apply C; lia]. unfold lo, up in *. split; lra.
    + intros t H1 H2 H3. assert (Hj' := H3 j ltac:(lia)). apply E.
      * unfold lo in *. destruct (Qltb lower _); lra.
      * unfold up in *. destruct (Qltb _ upper); lra.
      * intros k Hk. apply H3. lia.
Qed.

Lemma boundedCond_fin m i j : boundedCond m -> (i <= j)%nat -> (j < tcSize m)%nat ->
  exists u us l ls, getUpperBound m i j = Fin u us /\ getLowerBound m i j = Fin l ls.
Proof.
  intros B H1 H2. destruct (B i j H1 H2) as [N1 N2]. destruct (getUpperBound m i j); [|congruence].
  destruct (getLowerBound m i j); [|congruence]. eexists _, _, _, _. eauto.
Qed.

Lemma accd_snoc d t k : (k <= length d)%nat -> accd (d ++ [t]) k == accd d k + t.
Proof.
  intro H. unfold accd. rewrite skipn_app. replace (k - length d)%nat with 0%nat by lia. cbn [skipn].
  rewrite sumQ_app. cbn [sumQ]. ring.
Qed.

Lemma sampleAt_ok m d : okCond m -> boundedCond m -> (length d < tcSize m)%nat -> partialIn m d ->
  partialIn m (d ++ [sampleAt m d (length d)]).
Proof.
  intros O B L P. destruct (sample_next m d O L P) as [t0 Ht0]. set (i := length d) in *.
  set (t := sampleAt m d i).
  assert (K : forall k, (k <= i)%nat -> bsat (getUpperBound m k i) (accd d k + t) /\ bsat (getLowerBound m k i) (- (accd d k + t))).
  { assert (A0 : accd d i == 0) by (rewrite accd_end; [reflexivity|unfold i; lia]).
    unfold t, sampleAt. destruct (boundedCond_fin m i i B (le_n i) L) as [u [us [l [ls [EU EL]]]]].
    rewrite EU, EL. unfold isPoint. cbn [bval].
    destruct (Qeq_bool (- l) u && us && ls) eqn:EP.
    - apply andb_true_iff in EP. destruct EP as [EP E3]. apply andb_true_iff in EP. destruct EP as [E1 E2].
      apply Qeq_bool_iff in E1. subst us ls.
      assert (Z := Ht0 i (le_n i)). rewrite EU, EL in Z. cbn [bsat] in Z.
      assert (ET : t0 == u) by lra.
      intros k Hk. destruct (Ht0 k Hk) as [X1 X2]. split; (eapply bsat_ext; [|eassumption]); rewrite ET; reflexivity.
    - assert (R := sampleRange_spec m d i i (- l) u 0 (le_n i) ltac:(rewrite A0; reflexivity)). cbv zeta in R.
      destruct (sampleRange m d i i (- l) u 0) as [lo up]. cbn [fst snd] in R. destruct R as [R1 [R2 [R3 R4]]].
      assert (T0 : lo <= t0 /\ t0 <= up).
      { apply R4.
        - assert (Z := Ht0 i (le_n i)). rewrite EU, EL in Z. destruct us, ls; cbn [bsat] in Z; lra.
        - assert (Z := Ht0 i (le_n i)). rewrite EU, EL in Z. destruct us, ls; cbn [bsat] in Z; lra.
        - intros k Hk. assert (Z := Ht0 k ltac:(lia)). destruct (boundedCond_fin m k i B ltac:(lia) L) as [u' [us' [l' [ls' [EU' EL']]]]].
          rewrite EU', EL' in *. cbn [bval]. destruct us', ls'; cbn [bsat] in Z; lra. }
      assert (R3' : forall k, (k <= i)%nat -> - bval (getLowerBound m k i) - accd d k <= lo /\ up <= bval (getUpperBound m k i) - accd d k).
      { intros k Hk. destruct (Nat.eq_dec k i) as [->|]; [|apply R3; lia]. rewrite EU, EL. cbn [bval]. lra. }
      destruct (Qlt_le_dec lo up) as [Lt|Ge].
      + intros k Hk. assert (Z := R3' k Hk). destruct (boundedCond_fin m k i B Hk L) as [u' [us' [l' [ls' [EU' EL']]]]].
        rewrite EU', EL' in *. cbn [bval] in Z. destruct us', ls'; cbn [bsat]; lra.
      + assert (ET : t0 == (lo + up) * (1 # 2)) by lra.
        intros k Hk. destruct (Ht0 k Hk) as [X1 X2]. split; (eapply bsat_ext; [|eassumption]); rewrite ET; reflexivity. }
  intros a b Hab Hb. rewrite app_length in Hb. cbn [length] in Hb.
  destruct (Nat.eq_dec b i) as [->|Nb].
  - assert (E : T (d ++ [t]) a i == accd d a + t).
    { rewrite T_acc by auto. rewrite accd_snoc by auto. rewrite (accd_end (d ++ [t])) by (rewrite app_length; cbn; unfold i; lia). ring. }
    destruct (K a Hab) as [X1 X2]. split; (eapply bsat_ext; [|eassumption]); rewrite E; reflexivity.
  - assert (Lb : (b < i)%nat) by (unfold i in *; lia).
    assert (E : T (d ++ [t]) a b == T d a b).
    { rewrite !T_acc by auto. rewrite !accd_snoc by (unfold i in *; lia). ring. }
    destruct (P a b Hab Lb) as [X1 X2]. split; (eapply bsat_ext; [|eassumption]); rewrite E; reflexivity.
Qed.

Lemma sampleDurs_ok m : okCond m -> boundedCond m -> forall n, (n <= tcSize m)%nat ->
  length (sampleDurs m n) = n /\ partialIn m (sampleDurs m n).
Proof.
  intros O B. unfold sampleDurs. induction n as [|n IH]; intro L.
  - cbn. split; [auto|]. intros i j _ H. cbn in H. lia.
  - destruct (IH ltac:(lia)) as [I1 I2]. rewrite seq_S, fold_left_app. cbn [fold_left plus].
    set (d := fold_left (fun acc i => acc ++ [sampleAt m acc i]) (seq 0 n) []) in *.
    split; [rewrite app_length; cbn; lia|]. assert (K := sampleAt_ok m d O B ltac:(lia) I2). rewrite I1 in K. exact K.
Qed.
Lemma sampleDurs_inCond m : okCond m -> boundedCond m -> inCond m (sampleDurs m (tcSize m)).
Proof.
  intros O B. destruct (sampleDurs_ok m O B (tcSize m) (le_n _)) as [L P]. split; [auto|].
  intros i j Hij Hj. apply P; auto. lia.
Qed.
Lemma elSample_in x : wfElem x -> boundedCond (ec x) -> visible x -> inElem x (elSample x) /\ wfTW (elSample x).
Proof.
  intros [O S] B V. unfold elSample.
  assert (L : length (sampleDurs (ec x) (length (ew x) + 1)) = (length (ew x) + 1)%nat).
  { apply sampleDurs_ok; auto. lia. }
  assert (I := sampleDurs_inCond (ec x) O B). rewrite S in I. replace (Datatypes.S (length (ew x))) with (length (ew x) + 1)%nat in I by lia.
  destruct (sampleDurs (ec x) (length (ew x) + 1)) as [|q ds] eqn:E; [cbn in L; lia|].
  unfold mkTimedWord. rewrite absorb_id.
  - split; [split; [reflexivity|exact I]|]. unfold wfTW. cbn [tw td length]. cbn [length] in L. lia.
  - cbn [length] in L. lia.
  - unfold visible in V. rewrite Forall_forall in V. intro H. apply (V _ H). reflexivity.
Qed.

(** * hull *)
Lemma get_tcHull a b i j : (i < dim a)%nat -> (j < dim a)%nat -> get (tcHull a b) i j = bmax (get a i j) (get b i j).
Proof. intros. unfold tcHull. rewrite get_mk by auto. reflexivity. Qed.
Lemma dim_tcHull a b : dim (tcHull a b) = dim a. Proof. apply dim_mk. Qed.
Lemma tcHull_mle a b : mle a (tcHull a b).
Proof. split; [symmetry; apply dim_tcHull|]. intros i j Hi Hj. rewrite get_tcHull by auto. apply bmax_ge_l. Qed.
Lemma tcHull_mle_r a b : dim a = dim b -> mle b (tcHull a b).
Proof. intro E. split; [rewrite dim_tcHull; auto|]. intros i j Hi Hj. rewrite get_tcHull by (rewrite E; auto). apply bmax_ge_r. Qed.
