(** Regions: one related pair gives a related word for every word. *)
From Coq Require Import QArith Qround Bool List Arith Lia Lqa.
From Verif Require Import BoundsModel BoundsProofs ConstraintModel ZoneModel ZoneSpec ZoneProofs ZoneProofs2 ZoneProofs3 AutomatonModel
  TimedWordModel TimedWordSpec TimedConditionModel TimedConditionSpec TimedConditionProofs TimedConditionProofs2 TimedConditionProofs5 ElementaryModel
  ElementarySpec RegionalModel RegionalSpec CexModel CexSpec CexProofs OracleModel SymbolicModel SymbolicSpec RenamingModel RenamingSpec RenamingProofs RenamingProofs2 RenamingProofs3 RenamingProofs4 RenamingProofs5.
Import ListNotations.
Open Scope Q_scope.

Lemma intCond_jux l r : (0 < dim l)%nat -> (0 < dim r)%nat -> intCond l -> intCond r -> intCond (jux l r).
Proof.
  intros Dl Dr Il Ir. unfold jux. cbv zeta. apply intCond_canonize. intros i j Hi Hj. rewrite dim_mk in *. rewrite get_mk by auto.
  destruct ((i <? dim l)%nat && (j <? dim l)%nat) eqn:E1.
  - apply andb_true_iff in E1. destruct E1 as [A B]. apply Nat.ltb_lt in A, B. apply Il; auto.
  - destruct ((dim l <=? i)%nat && (dim l <=? j)%nat) eqn:E2.
    + apply andb_true_iff in E2. destruct E2 as [A B]. apply Nat.leb_le in A, B. apply Ir; lia.
    + destruct ((i =? 0)%nat && (dim l <=? j)%nat) eqn:E3; [apply andb_true_iff in E3; destruct E3 as [A B]; apply Nat.leb_le in B; apply Ir; lia|].
      destruct ((dim l <=? i)%nat && (j =? 0)%nat) eqn:E4; [apply andb_true_iff in E4; destruct E4 as [A B]; apply Nat.leb_le in A; apply Ir; lia|exact I].
Qed.
Lemma intB_bz : intB bz.
Proof. exists 0%Z. reflexivity. Qed.
Lemma intCond_addRenaming ls ren : forall m, renOk ls (dim m) ren -> intCond m -> intCond (addRenaming ls m ren).
Proof.
  intros m R I. unfold addRenaming.
  assert (G : forall l m0, (forall p, In p l -> In p ren) -> dim m0 = dim m -> intCond m0 -> intCond (fold_left (renameSet ls) l m0) /\ dim (fold_left (renameSet ls) l m0) = dim m).
  { induction l as [|p l IH]; intros m0 Sub D I0; [auto|]. cbn [fold_left]. destruct (R p (Sub p (or_introl eq_refl))) as [R1 R2].
    apply IH; [intros; apply Sub; right; auto|unfold renameSet; cbv zeta; rewrite !dim_set1; auto|].
    unfold renameSet. cbv zeta. apply intCond_set1; [apply intCond_set1; [auto|]|].
    - apply intB_min; [apply I0; lia|exact intB_bz].
    - apply intB_min; [|exact intB_bz]. apply intCond_set1; [auto| |rewrite dim_set1; lia|rewrite dim_set1; lia]. apply intB_min; [apply I0; lia|exact intB_bz]. }
  destruct (G ren m (fun _ H => H) eq_refl I) as [G1 G2]. apply intCond_fold_close1; [|auto].
  intros i Hi. rewrite G2. apply in_flat_map in Hi. destruct Hi as [p [Hp [<-|[<-|[]]]]]; apply R; auto.
Qed.

(** two points of a region satisfy the same integer bounds *)
Lemma unit_same u l b q q' : intB u -> intB l -> isSimpleB u l = true -> bsat u q -> bsat l (- q) -> bsat u q' -> bsat l (- q') -> intB b -> bsat b q -> bsat b q'.
Proof.
  intros Iu Il S. unfold isSimpleB in S. apply orb_true_iff in S. destruct S as [S|S]; unfold isPoint, isUnitOpen in S; destruct u as [u us|], l as [l ls|]; try discriminate.
  - apply andb_true_iff in S. destruct S as [S S2]. apply andb_true_iff in S. destruct S as [S S1]. apply Qeq_bool_eq in S. subst. cbn. intros.
    eapply bsat_ext; [|eassumption]. lra.
  - apply andb_true_iff in S. destruct S as [S S2]. apply andb_true_iff in S. destruct S as [S S1]. apply Qeq_bool_eq in S. apply negb_true_iff in S1, S2. subst. cbn. intros A B C D Ib H.
    destruct b as [c s|]; [|exact I]. destruct Ib as [z Hz]. destruct Iu as [k Hk].
    assert (K : inject_Z k - 1 < inject_Z z) by (destruct s; cbn in H; lra).
    assert (K3 : inject_Z (k - 1) < inject_Z z) by (replace (k - 1)%Z with (k + -1)%Z by lia; rewrite inject_Z_plus; change (inject_Z (-1)) with (- (1)); lra).
    rewrite <- Zlt_Qlt in K3. assert (K4 : (k <= z)%Z) by lia. rewrite Zle_Qle in K4. destruct s; cbn; lra.
Qed.
Lemma simple_entry c i j : isSimple c = true -> (i < dim c)%nat -> (j < dim c)%nat -> i <> j -> isSimpleB (get c i j) (get c j i) = true \/ isSimpleB (get c j i) (get c i j) = true.
Proof.
  intros S Hi Hj Ne. unfold isSimple in S. rewrite forallb_forall in S.
  destruct (lt_eq_lt_dec i j) as [[Lt|E]|Gt]; [left|congruence|right].
  - specialize (S i ltac:(apply in_seq; lia)). rewrite forallb_forall in S. apply S, in_seq. lia.
  - specialize (S j ltac:(apply in_seq; lia)). rewrite forallb_forall in S. apply S, in_seq. lia.
Qed.
Lemma isSimpleB_sym u l : isSimpleB u l = true -> isSimpleB l u = true.
Proof.
  unfold isSimpleB, isPoint, isUnitOpen. intro S. apply orb_true_iff in S. apply orb_true_iff. destruct u as [u us|], l as [l ls|]; try (destruct S; discriminate).
  destruct S as [S|S]; [left|right]; apply andb_true_iff in S; destruct S as [S S2]; apply andb_true_iff in S; destruct S as [S S1]; apply Qeq_bool_eq in S; rewrite S1, S2, !andb_true_r; apply Qeq_eq_bool; lra.
Qed.
Lemma region_same c w w' : intCond c -> isSimple c = true -> inZone c w -> inZone c w' ->
  forall i j b, (i < dim c)%nat -> (j < dim c)%nat -> intB b -> bsat b (ext w i - ext w j) -> bsat b (ext w' i - ext w' j).
Proof.
  intros IC S Hw Hw' i j b Hi Hj Ib H. destruct (Nat.eq_dec i j) as [->|Ne]; [eapply bsat_ext; [|exact H]; ring|].
  assert (SB : isSimpleB (get c i j) (get c j i) = true) by (destruct (simple_entry c i j S Hi Hj Ne); [auto|apply isSimpleB_sym; auto]).
  refine (unit_same (get c i j) (get c j i) b (ext w i - ext w j) (ext w' i - ext w' j) (IC i j Hi Hj) (IC j i Hj Hi) SB _ _ _ _ Ib H).
  - apply Hw; auto.
  - eapply bsat_ext; [|apply (Hw j i); auto]. ring.
  - apply Hw'; auto.
  - eapply bsat_ext; [|apply (Hw' j i); auto]. ring.
Qed.

Lemma region_extension x y ren : wfElem x -> wfElem y -> isSimple (ec x) = true -> intCond (ec x) -> intCond (ec y) -> renIn ren x y ->
  (exists p p', inElem x p /\ inElem y p' /\ related ren p p') ->
  forall p, inElem x p -> exists p', inElem y p' /\ related ren p p'.
Proof.
  intros Wx Wy Si Ix Iy RI [p0 [p0' [I0 [I0' R0]]]] p Ip.
  destruct (pair_dims x y Wx Wy) as [Dx [Dy Sx]]. assert (Sy : tcSize (ec y) = S (length (ew y))) by (destruct Wy; auto).
  set (n := length (ew x)) in *. set (j := addRenaming (tcSize (ec x)) (jux (ec x) (ec y)) ren).
  assert (Ok := pair_renOk x y ren Wx Wy RI).
  assert (Dj : dim j = (S (S n) + S (S (length (ew y))) - 1)%nat) by (unfold j; rewrite dim_addRenaming by auto; rewrite dim_jux, Dx, Dy; reflexivity).
  assert (Ox : okCond (ec x)) by (destruct Wx; auto). assert (Oy : okCond (ec y)) by (destruct Wy; auto).
  assert (A0 : inZone (ec x) (accd (td p0))) by (destruct I0 as [_ I]; apply inCond_iff in I; [apply I|auto]).
  assert (A1 : inZone (ec x) (accd (td p))) by (destruct Ip as [_ I]; apply inCond_iff in I; [apply I|auto]).
  assert (A2 : inZone (ec y) (accd (td p0'))) by (destruct I0' as [_ I]; apply inCond_iff in I; [apply I|auto]).
  assert (Lp0 : length (td p0) = S n) by (destruct I0 as [_ [L _]]; rewrite L; auto).
  assert (Lp : length (td p) = S n) by (destruct Ip as [_ [L _]]; rewrite L; auto).
  assert (Lp0' : length (td p0') = S (length (ew y))) by (destruct I0' as [_ [L _]]; rewrite L; auto).
  set (v0 := fun k => if (k <? S n)%nat then accd (td p0) k else accd (td p0') (k - S n)).
  assert (V0 : inZone j v0).
  { apply (pair_exact x y ren Wx Wy RI). fold n. split; [|split].
    - eapply inZone_ext; [|exact A0]. intros k Hk. rewrite Dx in Hk. cbn [pred] in Hk. unfold v0. apply Nat.ltb_lt in Hk. rewrite Hk. reflexivity.
    - eapply inZone_ext; [|exact A2]. intros k Hk. unfold rightPart, v0. assert (E : (S n + k <? S n)%nat = false) by (apply Nat.ltb_ge; lia). rewrite E.
      replace (S n + k - S n)%nat with k by lia. reflexivity.
    - intros [a b] Hq. cbn [fst snd]. destruct (RI a b Hq) as [Ha Hb]. fold n in Ha. assert (E := R0 a b Hq). rewrite !since_acc in E by lia.
      unfold v0. assert (E1 : (a <? S n)%nat = true) by (apply Nat.ltb_lt; lia). assert (E2 : (S n + b <? S n)%nat = false) by (apply Nat.ltb_ge; lia).
      rewrite E1, E2. replace (S n + b - S n)%nat with b by lia. exact E. }
  assert (N2 : nonneg2 j) by (apply nonempty_nonneg2; exists v0; auto).
  assert (CJ : closed j) by (apply addRenaming_closed; auto using pair_closed_jux).
  assert (IJ : intCond j) by (apply intCond_addRenaming; auto; apply intCond_jux; auto; lia).
  destruct (extend_Z j (seq 0 (S (S n))) (ext (accd (td p))) CJ N2) as [u' [E Hu]].
  { intros s Hs. apply in_seq in Hs. lia. }
  { intros a b Ha Hb. apply in_seq in Ha, Hb. refine (region_same (ec x) (accd (td p0)) (accd (td p)) Ix Si A0 A1 a b _ _ _ (IJ a b _ _) _); try lia.
    eapply bsat_ext; [|apply (V0 a b); lia].
    assert (EX : forall k, (k < S (S n))%nat -> ext v0 k = ext (accd (td p0)) k).
    { intros [|k] Hk; [reflexivity|]. cbn [ext]. unfold v0. assert (X : (k <? S n)%nat = true) by (apply Nat.ltb_lt; lia). rewrite X. reflexivity. }
    rewrite !EX by lia. reflexivity. }
  assert (Hv : inZone j (fun k => u' (S k) - u' 0%nat)) by (apply Z_inZone; auto).
  set (v := fun k => u' (S k) - u' 0%nat) in *.
  assert (Ev : forall k, (k <= n)%nat -> v k == accd (td p) k).
  { intros k Hk. unfold v. rewrite !E by (apply in_seq; lia). cbn [ext]. ring. }
  apply (pair_exact x y ren Wx Wy RI) in Hv. fold n in Hv. destruct Hv as [_ [H2 H3]].
  exists (mkTW (ew y) (durs (tcSize (ec y)) (rightPart (S n) v))).
  assert (Iy' := inZone_durs (ec y) _ ltac:(lia) H2). split; [split; [reflexivity|exact Iy']|].
  intros a b Hq. destruct (RI a b Hq) as [Ha Hb]. fold n in Ha. cbn [td]. assert (Ly := proj1 Iy').
  assert (X := H3 (a, b) Hq). cbn [fst snd] in X.
  transitivity (v a); [rewrite (Ev a Ha); apply since_acc; lia|]. transitivity (v (S n + b)%nat); [exact X|]. symmetry.
  transitivity (accd (durs (tcSize (ec y)) (rightPart (S n) v)) b); [apply since_acc; eapply Nat.lt_le_trans; [|apply Nat.eq_le_incl; symmetry; exact Ly]; lia|]. apply (durs_acc (tcSize (ec y)) (rightPart (S n) v) b). lia.
Qed.

(** * a renaming found leaves no imprecise clock *)
Lemma uniqR_rights : forall l o j, In j (map snd l) -> (o = Some j) \/ In j (map snd (uniqR o l)).
Proof.
  induction l as [|a l IH]; intros o j H; [destruct H|]. cbn [uniqR]. destruct o as [k|].
  - destruct (k =? snd a)%nat eqn:E.
    + apply Nat.eqb_eq in E. destruct H as [H|H]; [left; congruence|auto].
    + right. cbn [map]. destruct H as [H|H]; [left; auto|]. destruct (IH (Some (snd a)) j H) as [K|K]; [injection K as <-; left; auto|right; auto].
  - right. cbn [map]. destruct H as [H|H]; [left; auto|]. destruct (IH (Some (snd a)) j H) as [K|K]; [injection K as <-; left; auto|right; auto].
Qed.
Lemma addImplicit_rights ren j rs k : In k (map snd ren) -> In k (map snd (addImplicit ren j rs)).
Proof.
  intro H. unfold addImplicit. set (l := ren ++ makeRenaming (fst j) rs (addRenaming (fst j) (snd j) ren)).
  assert (K : In k (map snd (sortR l))).
  { apply in_map_iff in H. destruct H as [p [<- Hp]]. apply in_map. apply sortR_in. unfold l. apply in_or_app. auto. }
  destruct (uniqR_rights (sortR l) None k K) as [X|X]; [discriminate|auto].
Qed.
Lemma all_full ren y : (forall p, In p ren -> (snd p < tcSize (ec y))%nat) ->
  (forall x, (x < tcSize (ec y))%nat -> In x (map snd ren) \/ isPointAt (ec y) x = true) -> renFull ren (ec y) = true.
Proof.
  intros R H. unfold renFull. apply Nat.eqb_eq. set (k := sortUniq (rightVariables ren ++ filter (isPointAt (ec y)) (seq 0 (tcSize (ec y))))).
  assert (ND : NoDup k).
  { assert (A := sortUniq_asc (rightVariables ren ++ filter (isPointAt (ec y)) (seq 0 (tcSize (ec y))))). fold k in A. clear - A.
    induction A as [|a l H A IH]; constructor; auto. intro X. specialize (H a X). lia. }
  assert (SUB : incl k (seq 0 (tcSize (ec y)))).
  { intros z Hz. apply (proj1 (sortUniq_in _ _)) in Hz. apply in_app_or in Hz. destruct Hz as [Hz|Hz]; [|apply filter_In in Hz; tauto].
    apply (proj1 (sortUniq_in _ _)) in Hz. apply in_map_iff in Hz. destruct Hz as [p [<- Hp]]. apply in_seq. specialize (R p Hp). lia. }
  assert (SUP : incl (seq 0 (tcSize (ec y))) k).
  { intros z Hz. apply (proj2 (sortUniq_in _ _)). apply in_or_app. assert (Hz' := Hz). apply in_seq in Hz. destruct (H z ltac:(lia)) as [K|K].
    - left. apply (proj2 (sortUniq_in _ _)). exact K.
    - right. apply filter_In. auto. }
  assert (L1 := NoDup_incl_length ND SUB). assert (L2 := NoDup_incl_length (seq_NoDup (tcSize (ec y)) 0) SUP). rewrite seq_length in *. lia.
Qed.
Lemma findDet_precise x y sufs lr lc rr rc ren : wfElem x -> wfElem y ->
  (forall w, inElem x w -> Forall (fun q => (0 <= q)%Q) (td w)) -> (forall w, inElem y w -> Forall (fun q => (0 <= q)%Q) (td w)) ->
  findDet x lr lc y rr rc sufs = Some ren -> hasImpreciseClocks ren (ec y) = false.
Proof.
  intros Wx Wy Nx Ny. unfold findDet. cbv zeta. destruct (negb _) eqn:E0; [discriminate|].
  destruct (equivB _ _ _ _ _ _ _ []) eqn:E1.
  - intro H. injection H as <-. reflexivity.
  - intro H. apply find_some_in in H. destruct H as [H _]. apply in_map_iff in H. destruct H as [c [Ec Hc]].
    apply genCandidates_ok in Hc; [|apply nonneg_desc; auto|apply nonneg_desc; auto|apply Wy|apply nonempty_nonneg2, Wy].
    destruct Hc as [PO [_ HI]]. destruct c as [|p0 c0]; [subst; reflexivity|]. set (c := p0 :: c0) in *. subst ren.
    assert (RG : forall p, In p c -> (fst p < tcSize (ec x))%nat /\ (snd p < tcSize (ec y))%nat) by (intros p Hp; destruct (PO p Hp) as [A [B _]]; auto).
    assert (F : renFull c (ec y) = true).
    { unfold hasImpreciseClocks in HI. change (true && negb (renFull c (ec y)) && negb (onlyTrivial c (ec y)) = false) in HI. cbn [andb] in HI.
      destruct (renFull c (ec y)); [auto|]. cbn [negb andb] in HI. apply negb_false_iff in HI. unfold onlyTrivial in HI. rewrite forallb_forall in HI.
      specialize (HI p0 (or_introl eq_refl)). destruct (PO p0 (or_introl eq_refl)) as [_ [_ [_ P]]]. exfalso.
      unfold isPointAt in HI. change (getUpperBound (ec y) (snd p0) (tcSize (ec y) - 1)) with (ubN (ec y) (snd p0)) in HI.
      unfold isPoint in HI. destruct (ubN (ec y) (snd p0)) as [u us|]; [|discriminate]. destruct (getLowerBound _ _ _) as [l ls|]; [|discriminate]. cbn [bSnd] in P. subst us.
      rewrite andb_false_r in HI. discriminate. }
    assert (K : renFull (addImplicit c (tcSize (ec x), jux (ec x) (ec y)) (tcSize (ec y))) (ec y) = true).
    { apply all_full.
      - intros p Hp. apply (addImplicit_range c (tcSize (ec x), jux (ec x) (ec y)) (tcSize (ec y)) RG p Hp).
      - intros k Hk. destruct (full_all c y k F) as [X|X]; [intros p Hp; apply RG; auto|auto| |auto]. left. apply addImplicit_rights. auto. }
    unfold hasImpreciseClocks. rewrite K. cbn [negb]. destruct (addImplicit _ _ _); reflexivity.
Qed.
