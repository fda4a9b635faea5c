(** Satisfiable suffixes are regions; the concatenation of a prefix and a
    suffix may be asked about as soon as it is satisfiable. *)
From Coq Require Import QArith ZArith Bool List Arith Lia Lqa Qround.
From Verif Require Import BoundsModel BoundsProofs ConstraintModel ZoneModel ZoneSpec ZoneProofs ZoneProofs2 AutomatonModel TimedWordModel TimedWordSpec TimedWordProofs
  TimedConditionModel TimedConditionSpec TimedConditionProofs TimedConditionProofs2 TimedConditionProofs3 TimedConditionProofs4 ElementaryModel ElementarySpec ElementaryProofs
  LooseProofs RegionalModel RegionalSpec RegionalProofs RegionalProofs2 RegionalProofs3 RegionalProofs4 RegionalProofs5 RegionalProofs6 OracleModel SymbolicModel SymbolicSpec
  CexModel CexSpec CexProofs RenamingModel RenamingProofs5 QueryableProofs TableModel TableProofs ShapeProofs.
Import ListNotations.
Open Scope Q_scope.

Lemma unitShape_region m d : unitShape m -> inCond m d -> regionCond m d.
Proof.
  intros [D [G [F U]]] [L I]. split; [auto|]. split; [split; auto|]. intros i j Hij Hj. destruct (U i j Hij Hj) as [q [Hq Uq]].
  eapply unitBounds_same; [exact Uq|]. apply (unitBounds_sat _ _ _ Uq). apply I; auto.
Qed.
(** a bound that only lets nonpositive numbers pass *)
Definition nposB (b : bound) : Prop := exists c l, b = Fin c l /\ c <= 0.
Lemma nposB_sat b q : nposB b -> bsat b q -> q <= 0.
Proof. intros [c [l [-> H]]]. destruct l; cbn; intro; lra. Qed.
Lemma nposB_add a b : nposB a -> nposB b -> nposB (badd a b).
Proof. intros [c [l [-> H]]] [d [k [-> K]]]. cbn [badd]. exists (Qred (c + d)), (l && k). split; [reflexivity|qred; lra]. Qed.
Lemma unit_npos u l q : unitBounds u l q -> 0 <= q -> nposB l.
Proof.
  intros [z [c [e [[-> [-> [C [E H]]]]|[-> [-> [C [E [H H']]]]]]]]] P; exists e; eexists; (split; [reflexivity|]); [lra|].
  assert (K : (0 <= z)%Z). { assert (X : inject_Z (-1) < inject_Z z) by (change (inject_Z (-1)) with (- (1)); lra). apply inj_lt in X. lia. }
  rewrite Zle_Qle in K. change (inject_Z 0) with 0 in K. lra.
Qed.
Lemma unitShape_npos m i j : unitShape m -> (i <= j)%nat -> (j < tcSize m)%nat -> nposB (get m (colOf m j) (i + 1)).
Proof. intros [D [G [F U]]] Hij Hj. destruct (U i j Hij Hj) as [q [Hq Uq]]. exact (unit_npos _ _ _ Uq Hq). Qed.
Lemma unitShape_nonneg m d : unitShape m -> inCond m d -> Forall (fun q => 0 <= q) d.
Proof.
  intros U [L I]. apply Forall_forall. intros q Hq. apply (In_nth _ _ 0) in Hq. destruct Hq as [i [Hi <-]].
  assert (Hi' : (i < tcSize m)%nat) by (rewrite <- L; exact Hi). destruct (I i i (le_n i) Hi') as [_ B]. rewrite T_diag in B by auto.
  apply nposB_sat in B; [lra|]. apply unitShape_npos; auto.
Qed.
Lemma suf_loose z : sufShape z -> (exists d, inCond (ec (fel z)) d) -> looseElem (fel z).
Proof. intros [U [S0 _]] [d I]. split; [|auto]. eapply region_loose, unitShape_region; eauto. Qed.

(** ** the first row contains every suffix *)
Lemma concat_default_inhab b : (2 <= dim b)%nat -> diagOK b -> nonemptyZ (tcConcat tcEmpty b) -> exists d, inCond b d.
Proof.
  intros D G [w H]. apply inZone_Z in H. apply tcConcat_Z in H; [|cbn; lia|auto]. unfold concatSem in H. cbv zeta in H.
  assert (N1 : tcSize tcEmpty = 1%nat) by reflexivity. rewrite N1 in H. destruct H as [_ [H2 [H3 [H4 [H5 _]]]]].
  assert (SZ : dim b = S (tcSize b)) by (unfold tcSize; lia).
  assert (B0 : forall b q, bsat (badd bz b) q -> bsat b q).
  { intros c q K. unfold bz in K. destruct c as [c l|]; [|exact I]. cbn [badd] in K. qred. destruct l; cbn [andb bsat] in *; lra. }
  exists (durs (tcSize b) w). apply inZone_durs; [auto|]. intros i j Hi Hj.
  assert (E : forall k, (2 <= k)%nat -> ext w (1 + k - 1)%nat = ext w k) by (intros k Hk; f_equal; lia).
  destruct i as [|[|i]], j as [|[|j]].
  - eapply bsat_ext; [|apply G; auto]. ring.
  - apply B0. apply (H2 1%nat). lia.
  - rewrite <- (E (S (S j))) by lia. apply H5. lia.
  - apply B0. apply (H2 1%nat). lia.
  - eapply bsat_ext; [|apply G; auto]. ring.
  - rewrite <- (E (S (S j))) by lia. apply B0. apply (H3 1%nat (S (S j))); lia.
  - rewrite <- (E (S (S i))) by lia. apply H5. lia.
  - rewrite <- (E (S (S i))) by lia. apply B0. apply (H3 1%nat (S (S i))); lia.
  - rewrite <- (E (S (S i))), <- (E (S (S j))) by lia. apply H4; lia.
Qed.
Lemma suf_inhab z : sufShape z -> nonemptyZ (ec (elConcat (fel frDefault) (fel z))) -> looseElem (fel z).
Proof. intros H N. apply suf_loose; [auto|]. destruct H as [[D [G _]] _]. apply concat_default_inhab; auto. Qed.

(** ** satisfiable concatenations may be asked about *)
Lemma fiCond_concatU a b : (2 <= dim a)%nat -> (2 <= dim b)%nat -> fiCond a ->
  (forall i j, (i < dim b)%nat -> (j < dim b)%nat -> (1 <= i \/ 1 <= j)%nat -> fiB (get b i j)) -> fiCond (tcConcat a b).
Proof.
  intros Da Db A B. unfold tcConcat. cbv zeta. apply fiCond_canonize. intros i j Hi Hj. rewrite dim_mk in *. rewrite get_mk by auto.
  assert (Ea : tcSize a = (dim a - 1)%nat) by (unfold tcSize; lia). assert (Eb : tcSize b = (dim b - 1)%nat) by (unfold tcSize; lia). rewrite Ea, Eb in *.
  assert (G : forall i j, (i < dim a - 1 + (dim b - 1))%nat -> (j < dim a - 1 + (dim b - 1))%nat -> fiB
    (if (i <=? dim a - 1)%nat && (j <=? dim a - 1)%nat then get a i j
     else if (1 <=? i)%nat && (i <=? dim a - 1)%nat then get a i 0
     else if (1 <=? j)%nat && (j <=? dim a - 1)%nat then get a 0 j
     else if (dim a - 1 <? i)%nat && (dim a - 1 <? j)%nat then get b (i - (dim a - 1) + 1) (j - (dim a - 1) + 1)
     else if (dim a - 1 <? i)%nat && (j =? 0)%nat then get b (i - (dim a - 1) + 1) 0
     else get b 0 (j - (dim a - 1) + 1))).
  { clear i j Hi Hj. intros i j Hi Hj.
    repeat match goal with |- context [if ?c then _ else _] => destruct c eqn:?; repeat rewrite ?andb_true_iff, ?andb_false_iff, ?Nat.leb_le, ?Nat.leb_gt, ?Nat.ltb_lt, ?Nat.ltb_ge, ?Nat.eqb_eq, ?Nat.eqb_neq in * end;
    first [apply A; lia|apply B; lia]. }
  specialize (G i j Hi Hj).
  match goal with |- fiB (if ?c then badd ?e _ else _) => set (e0 := e) in * end. clearbody e0.
  repeat match goal with |- context [if ?c then _ else _] => destruct c eqn:?; repeat rewrite ?andb_true_iff, ?andb_false_iff, ?Nat.leb_le, ?Nat.leb_gt, ?Nat.ltb_lt, ?Nat.ltb_ge, ?Nat.eqb_eq, ?Nat.eqb_neq in * end;
    auto; apply fiB_add; auto; apply B; lia.
Qed.
Lemma unitShape_fi m i j : unitShape m -> (i < dim m)%nat -> (j < dim m)%nat -> (1 <= i \/ 1 <= j)%nat -> fiB (get m i j).
Proof.
  intros [D [G [F U]]] Hi Hj K. destruct (Nat.eq_dec i j) as [->|N]; [apply F; lia|].
  destruct (pair_cases (dim m) i j Hi Hj N) as [a [b [Hab [Hb C]]]]. fold (tcSize m) in *. fold (colOf m b) in C. destruct (U a b Hab Hb) as [q [_ Uq]].
  destruct (unitBounds_ub _ _ _ Uq) as [X Y]. unfold getUpperBound, getLowerBound in *. destruct C as [[-> ->]|[-> ->]]; eapply unitUB_fi; eauto.
Qed.
Lemma goodPre_unit x : goodPre x -> unitShape (ec (fel x)).
Proof.
  intro G. assert (F := goodPre_fi x G). destruct G as [[w [P R]] D]. apply (region_unitShape _ (td w)); [apply R|apply P|]. intros k H1 Hk. apply F; auto.
Qed.
Lemma unit_concat_nonneg a b d : unitShape a -> unitShape b -> diagOK (tcConcat a b) -> inCond (tcConcat a b) d -> Forall (fun q => 0 <= q) d.
Proof.
  intros Ua Ub G I. assert (Da := proj1 Ua). assert (Db := proj1 Ub).
  assert (SZa : dim a = S (tcSize a)) by (unfold tcSize; lia). assert (SZb : dim b = S (tcSize b)) by (unfold tcSize; lia).
  assert (Dc : dim (tcConcat a b) = (tcSize a + tcSize b)%nat) by apply dim_tcConcat.
  assert (L : length d = (tcSize a + tcSize b - 1)%nat) by (destruct I as [L _]; rewrite L; change (pred (dim (tcConcat a b)) = (tcSize a + tcSize b - 1)%nat); rewrite Dc; lia).
  apply inCond_inZone in I; [|rewrite Dc; lia|exact G]. apply inZone_Z in I. apply tcConcat_Z in I; auto. unfold concatSem in I. cbv zeta in I. destruct I as [H1 [H2 [H3 [H4 [H5 _]]]]].
  assert (LOa : forall i, (i < tcSize a)%nat -> nposB (get a (colOf a i) (i + 1))) by (intros; apply unitShape_npos; auto).
  assert (LOb : forall i, (i < tcSize b)%nat -> nposB (get b (colOf b i) (i + 1))) by (intros; apply unitShape_npos; auto).
  unfold colOf in LOa, LOb.
  apply Forall_forall. intros q Hq. apply (In_nth _ _ 0) in Hq. destruct Hq as [i [Hi <-]]. assert (E := accd_step d i Hi).
  assert (E1 : accd d i = ext (accd d) (i + 1)) by (replace (i + 1)%nat with (S i) by lia; reflexivity).
  assert (Q0 : ext (accd d) 0 == accd d (length d)) by (rewrite accd_end by lia; reflexivity).
  set (N := tcSize a) in *. set (M := tcSize b) in *. destruct (le_lt_dec (i + 2) N) as [A|A].
  - assert (E2 : accd d (S i) = ext (accd d) (i + 2)) by (replace (i + 2)%nat with (S (S i)) by lia; reflexivity).
    assert (K := H1 (i + 2)%nat (i + 1)%nat ltac:(lia) ltac:(lia)). specialize (LOa i ltac:(lia)). replace ((i =? N - 1)%nat) with false in LOa by (symmetry; apply Nat.eqb_neq; lia).
    apply (nposB_sat _ _ LOa) in K. rewrite <- E1, <- E2 in K. lra.
  - destruct (Nat.eq_dec (i + 1) N) as [B|B].
    + assert (La := LOa i ltac:(lia)). replace ((i =? N - 1)%nat) with true in La by (symmetry; apply Nat.eqb_eq; lia). rewrite B in La. assert (Lb := LOb 0%nat ltac:(lia)).
      destruct (Nat.eq_dec M 1) as [M1|M1].
      * replace ((0 =? M - 1)%nat) with true in Lb by (symmetry; apply Nat.eqb_eq; lia). destruct (H2 N ltac:(lia)) as [_ K]. apply (nposB_sat _ _ (nposB_add _ _ La Lb)) in K.
        rewrite <- B, <- E1, Q0 in K. replace (length d) with (S i) in K by lia. lra.
      * replace ((0 =? M - 1)%nat) with false in Lb by (symmetry; apply Nat.eqb_neq; lia). destruct (H3 N 2%nat ltac:(lia) ltac:(lia)) as [_ K]. apply (nposB_sat _ _ (nposB_add _ _ La Lb)) in K.
        replace (N + 2 - 1)%nat with (S (S i)) in K by lia. rewrite <- B, <- E1 in K. change (ext (accd d) (S (S i))) with (accd d (S i)) in K. lra.
    + assert (Lb := LOb (i + 1 - N)%nat ltac:(lia)). destruct (Nat.eq_dec (i + 1 - N) (M - 1)) as [M1|M1].
      * replace ((i + 1 - N =? M - 1)%nat) with true in Lb by (symmetry; apply Nat.eqb_eq; lia). destruct (H5 (i + 1 - N + 1)%nat ltac:(lia)) as [_ K]. apply (nposB_sat _ _ Lb) in K.
        replace (N + (i + 1 - N + 1) - 1)%nat with (i + 1)%nat in K by lia. rewrite <- E1, Q0 in K. replace (length d) with (S i) in K by lia. lra.
      * replace ((i + 1 - N =? M - 1)%nat) with false in Lb by (symmetry; apply Nat.eqb_neq; lia). assert (K := H4 (i + 1 - N + 2)%nat (i + 1 - N + 1)%nat ltac:(lia) ltac:(lia)). apply (nposB_sat _ _ Lb) in K.
        replace (N + (i + 1 - N + 1) - 1)%nat with (i + 1)%nat in K by lia. replace (N + (i + 1 - N + 2) - 1)%nat with (S (S i))%nat in K by lia.
        rewrite <- E1 in K. change (ext (accd d) (S (S i))) with (accd d (S i)) in K. lra.
Qed.
Lemma concat_usable x z : goodPre x -> sufShape z -> nonemptyZ (ec (elConcat (fel x) (fel z))) -> usable (elConcat (fel x) (fel z)).
Proof.
  intros Gx Sz NE. destruct (goodPre_proper x Gx) as [Px [_ [_ [Wx [_ [_ Vx]]]]]]. assert (Ux := goodPre_unit x Gx). destruct Sz as [Uz [Lz [Vz _]]].
  assert (Dx := proj1 Ux). assert (Dz := proj1 Uz). cbn [elConcat ec] in NE.
  assert (Dc : dim (tcConcat (ec (fel x)) (ec (fel z))) = (tcSize (ec (fel x)) + tcSize (ec (fel z)))%nat) by apply dim_tcConcat.
  assert (OK : okCond (tcConcat (ec (fel x)) (ec (fel z)))).
  { split; [rewrite Dc; unfold tcSize; lia|]. split; [|auto]. unfold tcConcat in *. apply canonize_closed_sat. destruct NE as [v H]. exists v. apply canonize_inZone. exact H. }
  assert (W : wfElem (elConcat (fel x) (fel z))).
  { split; [exact OK|]. cbn [elConcat ew ec]. rewrite tcSize_concat by auto. rewrite app_length. destruct Wx as [_ Wx]. lia. }
  assert (FI : fiCond (tcConcat (ec (fel x)) (ec (fel z)))).
  { apply fiCond_concatU; auto; [apply goodPre_fi; auto|]. intros i j Hi Hj K. apply unitShape_fi; auto. }
  destruct (fiCond_queryable _ (proj1 OK) FI) as [F1 F2].
  assert (V : visible (elConcat (fel x) (fel z))) by (unfold visible in *; cbn [elConcat ew]; apply Forall_app; auto).
  split; [split; [auto|split; [exact F1|split; [exact F2|exact V]]]|].
  intros w [A B]. split; [split|].
  - unfold wfTW. rewrite A. destruct W as [_ W]. destruct B as [B _]. rewrite B. exact W.
  - eapply unit_concat_nonneg; [exact Ux|exact Uz| |exact B]. apply nonempty_diag; auto.
  - rewrite A. intro H. unfold visible in V. rewrite Forall_forall in V. apply (V _ H). reflexivity.
Qed.
