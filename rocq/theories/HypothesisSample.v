(** The word that a morphism without renamed clocks maps to, and the values that
    toValuation gives to the clocks of the same region: both take the middle of
    what is left for each clock. *)
From Coq Require Import QArith Qround ZArith Bool List Arith Lia Lqa.
From Verif Require Import BoundsModel BoundsProofs ConstraintModel AutomatonModel GuardSpec ConstraintProofs ZoneModel ZoneSpec ZoneProofs ZoneProofs2 ZoneProofs3 ZoneProofs4 ZoneProofs5 SampleProofs
  TimedWordModel TimedWordSpec TimedWordProofs TimedConditionModel TimedConditionSpec TimedConditionProofs TimedConditionProofs3 TimedConditionProofs4 ElementaryModel
  ElementarySpec ElementaryProofs ElementaryProofs2 LooseProofs RegionalModel RegionalSpec OracleModel SymbolicModel SymbolicSpec CexModel CexSpec CexProofs RenamingModel RenamingSpec RenamingProofs RenamingProofs2 RenamingProofs5 RenamingProofs6.
Import ListNotations.
Open Scope Q_scope.

(** ** the middle of what is left *)
Definition sec (Z : valuation -> Prop) (i : nat) (v : valuation) (q : Q) : Prop :=
  exists w, Z w /\ (forall k, (k < i)%nat -> w k == v k) /\ w i == q.
Definition tightI (S : Q -> Prop) (L U : Q) : Prop := (forall q, S q -> L <= q /\ q <= U) /\ (forall q, L < q -> q < U -> S q) /\ exists q, S q.
Definition midList (Z : valuation -> Prop) (n : nat) (v : valuation) : Prop :=
  forall i, (i < n)%nat -> exists L U, tightI (sec Z i v) L U /\ v i == (L + U) * (1#2).
Lemma tightI_le S L U : tightI S L U -> L <= U.
Proof. intros (A & _ & q & H). destruct (A q H). lra. Qed.
Lemma tightI_unique S S' L U L' U' : (forall q, S q <-> S' q) -> tightI S L U -> tightI S' L' U' -> L == L' /\ U == U'.
Proof.
  intros E (A & B & q & H) (A' & B' & q' & H'). assert (X := A q H). assert (X' := A' q (proj1 (E q) H)). assert (Y := A' q' H'). assert (Y' := A q' (proj2 (E q') H')).
  split.
  - destruct (Qlt_le_dec L L') as [C|C]; [exfalso|destruct (Qlt_le_dec L' L) as [C'|C']; [exfalso|lra]].
    + assert (K := B ((L + L') * (1#2)) ltac:(lra) ltac:(lra)). apply E in K. destruct (A' _ K). lra.
    + assert (K := B' ((L + L') * (1#2)) ltac:(lra) ltac:(lra)). apply E in K. destruct (A _ K). lra.
  - destruct (Qlt_le_dec U U') as [C|C]; [exfalso|destruct (Qlt_le_dec U' U) as [C'|C']; [exfalso|lra]].
    + assert (K := B' ((U + U') * (1#2)) ltac:(lra) ltac:(lra)). apply E in K. destruct (A _ K). lra.
    + assert (K := B ((U + U') * (1#2)) ltac:(lra) ltac:(lra)). apply E in K. destruct (A' _ K). lra.
Qed.
Lemma sec_ext (Z : valuation -> Prop) i v v' q : (forall k, (k < i)%nat -> v k == v' k) -> sec Z i v q -> sec Z i v' q.
Proof. intros E (w & Hw & A & B). exists w. split; [auto|]. split; [|auto]. intros k Hk. rewrite (A k Hk). auto. Qed.
Lemma midList_unique Z n v v' : midList Z n v -> midList Z n v' -> forall i, (i < n)%nat -> v i == v' i.
Proof.
  intros H H' i. induction i as [i IH] using (well_founded_induction lt_wf). intro Hi. destruct (H i Hi) as (L & U & T & E). destruct (H' i Hi) as (L' & U' & T' & E').
  assert (X : forall q, sec Z i v q <-> sec Z i v' q) by (intro q; split; apply sec_ext; intros k Hk; [|symmetry]; apply IH; lia).
  destruct (tightI_unique _ _ _ _ _ _ X T T'). rewrite E, E'. lra.
Qed.

(** ** toValuation *)
Lemma toValStep_mid c vs i : okCond c -> bounded c -> (i < tcSize c)%nat ->
  exists c' v, toValStep (c, vs) i = (c', vs ++ [v]) /\ okCond c' /\ dim c' = dim c /\ (forall w, inZone c' w <-> inZone c w /\ w i == v) /\
    exists L U, tightI (fun q => exists w, inZone c w /\ w i == q) L U /\ v == (L + U) * (1#2).
Proof.
  intros O B Hi. assert (O' := O). destruct O' as [D [C NE]]. assert (N2 := nonempty_nonneg2 _ NE). destruct (B i Hi) as [[l [ls L]] [u [us U]]].
  unfold toValStep. rewrite L, U. assert (Hd : (i + 1 < dim c)%nat) by (unfold tcSize in Hi; lia).
  rewrite lastLo in L. rewrite lastUp in U.
  assert (NN := N2 (i + 1)%nat 0%nat Hd ltac:(lia)). rewrite L, U in NN. apply bzero_le_sat in NN.
  assert (TT : tightI (fun q => exists w, inZone c w /\ w i == q) (- l) u).
  { split; [|split].
    - intros q (w & Hw & E). assert (A1 := Hw (i + 1)%nat 0%nat Hd ltac:(lia)). assert (B1 := Hw 0%nat (i + 1)%nat ltac:(lia) Hd). rewrite U in A1. rewrite L in B1. replace (i + 1)%nat with (S i) in * by lia. cbn [ext] in *.
      apply bsat_le in A1. apply bsat_le in B1. lra.
    - intros q A1 B1. destruct (realise c (i + 1) 0 q C N2 Hd ltac:(lia) ltac:(lia)) as (w & Hw & E); [rewrite U; apply bsat_strict; lra|rewrite L; apply bsat_strict; lra|].
      exists w. split; [auto|]. replace (i + 1)%nat with (S i) in E by lia. cbn [ext] in E. lra.
    - destruct NE as [w Hw]. exists (w i), w. split; [auto|reflexivity]. }
  destruct (Qeq_bool l (- u) && ls && us) eqn:E.
  - apply andb_true_iff in E. destruct E as [E Eu]. apply andb_true_iff in E. destruct E as [E El]. apply Qeq_bool_eq in E. subst.
    exists c, u. split; [reflexivity|]. split; [split; auto|]. split; [auto|]. split.
    + intros w. split; [|tauto]. intro Hw. split; [auto|].
      assert (A1 := Hw (i + 1)%nat 0%nat Hd ltac:(lia)). assert (A2 := Hw 0%nat (i + 1)%nat ltac:(lia) Hd). rewrite U in A1. rewrite L in A2.
      replace (i + 1)%nat with (S i) in * by lia. cbn [ext bsat] in A1, A2. lra.
    + exists (- l), u. split; [auto|]. lra.
  - set (mid := (u - l) / 2). assert (Em : mid == (u - l) * (1#2)) by (unfold mid; field).
    assert (Lt : 0 < u + l).
    { cbn [badd] in NN. qred. destruct (Qlt_le_dec 0 (u + l)) as [X|X]; [auto|]. exfalso.
      assert (Z : u + l == 0) by (destruct us, ls; cbn in NN; lra). destruct us, ls; cbn in NN; try lra.
      assert (Q : Qeq_bool l (- u) = true) by (apply Qeq_eq_bool; lra). rewrite Q in E. discriminate. }
    destruct (realise c (i + 1) 0 mid C N2 Hd ltac:(lia) ltac:(lia)) as [w0 [Hw0 Ew0]].
    { rewrite U. destruct us; cbn; lra. }
    { rewrite L. destruct ls; cbn; lra. }
    set (n := (tcSize c - 1)%nat). set (c1 := restrictLowerBound c i n (Fin (- mid) true) false). set (c2 := restrictUpperBound c1 i n (Fin mid true) false).
    assert (D1 : dim c1 = dim c) by apply dim_restrictLower. assert (D2 : dim c2 = dim c) by (unfold c2; rewrite dim_restrictUpper; auto).
    assert (Hin : (i <= n)%nat) by (unfold n; lia). assert (Hn : (n < tcSize c)%nat) by (unfold n; lia).
    assert (S1 : tcSize c1 = tcSize c) by (unfold tcSize; rewrite D1; reflexivity).
    destruct (toValStep_ok c vs i O B Hi) as (c' & v & E2 & O2 & _ & _). unfold toValStep in E2. rewrite lastLo, lastUp, L, U, E in E2. fold n in E2. fold mid in E2. fold c1 in E2. fold c2 in E2. injection E2 as <- Ev.
    exists c2, mid. split; [reflexivity|]. split; [auto|]. split; [auto|]. split; [|exists (- l), u; split; [auto|lra]].
    intro w. rewrite !inZone_Z. unfold c2. rewrite restrictUpper_Z by (rewrite ?D1, ?S1; auto). unfold c1 at 1. rewrite restrictLower_Z by auto.
    replace (colOf c1 n) with 0%nat by (unfold n; rewrite <- S1; symmetry; apply lastCol). replace (colOf c n) with 0%nat by (unfold n; symmetry; apply lastCol).
    replace (i + 1)%nat with (S i) by lia. cbn [ext bsat]. split; [intros [[X Y] Z]; split; [auto|lra]|intros [X Y]; split; [split; [auto|lra]|lra]].
Qed.
Lemma toValuation_mid_loop c : okCond c -> bounded c -> forall k, (k <= tcSize c)%nat ->
  exists c' vs, fold_left toValStep (seq 0 k) (c, []) = (c', vs) /\ length vs = k /\ okCond c' /\ dim c' = dim c /\
    (forall w, inZone c' w <-> inZone c w /\ forall i, (i < k)%nat -> w i == nth i vs 0) /\
    forall i, (i < k)%nat -> exists L U, tightI (sec (inZone c) i (fun j => nth j vs 0)) L U /\ nth i vs 0 == (L + U) * (1#2).
Proof.
  intros O B. induction k as [|k IH]; intro Hk.
  - exists c, []. cbn. repeat split; auto; try apply O; try (intros; lia). tauto.
  - destruct IH as [c' [vs [E [L [O' [D' [H M]]]]]]]; [lia|]. rewrite seq_S, fold_left_app, E. cbn [fold_left Nat.add].
    assert (S' : tcSize c' = tcSize c) by (unfold tcSize; rewrite D'; reflexivity).
    destruct (toValStep_mid c' vs k O') as [c2 [v [E2 [O2 [D2 [H2 (L0 & U0 & T0 & V0)]]]]]]; [eapply bounded_sub; eauto; intros w Hw; apply H; auto|lia|].
    assert (A1 : forall i, (i < k)%nat -> nth i (vs ++ [v]) 0 = nth i vs 0) by (intros; apply app_nth1; lia).
    assert (A2 : nth k (vs ++ [v]) 0 = v) by (rewrite <- L; apply nth_middle).
    exists c2, (vs ++ [v]). split; [exact E2|]. split; [rewrite app_length; cbn; lia|]. split; [auto|]. split; [congruence|]. split.
    + intro w. rewrite H2, H. split.
      * intros [[H5 H6] H4]. split; [auto|]. intros i Hi. destruct (Nat.eq_dec i k) as [->|Ne]; [rewrite A2; auto|]. rewrite A1 by lia. apply H6. lia.
      * intros [H5 H6]. split; [split; [auto|]|]; [intros i Hi; rewrite <- A1 by lia; apply H6; lia|]. rewrite <- A2. apply H6. lia.
    + intros i Hi. destruct (Nat.eq_dec i k) as [->|Ne].
      * exists L0, U0. rewrite A2. split; [|auto]. destruct T0 as (P1 & P2 & P3).
        assert (X : forall q, sec (inZone c) k (fun j => nth j (vs ++ [v]) 0) q <-> exists w, inZone c' w /\ w k == q).
        { intro q. unfold sec. split; intros (w & Hw).
          - exists w. split; [|apply Hw]. apply H. split; [apply Hw|]. intros j Hj. rewrite <- A1 by auto. apply Hw. auto.
          - destruct Hw as [Hw Eq]. apply H in Hw. exists w. split; [apply Hw|]. split; [|auto]. intros j Hj. rewrite A1 by auto. apply Hw; auto. }
        split; [|split]; [intros q Hq; apply P1, X; auto|intros q Q1 Q2; apply X, P2; auto|destruct P3 as [q Hq]; exists q; apply X; auto].
      * destruct (M i ltac:(lia)) as (L1 & U1 & T1 & V1). exists L1, U1. rewrite A1 by lia. split; [|auto]. destruct T1 as (P1 & P2 & P3).
        assert (X : forall q, sec (inZone c) i (fun j => nth j (vs ++ [v]) 0) q <-> sec (inZone c) i (fun j => nth j vs 0) q) by (intro q; split; apply sec_ext; intros j Hj; rewrite A1 by lia; reflexivity).
        split; [|split]; [intros q Hq; apply P1, X; auto|intros q Q1 Q2; apply X, P2; auto|destruct P3 as [q Hq]; exists q; apply X; auto].
Qed.
Lemma toValuation_mid c : okCond c -> bounded c -> midList (inZone c) (tcSize c) (fun i => nth i (toValuation c) 0).
Proof.
  intros O B. destruct (toValuation_mid_loop c O B (tcSize c) (le_n _)) as (c' & vs & E & _ & _ & _ & _ & M). unfold toValuation. rewrite E. exact M.
Qed.

(** ** Zone::sample *)
Lemma zsample_pick z i : (S i < dim z)%nat -> nonemptyZ z -> (forall w, inZone z w -> 0 <= w i) -> (exists B, forall w, inZone z w -> w i <= B) ->
  (length (zsample z) = pred (dim z)) -> let v := fun k => nth k (zsample z) 0 in inZone z v ->
  exists L U, tightI (sec (inZone z) i v) L U /\
    ((exists w w', inZone z w /\ inZone z w' /\ w i < w' i) -> (forall w, inZone z w -> exists w', inZone z w' /\ w' i < w i) ->
      v i == if Qlt_le_dec (1#2) (U - L) then L + (1#2) else (L + U) * (1#2)).
Proof.
  intros Hi NE NN [B HB] Len v Hv. set (c := canonize z) in *. assert (D : dim c = dim z) by apply dim_canonize. assert (C : closed c) by (apply canonize_closed_sat; auto).
  assert (IZ : forall w, inZone c w <-> inZone z w) by (intro w; apply canonize_inZone). assert (NE' : nonemptyZ c) by (destruct NE as [w Hw]; exists w; apply IZ; auto). assert (N2 := nonempty_nonneg2 c NE'). assert (TG := closed_tight c C N2).
  assert (Elb : exists l sl, get c 0 (S i) = Fin l sl). { apply (ble_fin _ 0 true). apply TG; try lia. intros w Hw. apply IZ in Hw. specialize (NN w Hw). cbn [ext bsat]. lra. }
  destruct Elb as (l & sl & Elb). assert (Eub : exists u su, get c (S i) 0 = Fin u su). { apply (ble_fin _ B true). apply TG; try lia. intros w Hw. apply IZ in Hw. specialize (HB w Hw). cbn [ext bsat]. lra. }
  destruct Eub as (u & su & Eub).
  assert (L0 : 0 <= - l). { assert (K : ble (get c 0 (S i)) bz = true). { apply TG; try lia. intros w Hw. apply IZ in Hw. specialize (NN w Hw). unfold bz. cbn [ext bsat]. lra. } rewrite Elb in K. apply ble_val in K. cbn in K. lra. }
  (* the value picked *)
  assert (PICK : exists val, length val = i /\ (forall k, (k < i)%nat -> nth k val 0 = v k) /\ sampleStep c val i = val ++ [v i]).
  { exists (fold_left (sampleStep c) (seq 0 i) []). assert (Lv : forall b a vl, length vl = a -> length (fold_left (sampleStep c) (seq a b) vl) = (a + b)%nat).
    { induction b as [|b IH]; intros a vl Hl; cbn [seq fold_left]; [lia|]. rewrite IH by (unfold sampleStep; rewrite app_length; cbn; lia). lia. }
    set (val := fold_left (sampleStep c) (seq 0 i) []). assert (Lval : length val = i) by (unfold val; rewrite Lv; [lia|reflexivity]).
    assert (EZ : zsample z = fold_left (sampleStep c) (seq (S i) (pred (dim c) - S i)) (sampleStep c val i)).
    { unfold zsample. cbv zeta. fold c. unfold val. replace (pred (dim c)) with (i + S (pred (dim c) - S i))%nat at 1 by lia. rewrite seq_app, fold_left_app. cbn [seq fold_left plus]. reflexivity. }
    split; [auto|]. split.
    - intros k Hk. unfold v. rewrite EZ. rewrite fold_sample_nth; [|unfold sampleStep; rewrite app_length; cbn; lia|lia]. unfold sampleStep. rewrite app_nth1 by lia. reflexivity.
    - assert (X : v i = nth i (sampleStep c val i) 0) by (unfold v; rewrite EZ; apply fold_sample_nth; [unfold sampleStep; rewrite app_length; cbn; lia|lia]). rewrite X. unfold sampleStep. cbv zeta. f_equal. f_equal. rewrite app_nth2 by lia. rewrite Lval, Nat.sub_diag. reflexivity. }
  destruct PICK as (val & Lval & Ev & PK). assert (VC : inZone c v) by (apply IZ; auto).
  unfold sampleStep in PK. cbv zeta in PK. rewrite Elb, Eub in PK. cbn [bval bincl] in PK.
  set (lower := fold_left (loUpd c i val) (seq 0 i) (qmax 0 (- l))) in *. set (upper := fold_left (upUpd c i val) (seq 0 i) (Some u)) in *.
  assert (Hlow := lo_fold c i val (seq 0 i) (qmax 0 (- l))). cbv zeta in Hlow. fold lower in Hlow. destruct Hlow as (L1 & L2 & L3).
  assert (Hup := up_fold c i val (seq 0 i) (Some u)). fold upper in Hup. destruct upper as [U|] eqn:EU; [|destruct Hup; discriminate]. destruct Hup as (U1 & U2 & U3).
  destruct (qmax_spec 0 (- l)) as (M1 & M2 & M3).
  exists lower, U. split.
  - split; [|split].
    + intros q (w & Hw & Aw & Eq). apply IZ in Hw. split.
      * apply L3.
        -- assert (K := Hw 0%nat (S i) ltac:(lia) ltac:(lia)). rewrite Elb in K. apply bsat_le in K. cbn [ext] in K. apply M3; lra.
        -- intros j b s Hj E. apply in_seq in Hj. assert (K := Hw (S j) (S i) ltac:(lia) ltac:(lia)). rewrite E in K. apply bsat_le in K. cbn [ext] in K. rewrite (Aw j) in K by lia. rewrite Ev by lia. lra.
      * apply U3.
        -- intros u0 E0. injection E0 as <-. assert (K := Hw (S i) 0%nat ltac:(lia) ltac:(lia)). rewrite Eub in K. apply bsat_le in K. cbn [ext] in K. lra.
        -- intros j b s Hj E. apply in_seq in Hj. assert (K := Hw (S i) (S j) ltac:(lia) ltac:(lia)). rewrite E in K. apply bsat_le in K. cbn [ext] in K. rewrite (Aw j) in K by lia. rewrite Ev by lia. lra.
    + intros q Q1 Q2. set (un := fun k => if (k =? S i)%nat then q else ext v k).
      assert (US : un (S i) = q) by (unfold un; rewrite Nat.eqb_refl; reflexivity).
      assert (UO : forall k, k <> S i -> un k = ext v k) by (intros k Hk; unfold un; apply Nat.eqb_neq in Hk; rewrite Hk; reflexivity).
      destruct (extend_Z c (seq 0 (S (S i))) un C N2) as (u' & Eu' & Hu').
      * intros s Hs. apply in_seq in Hs. lia.
      * intros a b Ha Hb. apply in_seq in Ha. apply in_seq in Hb. destruct (Nat.eq_dec a (S i)) as [->|Na], (Nat.eq_dec b (S i)) as [->|Nb].
        -- eapply bsat_ext; [|apply bzero_le_sat, nonneg2_diag; [auto|lia]]. ring.
        -- rewrite US, UO by auto. apply bsat_strict. destruct b as [|j]; [rewrite Eub; cbn [ext]; specialize (U1 u eq_refl); lra|].
           destruct (get c (S i) (S j)) as [b0 s0|] eqn:E; [|exact I]. assert (K := U2 j b0 s0 ltac:(apply in_seq; lia) E). rewrite Ev in K by lia. cbn [ext]. lra.
        -- rewrite US, UO by auto. apply bsat_strict. destruct a as [|j]; [rewrite Elb; cbn [ext]; lra|].
           destruct (get c (S j) (S i)) as [b0 s0|] eqn:E; [|exact I]. assert (K := L2 j b0 s0 ltac:(apply in_seq; lia) E). rewrite Ev in K by lia. cbn [ext]. lra.
        -- rewrite !UO by auto. apply VC; lia.
      * assert (E0 : u' 0%nat = 0) by (rewrite Eu' by (apply in_seq; lia); rewrite UO by lia; reflexivity).
        exists (fun k => u' (S k) - u' 0%nat). split; [apply IZ; apply Z_inZone; auto|]. split.
        -- intros k Hk. rewrite E0, Eu' by (apply in_seq; lia). rewrite UO by lia. cbn [ext]. lra.
        -- rewrite E0, Eu' by (apply in_seq; lia). rewrite US. lra.
    + exists (v i), v. split; [auto|]. split; reflexivity.
  - intros (w1 & w2 & W1 & W2 & W12) OP. assert (SF : sl = false).
    { destruct sl; [exfalso|reflexivity]. destruct (realise c 0 (S i) l C N2 ltac:(lia) ltac:(lia) ltac:(lia)) as (w & Hw & E).
      - rewrite Elb. cbn. lra.
      - assert (NN2 := N2 0%nat (S i) ltac:(lia) ltac:(lia)). rewrite Elb, Eub in NN2. apply bzero_le_sat in NN2. cbn [badd] in NN2. qred. rewrite Eub. destruct su; cbn in *; lra.
      - cbn [ext] in E. apply IZ in Hw. destruct (OP w Hw) as (w' & Hw' & Lt). apply IZ in Hw'. assert (K := Hw' 0%nat (S i) ltac:(lia) ltac:(lia)). rewrite Elb in K. cbn [ext bsat] in K. lra. }
    subst sl. assert (NP : isPoint (Fin u su) (Fin l false) = false) by (unfold isPoint; rewrite ?andb_false_r; reflexivity).
    rewrite NP in PK. apply app_inv_head in PK. injection PK as PK. fold lower in PK. fold upper in PK. rewrite EU in PK. rewrite <- PK. destruct (Qltb (1#2) (U - lower)) eqn:EQ.
    + apply Qltb_true in EQ. destruct (Qlt_le_dec (1#2) (U - lower)); lra.
    + apply Qltb_false in EQ. destruct (Qlt_le_dec (1#2) (U - lower)); lra.
Qed.

(** ** regions *)
Lemma unit_pair c a b : intCond c -> isSimple c = true -> (a < dim c)%nat -> (b < dim c)%nat -> a <> b ->
  exists z, (forall q, bsat (get c a b) q /\ bsat (get c b a) (- q) <-> q == inject_Z z) \/ (forall q, bsat (get c a b) q /\ bsat (get c b a) (- q) <-> inject_Z z < q /\ q < inject_Z z + 1).
Proof.
  intros IC Si Ha Hb Ne. assert (SB : isSimpleB (get c a b) (get c b a) = true) by (destruct (simple_entry c a b Si Ha Hb Ne) as [K|K]; [auto|rewrite isSimpleB_sym; auto]).
  destruct (isSimpleB_cases _ _ SB) as [(q & X & _ & E)|(q & X & _ & e & E & Ee)].
  - assert (IB := IC a b Ha Hb). rewrite E in IB. destruct IB as [z Hz]. exists z. left. intro p. rewrite X. rewrite Hz. reflexivity.
  - assert (IB := IC b a Hb Ha). rewrite E in IB. destruct IB as [z Hz]. exists (- z)%Z. right. intro p. rewrite X. rewrite inject_Z_opp. split; lra.
Qed.
Lemma pair_in c a b w : inZone c w -> (a < dim c)%nat -> (b < dim c)%nat -> bsat (get c a b) (ext w a - ext w b) /\ bsat (get c b a) (- (ext w a - ext w b)).
Proof. intros Hw Ha Hb. split; [apply Hw; auto|eapply bsat_ext; [|apply (Hw b a); auto]; ring]. Qed.
Lemma tight_inside S L U a b : tightI S L U -> L < U -> (forall q, S q -> a <= q /\ q <= b) -> a <= L /\ U <= b.
Proof.
  intros (_ & B & _) LU H. split.
  - destruct (Qlt_le_dec L a) as [G|G]; [exfalso|auto]. destruct (Qlt_le_dec a U) as [G'|G'].
    + destruct (H ((L + a) * (1#2))); [apply B; lra|lra].
    + destruct (H ((L + U) * (1#2))); [apply B; lra|lra].
  - destruct (Qlt_le_dec b U) as [G|G]; [exfalso|auto]. destruct (Qlt_le_dec L b) as [G'|G'].
    + destruct (H ((b + U) * (1#2))); [apply B; lra|lra].
    + destruct (H ((L + U) * (1#2))); [apply B; lra|lra].
Qed.

Section Region.
Context (c : tcond) (O : okCond c) (Si : isSimple c = true) (IC : intCond c) (v : valuation) (V : inZone c v).
Definition pointC (i : nat) : Prop := exists z, forall w, inZone c w -> w i == inject_Z z.
Definition unitC (i : nat) (z : Z) : Prop := (forall w, inZone c w -> inject_Z z < w i /\ w i < inject_Z z + 1) /\ forall q, inject_Z z < q -> q < inject_Z z + 1 -> exists w, inZone c w /\ w i == q.
Lemma clock_kind i : (i < tcSize c)%nat -> pointC i \/ exists z, unitC i z.
Proof using O Si IC.
  intro Hi. destruct O as (D & C & N). unfold tcSize in Hi. destruct (unit_pair c (S i) 0 IC Si ltac:(lia) ltac:(lia) ltac:(lia)) as [z [X|X]].
  - left. exists z. intros w Hw. assert (K := pair_in c (S i) 0 w Hw ltac:(lia) ltac:(lia)). apply X in K. cbn [ext] in K. lra.
  - right. exists z. split.
    + intros w Hw. assert (K := pair_in c (S i) 0 w Hw ltac:(lia) ltac:(lia)). apply X in K. cbn [ext] in K. lra.
    + intros q Q1 Q2. assert (K := proj2 (X q) (conj Q1 Q2)). destruct (realise c (S i) 0 q C (nonempty_nonneg2 _ N) ltac:(lia) ltac:(lia) ltac:(lia) (proj1 K) (proj2 K)) as (w & Hw & E). exists w. split; [auto|]. cbn [ext] in E. lra.
Qed.
Lemma first_open i : (i <= tcSize c)%nat -> (forall k, (k < i)%nat -> pointC k) \/ exists f z, (f < i)%nat /\ (forall k, (k < f)%nat -> pointC k) /\ unitC f z.
Proof using O Si IC.
  induction i as [|i IH]; intro Hi; [left; intros; lia|]. destruct IH as [A|(f & z & A & B & C)]; [lia| |right; exists f, z; split; [lia|auto]].
  destruct (clock_kind i) as [K|(z & K)]; [lia| |].
  - left. intros k Hk. destruct (Nat.eq_dec k i) as [->|Ne]; [auto|apply A; lia].
  - right. exists i, z. split; [lia|]. split; [auto|exact K].
Qed.
Lemma open_sec i z : (forall k, (k < i)%nat -> pointC k) -> unitC i z -> tightI (sec (inZone c) i v) (inject_Z z) (inject_Z z + 1).
Proof using V.
  intros A [B1 B2]. split; [|split].
  - intros q (w & Hw & _ & E). destruct (B1 w Hw). lra.
  - intros q Q1 Q2. destruct (B2 q Q1 Q2) as (w & Hw & E). exists w. split; [auto|]. split; [|auto]. intros k Hk. destruct (A k Hk) as [zk K]. rewrite (K w Hw), (K v V). reflexivity.
  - exists (v i), v. split; [auto|]. split; reflexivity.
Qed.
Lemma region_mid : (forall i, (i < tcSize c)%nat -> exists L U, tightI (sec (inZone c) i v) L U /\ (L < U -> v i == if Qlt_le_dec (1#2) (U - L) then L + (1#2) else (L + U) * (1#2))) ->
  midList (inZone c) (tcSize c) v.
Proof using O Si IC V.
  intros H i Hi. destruct (H i Hi) as (L & U & T & P). exists L, U. split; [auto|].
  assert (VI : L <= v i /\ v i <= U) by (apply T; exists v; split; [auto|split; reflexivity]).
  destruct (Qlt_le_dec L U) as [LU|LU]; [|lra]. specialize (P LU). destruct (Qlt_le_dec (1#2) (U - L)) as [G|G]; [|auto].
  assert (E : U - L == 1); [|rewrite P; lra].
  destruct (clock_kind i Hi) as [[z Z]|[z Z]]; [exfalso; assert (K := tight_inside _ L U (inject_Z z) (inject_Z z) T LU); destruct K; [|lra]; intros q (w & Hw & _ & Ew); rewrite (Z w Hw) in Ew; lra|].
  destruct (first_open i ltac:(lia)) as [A|(f & zf & Lf & A & B)].
  - destruct (tightI_unique (sec (inZone c) i v) (sec (inZone c) i v) L U (inject_Z z) (inject_Z z + 1)) as [E1 E2]; [tauto|auto|apply open_sec; auto|]. lra.
  - exfalso. assert (Vf : v f == inject_Z zf + (1#2)).
    { destruct (H f ltac:(lia)) as (L' & U' & T' & P'). destruct (tightI_unique (sec (inZone c) f v) (sec (inZone c) f v) L' U' (inject_Z zf) (inject_Z zf + 1)) as [E1 E2]; [tauto|auto|apply open_sec; auto|].
      specialize (P' ltac:(lra)). destruct (Qlt_le_dec (1#2) (U' - L')); lra. }
    destruct O as (D & _ & _). unfold tcSize in Hi. destruct (unit_pair c (S f) (S i) IC Si ltac:(lia) ltac:(lia) ltac:(lia)) as [a [X|X]].
    + destruct (tight_inside _ L U (v f - inject_Z a) (v f - inject_Z a) T LU); [|lra]. intros q (w & Hw & Aw & Ew). assert (K := pair_in c (S f) (S i) w Hw ltac:(lia) ltac:(lia)). apply X in K. cbn [ext] in K. rewrite (Aw f) in K by lia. lra.
    + assert (IN : forall q, sec (inZone c) i v q -> (inject_Z zf - inject_Z a - (1#2) < q /\ q < inject_Z zf - inject_Z a + (1#2)) /\ inject_Z z < q /\ q < inject_Z z + 1).
      { intros q (w & Hw & Aw & Ew). assert (K := pair_in c (S f) (S i) w Hw ltac:(lia) ltac:(lia)). apply X in K. cbn [ext] in K. rewrite (Aw f) in K by lia. destruct Z as [Z _]. specialize (Z w Hw). lra. }
      destruct (Z_lt_le_dec z (zf - a)) as [Lz|Lz].
      * assert (Q1 : inject_Z z + 1 <= inject_Z zf - inject_Z a). { assert (Y : inject_Z (z + 1) <= inject_Z (zf - a)) by (rewrite <- Zle_Qle; lia). unfold Z.sub in Y. rewrite !inject_Z_plus, inject_Z_opp in Y. change (inject_Z 1) with 1 in Y. lra. }
        destruct (tight_inside _ L U (inject_Z zf - inject_Z a - (1#2)) (inject_Z zf - inject_Z a) T LU); [|lra]. intros q Hq. specialize (IN q Hq). lra.
      * assert (Q1 : inject_Z zf - inject_Z a <= inject_Z z). { assert (Y : inject_Z (zf - a) <= inject_Z z) by (rewrite <- Zle_Qle; lia). unfold Z.sub in Y. rewrite !inject_Z_plus, inject_Z_opp in Y. lra. }
        destruct (tight_inside _ L U (inject_Z zf - inject_Z a) (inject_Z zf - inject_Z a + (1#2)) T LU); [|lra]. intros q Hq. specialize (IN q Hq). lra.
Qed.
End Region.

(** ** the morphism without renamed clocks *)
Lemma mMaps_words m w : properMorph m -> inElem (mdom m) w -> let N := length (td w) in let M := S (length (ew (mcod m))) in mMaps m w = mkTW (ew (mcod m)) (durs M (rightPart N (fun k => nth k (zsample (mapsZone m w)) 0))) /\ mapsSem m w (fun k => nth k (zsample (mapsZone m w)) 0).
Proof.
    intros P Iw N M. assert (DM := maps_dim m w P Iw). fold N M in DM. set (z := mapsZone m w) in *. destruct (zsample_relOpen z) as [L Z].
    - lia.
    - destruct (mapsSem_nonempty m w P Iw) as [v Hv]. exists v. apply (mapsZone_exact m w P Iw). auto.
    - apply (relOpen_iff (mapsSem m w)); [intro v; symmetry; apply (mapsZone_exact m w P Iw)|apply (mapsSem_open m w P)].
    - intros v Hv x Hx. apply (mapsZone_exact m w P Iw) in Hv. apply (mapsSem_nonneg m w P Iw v Hv). fold N M. lia.
    - set (vs := zsample z) in *. rewrite DM in L. cbn [pred] in L. apply (mapsZone_exact m w P Iw) in Z. set (v := fun k => nth k vs 0) in *.
      assert (E : mapsDurs m vs = durs M (rightPart N v)).
      { unfold durs, M. rewrite dursFrom_map. unfold mapsDurs. rewrite Nat.add_1_r. apply map_ext_in. intros i Hi. apply in_seq in Hi.
        destruct (i =? length (ew (mcod m)))%nat eqn:Ei.
        - rewrite last_nth_Q. unfold rightPart, v. f_equal. rewrite L. unfold M. lia.
        - unfold rightPart, v. unfold N. rewrite (maps_N m w P Iw).
          replace (i + 1 + length (ew (mdom m)))%nat with (S (length (ew (mdom m))) + (0 + i))%nat by lia.
          replace (i + 2 + length (ew (mdom m)))%nat with (S (length (ew (mdom m))) + S (0 + i))%nat by lia. reflexivity. }
      assert (V : ~ In UNOBSERVABLE (ew (mcod m))).
      { destruct P as [_ [[_ [V _]] _]]. unfold visible in V. rewrite Forall_forall in V. intro K. apply V in K. congruence. }
      change (fun k : clock => nth k vs 0) with v in *. split; [|auto]. unfold mMaps. fold z. fold vs. rewrite E. assert (Ld : length (durs M (rightPart N v)) = M) by apply durs_length.
      destruct (durs M (rightPart N v)) as [|q r]; [discriminate|]. cbn [mkTimedWord]. apply absorb_id; auto.
Qed.
Lemma zsample_trivial m w : properMorph m -> inElem (mdom m) w -> intCond (ec (mcod m)) -> onlyTrivial (mren m) (ec (mcod m)) = true ->
  forall k, (k <= length (ew (mcod m)))%nat -> since (td (mMaps m w)) k == nth k (toValuation (ec (mcod m))) 0.
Proof.
  intros P Iw IC OT. set (c := ec (mcod m)). set (N := length (td w)). set (M := S (length (ew (mcod m)))).
  destruct (maps_c m w P) as (O & Sz & Dc). fold c in O, Sz, Dc. fold M in Sz, Dc. assert (Si : isSimple c = true) by (destruct P as (_ & _ & K & _); exact K).
  assert (DM := maps_dim m w P Iw). fold N M in DM. set (z := mapsZone m w) in *.
  assert (MX : forall v, inZone z v <-> mapsSem m w v) by (intro v; apply mapsZone_exact; auto).
  destruct (zsample_relOpen z) as [Len Z].
  { lia. } { destruct (mapsSem_nonempty m w P Iw) as [v Hv]. exists v. apply MX. auto. }
  { apply (relOpen_iff (mapsSem m w)); [intro v; symmetry; apply MX|apply mapsSem_open; auto]. }
  { intros v Hv x Hx. apply MX in Hv. apply (mapsSem_nonneg m w P Iw v Hv). fold N M. lia. }
  set (v := fun k => nth k (zsample z) 0) in *. assert (Zs := proj1 (MX v) Z).
  (* the renaming adds nothing *)
  assert (SEM : forall u, inZone z u <-> (forall i, (i < N)%nat -> u i == accd (td w) i) /\ inZone c (rightPart N u)).
  { intro u. rewrite MX. unfold mapsSem. fold N c. split; [tauto|]. intros [A B]. split; [auto|]. split; [auto|]. intros [a b] Hp. cbn [fst snd].
    destruct Zs as (Z1 & Z2 & Z3). fold N c in Z1, Z2, Z3. specialize (Z3 (a, b) Hp). cbn [fst snd] in Z3. assert (P0 := P). destruct P as (_ & _ & _ & Q1 & _). destruct (Q1 a b Hp) as [I1 I2].
    assert (La : (a < N)%nat) by (unfold N; rewrite (maps_N m w P0 Iw); lia). rewrite (A a La), <- (Z1 a La), Z3.
    unfold onlyTrivial in OT. rewrite forallb_forall in OT. specialize (OT (a, b) Hp). cbn [snd] in OT. destruct (point_value c b O IC OT ltac:(lia)) as [y Y]. assert (Y1 := Y _ Z2). assert (Y2 := Y _ B). unfold rightPart in Y1, Y2. rewrite Y1, Y2. reflexivity. }
  assert (VR : inZone c (rightPart N v)) by (apply SEM; auto).
  assert (LE : forall i, (i < M)%nat -> exists u u', True) by (intros; exists v, v; auto). clear LE.
  assert (SEC : forall i q, (i < M)%nat -> (sec (inZone z) (N + i) v q <-> sec (inZone c) i (rightPart N v) q)).
  { intros i q Hi. split.
    - intros (u & Hu & Au & Eq). apply SEM in Hu. exists (rightPart N u). split; [apply Hu|]. split; [intros k Hk; unfold rightPart; apply Au; lia|exact Eq].
    - intros (u & Hu & Au & Eq). exists (fun k => if (k <? N)%nat then v k else u (k - N)%nat). split; [|split].
      + apply SEM. split; [intros k Hk; apply Nat.ltb_lt in Hk as Hk'; rewrite Hk'; apply SEM in Z; apply Z; auto|]. refine (inZone_ext _ _ _ _ Hu). intros x Hx. unfold rightPart. replace (N + x <? N)%nat with false by (symmetry; apply Nat.ltb_ge; lia). replace (N + x - N)%nat with x by lia. reflexivity.
      + intros k Hk. destruct (k <? N)%nat eqn:E; [reflexivity|]. apply Nat.ltb_ge in E. rewrite (Au (k - N)%nat) by lia. unfold rightPart. replace (N + (k - N))%nat with k by lia. reflexivity.
      + replace (N + i <? N)%nat with false by (symmetry; apply Nat.ltb_ge; lia). replace (N + i - N)%nat with i by lia. exact Eq. }
  assert (MID : midList (inZone c) (tcSize c) (rightPart N v)).
  { apply region_mid; auto. rewrite Sz. intros i Hi.
    assert (NN : forall u, inZone z u -> 0 <= u (N + i)%nat) by (intros u Hu; apply MX in Hu; apply (mapsSem_nonneg m w P Iw u Hu); fold N M; lia).
    assert (KD := clock_kind c O Si IC i ltac:(lia)).
    assert (BD : exists B, forall u, inZone z u -> u (N + i)%nat <= B).
    { destruct KD as [[y Y]|(y & Y & _)]; [exists (inject_Z y)|exists (inject_Z y + 1)]; intros u Hu; apply SEM in Hu; destruct Hu as [_ Hu]; specialize (Y _ Hu); unfold rightPart in Y; lra. }
    destruct (zsample_pick z (N + i) ltac:(lia) (ex_intro _ v Z) NN BD ltac:(lia) Z) as (L & U & T & PK). fold v in T, PK. exists L, U. split.
    - destruct T as (T1 & T2 & (q & T3)). split; [|split]; [intros p Hp; apply T1, SEC; auto|intros p P1 P2; apply SEC; auto|exists q; apply SEC; auto].
    - intro LU. apply PK.
      + destruct T as (_ & T2 & _). destruct (T2 (L + (U - L) * (1#3)) ltac:(lra) ltac:(lra)) as (u & Hu & _ & Eu). destruct (T2 (L + (U - L) * (2#3)) ltac:(lra) ltac:(lra)) as (u' & Hu' & _ & Eu'). exists u, u'. split; [auto|]. split; [auto|]. lra.
      + intros u Hu. destruct KD as [[y Y]|(y & Y & Y2)].
        * exfalso. destruct (tight_inside _ L U (inject_Z y) (inject_Z y) T LU); [|lra]. intros q (u' & Hu' & _ & Eu'). apply SEM in Hu'. destruct Hu' as [_ Hu']. specialize (Y _ Hu'). unfold rightPart in Y. lra.
        * assert (Hu2 := proj1 (SEM u) Hu). destruct Hu2 as [A B]. specialize (Y _ B). unfold rightPart in Y. destruct (Y2 ((inject_Z y + u (N + i)%nat) * (1#2)) ltac:(lra) ltac:(lra)) as (u' & Hu' & Eu').
          exists (fun k => if (k <? N)%nat then v k else u' (k - N)%nat). split.
          -- apply SEM. split; [intros k Hk; apply Nat.ltb_lt in Hk as Hk'; rewrite Hk'; apply SEM in Z; apply Z; auto|]. refine (inZone_ext _ _ _ _ Hu'). intros x Hx. unfold rightPart. replace (N + x <? N)%nat with false by (symmetry; apply Nat.ltb_ge; lia). replace (N + x - N)%nat with x by lia. reflexivity.
          -- replace (N + i <? N)%nat with false by (symmetry; apply Nat.ltb_ge; lia). replace (N + i - N)%nat with i by lia. lra. }
  intros k Hk. assert (VAL := toValuation_mid c O (simple_bounded c O Si)). rewrite <- (midList_unique _ _ _ _ MID VAL k) by lia.
  destruct (mMaps_words m w P Iw) as (EM & _). fold N M z in EM. fold v in EM. rewrite EM. cbn [td]. rewrite since_acc by (rewrite durs_length; unfold M; lia). apply durs_acc. unfold M. lia.
Qed.
