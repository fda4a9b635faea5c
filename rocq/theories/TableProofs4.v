(** The observation table: the cells are the exact answers, and what the
    comparisons of rows record holds of the target. *)
From Coq Require Import QArith ZArith Bool List Arith Lia Permutation.
From Verif Require Import BoundsModel BoundsProofs ConstraintModel ZoneModel ZoneSpec ZoneProofs AutomatonModel TimedWordModel TimedWordSpec
  TimedConditionModel TimedConditionSpec TimedConditionProofs TimedConditionProofs4 ElementaryModel ElementarySpec ElementaryProofs LooseProofs
  RegionalModel RegionalSpec OracleModel SymbolicModel SymbolicSpec SymbolicProofs2 CexModel CexSpec RenamingModel RenamingSpec RenamingProofs2 RenamingProofs4 RenamingProofs5 RenamingProofs6
  TableModel TableProofs ShapeProofs ShapeProofs2 TableProofs2 TableProofs3.
Import ListNotations.

(** ** a cached answer is about a satisfiable language *)
Lemma concat_off a b u : (2 <= dim a)%nat -> (2 <= dim b)%nat -> diagOK a -> diagOK b ->
  (forall i j, (i < dim (tcConcat a b))%nat -> (j < dim (tcConcat a b))%nat -> i <> j -> bsat (get (tcConcat a b) i j) (u i - u j)) -> Z_ (tcConcat a b) u.
Proof.
  intros Da Db Ga Gb H. assert (SZa : dim a = S (tcSize a)) by (unfold tcSize; lia). assert (SZb : dim b = S (tcSize b)) by (unfold tcSize; lia).
  assert (DC := dim_tcConcat a b). unfold tcConcat in *. set (r := mk _ _) in *. assert (DR : dim r = (tcSize a + tcSize b)%nat) by apply dim_mk.
  apply canonize_Z. intros i j Hi Hj. destruct (Nat.eq_dec i j) as [<-|N].
  - apply (bsat_ext _ 0%Q); [ring|]. unfold r. rewrite get_mk by lia. bcases; first [apply Ga; lia | apply Gb; lia | idtac].
  - rewrite DC in H. rewrite DR in Hi, Hj. eapply ble_sat_1; [|apply H; auto]. destruct (canonize_mle r) as [M1 M2]. rewrite DC in M2. apply M2; auto.
Qed.
Lemma eqb_nonempty k a b : (2 <= dim a)%nat -> (2 <= dim b)%nat -> diagOK a -> diagOK b -> nonemptyZ k -> tcEqb k (tcConcat a b) = true -> nonemptyZ (tcConcat a b).
Proof.
  intros Da Db Ga Gb [w H] E. unfold tcEqb in E. apply andb_true_iff in E. destruct E as [E1 E2]. apply Nat.eqb_eq in E1. rewrite strictEqual_iff in E2.
  exists w. apply inZone_Z. apply concat_off; auto. intros i j Hi Hj N. assert (DC := dim_tcConcat a b). unfold tcSize in E1 at 1 2.
  assert (Dk : dim k = dim (tcConcat a b)) by (unfold tcSize in DC; lia). destruct (E2 i j) as [K|K]; [lia|lia|contradiction|].
  unfold beqb in K. apply andb_true_iff in K. destruct K as [K _]. eapply ble_sat_1; [exact K|]. apply H; lia.
Qed.

Section Sem.
Context {St : Type} (o : mOracle St) (f : tword -> bool) (Inv : St -> Prop) (ordP : ot St -> list nat) (ordR : ot St -> list nat) (place : ot St -> nat -> nat -> nat).
Notation tbl := (ot St).
Hypothesis HO : forall s x, Inv s -> properTW x -> exists s', o s x = Some (s', f x) /\ Inv s'.
Hypothesis RI : regionInvariant properTW f.
Hypothesis HordP : forall t, Permutation (ordP t) (otP t).
Notation strt := (str f Inv).

Lemma cached_nonempty (y : symOracle St) x z cs : allSat y -> goodPre x -> sufShape z -> findEL (smCache y) (elConcat (fel x) (fel z)) = Some cs -> nonemptyZ (ec (elConcat (fel x) (fel z))).
Proof.
  intros A G S0 F. unfold findEL in F. destruct (find _ (smCache y)) as [[k ks]|] eqn:E; [|discriminate]. apply find_some in E. destruct E as [E1 E2]. cbn [fst] in E2.
  unfold elEqb in E2. apply andb_true_iff in E2. destruct E2 as [_ E2]. assert (Ux := goodPre_unit x G). destruct S0 as [Uz _]. eapply eqb_nonempty; [apply Ux|apply Uz|apply Ux|apply Uz|exact (A _ _ E1)|exact E2].
Qed.
(** the suffixes of the table are regions *)
Definition okT (t : tbl) : Prop := strt t /\ filled t /\ allSat (otMem t).
Lemma okT_same t t' : same t t' -> okT t -> okT t'.
Proof. intros S0 [A [B C]]. split; [eapply str_same; eauto|]. split; [eapply filled_same; eauto|]. destruct S0 as [-> _]. auto. Qed.
Lemma row_full t i : strt t -> filled t -> (i < length (otPre t))%nat ->
  conAt t i = map (fun s => ec (elConcat (fel (preAt t i)) (fel s))) (otSuf t) /\
  Forall2 (fun s cs => findEL (smCache (otMem t)) (elConcat (fel (preAt t i)) (fel s)) = Some cs) (otSuf t) (rowAt t i).
Proof.
  intros H [F1 F2] Hi. destruct (s_cells _ _ t H) as [C1 [C2 C3]]. destruct (C3 i ltac:(lia)) as [s1 [s2 [Es [Ec R]]]]. assert (L := Forall2_len _ _ _ R). specialize (F2 i Hi). unfold conAt, rowAt, preAt.
  rewrite Es, app_length in F2. assert (s2 = []) by (destruct s2; [auto|cbn in F2; lia]). subst s2. rewrite app_nil_r in Es. rewrite Es. split; [exact Ec|exact R].
Qed.
Lemma pre_zero t : strt t -> preAt t 0 = frDefault /\ (0 < length (otPre t))%nat.
Proof. intro H. destruct (s_pre0 _ _ t H) as [l E]. unfold preAt. rewrite E. cbn. split; [auto|lia]. Qed.
Lemma suf_good t z : okT t -> In z (otSuf t) -> looseElem (fel z).
Proof.
  intros [H [F A]] Hz. assert (SZ : sufShape z) by (assert (X := s_suf _ _ t H); rewrite Forall_forall in X; auto). apply suf_inhab; [auto|].
  destruct (pre_zero t H) as [E L]. destruct (row_full t 0 H F L) as [_ R]. rewrite E in R.
  assert (K : exists cs, findEL (smCache (otMem t)) (elConcat (fel frDefault) (fel z)) = Some cs).
  { revert Hz R. generalize (rowAt t 0). induction (otSuf t) as [|s l IH]; intros row Hz R; [destruct Hz|]. inversion R; subst. destruct Hz as [<-|Hz]; [eauto|]. eapply IH; eauto. }
  destruct K as [cs K]. eapply cached_nonempty; eauto. apply goodPre_default.
Qed.
Lemma suf_all t z : okT t -> In z (sufEL t) -> looseElem z.
Proof. intros H Hz. unfold sufEL in Hz. apply in_map_iff in Hz. destruct Hz as [s [<- Hs]]. eapply suf_good; eauto. Qed.
(** the cells are exact *)
Lemma row_exact t i : okT t -> (i < length (otPre t))%nat ->
  exactRow f (fel (preAt t i)) (sufEL t) (rowAt t i) /\ conAt t i = map (fun s => ec (elConcat (fel (preAt t i)) s)) (sufEL t).
Proof using HO RI.
  intros [H [F A]] Hi. destruct (row_full t i H F Hi) as [Ec R]. split; [|rewrite Ec; unfold sufEL; rewrite map_map; reflexivity].
  unfold exactRow, sufEL. destruct (s_mem _ _ t H) as [C K]. assert (U := keys_usable _ K A). assert (G := preAt_good f Inv t i H). assert (FS := s_suf _ _ t H).
  clear Ec; revert R FS. generalize (rowAt t i). induction (otSuf t) as [|s l IH]; intros row R FS; inversion R; subst; cbn [map]; constructor.
  - inversion FS; subst. eapply cache_exact; eauto. apply concat_usable; auto. eapply cached_nonempty; eauto.
  - apply IH; auto. inversion FS; auto.
Qed.

(** *** relations between rows *)
Definition entryOK (t : tbl) (i j : nat) (r : renaming) : Prop :=
  renIn r (fel (preAt t i)) (fel (preAt t j)) /\ NoDup (map snd r) /\ hasImpreciseClocks r (ec (fel (preAt t j))) = false.
Definition validRel (t : tbl) (i j : nat) (r : renaming) : Prop :=
  entryOK t i j r /\ indistinguishable f (fel (preAt t i)) (fel (preAt t j)) (sufEL t) r.
(** each memoised difference was found on an earlier, filled, table *)
Definition distOK (t : tbl) : Prop :=
  forall i j, In (i, j) (otDist t) -> exists u : tbl, tle u t /\ cells (otMem u) (otPre u) (otSuf u) (otTab u) (otCon u) /\ filled u /\
    (i < length (otPre u))%nat /\ (j < length (otPre u))%nat /\ findRows u i j = None.
Lemma distOK_tle (t t' : tbl) : tle t t' -> otDist t' = otDist t -> distOK t -> distOK t'.
Proof. intros L E H i j K. rewrite E in K. destruct (H i j K) as [u [A B]]. exists u. split; [eapply tle_trans; eauto|exact B]. Qed.
Definition relOK (t : tbl) : Prop :=
  (NoDup (map fst (otRel t)) /\ distOK t) /\ forall i m j r, mapAt (otRel t) i = Some m -> In (j, r) m -> (i < length (otPre t))%nat /\ (j < length (otPre t))%nat /\ entryOK t i j r.
Lemma validRel_ext t t' i j r : otPre t' = otPre t -> otSuf t' = otSuf t -> validRel t i j r -> validRel t' i j r.
Proof. intros E1 E2. unfold validRel, entryOK, preAt, sufEL. rewrite E1, E2. auto. Qed.
Lemma relOK_rel t : relOK t -> forall i j r, In (j, r) (relAt t i) -> (i < length (otPre t))%nat /\ (j < length (otPre t))%nat /\ entryOK t i j r.
Proof. intros [_ H] i j r K. unfold relAt in K. destruct (mapAt (otRel t) i) as [m|] eqn:E; [eapply H; eauto|destruct K]. Qed.
Lemma relOK_tle t t' : tle t t' -> otRel t' = otRel t -> otDist t' = otDist t -> relOK t -> relOK t'.
Proof.
  intros L E ED [[N DI] H]. split; [split; [rewrite E; auto|eapply distOK_tle; eauto]|]. intros i m j r K1 K2. rewrite E in K1. destruct (H i m j r K1 K2) as [A [B C]]. destruct (tle_pre t t' i L A) as [P1 L1]. destruct (tle_pre t t' j L B) as [P2 L2].
  split; [auto|]. split; [auto|]. unfold entryOK. rewrite P1, P2. exact C.
Qed.
Lemma relOK_put t i m t' : relOK t -> (i < length (otPre t))%nat -> otPre t' = otPre t -> otRel t' = mapPut (otRel t) i m -> tle t t' -> otDist t' = otDist t ->
  (forall j r, In (j, r) m -> (j < length (otPre t))%nat /\ entryOK t i j r) -> relOK t'.
Proof.
  intros [[N DI] H] Hi Ep Er L ED K. split; [split; [rewrite Er; apply mapPut_nodup; auto|eapply distOK_tle; eauto]|]. intros i' m' j r A B. rewrite Er, mapAt_put in A. unfold entryOK, preAt. rewrite Ep.
  destruct (Nat.eqb_spec i i') as [<-|]; [injection A as <-; destruct (K j r B); auto|]. apply (H i' m' j r A B).
Qed.
Lemma relAt_put (t : tbl) i m (t' : tbl) k : otRel t' = mapPut (otRel t) i m -> relAt t' k = if (i =? k)%nat then m else relAt t k.
Proof. intro E. unfold relAt. rewrite E, mapAt_put. destruct (i =? k)%nat; reflexivity. Qed.
Lemma preAt_proper t i : strt t -> properEL (fel (preAt t i)).
Proof. intro H. apply goodPre_proper. eapply preAt_good; eauto. Qed.
Lemma findRows_valid t i j r : okT t -> (i < length (otPre t))%nat -> (j < length (otPre t))%nat -> findRows t i j = Some r -> validRel t i j r.
Proof using HO RI.
  intros H Hi Hj E. destruct (row_exact t i H Hi) as [Ri Ci]. destruct (row_exact t j H Hj) as [Rj Cj]. unfold findRows in E. rewrite Ci, Cj in E.
  destruct (preAt_proper t i (proj1 H)) as [Wi [_ Ni]]. destruct (preAt_proper t j (proj1 H)) as [Wj [_ Nj]].
  assert (P := findDet_precise _ _ _ _ _ _ _ _ Wi Wj Ni Nj E). destruct (findDet_sound f _ _ _ _ _ _ Wi Wj (fun z Hz => suf_all t z H Hz) Ni Nj Ri Rj E) as [A [B C]].
  split; [|exact C]. split; [auto|]. split; [apply unique_nodup; auto|exact P].
Qed.
Lemma equivRows_valid t i j r : okT t -> (i < length (otPre t))%nat -> (j < length (otPre t))%nat -> entryOK t i j r -> equivRows t i j r = true -> validRel t i j r.
Proof using HO RI.
  intros H Hi Hj EO E. split; [auto|]. destruct (row_exact t i H Hi) as [Ri Ci]. destruct (row_exact t j H Hj) as [Rj Cj]. unfold equivRows in E. rewrite Ci, Cj in E.
  eapply equivB_sound; [apply (preAt_proper t i (proj1 H))|apply (preAt_proper t j (proj1 H))| |apply EO|exact Ri|exact Rj|exact E]. intros z Hz. eapply suf_all; eauto.
Qed.
(** the two rows were found to differ at some point *)
Definition distinguished (t : tbl) (i j : nat) : Prop := inDist t i j = true \/ inDist t j i = true.
Definition distLe (t t' : tbl) : Prop := forall i j, inDist t i j = true -> inDist t' i j = true.
Lemma distinguished_le t t' i j : distLe t t' -> distinguished t i j -> distinguished t' i j.
Proof. intros L [H|H]; [left|right]; apply L; auto. Qed.
(** what one comparison may do to the recorded relations *)
Lemma equivalentRows_sem t i j t' r : okT t -> relOK t -> (i < length (otPre t))%nat -> (j < length (otPre t))%nat -> equivalentRows place t i j = (t', r) ->
  relOK t' /\ distLe t t' /\ (forall k, k <> i -> relAt t' k = relAt t k) /\
  match r with
  | Some r0 => validRel t i j r0 /\ mapAt (relAt t' i) j = Some r0 /\ exists n, relAt t' i = mapPutAt n (relAt t i) j r0
  | None => relAt t' i = relAt t i /\ distinguished t' i j
  end.
Proof using HO RI.
  intros H R Hi Hj E. unfold equivalentRows in E. destruct (findRows t i j) as [r0|] eqn:F; injection E as <- <-.
  - assert (V := findRows_valid t i j r0 H Hi Hj F). unfold putRel. set (n := place t i j).
    assert (RA : forall k, relAt (withRel t (mapPut (otRel t) i (mapPutAt n (relAt t i) j r0))) k = if (i =? k)%nat then mapPutAt n (relAt t i) j r0 else relAt t k) by (intro k; eapply relAt_put; reflexivity).
    split; [|split; [intros a b K; exact K|split]].
    + eapply (relOK_put t i (mapPutAt n (relAt t i) j r0)); [auto|auto|reflexivity|reflexivity|apply same_tle, same_rel|reflexivity|]. intros k s K. apply mapPutAt_in in K. destruct K as [[-> ->]|K]; [split; [auto|apply V]|].
      destruct (relOK_rel t R i k s K) as [_ K2]. auto.
    + intros k K. rewrite RA. destruct (Nat.eqb_spec i k); [congruence|auto].
    + split; [auto|]. rewrite !RA, Nat.eqb_refl. split; [apply mapPutAt_at|eauto].
  - split; [|split; [|split]].
    + destruct R as [[N DI] R]. split; [split; [exact N|]|].
      { intros a b K. cbn [withDist otDist] in K. destruct K as [K|K].
        - injection K as <- <-. exists t. split; [apply same_tle, same_dist|]. split; [apply (s_cells _ _ t (proj1 H))|]. split; [apply H|]. auto.
        - destruct (DI a b K) as [u [U1 U2]]. exists u. split; [eapply tle_trans; [exact U1|apply same_tle, same_dist]|exact U2]. }
      intros i0 m j0 r1 A B. exact (R i0 m j0 r1 A B).
    + intros a b K. unfold inDist in *. cbn [withDist otDist existsb]. rewrite K. apply orb_true_r.
    + auto.
    + split; [reflexivity|]. left. unfold inDist. cbn [withDist otDist existsb]. unfold pairEqb. cbn [fst snd]. rewrite !Nat.eqb_refl. reflexivity.
Qed.
Lemma equivMemo_sem t i j t' r : okT t -> relOK t -> (i < length (otPre t))%nat -> (j < length (otPre t))%nat -> equivMemo place t i j = (t', r) ->
  relOK t' /\ distLe t t' /\ (forall k, k <> i -> relAt t' k = relAt t k) /\
  match r with
  | Some r0 => validRel t i j r0 /\ mapAt (relAt t' i) j = Some r0 /\ (relAt t' i = relAt t i \/ exists n, relAt t' i = mapPutAt n (relAt t i) j r0)
  | None => relAt t' i = relAt t i /\ distinguished t' i j
  end.
Proof using HO RI.
  intros H R Hi Hj E. unfold equivMemo in E.
  assert (G : equivalentRows place t i j = (t', r) -> relOK t' /\ distLe t t' /\ (forall k, k <> i -> relAt t' k = relAt t k) /\
    match r with
    | Some r0 => validRel t i j r0 /\ mapAt (relAt t' i) j = Some r0 /\ (relAt t' i = relAt t i \/ exists n, relAt t' i = mapPutAt n (relAt t i) j r0)
    | None => relAt t' i = relAt t i /\ distinguished t' i j
    end).
  { intro K. destruct (equivalentRows_sem t i j t' r H R Hi Hj K) as [A [B [C D]]]. split; [auto|]. split; [auto|]. split; [auto|]. destruct r; [|auto]. destruct D as [D1 [D2 D3]]. auto. }
  destruct (inDist t i j || inDist t j i) eqn:D.
  - injection E as <- <-. split; [auto|]. split; [intros a b K; exact K|]. split; [auto|]. split; [auto|]. apply orb_true_iff in D. exact D.
  - destruct (mapAt (relAt t i) j) as [r0|] eqn:M; [|auto]. destruct (equivRows t i j r0) eqn:Q; [|auto]. injection E as <- <-. split; [auto|]. split; [intros a b K; exact K|]. split; [auto|].
    split; [|auto]. apply mapAt_in in M. destruct (relOK_rel t R i j r0 M) as [_ [_ EO]]. apply equivRows_valid; auto.
Qed.

(** the first recorded target in P *)
Definition target (t : tbl) (i : nat) : option (nat * renaming) := find (fun e => inP t (fst e)) (relAt t i).
Definition okFirst (t : tbl) (i : nat) : Prop := exists j r, target t i = Some (j, r) /\ validRel t i j r.
Lemma okFirst_ext t t' i : otPre t' = otPre t -> otSuf t' = otSuf t -> otP t' = otP t -> relAt t' i = relAt t i -> okFirst t i -> okFirst t' i.
Proof.
  intros E1 E2 E3 E4 [j [r [A B]]]. exists j, r. split; [|eapply validRel_ext; eauto]. unfold target in *. rewrite E4. unfold inP. rewrite E3. exact A.
Qed.
Lemma okFirst_memo t i j t' r k : okT t -> relOK t -> (i < length (otPre t))%nat -> (j < length (otPre t))%nat -> equivMemo place t i j = (t', r) -> okFirst t k -> okFirst t' k.
Proof using HO RI.
  intros H R Hi Hj E O. assert (S0 := equivMemo_same _ _ _ _ _ _ E). destruct S0 as [_ [_ [Ep [Es [_ [EP _]]]]]]. destruct (equivMemo_sem t i j t' r H R Hi Hj E) as [_ [_ [NB D]]].
  destruct (Nat.eq_dec k i) as [->|N]; [|eapply okFirst_ext; eauto].
  destruct r as [r0|]; [|destruct D as [D _]; eapply okFirst_ext; eauto]. destruct D as [V [_ [D|[n D]]]]; [eapply okFirst_ext; eauto|].
  destruct O as [j1 [r1 [T1 V1]]]. assert (IPe : inP t' = inP t) by (unfold inP; rewrite EP; reflexivity).
  destruct (target t' i) as [[j2 r2]|] eqn:T2.
  - exists j2, r2. split; [auto|]. unfold target in T2. rewrite D, IPe in T2. apply find_putAt in T2. destruct T2 as [[-> ->]|T2]; [eapply validRel_ext; eauto|].
    unfold target in T1. rewrite T1 in T2. injection T2 as <- <-. eapply validRel_ext; eauto.
  - exfalso. unfold target in T2. rewrite D, IPe in T2. revert T2. apply find_putAt_some. right. unfold target in T1. rewrite T1. discriminate.
Qed.
End Sem.
