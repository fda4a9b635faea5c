(** The observation table: the invariants in the terms of the specification. *)
From Coq Require Import QArith Qround ZArith Bool List Arith Lia Lqa Permutation.
From Verif Require Import BoundsModel BoundsProofs ConstraintModel ZoneModel ZoneSpec ZoneProofs AutomatonModel AutomatonSpec TimedWordModel TimedWordSpec TimedWordProofs
  TimedConditionModel TimedConditionSpec TimedConditionProofs ElementaryModel ElementarySpec ElementaryProofs LooseProofs
  RegionalModel RegionalSpec RegionalProofs RegionalProofs2 RegionalProofs6 OracleModel SymbolicModel SymbolicSpec SymbolicProofs2 CexModel CexSpec RenamingModel RenamingSpec RenamingProofs6 PropertiesRenaming TableModel TableSpec
  TableProofs ShapeProofs ShapeProofs2 TableProofs2 TableProofs3 TableProofs4 TableProofs5 TableProofs6 TableProofs7 TableProofs8 TableProofs9 TableProofs10 TableProofs11.
Import ListNotations.
Open Scope Q_scope.

(** ** hasEqualityN *)
Lemma regionF_T x w i : regionalF x w -> (i < length (td w))%nat -> unitBounds (getUpperBound (ec (fel x)) i (length (td w) - 1)) (getLowerBound (ec (fel x)) i (length (td w) - 1)) (since (td w) i).
Proof. intros [_ [_ [[L [_ H]] _]]] Hi. unfold since. apply H; [lia|]. rewrite <- L. lia. Qed.
Lemma hasEqualityN_iff x : goodPre x -> (TableModel.hasEqualityN x = true <-> onInteger (fel x)).
Proof.
  intro G. destruct G as [[w [P R]] _]. assert (RC := proj1 (proj2 (proj2 R))). assert (Lw : length (td w) = tcSize (ec (fel x))) by apply RC. assert (EW : tw w = ew (fel x)) by apply R. assert (WW : wfTW w) by apply P. unfold wfTW in WW.
  assert (D2 : (2 <= dim (ec (fel x)))%nat) by apply RC. assert (GI : forall i, (i < tcSize (ec (fel x)))%nat -> get (ec (fel x)) (i + 1) 0 = getUpperBound (ec (fel x)) i (tcSize (ec (fel x)) - 1)).
  { intros i Hi. unfold getUpperBound, colOf. rewrite Nat.eqb_refl. reflexivity. }
  assert (DS : (dim (ec (fel x)) - tcSize (ec (fel x)))%nat = 1%nat) by (unfold tcSize; lia).
  unfold TableModel.hasEqualityN. rewrite DS, existsb_exists. set (n := tcSize (ec (fel x))) in *. split.
  - intros [k [Hk B]]. apply in_seq in Hk. set (i := (k - 1)%nat). assert (Hi : (i < length (td w))%nat) by (unfold i; lia).
    exists i. assert (U := regionF_T x w i R Hi). rewrite Lw in U. assert (E : k = (i + 1)%nat) by (unfold i; lia). rewrite E, GI in B by lia.
    destruct U as [z [c [e [[U1 [U2 [U3 [U4 U5]]]]|[U1 _]]]]]; [|rewrite U1 in B; discriminate]. exists z. split; [rewrite <- EW; lia|]. intros v Iv.
    destruct Iv as [Ev Iv]. apply (proj1 (regionCond_exact _ _ RC (td v))) in Iv. destruct Iv as [Lv Iv]. specialize (Iv i (length (td w) - 1)%nat ltac:(lia) ltac:(lia)).
    unfold since. rewrite <- Lv. apply (proj1 (sameUnit_point _ z U5 _)). exact Iv.
  - intros [i [z [Hi H]]]. exists (i + 1)%nat. split; [apply in_seq; rewrite <- Lw, WW, EW; lia|]. assert (Hi' : (i < length (td w))%nat) by (rewrite WW, EW; lia). rewrite GI by lia.
    assert (U := regionF_T x w i R Hi'). rewrite Lw in U. assert (Iw : inElem (fel x) w) by (split; [auto|apply (proj2 (regionCond_exact _ _ RC (td w))), sameRegion_refl]). specialize (H w Iw).
    destruct U as [z' [c [e [[U1 _]|[_ [_ [_ [_ [U2 U3]]]]]]]]]; [rewrite U1; reflexivity|]. exfalso. rewrite H in U2, U3. rewrite <- Zlt_Qlt in U2. assert (U4 : inject_Z z < inject_Z (z' + 1)) by (rewrite inject_Z_plus; exact U3). rewrite <- Zlt_Qlt in U4. lia.
Qed.

Section Views.
Context {St : Type} (o : mOracle St) (f : tword -> bool) (Inv : St -> Prop) (ordP ordR : ot St -> list nat) (place : ot St -> nat -> nat -> nat).
Notation tbl := (ot St).
Hypothesis HO : oracleFor o f Inv.
Hypothesis RI : regionInvariant properTW f.

Lemma inP_false (t : tbl) i : inP t i = false <-> ~ In i (otP t).
Proof. rewrite <- inP_iff. destruct (inP t i); split; congruence. Qed.
Lemma tinv_okT (t : tbl) : tinv f Inv t -> askedNonempty t -> okT f Inv t.
Proof. intros H A. split; [apply H|]. split; [apply H|exact A]. Qed.
Lemma view_exact (t : tbl) : tinv f Inv t -> askedNonempty t -> exactTable f t.
Proof using HO RI. intros H A i Hi. exact (proj1 (row_exact o f Inv HO RI t i (tinv_okT t H A) Hi)). Qed.
Lemma view_tree (t : tbl) : tinv f Inv t -> prefixTree t.
Proof.
  intros [[_ _ [l Hl] _ _ _ _ [T1 T2 T3 T4 T5 T6 T7]] _ _ _ R]. split; [auto|]. split; [unfold preAt; rewrite Hl; reflexivity|]. split; [auto|]. split; [auto|].
  split; [intros p Hp; destruct (T3 p Hp) as [k [_ K]]; exists k; exact K|]. split; [intros p a Hp Ha; destruct (T4 p a Hp Ha) as [k [_ K]]; exists k; exact K|]. exact T7.
Qed.
Lemma valid_alike (t : tbl) i j r : validRel f t i j r -> alike f t i j r.
Proof. intros [[A _] B]. split; auto. Qed.
Lemma valid_lands (t : tbl) i j r : str f Inv t -> (i < length (otPre t))%nat -> (j < length (otPre t))%nat -> validRel f t i j r -> resetLands f t i j r.
Proof.
  intros H Hi Hj [[A [B C]] [E D]] p Ip. destruct (goodPre_proper _ (preAt_good f Inv t i H)) as [[Wx _] [Sx [Ix _]]]. destruct (goodPre_proper _ (preAt_good f Inv t j H)) as [[Wy _] [Sy [Iy _]]].
  destruct (region_extension _ _ r Wx Wy Sx Ix Iy A E p Ip) as [p0 [I0 R0]]. destruct (C55_reset_reaches_related_word _ _ r p p0 Wx Wy Sy Iy A B C Ip I0 R0) as [p' [I' [R' V]]].
  exists p'. split; [auto|]. split; [auto|]. split; [|intros z s Hz Is; exact (D z p p' s Hz Ip I' R' Is)]. intros v Hv k Hk. apply V; [auto|]. destruct I' as [_ [L _]]. rewrite L in Hk. destruct Wy as [_ Wy]. rewrite Wy in Hk. lia.
Qed.
Lemma view_closed (t : tbl) : str f Inv t -> closedT f t -> closedTable f t.
Proof.
  intros H C i Hi NP. destruct (C i Hi (proj2 (inP_false t i) NP)) as [j [r [T V]]]. exists j, r. split; [exact T|]. unfold target in T. apply find_some in T. destruct T as [_ T]. cbn [fst] in T.
  apply inP_iff in T. split; [auto|]. split; [apply valid_alike; auto|]. apply valid_lands; auto. apply (tr_lt t (s_tree _ _ t H)); auto.
Qed.
Lemma row_of (t : tbl) i : cells (otMem t) (otPre t) (otSuf t) (otTab t) (otCon t) -> filled t -> (i < length (otPre t))%nat ->
  conAt t i = map (fun s => ec (elConcat (fel (preAt t i)) (fel s))) (otSuf t) /\
  Forall2 (fun s cs => findEL (smCache (otMem t)) (elConcat (fel (preAt t i)) (fel s)) = Some cs) (otSuf t) (rowAt t i).
Proof.
  intros [C1 [C2 C3]] [F1 F2] Hi. destruct (C3 i ltac:(lia)) as [s1 [s2 [Es [Ec R]]]]. assert (L := Forall2_len _ _ _ R). specialize (F2 i Hi). unfold conAt, rowAt, preAt.
  rewrite Es, app_length in F2. assert (s2 = []) by (destruct s2; [auto|cbn in F2; lia]). subst s2. rewrite app_nil_r in Es. rewrite Es. split; [exact Ec|exact R].
Qed.
Lemma rows_prefix {A B} (P Q : A -> B -> Prop) : (forall s a b, P s a -> Q s b -> a = b) -> forall l x l' y, Forall2 P l x -> Forall2 Q (l ++ l') y -> x = firstn (length l) y.
Proof.
  intro H. induction l as [|s l IH]; intros x l' y F1 F2; inversion F1; subst; [reflexivity|]. cbn [app] in F2. inversion F2; subst. cbn [length firstn]. f_equal; [eapply H; eauto|eapply IH; eauto].
Qed.
Lemma dist_found (t : tbl) i j : str f Inv t -> filled t -> distOK t -> In (i, j) (otDist t) -> exists n, (n <= length (otSuf t))%nat /\ differentUpTo t n i j.
Proof.
  intros H F D K. destruct (D i j K) as [u [L [C [Fu [Hi [Hj N]]]]]]. exists (length (otSuf u)). assert (L' := L). destruct L' as [[CL _] [_ [_ [[ls Ls] _]]]]. split; [rewrite Ls, app_length; lia|].
  assert (Es : firstn (length (otSuf u)) (sufEL t) = sufEL u). { unfold sufEL. rewrite Ls, map_app. rewrite firstn_app, map_length, Nat.sub_diag. cbn. rewrite app_nil_r. rewrite firstn_all2; [reflexivity|rewrite map_length; lia]. }
  assert (G : forall k, (k < length (otPre u))%nat -> preAt t k = preAt u k /\ firstn (length (otSuf u)) (rowAt t k) = rowAt u k /\ conAt u k = map (fun s => ec (elConcat (fel (preAt u k)) s)) (sufEL u)).
  { intros k Hk. destruct (tle_pre u t k L Hk) as [E1 Hk']. destruct (row_of u k C Fu Hk) as [R1 R2]. destruct (row_of t k (s_cells _ _ t H) F Hk') as [_ R3]. rewrite Ls, E1 in R3. split; [auto|]. split; [|rewrite R1; unfold sufEL; rewrite map_map; reflexivity].
    symmetry. refine (rows_prefix _ _ _ _ _ _ _ R2 R3). intros s a b Ha Hb. cbv beta in Ha, Hb. apply CL in Ha. congruence. }
  destruct (G i Hi) as [E1 [E2 E3]]. destruct (G j Hj) as [E4 [E5 E6]]. unfold differentUpTo. cbv zeta. rewrite Es, E1, E2, E4, E5, <- E3, <- E6. exact N.
Qed.
Lemma dist_recorded (t : tbl) i j : str f Inv t -> filled t -> distOK t -> distinguished t i j -> foundDifferent t i j.
Proof.
  intros H F D. assert (G : forall i j, inDist t i j = true -> In (i, j) (otDist t)).
  { clear. intros i j H. unfold inDist in H. apply existsb_exists in H. destruct H as [[a b] [H E]]. unfold pairEqb in E. cbn [fst snd] in E. apply andb_true_iff in E. destruct E as [E1 E2]. apply Nat.eqb_eq in E1, E2. subst. exact H. }
  intros [K|K]; apply G in K; apply dist_found in K; auto; destruct K as [n [K1 K2]]; exists n; auto.
Qed.
Lemma disc_succ (t : tbl) p a k : str f Inv t -> In p (otP t) -> In a (otAlpha t) -> discAt t p a = Some k -> letterSuccessor t p a k.
Proof. intros H P A E. destruct (tr_disc t (s_tree _ _ t H) p a P A) as [k' [E' K]]. rewrite E in E'. injection E' as <-. exact K. Qed.
Lemma cont_succ (t : tbl) p k : str f Inv t -> In p (otP t) -> contAt t p = Some k -> timeSuccessor t p k.
Proof. intros H P E. destruct (tr_cont t (s_tree _ _ t H) p P) as [k' [E' K]]. rewrite E in E'. injection E' as <-. exact K. Qed.
Lemma related_alike (t : tbl) i j : TableProofs6.related f t i j -> exists r, alike f t i j r.
Proof. intros [r V]. exists r. apply valid_alike; auto. Qed.
Lemma view_consistent (t : tbl) : tinv f Inv t -> consistentT f t -> consistentTable f t.
Proof.
  intros T C i j Pi Pj L. assert (H := ti_str _ _ _ T). assert (F := ti_fill _ _ _ T). assert (D0 : distOK t) by apply (ti_rel _ _ _ T). destruct (C i j Pi Pj L) as [D|[R [DC [k [m [Ek [Em K]]]]]]]; [left; apply dist_recorded; auto|]. right. split; [apply related_alike; auto|]. split.
  - intros a Ha. destruct (DC a Ha) as [k' [m' [E1 [E2 R2]]]]. destruct (related_alike _ _ _ R2) as [r Hr]. exists k', m', r. split; [apply disc_succ; auto|]. split; [apply disc_succ; auto|auto].
  - exists k, m. split; [apply cont_succ; auto|]. split; [apply cont_succ; auto|]. destruct K as [K|K]; [left; apply related_alike; auto|right; apply dist_recorded; auto].
Qed.
Lemma view_exterior (t : tbl) : str f Inv t -> exteriorT t -> exteriorTable t.
Proof.
  intros H C p P. destruct (C p P) as [k [E K]]. exists k. split; [apply cont_succ; auto|]. destruct K as [K|K]; [left; apply inP_iff; auto|right]. apply hasEqualityN_iff; [|auto]. eapply preAt_good; eauto.
Qed.
Lemma view_saturated (t : tbl) : str f Inv t -> saturatedT f t -> saturatedTable f t.
Proof.
  intros H C p P. destruct (C p P) as [k [E K]]. exists k. split; [apply cont_succ; auto|]. destruct K as [K|[K V]]; [left; apply inP_iff; auto|right]. split; [|apply valid_alike; auto].
  unfold hypTarget. rewrite K. cbn [find fst]. rewrite (proj2 (inP_iff t p) P). reflexivity.
Qed.
End Views.
