(** The observation table: what consistent() guarantees, and the progress made
    when it fails. *)
From Coq Require Import QArith ZArith Bool List Arith Lia Permutation.
From Verif Require Import BoundsModel ConstraintModel ZoneModel ZoneSpec AutomatonModel TimedWordModel TimedWordSpec
  TimedConditionModel TimedConditionSpec ElementaryModel ElementarySpec LooseProofs
  RegionalModel RegionalSpec OracleModel SymbolicModel SymbolicSpec CexModel CexSpec RenamingModel RenamingSpec
  TableModel TableProofs ShapeProofs TableProofs2 TableProofs3 TableProofs4 TableProofs5.
Import ListNotations.

(** ** the memo of comparisons with one more suffix *)
Section Col.
Context {St : Type} (o : mOracle St) (ordP : ot St -> list nat) (ordR : ot St -> list nat) (place : ot St -> nat -> nat -> nat).
Notation tbl := (ot St).
(** a remembered answer for the present suffixes is positive *)
Definition colOK (t : tbl) : Prop := forall key n b, In (key, (n, b)) (otCol t) -> (n <= length (otSuf t))%nat /\ (n = length (otSuf t) -> b = true).
Lemma colOK_keep t t' : otCol t' = otCol t -> (exists l, otSuf t' = otSuf t ++ l) -> colOK t -> colOK t'.
Proof. intros E [l L] H key n b K. rewrite E in K. destruct (H key n b K) as [A B]. rewrite L, app_length. split; [lia|]. intro N. apply B. lia. Qed.
Lemma colOK_tle t t' : otCol t' = otCol t -> tle t t' -> colOK t -> colOK t'.
Proof. intros E [_ [_ [_ [L _]]]]. apply colOK_keep; auto. Qed.
Lemma refresh_col t t' : refreshTable o t = Ok t' -> otCol t' = otCol t.
Proof. intro E. destruct (refresh_rest o _ _ E) as [_ [_ [_ [_ [_ [_ [_ [_ K]]]]]]]]. exact K. Qed.
Lemma equivMemo_col (t : tbl) i j t' r : equivMemo place t i j = (t', r) -> otCol t' = otCol t.
Proof.
  unfold equivMemo, equivalentRows. intro E. destruct (inDist t i j || inDist t j i); [injection E as <- <-; auto|].
  assert (G : (match findRows t i j with Some r0 => (putRel place t i j r0, Some r0) | None => (withDist t ((i, j) :: otDist t), None) end) = (t', r) -> otCol t' = otCol t)
    by (destruct (findRows t i j); intro K; injection K as <- <-; reflexivity).
  destruct (mapAt (relAt t i) j) as [r0|]; [|auto]. destruct (equivRows t i j r0); [injection E as <- <-; auto|auto].
Qed.
Lemma confirmRel_col (t : tbl) i t' b : confirmRel t i = (t', b) -> otCol t' = otCol t.
Proof. unfold confirmRel. destruct (mapAt (otRel t) i); [|intro E; injection E as <- <-; auto]. destruct (confirm t i l). intro E. injection E as <- <-. reflexivity. Qed.
Lemma jumpSame_col i : forall l (t : tbl) t' b, jumpSame place t i l = Ok (t', b) -> otCol t' = otCol t.
Proof.
  induction l as [|j l IH]; intros t t' b E; cbn [jumpSame] in E; [injection E as <- <-; auto|]. destruct (contAt t j); [|discriminate]. destruct (_ =? _)%nat; [|eauto].
  destruct (equivMemo place t i j) as [t1 r] eqn:E1. apply equivMemo_col in E1. destruct r; [injection E as <- <-; auto|]. apply IH in E. congruence.
Qed.
Lemma jumpAny_col i : forall l (t : tbl) t' b, jumpAny place t i l = (t', b) -> otCol t' = otCol t.
Proof.
  induction l as [|j l IH]; intros t t' b E; cbn [jumpAny] in E; [injection E as <- <-; auto|].
  destruct (equivMemo place t i j) as [t1 r] eqn:E1. apply equivMemo_col in E1. destruct r; [injection E as <- <-; auto|]. apply IH in E. congruence.
Qed.
Lemma moveToP_col : forall fuel t i t', moveToP o place fuel t i = Ok t' -> otCol t' = otCol t.
Proof.
  induction fuel as [|fuel IH]; intros t i t' E; cbn [moveToP] in E; [discriminate|]. destruct (i <? length (otPre t))%nat; [|discriminate]. bind_inv E. apply refresh_col in E0.
  destruct (contAt a i); [|discriminate]. destruct (equivMemo place a n i) as [t2 r] eqn:E2. apply equivMemo_col in E2. destruct r; [injection E as <-; rewrite E2, E0; reflexivity|]. apply IH in E. rewrite E, E2, E0. reflexivity.
Qed.
Lemma closeLoop_col fuel : forall is t t' b, closeLoop o ordP place fuel t is = Ok (t', b) -> otCol t' = otCol t.
Proof.
  induction is as [|i is IH]; intros t t' b E; cbn [closeLoop] in E; [injection E as <- <-; auto|]. destruct (inP t i); [eauto|].
  destruct (confirmRel t i) as [t1 b1] eqn:E1. apply confirmRel_col in E1. destruct b1; [apply IH in E; congruence|]. bind_inv E. destruct a as [t2 b2]. apply jumpSame_col in E0. destruct b2; [apply IH in E; congruence|].
  destruct (jumpAny place t2 i (ordP t2)) as [t3 b3] eqn:E3. apply jumpAny_col in E3. destruct b3; [apply IH in E; congruence|]. bind_inv E. bind_inv E. injection E as <- <-. apply moveToP_col in E2. apply refresh_col in E4. congruence.
Qed.
Lemma moveAll_col fuel : forall l t t', moveAll o place fuel t l = Ok t' -> otCol t' = otCol t.
Proof. induction l as [|i l IH]; intros t t' E; cbn [moveAll] in E; [injection E as <-; auto|]. bind_inv E. apply moveToP_col in E0. apply IH in E. congruence. Qed.
Lemma exteriorConsistent_col fuel t t' b : exteriorConsistent o ordP place fuel t = Ok (t', b) -> otCol t' = otCol t.
Proof. unfold exteriorConsistent. intro E. bind_inv E. destruct a; [injection E as <- <-; auto|]. bind_inv E. bind_inv E. injection E as <- <-. apply moveAll_col in E1. apply refresh_col in E2. congruence. Qed.
Lemma saturateOne_col t p k t' r : saturateOne place t p k = Ok (t', r) -> otCol t' = otCol (t : tbl).
Proof.
  unfold saturateOne. destruct (equivMemo place t k p) as [t1 r1] eqn:E. apply equivMemo_col in E. destruct r1; [|intro H; injection H as <- <-; auto].
  destruct (mapAt (relAt t1 k) p) as [[|q l]|]; [intro H; injection H as <- <-; auto| |discriminate]. destruct (equivRows t1 k p []); intro H; injection H as <- <-; auto.
Qed.
Lemma saturateLoop_col : forall l t t' new, saturateLoop place t l = Ok (t', new) -> otCol t' = otCol (t : tbl).
Proof.
  induction l as [|p l IH]; intros t t' new E; cbn [saturateLoop] in E; [injection E as <- <-; auto|]. destruct (contAt t p) as [k|]; [|discriminate]. destruct (inP t k); [eauto|].
  bind_inv E. destruct a as [t1 r]. bind_inv E. destruct a as [t2 nw]. injection E as <- <-. apply saturateOne_col in E0. apply IH in E1. congruence.
Qed.
Lemma timeSaturate_col fuel t t' b : timeSaturate o ordP place fuel t = Ok (t', b) -> otCol t' = otCol t.
Proof.
  unfold timeSaturate. intro E. bind_inv E. destruct a as [t1 new]. apply saturateLoop_col in E0. destruct new; [injection E as <- <-; auto|]. bind_inv E. bind_inv E. injection E as <- <-.
  apply moveAll_col in E1. apply refresh_col in E2. congruence.
Qed.
Lemma pickTarget_col i : forall js t t' r, pickTarget place t i js = (t', r) -> otCol t' = otCol (t : tbl).
Proof.
  induction js as [|j js IH]; intros t t' r E; cbn [pickTarget] in E; [injection E as <- <-; auto|]. cbv zeta in E. destruct (inP t j); [|apply IH in E; exact E].
  destruct (equivMemo place t i j) as [t1 r1] eqn:E1. apply equivMemo_col in E1. destruct r1; [injection E as <- <-; auto|]. apply IH in E. rewrite E. exact E1.
Qed.
Lemma morphLoop_col : forall is t t' ms, morphLoop place t is = (t', ms) -> otCol t' = otCol (t : tbl).
Proof.
  induction is as [|i is IH]; intros t t' ms E; cbn [morphLoop] in E; [injection E as <- <-; auto|]. destruct (inP t i); [eauto|]. destruct (pickTarget place t i _) as [t1 r] eqn:E1. destruct (morphLoop place t1 is) as [t2 m2] eqn:E2.
  injection E as <- <-. apply pickTarget_col in E1. apply IH in E2. congruence.
Qed.
Lemma toRecognizable_col (t : tbl) t' h : toRecognizable ordR place t = (t', h) -> otCol t' = otCol t.
Proof. unfold toRecognizable. cbv zeta. destruct (morphLoop place t (ordR t)) as [t1 ms] eqn:E. intro H. injection H as <- <-. eapply morphLoop_col; eauto. Qed.
(** relations and the set of distinguished rows are untouched *)
Definition relSame (t t' : tbl) : Prop := otRel t' = otRel t /\ otDist t' = otDist t.
Lemma relSame_trans a b c : relSame a b -> relSame b c -> relSame a c.
Proof. intros [A B] [C D]. split; congruence. Qed.
Lemma extRow_spec t i s t' row con : extRow o t i s = Ok (t', row, con) -> relSame t t' /\ otCol t' = otCol t /\
  exists cs, row = rowAt t i ++ [cs] /\ con = conAt t i ++ [ec (elConcat (fel (preAt t i)) (fel s))] /\ findEL (smCache (otMem t')) (elConcat (fel (preAt t i)) (fel s)) = Some cs.
Proof.
  unfold extRow. cbv zeta. destruct (symQuery o (otMem t) _) as [[y cs]|] eqn:E; [|discriminate]. intro H. injection H as <- <- <-. apply symQuery_cache in E. destruct E as [_ F].
  split; [split; reflexivity|]. split; [reflexivity|]. exists cs. auto.
Qed.
(** no renaming relates the two rows once the suffix is added *)
Definition breaks (t t' : tbl) (i j : nat) (s : frel) : Prop := exists ci cj,
  findEL (smCache (otMem t')) (elConcat (fel (preAt t i)) (fel s)) = Some ci /\ findEL (smCache (otMem t')) (elConcat (fel (preAt t j)) (fel s)) = Some cj /\
  findDet (fel (preAt t i)) (rowAt t i ++ [ci]) (conAt t i ++ [ec (elConcat (fel (preAt t i)) (fel s))])
          (fel (preAt t j)) (rowAt t j ++ [cj]) (conAt t j ++ [ec (elConcat (fel (preAt t j)) (fel s))]) (sufEL t ++ [fel s]) = None.
Definition colLe (t : tbl) : Prop := forall key n b, In (key, (n, b)) (otCol t) -> (n <= length (otSuf t))%nat.
Lemma asked_at (t t' : tbl) : asked t t' -> preAt t' = preAt t /\ rowAt t' = rowAt t /\ conAt t' = conAt t /\ sufEL t' = sufEL t /\ otSuf t' = otSuf t.
Proof. intros [_ [_ [Ep [Es [Ec [_ [Et _]]]]]]]. unfold preAt, rowAt, conAt, sufEL. rewrite Ep, Es, Ec, Et. auto. Qed.
Lemma breaks_asked t0 t t' i j s : asked t0 t -> breaks t t' i j s -> breaks t0 t' i j s.
Proof. intros A. destruct (asked_at _ _ A) as [E1 [E2 [E3 [E4 _]]]]. unfold breaks. rewrite E1, E2, E3, E4. auto. Qed.
Lemma colPut_ok t key : colOK t -> colOK (colPut t key true).
Proof. intros C k n b [H|H]; [injection H as <- <- <-; cbn; auto|]. exact (C k n b H). Qed.
Lemma equivNewFind_spec t i j s t' b : colOK t -> equivNewFind o t i j s = Ok (t', b) -> relSame t t' /\ if b then colOK t' else colLe t' /\ breaks t t' i j s.
Proof.
  intros C E. unfold equivNewFind in E. bind_inv E. destruct a as [[t1 lr] lc]. bind_inv E. destruct a as [[t2 rr] rc]. injection E as <- <-.
  destruct (asked_at _ _ (extRow_asked o _ _ _ _ _ _ E0)) as [P1 [R1 [C1 [_ S1]]]]. destruct (asked_at _ _ (extRow_asked o _ _ _ _ _ _ E1)) as [_ [_ [_ [_ S2]]]]. assert (L12 := proj1 (extRow_asked o _ _ _ _ _ _ E1)).
  apply extRow_spec in E0, E1. destruct E0 as [Q1 [K1 [ci [-> [-> Fi]]]]]. destruct E1 as [Q2 [K2 [cj [-> [-> Fj]]]]]. rewrite P1, R1, C1 in *.
  assert (C2 : colOK t2) by (intros k n b H; rewrite S2, S1; rewrite K2, K1 in H; exact (C k n b H)).
  split; [split; cbn; [rewrite (proj1 Q2), (proj1 Q1)|rewrite (proj2 Q2), (proj2 Q1)]; reflexivity|].
  destruct (findDet _ _ _ _ _ _ _) eqn:FD; [apply colPut_ok; auto|]. split.
  - intros k n b [H|H]; [injection H as <- <- <-; cbn; auto|]. exact (proj1 (C2 k n b H)).
  - exists ci, cj. cbn [colPut withCol otMem]. split; [apply L12; exact Fi|]. auto.
Qed.
Lemma equivNewWith_spec t i j s ren t' b : colOK t -> equivNewWith o t i j s ren = Ok (t', b) -> relSame t t' /\ colOK t'.
Proof.
  intros C E. unfold equivNewWith in E. bind_inv E. destruct a as [[t1 lr] lc]. bind_inv E. destruct a as [[t2 rr] rc]. injection E as <- <-.
  destruct (asked_at _ _ (extRow_asked o _ _ _ _ _ _ E0)) as [_ [_ [_ [_ S1]]]]. destruct (asked_at _ _ (extRow_asked o _ _ _ _ _ _ E1)) as [_ [_ [_ [_ S2]]]].
  apply extRow_spec in E0, E1. destruct E0 as [Q1 [K1 _]]. destruct E1 as [Q2 [K2 _]]. split; [eapply relSame_trans; eauto|]. intros k n b0 H. rewrite S2, S1. rewrite K2, K1 in H. exact (C k n b0 H).
Qed.
Lemma equivNew_spec t i j s t' b : colOK t -> equivNew o t i j s = Ok (t', b) -> relSame t t' /\ if b then colOK t' else colLe t' /\ breaks t t' i j s.
Proof.
  intro C. unfold equivNew. cbv zeta.
  assert (G : forall t' b, match mapAt (relAt t i) j with
    | Some r => do (t1, b) <- equivNewWith o t i j s r; if (b : bool) then Ok (colPut t1 (i, j, s) true, true) else equivNewFind o t1 i j s
    | None => equivNewFind o t i j s end = Ok (t', b) -> relSame t t' /\ if b then colOK t' else colLe t' /\ breaks t t' i j s).
  { clear t' b. intros t' b H. destruct (mapAt (relAt t i) j); [|eapply equivNewFind_spec; eauto]. bind_inv H. destruct a as [t1 b1]. assert (A1 := equivNewWith_asked o _ _ _ _ _ _ _ E).
    destruct (equivNewWith_spec _ _ _ _ _ _ _ C E) as [Q1 C1]. destruct b1; [injection H as <- <-; split; [exact Q1|apply colPut_ok; auto]|]. apply equivNewFind_spec in H; [|auto]. destruct H as [Q2 H]. split; [eapply relSame_trans; eauto|].
    destruct b; [auto|]. destruct H as [H1 H2]. split; [auto|]. eapply breaks_asked; eauto. }
  destruct (colAt t (i, j, s)) as [[n c]|] eqn:K; [|apply G]. destruct (Nat.eqb_spec (length (otSuf t)) n) as [N|N]; [|apply G]. intro H. injection H as <- <-. split; [split; reflexivity|].
  unfold colAt in K. destruct (find _ (otCol t)) as [[k [n' c']]|] eqn:F; [|discriminate]. cbn in K. injection K as -> ->. apply find_some in F. destruct F as [F _]. rewrite (proj2 (C k n c F) (eq_sym N)). exact C.
Qed.
Lemma findBreaking_spec i j p : forall l t t' r, colOK t -> findBreaking o t i j p l = Ok (t', r) -> relSame t t' /\ match r with None => colOK t' | Some s => colLe t' /\ breaks t t' i j s /\ In s (map p l) end.
Proof.
  induction l as [|s l IH]; intros t t' r C H; cbn [findBreaking] in H; [injection H as <- <-; split; [split; reflexivity|auto]|]. bind_inv H. destruct a as [t1 b]. assert (A1 := equivNew_asked o _ _ _ _ _ _ E). apply equivNew_spec in E; [|auto].
  destruct E as [Q1 E]. destruct b; [|injection H as <- <-; split; [auto|]; split; [apply E|split; [apply E|left; auto]]]. apply IH in H; [|auto]. destruct H as [Q2 H]. split; [eapply relSame_trans; eauto|]. destruct r; [|auto].
  destruct H as [H1 [H2 H3]]. split; [auto|]. split; [eapply breaks_asked; eauto|right; auto].
Qed.
Lemma colLe_grow t t' s : colLe t -> otCol t' = otCol t -> otSuf t' = otSuf t ++ [s] -> colOK t'.
Proof. intros C E1 E2 k n b H. rewrite E1 in H. specialize (C k n b H). rewrite E2, app_length. cbn. split; [lia|]. intro. lia. Qed.
End Col.

Section Cons.
Context {St : Type} (o : mOracle St) (f : tword -> bool) (Inv : St -> Prop) (ordP : ot St -> list nat) (place : ot St -> nat -> nat -> nat).
Notation tbl := (ot St).
Hypothesis HO : forall s x, Inv s -> properTW x -> exists s', o s x = Some (s', f x) /\ Inv s'.
Hypothesis RI : regionInvariant properTW f.
Hypothesis HordP : forall t, Permutation (ordP t) (otP t).
Notation strt := (str f Inv).
Notation okTt := (okT f Inv).
Notation valid := (validRel f).
Notation first := (okFirst f).

(** the rows after one suffix was added *)
Lemma row_added t t' s i : strt t -> filled t -> strt t' -> filled t' -> tle t t' -> otSuf t' = otSuf t ++ [s] -> (i < length (otPre t))%nat ->
  exists cs, rowAt t' i = rowAt t i ++ [cs] /\ conAt t' i = conAt t i ++ [ec (elConcat (fel (preAt t i)) (fel s))] /\ findEL (smCache (otMem t')) (elConcat (fel (preAt t i)) (fel s)) = Some cs.
Proof.
  intros H F H' F' L Es Hi. destruct (tle_pre t t' i L Hi) as [Ep Hi']. destruct (row_full f Inv t i H F Hi) as [C R]. destruct (row_full f Inv t' i H' F' Hi') as [C' R']. rewrite Ep, Es in *. rewrite C, C'.
  destruct L as [[CL _] _]. assert (R1 : Forall2 (fun s cs => findEL (smCache (otMem t')) (elConcat (fel (preAt t i)) (fel s)) = Some cs) (otSuf t) (rowAt t i)) by (eapply Forall2_impl; [|exact R]; intros a b; apply CL).
  apply Forall2_app_inv_l in R'. destruct R' as [l1 [l2 [A [B E]]]]. inversion B as [|? cs ? ? B1 B2]; subst. inversion B2; subst. exists cs. split; [|split; [rewrite map_app; reflexivity|exact B1]].
  rewrite E. f_equal. revert R1 A. generalize (rowAt t i). clear. revert l1. induction (otSuf t) as [|x l IH]; intros l1 l2 R1 A; inversion R1; inversion A; subst; [auto|]. f_equal; [congruence|]. eapply IH; eauto.
Qed.
Lemma breaks_none t t1 t' s i j : strt t -> filled t -> strt t' -> filled t' -> asked t t1 -> tle t1 t' -> otSuf t' = otSuf t ++ [s] -> (i < length (otPre t))%nat -> (j < length (otPre t))%nat ->
  breaks t t1 i j s -> findRows t' i j = None.
Proof.
  intros H F H' F' A L Es Hi Hj [ci [cj [Fi [Fj N]]]]. assert (L0 : tle t t') by (eapply tle_trans; [apply asked_tle; exact A|exact L]).
  destruct (row_added t t' s i H F H' F' L0 Es Hi) as [ci' [Ri [Ci Gi]]]. destruct (row_added t t' s j H F H' F' L0 Es Hj) as [cj' [Rj [Cj Gj]]].
  destruct L as [[CL _] _]. apply CL in Fi, Fj. assert (ci' = ci) by congruence. assert (cj' = cj) by congruence. subst.
  unfold findRows. rewrite (proj1 (tle_pre t t' i L0 Hi)), (proj1 (tle_pre t t' j L0 Hj)), Ri, Rj, Ci, Cj. unfold sufEL. rewrite Es, map_app. exact N.
Qed.

(** only memoised facts were added *)
Definition memoLe (t t' : tbl) : Prop := asked t t' /\ (relOK t -> relOK t') /\ distLe t t' /\ (forall k, first t k -> first t' k) /\ (colOK t -> colOK t').
Lemma memoLe_refl t : memoLe t t.
Proof. split; [apply same_asked, same_refl|]. split; [auto|]. split; [intros a b; auto|]. auto. Qed.
Lemma memoLe_trans a b c : memoLe a b -> memoLe b c -> memoLe a c.
Proof. intros [A [B [C [D E]]]] [A2 [B2 [C2 [D2 E2]]]]. split; [eapply asked_trans; eauto|]. split; [auto|]. split; [intros x y K; auto|]. auto. Qed.
Lemma asked_valid (t t' : tbl) i j r : asked t t' -> valid t i j r -> valid t' i j r.
Proof. intros [_ [_ [E1 [E2 _]]]]. apply validRel_ext; congruence. Qed.
Lemma asked_okT t t' : asked t t' -> memOK f Inv (otMem t') -> allSat (otMem t') -> okTt t -> okTt t'.
Proof. intros A M S0 [H [F _]]. split; [eapply str_asked; eauto|]. split; [eapply filled_asked; eauto|auto]. Qed.
Lemma memo_le t i j t' r : okTt t -> relOK t -> (i < length (otPre t))%nat -> (j < length (otPre t))%nat -> equivMemo place t i j = (t', r) -> memoLe t t'.
Proof using HO RI.
  intros H R Hi Hj E. assert (S0 := equivMemo_same _ _ _ _ _ _ E). destruct (memo_revised o f Inv place HO RI t i j t' r H R Hi Hj E) as [_ [A [B _]]]. split; [apply same_asked; auto|]. split; [auto|]. split; [auto|]. split.
  - intros k K. exact (okFirst_memo o f Inv place HO RI t i j t' r k H R Hi Hj E K).
  - apply colOK_tle; [eapply equivMemo_col; eauto|apply same_tle; auto].
Qed.
Lemma relSame_le t t' : asked t t' -> relSame t t' -> (colOK t -> colOK t') -> memoLe t t'.
Proof.
  intros A [E1 E2] C. split; [auto|]. split; [|split; [|split; [|auto]]].
  - apply relOK_tle; [apply asked_tle; auto|auto|auto].
  - intros a b K. unfold inDist in *. rewrite E2. exact K.
  - intros k. destruct A as [_ [_ [Ep [Es [_ [EP _]]]]]]. apply okFirst_ext; auto. unfold relAt. rewrite E1. reflexivity.
Qed.
(** two rows are related by a valid renaming *)
Definition related (t : tbl) (i j : nat) : Prop := exists r, valid t i j r.
Lemma related_asked t t' i j : asked t t' -> related t i j -> related t' i j.
Proof. intros A [r V]. exists r. eapply asked_valid; eauto. Qed.
Lemma memo_related t i j t' r : okTt t -> relOK t -> (i < length (otPre t))%nat -> (j < length (otPre t))%nat -> equivMemo place t i j = (t', r) -> match r with Some _ => related t i j | None => distinguished t' i j end.
Proof using HO RI. intros H R Hi Hj E. destruct (equivMemo_sem o f Inv place HO RI t i j t' r H R Hi Hj E) as [_ [_ [_ D]]]. destruct r; [exists r; apply D|apply D]. Qed.

(** a new suffix separates the rows i and j, which were related before *)
Definition separated (t t' : tbl) (i j : nat) : Prop := exists s, otSuf t' = otSuf t ++ [s] /\ related t i j /\ findRows t' i j = None.
Definition discCons (t : tbl) (i j : nat) (a : letter) : Prop := exists k m, discAt t i a = Some k /\ discAt t j a = Some m /\ related t k m.
Lemma asked_disc (t t' : tbl) i a : asked t t' -> discAt t' i a = discAt t i a.
Proof. intros A. unfold discAt. destruct A as [_ [_ [_ [_ [_ [_ [_ [_ ->]]]]]]]]. auto. Qed.
Lemma asked_cont (t t' : tbl) i : asked t t' -> contAt t' i = contAt t i.
Proof. intros A. unfold contAt. destruct A as [_ [_ [_ [_ [_ [_ [_ [-> _]]]]]]]]. auto. Qed.
Lemma discCons_asked t t' i j a : asked t t' -> discCons t i j a -> discCons t' i j a.
Proof. intros A [k [m [K1 [K2 K3]]]]. exists k, m. rewrite !(asked_disc t t') by auto. split; [auto|]. split; [auto|]. eapply related_asked; eauto. Qed.
Lemma disc_lt (t : tbl) p a k : tree t -> In p (otP t) -> In a (otAlpha t) -> discAt t p a = Some k -> (k < length (otPre t))%nat.
Proof. intros T P A E. destruct (tr_disc t T p a P A) as [k' [E1 [L _]]]. congruence. Qed.
(** what is common to the two ways to add a suffix *)
Lemma addSuffix_fin t t1 s t' i j : strt t -> filled t -> relOK t -> asked t t1 -> relSame t t1 -> strt t1 -> sufShape s -> colLe t1 -> breaks t t1 i j s -> (i < length (otPre t))%nat -> (j < length (otPre t))%nat ->
  addSuffix o t1 s = Ok t' -> relOK t' /\ colOK t' /\ otSuf t' = otSuf t ++ [s] /\ findRows t' i j = None.
Proof using HO RI.
  intros H F R A Q H1 S0 C B Hi Hj E. assert (F1 := filled_asked _ _ A F). destruct (addSuffix_str o f Inv HO RI t1 s t' H1 S0 E) as [H' [F' [Es [Ep EP]]]]. assert (L := addSuffix_le o _ _ _ E).
  unfold addSuffix in E. destruct (refresh_rest o _ _ E) as [_ [_ [_ [_ [Er [_ [_ [Ed Ec]]]]]]]]. cbn in Er, Ed, Ec. assert (Es1 : otSuf t' = otSuf t ++ [s]) by (destruct A as [_ [_ [_ [<- _]]]]; exact Es).
  split; [|split; [|split; [exact Es1|]]].
  - eapply relOK_tle; [eapply tle_trans; [apply asked_tle; exact A|exact L]|rewrite Er; apply Q|rewrite Ed; apply Q|exact R].
  - eapply colLe_grow; eauto.
  - exact (breaks_none t t1 t' s i j H F H' F' A L Es1 Hi Hj B).
Qed.
Lemma discreteConsistent_spec i j : forall l t t' b, (forall a, In a l -> In a (otAlpha t)) -> In i (otP t) -> In j (otP t) -> strt t -> filled t -> relOK t -> colOK t -> allSat (otMem t') -> related t i j ->
  discreteConsistent o place t i j l = Ok (t', b) ->
  relOK t' /\ colOK t' /\ if b then memoLe t t' /\ forall a, In a l -> discCons t' i j a else separated t t' i j.
Proof using HO RI.
  induction l as [|a l IH]; intros t t' b NA Pi Pj H F R C A RL E; cbn [discreteConsistent] in E; [injection E as <- <-; split; [auto|]; split; [auto|]; split; [apply memoLe_refl|intros ? []]|].
  assert (TL : tle t t') by (eapply (discreteConsistent_le o place i j (a :: l)); cbn [discreteConsistent]; exact E). assert (A0 := tle_allSat _ _ TL A). assert (OK : okTt t) by (split; [auto|split; auto]).
  assert (T := s_tree _ _ t H). destruct (discAt t i a) as [k|] eqn:Dk; [|discriminate]. destruct (discAt t j a) as [m|] eqn:Dm; [|discriminate].
  assert (Lk := disc_lt t i a k T Pi (NA a (or_introl eq_refl)) Dk). assert (Lm := disc_lt t j a m T Pj (NA a (or_introl eq_refl)) Dm).
  assert (Li := tr_lt t T i Pi). assert (Lj := tr_lt t T j Pj).
  destruct (equivMemo place t k m) as [t1 r] eqn:E1. assert (S1 := equivMemo_same _ _ _ _ _ _ E1). assert (ML := memo_le t k m t1 r OK R Lk Lm E1). assert (MR := memo_related t k m t1 r OK R Lk Lm E1).
  assert (H1 := str_same f Inv _ _ S1 H). assert (F1 := filled_same _ _ S1 F). assert (R1 : relOK t1) by (apply ML; auto). assert (C1 : colOK t1) by (apply ML; auto). assert (AK1 := proj1 ML).
  destruct r as [r|].
  - destruct (IH t1 t' b) as [R2 [C2 B2]]; auto.
    + intros c Hc. destruct S1 as [_ [-> _]]. apply NA. right; auto.
    + destruct S1 as [_ [_ [_ [_ [_ [-> _]]]]]]. auto.
    + destruct S1 as [_ [_ [_ [_ [_ [-> _]]]]]]. auto.
    + eapply related_asked; eauto.
    + split; [auto|]. split; [auto|]. destruct b.
      * destruct B2 as [B2 B3]. split; [eapply memoLe_trans; eauto|]. intros c [<-|Hc]; [|auto]. eapply discCons_asked; [apply (proj1 (memoLe_trans _ _ _ ML B2))|]. exists k, m. auto.
      * destruct B2 as [s [B2 [B3 B4]]]. exists s. destruct S1 as [_ [_ [_ [Es _]]]]. split; [rewrite <- Es; auto|]. auto.
  - bind_inv E. injection E as <- <-. unfold resolveDiscrete in E0. bind_inv E0. destruct a1 as [t2 r2]. assert (AK := findBreaking_asked _ _ _ _ _ _ _ _ E). assert (FB := findBreaking_spec _ _ _ _ _ _ _ _ C1 E). assert (NU : a <> UNOBSERVABLE) by (intros ->; apply (s_alpha _ _ t H); apply NA; left; auto).
    apply (findBreaking_str o f Inv HO RI) in E; [|intros s0 Hs; apply sufShape_act; auto|apply (s_suf _ _ t1 H1)|auto]. destruct E as [HA HB]. destruct r2 as [s|]; [|discriminate]. destruct HB as [HB1 HB2]. destruct FB as [Q [FB1 [FB2 FB3]]].
    assert (Ep1 : otPre t1 = otPre t) by (destruct S1 as [_ [_ [K _]]]; exact K). assert (Es1 : otSuf t1 = otSuf t) by (destruct S1 as [_ [_ [_ [K _]]]]; exact K).
    destruct (addSuffix_fin t1 t2 s a0 i j H1 F1 R1 AK Q HA HB1 FB1 FB2) as [X1 [X2 [X3 X4]]]; [rewrite Ep1; auto|rewrite Ep1; auto|exact E0|].
    split; [auto|]. split; [auto|]. exists s. rewrite <- Es1. auto.
Qed.
Definition consPair (t : tbl) (i j : nat) : Prop := distinguished t i j \/
  (related t i j /\ (forall a, In a (otAlpha t) -> discCons t i j a) /\ exists k m, contAt t i = Some k /\ contAt t j = Some m /\ (related t k m \/ distinguished t k m)).
Lemma consPair_memo t t' i j : memoLe t t' -> consPair t i j -> consPair t' i j.
Proof.
  intros [A [_ [D _]]] [H|[H1 [H2 [k [m [H3 [H4 H5]]]]]]]; [left; eapply distinguished_le; eauto|]. right. split; [eapply related_asked; eauto|]. split.
  - intros a Ha. eapply discCons_asked; eauto. apply H2. destruct A as [_ [<- _]]. auto.
  - exists k, m. rewrite !(asked_cont t t') by auto. split; [auto|]. split; [auto|]. destruct H5 as [H5|H5]; [left; eapply related_asked; eauto|right; eapply distinguished_le; eauto].
Qed.
Lemma pairConsistent_spec t i j t' b : In i (otP t) -> In j (otP t) -> strt t -> filled t -> relOK t -> colOK t -> allSat (otMem t') -> pairConsistent o place t i j = Ok (t', b) ->
  relOK t' /\ colOK t' /\ if b then memoLe t t' /\ consPair t' i j else separated t t' i j.
Proof using HO RI.
  intros Pi Pj H F R C A E. assert (TL := pairConsistent_le o place _ _ _ _ _ E). assert (A0 := tle_allSat _ _ TL A). assert (OK : okTt t) by (split; [auto|split; auto]). assert (T := s_tree _ _ t H).
  assert (Li := tr_lt t T i Pi). assert (Lj := tr_lt t T j Pj). unfold pairConsistent in E.
  destruct (equivMemo place t i j) as [t1 r] eqn:E1. assert (S1 := equivMemo_same _ _ _ _ _ _ E1). assert (ML := memo_le t i j t1 r OK R Li Lj E1). assert (MR := memo_related t i j t1 r OK R Li Lj E1).
  assert (H1 := str_same f Inv _ _ S1 H). assert (F1 := filled_same _ _ S1 F). assert (R1 : relOK t1) by (apply ML; auto). assert (C1 : colOK t1) by (apply ML; auto). assert (AK1 := proj1 ML).
  assert (SEP : forall t2, separated t1 t2 i j -> separated t t2 i j).
  { intros t2 [s [B2 [B3 B4]]]. exists s. assert (S1' := S1). destruct S1' as [_ [_ [Ep [Es _]]]]. split; [rewrite <- Es; auto|]. split; [|auto]. destruct B3 as [r3 B3]. exists r3. apply (same_valid f t t1); auto. }
  destruct r as [r|]; [|injection E as <- <-; split; [auto|]; split; [auto|]; split; [auto|left; auto]].
  assert (P1 : otP t1 = otP t) by (destruct S1 as [_ [_ [_ [_ [_ [K _]]]]]]; exact K). assert (Al1 : otAlpha t1 = otAlpha t) by (destruct S1 as [_ [K _]]; exact K).
  bind_inv E. destruct a as [t2 b2].
  assert (A2 : allSat (otMem t2)).
  { destruct b2; cbn [negb] in E; [|injection E as <- <-; auto]. destruct (contAt t2 i) as [k|]; [|discriminate]. destruct (contAt t2 j) as [m|]; [|discriminate]. destruct (equivMemo place t2 k m) as [t3 r3] eqn:E3. apply equivMemo_same in E3.
    eapply tle_allSat; [apply same_tle; exact E3|]. destruct r3; [injection E as <- <-; auto|]. bind_inv E. destruct a as [t4 b4]. injection E as <- <-. eapply tle_allSat; [eapply resolveContinuous_le; exact E2|exact A]. }
  assert (DS := E0). apply (discreteConsistent_str o f Inv place HO RI) in DS; [|intros a Ha ->; exact (s_alpha _ _ t1 H1 Ha)|auto|auto]. destruct DS as [H2 [F2 [Ep2 [EP2 ES2]]]].
  destruct (discreteConsistent_spec i j (otAlpha t1) t1 t2 b2) as [R2 [C2 B2]]; auto; [rewrite P1; auto|rewrite P1; auto|eapply related_asked; eauto|].
  destruct b2; cbn [negb] in E; [|injection E as <- <-; split; [auto|]; split; [auto|]; apply SEP; auto]. destruct B2 as [ML2 DC]. assert (ML12 := memoLe_trans _ _ _ ML ML2).
  destruct (contAt t2 i) as [k|] eqn:Ck; [|discriminate]. destruct (contAt t2 j) as [m|] eqn:Cm; [|discriminate]. assert (OK2 : okTt t2) by (split; [auto|split; auto]).
  assert (Lk := cont_lt t2 i k (s_tree _ _ t2 H2) Ck). assert (Lm := cont_lt t2 j m (s_tree _ _ t2 H2) Cm).
  destruct (equivMemo place t2 k m) as [t3 r3] eqn:E3. assert (S3 := equivMemo_same _ _ _ _ _ _ E3). assert (ML3 := memo_le t2 k m t3 r3 OK2 R2 Lk Lm E3). assert (MR3 := memo_related t2 k m t3 r3 OK2 R2 Lk Lm E3).
  assert (ML13 := memoLe_trans _ _ _ ML12 ML3). assert (AK13 := proj1 ML13). assert (H3 := str_same f Inv _ _ S3 H2). assert (F3 := filled_same _ _ S3 F2). assert (R3 : relOK t3) by (apply ML3; auto). assert (C3 : colOK t3) by (apply ML3; auto).
  assert (CP : forall t4, asked t3 t4 -> distLe t3 t4 -> (related t3 k m \/ distinguished t3 k m) -> consPair t4 i j).
  { intros t4 A4 D4 X. right. assert (A04 : asked t t4) by (eapply asked_trans; eauto). assert (A24 : asked t2 t4) by (eapply asked_trans; [apply (proj1 ML3)|exact A4]). split; [exact (related_asked _ _ _ _ A04 MR)|]. split.
    - intros a Ha. eapply discCons_asked; [exact A24|]. apply DC. rewrite Al1. destruct A04 as [_ [<- _]]. exact Ha.
    - exists k, m. rewrite !(asked_cont t2 t4) by auto. split; [auto|]. split; [auto|]. destruct X as [X|X]; [left; exact (related_asked _ _ _ _ A4 X)|right; exact (distinguished_le _ _ _ _ D4 X)]. }
  destruct r3 as [r3|].
  - injection E as <- <-. split; [auto|]. split; [auto|]. split; [auto|]. apply CP; [apply same_asked, same_refl|intros x y; auto|]. left. eapply related_asked; [apply (proj1 ML3)|exact MR3].
  - bind_inv E. destruct a as [t4 b4]. injection E as <- <-. unfold resolveContinuous in E2. bind_inv E2. destruct a as [t5 r5]. assert (AK := findBreaking_asked _ _ _ _ _ _ _ _ E). assert (FB := findBreaking_spec _ _ _ _ _ _ _ _ C3 E).
    apply (findBreaking_str o f Inv HO RI) in E; [|apply sufShape_pred|apply (s_suf _ _ t3 H3)|auto]. destruct E as [HA HB]. destruct r5 as [s|].
    + bind_inv E2. injection E2 as <- <-. cbn [negb]. destruct HB as [HB1 HB2]. destruct FB as [Q [FB1 [FB2 FB3]]]. assert (Ep3 : otPre t3 = otPre t) by (destruct AK13 as [_ [_ [K _]]]; exact K). assert (Es3 : otSuf t3 = otSuf t) by (destruct AK13 as [_ [_ [_ [K _]]]]; exact K).
      destruct (addSuffix_fin t3 t5 s a i j H3 F3 R3 AK Q HA HB1 FB1 FB2) as [X1 [X2 [X3 X4]]]; [rewrite Ep3; auto|rewrite Ep3; auto|exact E|].
      split; [auto|]. split; [auto|]. exists s. rewrite <- Es3. split; [auto|]. auto.
    + injection E2 as <- <-. cbn [negb]. destruct FB as [Q FB]. assert (ML5 : memoLe t3 t5) by (apply relSame_le; auto). split; [apply ML5; auto|]. split; [auto|]. split; [eapply memoLe_trans; eauto|].
      apply CP; [auto|apply ML5|right; auto].
Qed.
Lemma consistentLoop_spec : forall ps t t' b, (forall i j, In (i, j) ps -> In i (otP t) /\ In j (otP t)) -> strt t -> filled t -> relOK t -> colOK t -> allSat (otMem t') -> consistentLoop o place t ps = Ok (t', b) ->
  relOK t' /\ colOK t' /\ if b then memoLe t t' /\ forall i j, In (i, j) ps -> (j < i)%nat -> consPair t' i j else exists i j, In (i, j) ps /\ (j < i)%nat /\ separated t t' i j.
Proof using HO RI.
  induction ps as [|[i j] ps IH]; intros t t' b L H F R C A E; cbn [consistentLoop] in E; [injection E as <- <-; split; [auto|]; split; [auto|]; split; [apply memoLe_refl|intros ? ? []]|].
  assert (L' : forall a b, In (a, b) ps -> In a (otP t) /\ In b (otP t)) by (intros a c Hc; apply L; right; auto).
  destruct (Nat.leb_spec i j) as [N|N].
  - destruct (IH t t' b L' H F R C A E) as [X1 [X2 X3]]. split; [auto|]. split; [auto|]. destruct b.
    + destruct X3 as [X3 X4]. split; [auto|]. intros a c [K|K] Lt; [injection K as <- <-; lia|auto].
    + destruct X3 as [a [c [X3 X4]]]. exists a, c. split; [right; auto|auto].
  - bind_inv E. destruct a as [t1 b1]. destruct (L i j (or_introl eq_refl)) as [Pi Pj].
    assert (A1 : allSat (otMem t1)) by (destruct b1; [eapply tle_allSat; [eapply consistentLoop_le; exact E|exact A]|injection E as <- <-; auto]).
    destruct (pairConsistent_spec t i j t1 b1 Pi Pj H F R C A1 E0) as [R1 [C1 B1]]. destruct (pairConsistent_str o f Inv place HO RI t i j t1 b1 H F E0) as [H1 [F1 [Ep [EP _]]]].
    destruct b1; [|injection E as <- <-; split; [auto|]; split; [auto|]; exists i, j; split; [left; auto|auto]]. destruct B1 as [ML CP].
    destruct (IH t1 t' b) as [X1 [X2 X3]]; auto; [rewrite EP; auto|]. split; [auto|]. split; [auto|]. destruct b.
    + destruct X3 as [X3 X4]. split; [eapply memoLe_trans; eauto|]. intros a c [K|K] Lt; [injection K as <- <-; eapply consPair_memo; eauto|auto].
    + destruct X3 as [a [c [X3 [X4 [s [X5 [X6 X7]]]]]]]. exists a, c. split; [right; auto|]. split; [auto|]. exists s. destruct ML as [[_ [_ [Ep1 [Es _]]]] _]. split; [congruence|]. split; [|auto]. destruct X6 as [r X6]. exists r. eapply validRel_ext; [| |exact X6]; congruence.
Qed.
Definition consistentT (t : tbl) : Prop := forall i j, In i (otP t) -> In j (otP t) -> (j < i)%nat -> consPair t i j.
Lemma consistent_spec t t' b : strt t -> filled t -> relOK t -> colOK t -> allSat (otMem t') -> consistent o ordP place t = Ok (t', b) ->
  relOK t' /\ colOK t' /\ if b then memoLe t t' /\ consistentT t' else exists i j, In i (otP t) /\ In j (otP t) /\ (j < i)%nat /\ separated t t' i j.
Proof using HO RI HordP.
  intros H F R C A E. unfold consistent in E. assert (IP : forall i j, In (i, j) (list_prod (ordP t) (ordP t)) <-> In i (otP t) /\ In j (otP t)) by (intros i j; rewrite in_prod_iff, !(ordP_in ordP HordP); tauto).
  apply consistentLoop_spec in E; auto; [|intros i j K; apply IP; auto]. destruct E as [X1 [X2 X3]]. split; [auto|]. split; [auto|]. destruct b.
  - destruct X3 as [X3 X4]. split; [auto|]. intros i j Hi Hj. assert (EP : otP t' = otP t) by (destruct X3 as [[_ [_ [_ [_ [_ [K _]]]]]] _]; exact K). rewrite EP in Hi, Hj. apply X4. apply IP. auto.
  - destruct X3 as [i [j [X3 X4]]]. apply IP in X3. destruct X3. eauto 6.
Qed.
Lemma closedT_memo t t' : memoLe t t' -> closedT f t -> closedT f t'.
Proof. intros [A [_ [_ [FI _]]]] H i Hi P. apply FI, H; [destruct A as [_ [_ [<- _]]]; auto|]. unfold inP in *. destruct A as [_ [_ [_ [_ [_ [<- _]]]]]]. exact P. Qed.
Lemma consistentT_memo t t' : memoLe t t' -> consistentT t -> consistentT t'.
Proof. intros ML H i j Hi Hj L. assert (EP : otP t' = otP t) by (destruct ML as [[_ [_ [_ [_ [_ [K _]]]]]] _]; exact K). rewrite EP in Hi, Hj. eapply consPair_memo; eauto. Qed.
End Cons.
