(** The candidate renamings and the renaming found. *)
From Coq Require Import QArith Bool List Arith Lia Lqa.
From Verif Require Import BoundsModel BoundsProofs ConstraintModel ZoneModel ZoneSpec ZoneProofs ZoneProofs2 AutomatonModel
  TimedWordModel TimedWordSpec TimedConditionModel TimedConditionSpec TimedConditionProofs TimedConditionProofs4 ElementaryModel
  ElementarySpec LooseProofs RegionalModel RegionalSpec OracleModel SymbolicModel SymbolicSpec CexModel CexSpec CexProofs RenamingModel RenamingSpec RenamingProofs RenamingProofs2 RenamingProofs3.
Import ListNotations.

Definition sameB (a b : bound) : Prop := ble a b = true /\ ble b a = true.
Lemma sameB_snd a b : sameB a b -> bSnd a = bSnd b.
Proof.
  intros [A B]. rewrite ble_spec in A, B. destruct a as [c s|], b as [d t|]; cbn [bSnd]; auto.
  - destruct s, t; auto; exfalso.
    + specialize (A c). specialize (B ((c + d) / 2)%Q). cbn in A, B. assert (E : ((c + d) / 2 == (c + d) * (1#2))%Q) by field.
      assert (c < d)%Q by (apply A; lra). assert (c < d)%Q by lra. lra || (specialize (B ltac:(lra)); lra).
    + specialize (B d). cbn in B. assert (d < c)%Q by (apply B; lra). specialize (A ((c + d) / 2)%Q). cbn in A. assert (E : ((c + d) / 2 == (c + d) * (1#2))%Q) by field. specialize (A ltac:(lra)). lra.
  - exfalso. specialize (B (c + 1)%Q I). cbn in B. destruct s; cbn in B; lra.
  - exfalso. specialize (A (d + 1)%Q I). cbn in A. destruct t; cbn in A; lra.
Qed.

Section Cands.
Variables (l r : tcond) (lcon rcon : list nat).
Hypotheses (Dl : desc l) (Dr : desc r) (Cr : closed r) (Nr : nonneg2 r).
Let g := toGraph l r.
Definition pairOk (p : nat * nat) : Prop :=
  (fst p < tcSize l)%nat /\ (snd p < tcSize r)%nat /\ sameB (ubN l (fst p)) (ubN r (snd p)) /\ bSnd (ubN r (snd p)) = false.
(** ascending on the right, never descending on the left *)
Inductive ordered : renaming -> Prop :=
| or_nil : ordered []
| or_one p : ordered [p]
| or_snoc c p q : ordered (c ++ [p]) -> (fst p <= fst q)%nat -> (snd p < snd q)%nat -> ordered (c ++ [p] ++ [q]).
Definition takes (j : nat) : Prop := nth j (snd g) [] <> [] /\ bSnd (ubN r j) = false.
Record candOk (k : nat) (c : renaming) : Prop := {
  co_ok : forall p, In p c -> pairOk p /\ (snd p < k)%nat;
  co_ord : ordered c;
  co_last : (0 < k)%nat -> takes (k - 1) -> exists i c', c = c' ++ [(i, (k - 1)%nat)]
}.
Lemma zero_same j : (0 < j)%nat -> (j < tcSize r)%nat -> beqb (getUpperBound r (j - 1) (j - 1)) bz = true -> sameB (ubN r (j - 1)) (ubN r j).
Proof.
  intros H0 H E. split; [|apply Dr; lia]. apply andb_true_iff in E. destruct E as [E _].
  assert (E1 : getUpperBound r (j - 1) (j - 1) = get r j (j + 1)).
  { unfold getUpperBound, colOf. destruct (j - 1 =? tcSize r - 1)%nat eqn:X; [apply Nat.eqb_eq in X; lia|]. f_equal; lia. }
  assert (E2 : forall i, ubN r i = get r (i + 1) 0) by (intro i; unfold ubN, getUpperBound, colOf; rewrite Nat.eqb_refl; reflexivity).
  rewrite !E2. replace (j - 1 + 1)%nat with j by lia. rewrite E1 in E. unfold tcSize in H.
  apply (closed_tight r Cr Nr); [lia|lia|lia|]. intros w Hw.
  assert (A := Hw j (j + 1)%nat ltac:(lia) ltac:(lia)). assert (B := Hw (j + 1)%nat 0%nat ltac:(lia) ltac:(lia)).
  apply (ble_sat_1 _ _ E) in A. unfold bz in A. cbn [bsat] in A. revert A B. generalize (get r (j + 1) 0). intros [c s|] A B; cbn [bsat] in *; [destruct s; cbn in *; lra|exact I].
Qed.
Lemma takes_edge j i : In i (nth j (snd g) []) <-> (i < tcSize l)%nat /\ (j < tcSize r)%nat /\ sameB (ubN l i) (ubN r j).
Proof. exact (proj2 (toGraph_exact l r Dl Dr i j)). Qed.
Lemma takes_same j : (0 < j)%nat -> (j < tcSize r)%nat -> sameB (ubN r (j - 1)) (ubN r j) -> takes j -> takes (j - 1).
Proof.
  intros H0 H E [T1 T2]. split.
  - destruct (nth j (snd g) []) as [|i e] eqn:X; [congruence|]. assert (K : In i (nth j (snd g) [])) by (rewrite X; left; auto).
    apply takes_edge in K. destruct K as [A [B C]]. intro Y. assert (Z : In i (nth (j - 1) (snd g) [])); [|rewrite Y in Z; destruct Z].
    apply takes_edge. split; [auto|]. split; [lia|]. destruct E, C. split; eapply ble_trans; eauto.
  - rewrite (sameB_snd _ _ E). auto.
Qed.
Lemma candStep_ok k cs : (k < tcSize r)%nat -> (forall c, In c cs -> candOk k c) ->
  forall c, In c (candStep l r lcon rcon (snd g) cs k) -> candOk (S k) c.
Proof.
  intros Hk H c Hc. unfold candStep in Hc.
  destruct (match nth k (snd g) [] with [] => true | _ => false end || bSnd (ubN r k)) eqn:E.
  - destruct (H c Hc) as [A B C]. constructor; auto; [intros p Hp; destruct (A p Hp); split; auto; lia|].
    intros _ [T1 T2]. replace (S k - 1)%nat with k in * by lia. apply orb_true_iff in E. destruct E as [E|E]; [|congruence]. destruct (nth k (snd g) []); [congruence|discriminate].
  - apply orb_false_iff in E. destruct E as [E1 E2]. assert (TK : takes k) by (split; [intro X; rewrite X in E1; discriminate|auto]).
    apply in_flat_map in Hc. destruct Hc as [c0 [H0 Hc]]. destruct (H c0 H0) as [A B C]. unfold extendCand in Hc.
    destruct ((0 <? k)%nat && beqb (getUpperBound r (k - 1) (k - 1)) bz) eqn:E.
    + apply andb_true_iff in E. destruct E as [Ek Ez]. apply Nat.ltb_lt in Ek. assert (Sm := zero_same k Ek Hk Ez).
      assert (TP := takes_same k Ek Hk Sm TK). destruct (C Ek TP) as [i [c' ->]]. rewrite last_last in Hc. cbn [fst] in Hc. destruct Hc as [<-|[]].
      destruct (A (i, (k - 1)%nat)) as [[P1 [P2 [P3 P4]]] _]; [apply in_or_app; right; left; auto|]. cbn [fst snd] in *. constructor.
      * intros p Hp. apply in_app_or in Hp. destruct Hp as [Hp|[<-|[]]]; [destruct (A p Hp); split; auto; lia|]. split; [|cbn; lia].
        split; [auto|]. split; [auto|]. cbn [fst snd]. split; [|apply TK]. destruct Sm, P3. split; eapply ble_trans; eauto.
      * rewrite <- app_assoc. apply or_snoc; cbn; auto; lia.
      * intros _ _. exists i. eexists. f_equal. f_equal. f_equal. lia.
    + apply in_flat_map in Hc. destruct Hc as [i [Hi Hc]]. destruct (_ && _ && _) eqn:EE in Hc; [|destruct Hc]. destruct Hc as [<-|[]].
      apply andb_true_iff in EE. destruct EE as [EE _]. apply andb_true_iff in EE. destruct EE as [EE _]. apply Nat.leb_le in EE.
      apply takes_edge in Hi. destruct Hi as [I1 [I2 I3]]. constructor.
      * intros p Hp. apply in_app_or in Hp. destruct Hp as [Hp|[<-|[]]]; [destruct (A p Hp); split; auto; lia|]. split; [|cbn; lia].
        split; [auto|]. split; [auto|]. cbn [fst snd]. split; [auto|apply TK].
      * destruct c0 as [|p c0] using rev_ind; [apply or_one|]. rewrite <- app_assoc. apply or_snoc; [auto| |].
        -- rewrite last_last in EE. destruct c0; cbn [app fst] in *; lia.
        -- cbn [snd]. apply (A p). apply in_or_app. right. left. auto.
      * intros _ _. exists i, c0. f_equal. f_equal. f_equal. lia.
Qed.
Lemma genCandidates_ok c : In c (genCandidates l r lcon rcon g) -> (forall p, In p c -> pairOk p) /\ ordered c /\ hasImpreciseClocks c r = false.
Proof.
  unfold genCandidates. intro H. apply sortCands_in, filter_In in H. destruct H as [H I]. apply negb_true_iff in I.
  apply in_app_or in H. destruct H as [H|[<-|[]]]; [|split; [intros p []|split; [constructor|exact I]]].
  assert (G : forall n cs, (n <= tcSize r)%nat -> (forall c, In c cs -> candOk 0 c) -> forall c, In c (fold_left (candStep l r lcon rcon (snd g)) (seq 0 n) cs) -> candOk n c).
  { induction n as [|n IH]; intros cs Hn Hcs c0 Hc0; [auto|]. rewrite seq_S, fold_left_app in Hc0. cbn [fold_left Nat.add] in Hc0.
    eapply candStep_ok; [lia| |exact Hc0]. intros c1 H1. apply (IH cs); auto. lia. }
  destruct (G (tcSize r) [[]] (le_n _)) with (c := c) as [A B _]; [|exact H|split; [intros p Hp; apply (A p Hp)|auto]].
  intros c0 [<-|[]]. constructor; [intros p []|constructor|lia].
Qed.
End Cands.

(** * the renaming found *)
Lemma find_some_in {A} (f : A -> bool) l x : find f l = Some x -> In x l /\ f x = true.
Proof. apply find_some. Qed.
Lemma findDet_sound f x y sufs lr rr ren : wfElem x -> wfElem y -> (forall z, In z sufs -> looseElem z) ->
  (forall w, inElem x w -> Forall (fun q => (0 <= q)%Q) (td w)) -> (forall w, inElem y w -> Forall (fun q => (0 <= q)%Q) (td w)) ->
  exactRow f x sufs lr -> exactRow f y sufs rr ->
  findDet x lr (map (fun s => ec (elConcat x s)) sufs) y rr (map (fun s => ec (elConcat y s)) sufs) sufs = Some ren ->
  renIn ren x y /\ isRightUnique ren = true /\ indistinguishable f x y sufs ren.
Proof.
  intros Wx Wy W Nx Ny RX RY. unfold findDet. cbv zeta. destruct (negb _) eqn:E0; [discriminate|].
  destruct (equivB (ec x) lr (map (fun s => ec (elConcat x s)) sufs) (ec y) rr (map (fun s => ec (elConcat y s)) sufs) sufs []) eqn:E1.
  - intro H. injection H as <-. assert (RI : renIn [] x y) by (intros i j []). split; [auto|]. split; [reflexivity|]. eapply equivB_sound; eauto.
  - intro H. apply find_some_in in H. destruct H as [H E]. apply in_map_iff in H. destruct H as [c [Ec Hc]].
    apply genCandidates_ok in Hc; [|apply nonneg_desc; auto|apply nonneg_desc; auto|apply Wy|apply nonempty_nonneg2, Wy].
    destruct Hc as [PO _].
    assert (RG : forall p, In p c -> (fst p < tcSize (ec x))%nat /\ (snd p < tcSize (ec y))%nat) by (intros p Hp; destruct (PO p Hp) as [A [B _]]; auto).
    assert (RI : renIn ren x y).
    { intros i j Hij. assert (K : (fst (i, j) < tcSize (ec x))%nat /\ (snd (i, j) < tcSize (ec y))%nat).
      { destruct c as [|p0 c0]; [subst ren; destruct Hij|]. subst ren. exact (addImplicit_range _ (tcSize (ec x), jux (ec x) (ec y)) _ RG _ Hij). }
      cbn [fst snd] in K. destruct Wx as [_ Sx], Wy as [_ Sy]. rewrite Sx, Sy in K. lia. }
    split; [auto|]. split.
    + destruct c as [|p0 c0]; [subst ren; reflexivity|]. subst ren. apply addImplicit_unique.
    + eapply equivJ_sound; eauto.
Qed.
