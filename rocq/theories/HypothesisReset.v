(** The resets of the transitions of the hypothesis. *)
From Coq Require Import QArith Qround ZArith Bool List Arith Lia Lqa.
From Verif Require Import BoundsModel BoundsProofs ConstraintModel ZoneModel ZoneSpec ZoneProofs ZoneProofs2 ZoneProofs3 ZoneProofs4 ZoneProofs6 AutomatonModel AutomatonSpec AutomatonProofs AutomatonProofs2
  TimedWordModel TimedWordSpec TimedWordProofs TimedConditionModel TimedConditionSpec TimedConditionProofs TimedConditionProofs4 ElementaryModel
  ElementarySpec ElementaryProofs ElementaryProofs2 LooseProofs RegionalModel RegionalSpec OracleModel SymbolicModel SymbolicSpec CexModel CexSpec CexProofs CexProofs2
  RenamingModel RenamingSpec RenamingProofs RenamingProofs2 RenamingProofs5 RenamingProofs6 PropertiesZones HypothesisModel.
Import ListNotations.
Open Scope Q_scope.

Lemma const_point c x k : okCond c -> isSimple c = true -> (x < tcSize c)%nat -> (forall w, inZone c w -> w x == k) -> isPointAt c x = true.
Proof.
  intros O Si Hx H. destruct (simple_at c x O Si Hx) as [P|U]; [auto|exfalso]. destruct O as [D [C N]].
  assert (NN : nonneg2 c) by (destruct N as [w Hw]; apply (nonneg2_of_point _ _ Hw)). assert (T := closed_tight c C NN). unfold tcSize in Hx.
  assert (A : ble (get c (x + 1) 0) (Fin k true) = true).
  { apply T; try lia. intros w Hw. specialize (H w Hw). replace (x + 1)%nat with (S x) by lia. cbn [ext bsat]. lra. }
  assert (B : ble (get c 0 (x + 1)) (Fin (- k) true) = true).
  { apply T; try lia. intros w Hw. specialize (H w Hw). replace (x + 1)%nat with (S x) by lia. cbn [ext bsat]. lra. }
  unfold isUnitOpen in U. destruct (get c 0 (x + 1)) as [l ls|], (get c (x + 1) 0) as [u us|]; try discriminate.
  apply andb_true_iff in U. destruct U as [U _]. apply andb_true_iff in U. destruct U as [U _]. apply Qeq_bool_eq in U.
  assert (A' := proj1 (ble_spec _ _) A). assert (B' := proj1 (ble_spec _ _) B). clear A B.
  assert (A : ~ k < u). { intro L. assert (X := A' ((k + u) * (1#2))). cbn [bsat] in X. destruct us; cbn in X; lra. }
  assert (B : ~ - k < l). { intro L. assert (X := B' ((- k + l) * (1#2))). cbn [bsat] in X. destruct ls; cbn in X; lra. }
  lra.
Qed.
Lemma word_zone x p : wfElem x -> inElem x p -> inZone (ec x) (accd (td p)).
Proof. intros [O _] [_ I]. apply inCond_iff in I; [apply I|apply O]. Qed.
Lemma word_len x p : wfElem x -> inElem x p -> length (td p) = S (length (ew x)).
Proof. intros [_ Sz] [_ [L _]]. congruence. Qed.
Lemma zone_word x v : wfElem x -> inZone (ec x) v -> exists p, inElem x p /\ forall k, (k <= length (ew x))%nat -> since (td p) k == v k.
Proof.
  intros W H. assert (D := dim_size x W). destruct W as [O Sz]. assert (I := inZone_durs (ec x) v ltac:(lia) H). exists (mkTW (ew x) (durs (tcSize (ec x)) v)). split; [split; [reflexivity|exact I]|].
  intros k Hk. assert (L := proj1 I). cbn [td]. rewrite since_acc by (rewrite L; lia). apply durs_acc. lia.
Qed.

Section Ext.
Context (x y : elem) (r : list (nat * nat)).
Context (Wx : wfElem x) (Wy : wfElem y) (Sy : isSimple (ec y) = true) (Iy : intCond (ec y)) (RI : renIn r x y).
Context (EX : forall p, inElem x p -> exists p', inElem y p' /\ related r p p').
Context (HI : hasImpreciseClocks r (ec y) = false).
Definition jz := addRenaming (tcSize (ec x)) (jux (ec x) (ec y)) r.
Definition clos := uniqR None (sortR (makeRenaming (tcSize (ec x)) (tcSize (ec y)) jz)).

Lemma jz_words p p' : inElem x p -> inElem y p' -> related r p p' -> inZone jz (fun k => if (k <? S (length (ew x)))%nat then accd (td p) k else accd (td p') (k - S (length (ew x)))).
Proof using Wx Wy RI.
  intros I I' Rel. apply (pair_exact x y r Wx Wy RI). destruct (pair_dims x y Wx Wy) as [A [B C]]. split; [|split].
  - refine (inZone_ext _ _ _ _ (word_zone x p Wx I)). intros z Hz. assert (E : (z <? S (length (ew x)))%nat = true) by (apply Nat.ltb_lt; lia). rewrite E. reflexivity.
  - refine (inZone_ext _ _ _ _ (word_zone y p' Wy I')). intros z Hz. unfold rightPart. assert (E : (S (length (ew x)) + z <? S (length (ew x)))%nat = false) by (apply Nat.ltb_ge; lia). rewrite E.
    replace (S (length (ew x)) + z - S (length (ew x)))%nat with z by lia. reflexivity.
  - intros [i k] Hq. cbn [fst snd]. destruct (RI i k Hq) as [Hi Hk]. assert (E : (i <? S (length (ew x)))%nat = true) by (apply Nat.ltb_lt; lia). assert (E' : (S (length (ew x)) + k <? S (length (ew x)))%nat = false) by (apply Nat.ltb_ge; lia). rewrite E, E'.
    replace (S (length (ew x)) + k - S (length (ew x)))%nat with k by lia. specialize (Rel i k Hq). rewrite !since_acc in Rel; [exact Rel| |]; [rewrite (word_len y p')|rewrite (word_len x p)]; auto; lia.
Qed.
Lemma make_exact q : In q (makeRenaming (tcSize (ec x)) (tcSize (ec y)) jz) <-> (fst q <= length (ew x))%nat /\ (snd q <= length (ew y))%nat /\
  forall p p', inElem x p -> inElem y p' -> related r p p' -> since (td p) (fst q) == since (td p') (snd q).
Proof using Wx Wy RI EX.
  destruct (pair_dims x y Wx Wy) as [A [B C]]. assert (C' : tcSize (ec y) = S (length (ew y))) by (destruct Wy; auto). assert (Ok := pair_renOk x y r Wx Wy RI).
  assert (NZ : exists v, inZone jz v). { destruct (wfElem_inhabited x Wx) as [p Ip]. destruct (EX p Ip) as (p' & I' & Rl). eexists. apply (jz_words p p'); auto. }
  rewrite makeRenaming_exact.
  - rewrite C, C'. split; intros (H1 & H2 & H3); (split; [lia|]); (split; [lia|]).
    + intros p p' I I' Rl. specialize (H3 _ (jz_words p p' I I' Rl)). cbv beta in H3. assert (E : (fst q <? S (length (ew x)))%nat = true) by (apply Nat.ltb_lt; lia). assert (E' : (S (length (ew x)) + snd q <? S (length (ew x)))%nat = false) by (apply Nat.ltb_ge; lia). rewrite E, E' in H3.
      replace (S (length (ew x)) + snd q - S (length (ew x)))%nat with (snd q) in H3 by lia. rewrite !since_acc; [exact H3| |]; [rewrite (word_len y p')|rewrite (word_len x p)]; auto; lia.
    + intros w Hw. apply (pair_exact x y r Wx Wy RI) in Hw. destruct Hw as (W1 & W2 & W3). destruct (zone_word x w Wx W1) as (p & I & V). destruct (zone_word y _ Wy W2) as (p' & I' & V').
      specialize (H3 p p' I I'). rewrite V, V' in H3 by lia. apply H3. intros i k Hik. destruct (RI i k Hik) as [Hi Hk]. rewrite V, V' by auto. apply (W3 (i, k) Hik).
  - unfold jz. rewrite dim_addRenaming by exact Ok. rewrite dim_jux, A, B, C, C'. lia.
  - unfold jz. apply addRenaming_closed; auto; [apply pair_closed_jux; auto|]. destruct NZ as [v Hv]. apply (nonneg2_of_point _ _ Hv).
  - destruct NZ as [v Hv]. apply (nonneg2_of_point _ _ Hv).
Qed.
Lemma clos_in q : In q clos -> In q (makeRenaming (tcSize (ec x)) (tcSize (ec y)) jz).
Proof using. intro H. apply sortR_in. apply (uniqR_in _ _ _ H). Qed.
Lemma clos_right k : In k (map snd (makeRenaming (tcSize (ec x)) (tcSize (ec y)) jz)) -> In k (map snd clos).
Proof using.
  intro H. destruct (uniqR_rights (sortR (makeRenaming (tcSize (ec x)) (tcSize (ec y)) jz)) None k) as [E|E]; [|discriminate|exact E].
  apply in_map_iff in H. destruct H as (q & E & I). apply in_map_iff. exists q. split; [auto|]. apply sortR_in; auto.
Qed.
Lemma clos_sub q : In q r -> In q (makeRenaming (tcSize (ec x)) (tcSize (ec y)) jz).
Proof using Wx Wy RI EX. destruct q as [i k]. intro H. apply make_exact. cbn [fst snd]. destruct (RI i k H). split; [auto|]. split; [auto|]. intros p p' _ _ Rl. apply Rl; auto. Qed.
Lemma clos_renIn : renIn clos x y.
Proof using Wx Wy RI EX. intros i k H. apply clos_in in H. apply make_exact in H. cbn [fst snd] in H. tauto. Qed.
Lemma clos_nodup : NoDup (map snd clos).
Proof using.
  assert (B : ascending (map snd clos)) by (apply (uniqR_asc _ None (sortR_sorted _)); intros; discriminate).
  clear - B. induction B as [|a l H A IH]; constructor; auto. intro X. specialize (H a X). lia.
Qed.
Lemma clos_related p p' : inElem x p -> inElem y p' -> (related clos p p' <-> related r p p').
Proof using Wx Wy RI EX.
  intros I I'. split; intros H i k Hq.
  - assert (M := clos_sub (i, k) Hq). assert (Rk : In k (map snd clos)). { apply clos_right. apply in_map_iff. exists (i, k). auto. }
    apply in_map_iff in Rk. destruct Rk as ((i' & k') & E & Hc). cbn in E. subst k'. rewrite <- (H i' k Hc).
    destruct (EX p I) as (p0 & I0 & R0). apply clos_in in Hc. apply make_exact in Hc. apply make_exact in M. cbn [fst snd] in *.
    destruct Hc as (_ & _ & Hc), M as (_ & _ & M). rewrite (Hc p p0 I I0 R0), (M p p0 I I0 R0). reflexivity.
  - apply clos_in in Hq. apply make_exact in Hq. apply Hq; auto.
Qed.
Lemma clos_precise : hasImpreciseClocks clos (ec y) = false.
Proof using Wx Wy Sy Iy RI EX HI.
  assert (C' : tcSize (ec y) = S (length (ew y))) by (destruct Wy; auto).
  assert (K : renFull r (ec y) = true \/ onlyTrivial r (ec y) = true).
  { unfold hasImpreciseClocks in HI. destruct r; [right; reflexivity|]. cbn [andb] in HI. destruct (renFull _ _); [auto|]. destruct (onlyTrivial _ _); [auto|discriminate]. }
  destruct K as [K|K].
  - assert (F : renFull clos (ec y) = true).
    { apply all_full; [intros [i k] H; cbn [snd]; destruct (clos_renIn i k H); lia|]. intros k Hk. destruct (full_all r y k K) as [A|A]; [intros [i k'] H; cbn [snd]; destruct (RI i k' H); lia|auto| |auto].
      left. apply clos_right. apply in_map_iff in A. destruct A as (q & E & H). apply in_map_iff. exists q. split; [auto|]. apply clos_sub; auto. }
    unfold hasImpreciseClocks. rewrite F. cbn [negb]. rewrite andb_false_r. reflexivity.
  - assert (F : onlyTrivial clos (ec y) = true).
    { unfold onlyTrivial. apply forallb_forall. intros [i k] H. cbn [snd]. apply clos_in in H. apply make_exact in H. cbn [fst snd] in H. destruct H as (Hi & Hk & H).
      destruct (wfElem_inhabited x Wx) as [p Ip]. apply (const_point (ec y) k (since (td p) i)); [apply Wy|auto|lia|]. intros v Hv. destruct (zone_word y v Wy Hv) as (p' & I' & V). rewrite <- (V k Hk). symmetry. apply H; auto.
      intros a b Hab. destruct (RI a b Hab) as [Ha Hb]. unfold onlyTrivial in K. rewrite forallb_forall in K. specialize (K (a, b) Hab). cbn [snd] in K.
      destruct (point_value (ec y) b (proj1 Wy) Iy K ltac:(lia)) as [z Z]. destruct (EX p Ip) as (p0 & I0 & R0). rewrite (R0 a b Hab). rewrite (V b Hb), (Z v Hv).
      rewrite since_acc by (rewrite (word_len y p0); auto; lia). apply Z. apply (word_zone y p0 Wy I0). }
    unfold hasImpreciseClocks. rewrite F. cbn [negb]. rewrite andb_false_r. reflexivity.
Qed.
End Ext.
