From Coq Require Import QArith ZArith Bool List Lia Lqa.
From Verif Require Import BoundsModel BoundsProofs ConstraintModel GuardSpec.
Import ListNotations.
Open Scope Q_scope.

(** ** satisfy = holds *)
Lemma Qleb_true a b : Qle_bool a b = true <-> a <= b.
Proof. apply Qle_bool_iff. Qed.

Lemma satisfy_holds k d : satisfy k d = true <-> holds k d.
Proof.
  unfold satisfy, holds. destruct (codr k); rewrite ?Qltb_true, ?Qleb_true; tauto.
Qed.

Lemma gsatb_gsat g v : gsatb g v = true <-> gsat g v.
Proof.
  unfold gsatb, gsat. rewrite forallb_forall.
  split; intros H k Hk; apply satisfy_holds; auto.
Qed.

Lemma gsat_nil v : gsat [] v.
Proof. intros k []. Qed.

Lemma gsat_cons k g v : gsat (k :: g) v <-> holds k (v (cx k)) /\ gsat g v.
Proof.
  unfold gsat. split.
  - intro H; split; [apply H; left; reflexivity | intros k' Hk'; apply H; right; auto].
  - intros [H1 H2] k' [->|H']; auto.
Qed.

Lemma gsat_app g h v : gsat (g ++ h) v <-> gsat g v /\ gsat h v.
Proof.
  unfold gsat. split.
  - intro H; split; intros k Hk; apply H; apply in_or_app; auto.
  - intros [H1 H2] k Hk; apply in_app_or in Hk; destruct Hk; auto.
Qed.

Lemma gsat_ext g v w : (forall x, v x == w x) -> gsat g v -> gsat g w.
Proof.
  intros E H k Hk. specialize (H k Hk). specialize (E (cx k)).
  unfold holds in *. destruct (codr k); lra.
Qed.

(** ** C01 *)
Lemma cnegate_exact k d : holds (cnegate k) d <-> ~ holds k d.
Proof.
  unfold holds, cnegate. destruct k as [x o c]; cbn. destruct o; cbn; lra.
Qed.

Lemma cnegate_clock k : cx (cnegate k) = cx k.
Proof. unfold cnegate; destruct (codr k); reflexivity. Qed.

Lemma cnegate_const k : cc (cnegate k) = cc k.
Proof. unfold cnegate; destruct (codr k); reflexivity. Qed.

(** ** C02 *)
Lemma holds_dbm k d :
  holds k d <-> bsat (toDBMBound k) (if isUpper k then d else - d).
Proof.
  unfold holds, toDBMBound, isUpper. destruct k as [x o c]; cbn.
  rewrite inject_Z_opp. destruct o; cbn; lra.
Qed.

Lemma isWeaker1_sound l r d :
  isWeaker1 l r = true -> cx l = cx r /\ (holds r d -> holds l d).
Proof.
  unfold isWeaker1. destruct (Nat.eqb_spec (cx l) (cx r)) as [E|E]; [|discriminate].
  rewrite andb_true_iff, eqb_true_iff. intros [E1 E2]. split; [auto|].
  rewrite !holds_dbm, E1. apply ble_sat_1; auto.
Qed.

Lemma isWeaker_sound l r v : isWeaker l r = true -> gsat r v -> gsat l v.
Proof.
  unfold isWeaker. rewrite forallb_forall. intros H Hr k Hk.
  specialize (H k Hk). apply existsb_exists in H. destruct H as [k' [Hk' H]].
  apply isWeaker1_sound with (d := v (cx k)) in H. destruct H as [E H].
  apply H. rewrite E. apply Hr; auto.
Qed.

Lemma isWeaker_refl g : isWeaker g g = true.
Proof.
  unfold isWeaker. apply forallb_forall. intros k Hk. apply existsb_exists.
  exists k. split; [auto|]. unfold isWeaker1. rewrite Nat.eqb_refl, eqb_reflx, ble_refl. reflexivity.
Qed.

(** ** toBounds *)
Definition upOk (u : ibounds) (d : Q) : Prop :=
  u = maxUB \/ (if snd u then d <= inject_Z (fst u) else d < inject_Z (fst u)).
Definition loOk (l : ibounds) (d : Q) : Prop :=
  if snd l then inject_Z (fst l) <= d else inject_Z (fst l) < d.
Definition rowOk (ul : ibounds * ibounds) (d : Q) : Prop := upOk (fst ul) d /\ loOk (snd ul) d.

Definition tableOk (t : btable) (v : valuation) : Prop :=
  forall i, rowOk (nth i t defB) (v i).

(** table well-formedness: lower >= (0,true)-ish, upper below the sentinel *)
Definition rowWF (ul : ibounds * ibounds) : Prop :=
  (0 <= fst (snd ul))%Z /\ (fst ul = maxUB \/ (fst (fst ul) < INT_MAX)%Z)
  /\ (fst (snd ul) < INT_MAX)%Z.

Lemma nth_updNth {A} (d : A) n f l i :
  nth i (updNth n f l) d = if Nat.eqb i n then (if Nat.ltb n (length l) then f (nth n l d) else nth i l d) else nth i l d.
Proof.
  revert n i. induction l as [|a l IH]; intros [|n] [|i]; cbn; try reflexivity.
  - rewrite andb_comm || idtac. destruct (i =? n)%nat; reflexivity.
  - rewrite IH. destruct (Nat.eqb_spec i n); [|reflexivity].
    change (S n <? S (length l))%nat with (n <? length l)%nat. reflexivity.
Qed.

Lemma updNth_length {A} n (f : A -> A) l : length (updNth n f l) = length l.
Proof. revert n. induction l; intros [|n]; cbn; auto. Qed.

Lemma nth_repeat' {A} (d : A) n i : nth i (repeat d n) d = d.
Proof. revert i. induction n; intros [|i]; cbn; auto. Qed.

Lemma nth_resize t x i : nth i (resizeBounds t x) defB = nth i t defB.
Proof.
  unfold resizeBounds. destruct (Nat.lt_ge_cases i (length t)) as [L|L].
  - rewrite app_nth1; auto.
  - rewrite app_nth2, nth_repeat'; auto. rewrite nth_overflow; auto.
Qed.

Lemma resize_length t x : length (resizeBounds t x) = Nat.max (length t) (S x).
Proof. unfold resizeBounds. rewrite app_length, repeat_length. lia. Qed.

Definition updRow (k : constraint) (ul : ibounds * ibounds) :=
  if isUpper k
  then (if ib_ltb (toBound k) (fst ul) then toBound k else fst ul, snd ul)
  else (fst ul, if ib_ltb (ib_neg (toBound k)) (ib_neg (snd ul)) then toBound k else snd ul).

Lemma nth_toBoundsStep t k i :
  nth i (toBoundsStep t k) defB =
  if Nat.eqb i (cx k) then updRow k (nth i t defB) else nth i t defB.
Proof.
  unfold toBoundsStep. rewrite nth_updNth, !nth_resize.
  destruct (Nat.eqb_spec i (cx k)) as [->|]; [|reflexivity].
  rewrite resize_length. destruct (Nat.ltb_spec (cx k) (Nat.max (length t) (S (cx k)))) as [L|L]; [|lia].
  reflexivity.
Qed.

Lemma toBoundsStep_length t k : length (toBoundsStep t k) = Nat.max (length t) (S (cx k)).
Proof. unfold toBoundsStep. rewrite updNth_length, resize_length. reflexivity. Qed.

Lemma ib_eqb_eq a b : ib_eqb a b = true <-> a = b.
Proof.
  unfold ib_eqb. destruct a as [a1 a2], b as [b1 b2]; cbn.
  rewrite andb_true_iff, Z.eqb_eq, eqb_true_iff. split; [intros [-> ->]|intros [= -> ->]]; auto.
Qed.

Lemma ib_ltb_spec a b :
  ib_ltb a b = true <-> (fst a < fst b)%Z \/ (fst a = fst b /\ snd a = false /\ snd b = true).
Proof.
  unfold ib_ltb. rewrite orb_true_iff, !andb_true_iff, Z.ltb_lt, Z.eqb_eq, negb_true_iff. tauto.
Qed.

Lemma ib_ltb_false a b :
  ib_ltb a b = false <-> (fst b < fst a)%Z \/ (fst a = fst b /\ (snd a = true \/ snd b = false)).
Proof.
  destruct (ib_ltb a b) eqn:E.
  - apply ib_ltb_spec in E. split; [discriminate|]. intros H. exfalso.
    destruct (snd a), (snd b); intuition (try lia; try discriminate).
  - split; [intros _|auto].
    destruct (Z.lt_trichotomy (fst a) (fst b)) as [L|[L|L]].
    + assert (ib_ltb a b = true) by (apply ib_ltb_spec; auto). congruence.
    + right. split; [auto|]. destruct (snd a) eqn:Ea; [auto|]. destruct (snd b) eqn:Eb; [|auto].
      assert (ib_ltb a b = true) by (apply ib_ltb_spec; auto). congruence.
    + auto.
Qed.

Ltac zq :=
  repeat match goal with
  | H : (_ < _)%Z |- _ => rewrite Zlt_Qlt in H
  | H : (_ <= _)%Z |- _ => rewrite Zle_Qle in H
  end.

Lemma updRow_ok k ul d :
  (cc k < INT_MAX)%Z -> rowWF ul -> 0 <= d ->
  (rowOk (updRow k ul) d <-> rowOk ul d /\ holds k d) /\ rowWF (updRow k ul).
Proof.
  destruct k as [x o c], ul as [[u us] [l ls]]. cbn [cc]. intros Hc [W1 [W2 W3]] Hd.
  cbn [fst snd] in *.
  unfold updRow, rowOk, rowWF, holds, upOk, loOk, maxUB, isUpper, toBound in *. cbn [codr cc fst snd] in *.
  assert (Hsent : (u, us) = (INT_MAX, false) \/ (u < INT_MAX)%Z) by exact W2. clear W2.
  destruct o; cbn [codr];
    match goal with |- context [ib_ltb ?a ?b] => destruct (ib_ltb a b) eqn:E end;
    [apply ib_ltb_spec in E | apply ib_ltb_false in E
    |apply ib_ltb_spec in E | apply ib_ltb_false in E
    |apply ib_ltb_spec in E | apply ib_ltb_false in E
    |apply ib_ltb_spec in E | apply ib_ltb_false in E];
    unfold ib_neg in E; cbn [fst snd] in *.
  all: split.
  all: try (split; [lia|split]; auto; try lia; fail).
  - (* lt, new *)
    split.
    + intros [[H|H] Hl]; [inversion H; lia|]. split; [split; [right|auto]|auto].
      destruct E as [E|[E [E1 E2]]]; [zq; destruct us; lra|subst; lra].
    + intros [[_ Hl] Hh]. split; [right; exact Hh|exact Hl].
  - (* lt, kept *)
    split; [|tauto]. intros [Hu Hl]. split; [split; auto|].
    destruct Hu as [Hu|Hu].
    + inversion Hu; subst. destruct E as [E|[E _]]; lia.
    + destruct E as [E|[E E1]].
      * zq. destruct us; lra.
      * subst. destruct us; [destruct E1; discriminate|lra].
  - split.
    + intros [[H|H] Hl]; [inversion H|]. split; [split; [right|auto]|auto].
      destruct E as [E|[E [E1 E2]]]; [zq; destruct us; lra|discriminate].
    + intros [[_ Hl] Hh]. split; [right; exact Hh|exact Hl].
  - split; [|tauto]. intros [Hu Hl]. split; [split; auto|].
    destruct Hu as [Hu|Hu].
    + inversion Hu; subst. destruct E as [E|[E _]]; lia.
    + destruct E as [E|[E E1]].
      * zq. destruct us; lra.
      * subst. destruct us; lra.
  - split; [|tauto]. intros [Hu Hl]. split; [split; auto|].
    + destruct E as [E|[E [E1 E2]]]; [|discriminate].
      assert (E' : (l < c)%Z) by lia. zq. destruct ls; lra.
    + exact Hl.
  - split; [|tauto]. intros [Hu Hl]. split; [split; auto|].
    destruct E as [E|[E E1]].
    + assert (E' : (c < l)%Z) by lia. zq. destruct ls; lra.
    + assert (E' : c = l) by lia. subst. destruct ls; lra.
  - split; [|tauto]. intros [Hu Hl]. split; [split; auto|].
    + destruct E as [E|[E [E1 E2]]].
      * assert (E' : (l < c)%Z) by lia. zq. destruct ls; lra.
      * assert (E' : c = l) by lia. subst. lra.
    + exact Hl.
  - split; [|tauto]. intros [Hu Hl]. split; [split; auto|].
    destruct E as [E|[E E1]].
    + assert (E' : (c < l)%Z) by lia. zq. destruct ls; lra.
    + assert (E' : c = l) by lia. subst. destruct ls; [destruct E1; discriminate|lra].
Qed.

Definition tableWF (t : btable) : Prop := forall i, rowWF (nth i t defB).

Lemma defB_wf : rowWF defB.
Proof. unfold rowWF, defB, maxUB, minLB, INT_MAX; cbn. lia || (split; [lia|split; [auto|lia]]). Qed.

Lemma defB_ok d : 0 <= d -> rowOk defB d.
Proof. intro H. split; [left; reflexivity|exact H]. Qed.

Lemma toBounds_fold g : forall t v,
  smallConsts g -> tableWF t -> nonneg v ->
  let t' := fold_left toBoundsStep g t in
  (tableOk t' v <-> tableOk t v /\ gsat g v) /\ tableWF t'.
Proof.
  induction g as [|k g IH]; intros t v Hs Hw Hv; cbn [fold_left].
  - split; [|auto]. split; [intro H; split; [auto|apply gsat_nil]|tauto].
  - assert (Hk : (cc k < INT_MAX)%Z) by (apply Hs; left; reflexivity).
    assert (Hw' : tableWF (toBoundsStep t k)).
    { intro i. rewrite nth_toBoundsStep. destruct (i =? cx k)%nat; [|apply Hw].
      apply (updRow_ok k _ 0 Hk (Hw i)). lra. }
    specialize (IH (toBoundsStep t k) v (fun k' H => Hs k' (or_intror H)) Hw' Hv).
    destruct IH as [IH1 IH2]. split; [|auto].
    rewrite IH1, gsat_cons.
    assert (E : tableOk (toBoundsStep t k) v <-> tableOk t v /\ holds k (v (cx k))).
    { split.
      - intro H. split.
        + intro i. specialize (H i). rewrite nth_toBoundsStep in H.
          destruct (Nat.eqb_spec i (cx k)) as [E0|N0]; [|exact H]. rewrite E0 in *.
          apply (updRow_ok k _ _ Hk (Hw (cx k)) (Hv (cx k))) in H. tauto.
        + specialize (H (cx k)). rewrite nth_toBoundsStep, Nat.eqb_refl in H.
          apply (updRow_ok k _ _ Hk (Hw (cx k)) (Hv (cx k))) in H. tauto.
      - intros [H1 H2] i. rewrite nth_toBoundsStep.
        destruct (Nat.eqb_spec i (cx k)) as [E0|N0]; [|apply H1]. rewrite E0.
        apply (updRow_ok k _ _ Hk (Hw (cx k)) (Hv (cx k))). auto. }
    tauto.
Qed.

Lemma nil_wf : tableWF [].
Proof. intros [|i]; apply defB_wf. Qed.

Lemma toBounds_wf g : smallConsts g -> tableWF (toBounds g).
Proof.
  intro H. unfold toBounds.
  apply (toBounds_fold g [] (fun _ => 0)); auto; [apply nil_wf|]. intro; lra.
Qed.

Lemma toBounds_ok g v : smallConsts g -> nonneg v -> (tableOk (toBounds g) v <-> gsat g v).
Proof.
  intros H Hv. unfold toBounds.
  destruct (toBounds_fold g [] v H nil_wf Hv) as [E _]. rewrite E.
  split; [tauto|]. intro Hg; split; [|auto]. intro i. destruct i; apply defB_ok; apply Hv.
Qed.

(** ** C03 satisfiable *)
Definition pick (ul : ibounds * ibounds) : Q :=
  let '(u, l) := ul in if snd l then inject_Z (fst l) else inject_Z (fst l) + (1#2).

Lemma pick_ok ul : rowWF ul -> rowSat ul = true -> rowOk ul (pick ul) /\ 0 <= pick ul.
Proof.
  destruct ul as [[u us] [l ls]]. unfold rowWF, rowSat, rowOk, upOk, loOk, pick, maxUB. cbn [fst snd].
  rewrite negb_true_iff, orb_false_iff, Z.ltb_ge. intros [W1 [W2 W3]] [H1 H2].
  assert (H3 : (l < u)%Z \/ (l = u /\ ls = true /\ us = true)).
  { destruct (Z.eqb_spec l u) as [->|N]; [|left; lia].
    right. cbn in H2. rewrite negb_false_iff, andb_true_iff in H2. tauto. }
  assert (P0 : 0 <= inject_Z l) by (rewrite Zle_Qle in W1; exact W1).
  destruct H3 as [H3|[-> [-> ->]]].
  - assert (H4 : inject_Z l + 1 <= inject_Z u).
    { change 1 with (inject_Z 1). rewrite <- inject_Z_plus, <- Zle_Qle. lia. }
    destruct ls; (split; [split|]); try lra; right; destruct us; lra.
  - split; [split|]; [right| |]; lra.
Qed.

Lemma rowSat_complete ul d : rowWF ul -> rowOk ul d -> rowSat ul = true.
Proof.
  destruct ul as [[u us] [l ls]]. unfold rowWF, rowSat, rowOk, upOk, loOk, maxUB. cbn [fst snd].
  intros [W1 [W2 W3]] [[Hu|Hu] Hl].
  - inversion Hu; subst. apply negb_true_iff, orb_false_iff. split; [apply Z.ltb_ge; lia|].
    apply andb_false_iff. left. apply Z.eqb_neq. lia.
  - apply negb_true_iff, orb_false_iff.
    assert (E : inject_Z l <= inject_Z u) by (destruct us, ls; lra).
    split; [apply Z.ltb_ge; rewrite Zle_Qle; exact E|].
    apply andb_false_iff. destruct (Z.eqb_spec l u) as [->|]; [right|left; reflexivity].
    destruct us, ls; cbn; try reflexivity; exfalso; lra.
Qed.

Lemma nth_forall {A} (P : A -> Prop) (l : list A) d : (forall i, P (nth i l d)) -> forall a, In a l -> P a.
Proof. intros H a Ha. destruct (In_nth l a d Ha) as [i [_ E]]. rewrite <- E. apply H. Qed.

Lemma satisfiable_exact g :
  smallConsts g -> (satisfiable g = true <-> exists v, nonneg v /\ gsat g v).
Proof.
  intro Hs. assert (Hw := toBounds_wf g Hs). unfold satisfiable. rewrite forallb_forall. split.
  - intro H. exists (fun i => pick (nth i (toBounds g) defB)).
    assert (Hp : forall i, rowOk (nth i (toBounds g) defB) (pick (nth i (toBounds g) defB))
                           /\ 0 <= pick (nth i (toBounds g) defB)).
    { intro i. apply pick_ok; [apply Hw|].
      destruct (Nat.lt_ge_cases i (length (toBounds g))) as [L|L].
      - apply H. apply nth_In. exact L.
      - rewrite nth_overflow; auto. }
    assert (Hn : nonneg (fun i => pick (nth i (toBounds g) defB))) by (intro i; apply Hp).
    split; [exact Hn|]. apply toBounds_ok; auto. intro i. apply Hp.
  - intros [v [Hv Hg]]. apply toBounds_ok in Hg; auto.
    intros ul Hul. destruct (In_nth _ _ defB Hul) as [i [_ E]].
    apply (rowSat_complete ul (v i)); rewrite <- E; [apply Hw|apply Hg].
Qed.

(** ** C04 simplify *)
Lemma rowLower_ok i l v : nonneg v -> (gsat (rowLower i l) v <-> loOk l (v i)).
Proof.
  intro Hv. unfold rowLower. destruct (ib_eqb l minLB) eqn:E.
  - apply ib_eqb_eq in E. subst. split; [intros _; apply Hv|intros _; apply gsat_nil].
  - destruct l as [l ls]. unfold loOk; cbn [fst snd]. destruct ls; rewrite gsat_cons; unfold holds; cbn.
    + split; [tauto|]. split; [auto|apply gsat_nil].
    + split; [tauto|]. split; [auto|apply gsat_nil].
Qed.

Lemma rowUpper_ok i u v : gsat (rowUpper i u) v <-> upOk u (v i).
Proof.
  unfold rowUpper. destruct (ib_eqb u maxUB) eqn:E.
  - apply ib_eqb_eq in E. subst. split; [intros _; left; reflexivity|intros _; apply gsat_nil].
  - assert (N : u <> maxUB) by (intro H; apply ib_eqb_eq in H; congruence).
    destruct u as [u us]. unfold upOk; cbn [fst snd]. destruct us; rewrite gsat_cons; unfold holds; cbn.
    + split; [intros [H _]; auto|]. intros [H|H]; [contradiction|]. split; [auto|apply gsat_nil].
    + split; [intros [H _]; auto|]. intros [H|H]; [contradiction|]. split; [auto|apply gsat_nil].
Qed.

Lemma gsat_flat_map {A} (f : A -> guard) l v :
  gsat (flat_map f l) v <-> forall a, In a l -> gsat (f a) v.
Proof.
  induction l as [|a l IH]; cbn.
  - split; [intros _ a []|intros _; apply gsat_nil].
  - rewrite gsat_app, IH. split.
    + intros [H1 H2] b [->|Hb]; auto.
    + intro H; split; [apply H; auto|intros b Hb; apply H; auto].
Qed.

Lemma simplify_ok g v : smallConsts g -> nonneg v -> (gsat (simplify g) v <-> gsat g v).
Proof.
  intros Hs Hv. rewrite <- (toBounds_ok g v Hs Hv). unfold simplify.
  rewrite gsat_app, !gsat_flat_map. split.
  - intros [H1 H2] i. destruct (Nat.lt_ge_cases i (length (toBounds g))) as [L|L].
    + assert (Hi : In i (seq 0 (length (toBounds g)))) by (apply in_seq; lia).
      split; [apply (rowUpper_ok i); apply H2; auto | apply (rowLower_ok i); auto].
    + rewrite nth_overflow; auto. apply defB_ok, Hv.
  - intro H. split; intros i _; [apply rowLower_ok; auto|apply rowUpper_ok]; apply H.
Qed.

Lemma simplify_small g : smallConsts g -> smallConsts (simplify g).
Proof.
  intros Hs. assert (Hw := toBounds_wf g Hs). intros k Hk. unfold simplify in Hk.
  apply in_app_or in Hk. destruct Hk as [Hk|Hk]; apply in_flat_map in Hk; destruct Hk as [i [_ Hk]];
    destruct (Hw i) as [W1 [W2 W3]]; destruct (nth i (toBounds g) defB) as [[u us] [l ls]]; cbn [fst snd] in *.
  - unfold rowLower in Hk. destruct (ib_eqb (l, ls) minLB); [destruct Hk|].
    destruct ls; cbn in Hk; destruct Hk as [<-|[]]; exact W3.
  - unfold rowUpper in Hk. destruct (ib_eqb (u, us) maxUB) eqn:E; [destruct Hk|].
    destruct W2 as [W2|W2]; [exfalso; apply (proj2 (ib_eqb_eq _ _)) in W2; congruence|].
    destruct us; cbn in Hk; destruct Hk as [<-|[]]; exact W2.
Qed.

(** keys of simplify are pairwise distinct *)
Lemma NoDup_app_intro {A} (l1 l2 : list A) :
  NoDup l1 -> NoDup l2 -> (forall a, In a l1 -> ~ In a l2) -> NoDup (l1 ++ l2).
Proof.
  induction l1 as [|a l1 IH]; cbn; intros H1 H2 H; [auto|].
  inversion H1; subst. constructor.
  - rewrite in_app_iff. intros [X|X]; [auto|]. apply (H a); auto.
  - apply IH; auto.
Qed.

Lemma NoDup_flat_map_key {A B} (f : nat -> list A) (key : A -> B) (tag : nat -> B) l :
  (forall i a, In a (f i) -> key a = tag i) ->
  (forall i, (length (f i) <= 1)%nat) ->
  (forall i j, tag i = tag j -> i = j) ->
  NoDup l -> NoDup (map key (flat_map f l)).
Proof.
  intros Hk Hl Hi. induction l as [|i l IH]; cbn; intro Hn; [constructor|].
  inversion Hn; subst. rewrite map_app. apply NoDup_app_intro.
  - specialize (Hl i). destruct (f i) as [|a [|b r]]; cbn in *; [constructor| |lia].
    constructor; [intros []|constructor].
  - auto.
  - intros b Hb1 Hb2. apply in_map_iff in Hb1, Hb2.
    destruct Hb1 as [a [E1 Ha]]. destruct Hb2 as [a' [E2 Ha']].
    apply in_flat_map in Ha'. destruct Ha' as [j [Hj Ha']].
    apply Hk in Ha, Ha'. assert (tag i = tag j) by congruence. apply Hi in H. subst. auto.
Qed.

Lemma simplify_nonRedundant g : nonRedundant (simplify g).
Proof.
  unfold nonRedundant, simplify. rewrite map_app. apply NoDup_app_intro.
  - apply (NoDup_flat_map_key _ _ (fun i => (i, false))).
    + intros i a H. unfold rowLower in H.
      destruct (ib_eqb _ _); [destruct H|]. destruct (snd _); cbn in H; destruct H as [<-|[]]; reflexivity.
    + intro i. unfold rowLower. destruct (ib_eqb _ _); cbn; [lia|]. destruct (snd _); cbn; lia.
    + intros i j E; injection E; auto.
    + apply seq_NoDup.
  - apply (NoDup_flat_map_key _ _ (fun i => (i, true))).
    + intros i a H. unfold rowUpper in H.
      destruct (ib_eqb _ _); [destruct H|]. destruct (snd _); cbn in H; destruct H as [<-|[]]; reflexivity.
    + intro i. unfold rowUpper. destruct (ib_eqb _ _); cbn; [lia|]. destruct (snd _); cbn; lia.
    + intros i j E; injection E; auto.
    + apply seq_NoDup.
  - intros [i b] H1 H2. apply in_map_iff in H1, H2.
    destruct H1 as [k [E1 H1]], H2 as [k' [E2 H2]].
    apply in_flat_map in H1, H2. destruct H1 as [a [_ H1]], H2 as [a' [_ H2]].
    unfold rowLower in H1; unfold rowUpper in H2.
    destruct (ib_eqb _ _) in H1; [destruct H1|]. destruct (ib_eqb _ _) in H2; [destruct H2|].
    destruct (snd _) in H1; destruct (snd _) in H2; cbn in H1, H2; destruct H1 as [<-|[]]; destruct H2 as [<-|[]];
      cbn in *; congruence.
Qed.

(** ** C05 negateDNF *)
Lemma dnfsat_nil v : ~ dnfsat [] v.
Proof. intros [g [[] _]]. Qed.

Lemma dnfsat_app a b v : dnfsat (a ++ b) v <-> dnfsat a v \/ dnfsat b v.
Proof.
  unfold dnfsat. split.
  - intros [g [H1 H2]]. apply in_app_or in H1. destruct H1; [left|right]; eauto.
  - intros [[g [H1 H2]]|[g [H1 H2]]]; exists g; split; auto; apply in_or_app; auto.
Qed.

Lemma dnfsat_cons g b v : dnfsat (g :: b) v <-> gsat g v \/ dnfsat b v.
Proof.
  change (g :: b) with ([g] ++ b). rewrite dnfsat_app. split; intros [H|H]; auto.
  - destruct H as [h [[<-|[]] H]]. auto.
  - left. exists g. split; [left; reflexivity|auto].
Qed.

Lemma eraseStronger_ok rest : forall kept v,
  dnfsat (eraseStronger kept rest) v <-> dnfsat kept v \/ dnfsat rest v.
Proof.
  induction rest as [|g r IH]; intros kept v; cbn [eraseStronger].
  - split; [auto|]. intros [H|H]; [auto|]. destruct (dnfsat_nil _ H).
  - destruct (existsb _ r || existsb _ kept) eqn:E.
    + rewrite IH, dnfsat_cons. split; [tauto|].
      intros [H|[H|H]]; auto.
      apply orb_true_iff in E. destruct E as [E|E]; apply existsb_exists in E; destruct E as [h [Hh E]];
        apply (isWeaker_sound _ _ v E) in H; [right|left]; exists h; auto.
    + rewrite IH, dnfsat_app, !dnfsat_cons. split; intuition. destruct (dnfsat_nil _ H0).
Qed.

Definition allSmall (gs : list guard) : Prop := forall g, In g gs -> smallConsts g.

Lemma eraseStronger_incl rest : forall kept g,
  In g (eraseStronger kept rest) -> In g kept \/ In g rest.
Proof.
  induction rest as [|h r IH]; intros kept g H; cbn in *; [auto|].
  destruct (existsb _ r || existsb _ kept).
  - apply IH in H. tauto.
  - apply IH in H. rewrite in_app_iff in H. cbn in H. tauto.
Qed.

Lemma smallConsts_app g h : smallConsts g -> smallConsts h -> smallConsts (g ++ h).
Proof. intros H1 H2 k Hk. apply in_app_or in Hk. destruct Hk; auto. Qed.

Lemma dnfProduct_ok d dnf v :
  smallConsts d -> allSmall dnf -> nonneg v ->
  (dnfsat (dnfProduct d dnf) v <-> dnfsat dnf v /\ exists k, In k d /\ holds k (v (cx k))).
Proof.
  intros Hd Hdnf Hv. unfold dnfProduct. split.
  - intros [g [Hg Hs]]. apply in_flat_map in Hg. destruct Hg as [k [Hk Hg]].
    apply in_flat_map in Hg. destruct Hg as [c [Hc Hg]].
    destruct (satisfiable (c ++ [k])); [|destruct Hg]. destruct Hg as [<-|[]].
    assert (Hsm : smallConsts (c ++ [k])).
    { apply smallConsts_app; [apply Hdnf; auto|]. intros k' [<-|[]]. apply Hd; auto. }
    apply (proj1 (simplify_ok _ _ Hsm Hv)) in Hs. apply gsat_app in Hs. destruct Hs as [H1 H2].
    split; [exists c; auto|]. exists k. split; [auto|]. apply H2. left; reflexivity.
  - intros [[c [Hc Hs]] [k [Hk Hh]]].
    assert (Hsm : smallConsts (c ++ [k])).
    { apply smallConsts_app; [apply Hdnf; auto|]. intros k' [<-|[]]. apply Hd; auto. }
    assert (Hsat : gsat (c ++ [k]) v).
    { apply gsat_app; split; [auto|]. intros k' [<-|[]]. auto. }
    exists (simplify (c ++ [k])). split.
    + apply in_flat_map. exists k. split; [auto|]. apply in_flat_map. exists c. split; [auto|].
      replace (satisfiable (c ++ [k])) with true; [left; reflexivity|].
      symmetry. apply satisfiable_exact; eauto.
    + apply simplify_ok; auto.
Qed.

Lemma dnfProduct_small d dnf : smallConsts d -> allSmall dnf -> allSmall (dnfProduct d dnf).
Proof.
  intros Hd Hdnf g Hg. unfold dnfProduct in Hg.
  apply in_flat_map in Hg. destruct Hg as [k [Hk Hg]].
  apply in_flat_map in Hg. destruct Hg as [c [Hc Hg]].
  destruct (satisfiable (c ++ [k])); [|destruct Hg]. destruct Hg as [<-|[]].
  apply simplify_small, smallConsts_app; [apply Hdnf; auto|]. intros k' [<-|[]]. apply Hd; auto.
Qed.

Definition clauseSat (d : guard) (v : valuation) : Prop := exists k, In k d /\ holds k (v (cx k)).

Lemma cnfToDnf_false cnf : forall dnf v,
  allSmall dnf -> allSmall cnf -> nonneg v -> (forall d, In d cnf -> d <> []) ->
  (dnfsat (cnfToDnf false dnf cnf) v <-> dnfsat dnf v /\ forall d, In d cnf -> clauseSat d v)
  /\ allSmall (cnfToDnf false dnf cnf).
Proof.
  induction cnf as [|d cnf IH]; intros dnf v H1 H2 Hv Hne; cbn [cnfToDnf].
  - split; [|auto]. split; [intro H; split; [auto|intros d []]|tauto].
  - destruct d as [|k d]; [exfalso; apply (Hne [] (or_introl eq_refl)); reflexivity|].
    set (D := k :: d) in *.
    assert (Hp : allSmall (eraseStronger [] (dnfProduct D dnf))).
    { intros g Hg. apply eraseStronger_incl in Hg. destruct Hg as [[]|Hg].
      apply (dnfProduct_small D dnf); auto. apply H2. left; reflexivity. }
    destruct (IH (eraseStronger [] (dnfProduct D dnf)) v Hp
                (fun g Hg => H2 g (or_intror Hg)) Hv (fun g Hg => Hne g (or_intror Hg))) as [IH1 IH2].
    split; [|exact IH2]. rewrite IH1, eraseStronger_ok, dnfProduct_ok; auto.
    2:{ apply H2; left; reflexivity. }
    split.
    + intros [[H|[Ha Hb]] Hc]; [destruct (dnfsat_nil _ H)|].
      split; [auto|]. intros e [<-|He]; auto.
    + intros [Ha Hb]. split; [right; split; [auto|apply (Hb D); left; reflexivity]|].
      intros e He. apply Hb. right; auto.
Qed.

Lemma negateAll_small g : smallConsts g -> smallConsts (negateAll g).
Proof.
  intros H k Hk. unfold negateAll in Hk. apply in_map_iff in Hk. destruct Hk as [k' [<- Hk']].
  rewrite cnegate_const. auto.
Qed.

Lemma clauseSat_negateAll g v : clauseSat (negateAll g) v <-> ~ gsat g v.
Proof.
  unfold clauseSat, negateAll. split.
  - intros [k [Hk Hh]] Hg. apply in_map_iff in Hk. destruct Hk as [k' [<- Hk']].
    apply cnegate_exact in Hh. rewrite cnegate_clock in Hh. apply Hh, Hg; auto.
  - intro H. destruct (existsb (fun k => negb (satisfy k (v (cx k)))) g) eqn:E.
    + apply existsb_exists in E. destruct E as [k [Hk E]]. exists (cnegate k).
      split; [apply in_map; auto|]. apply cnegate_exact. rewrite cnegate_clock.
      rewrite <- satisfy_holds. destruct (satisfy _ _); [discriminate|congruence].
    + exfalso. apply H. intros k Hk. apply satisfy_holds.
      destruct (satisfy k (v (cx k))) eqn:E1; [reflexivity|].
      assert (existsb (fun k => negb (satisfy k (v (cx k)))) g = true); [|congruence].
      apply existsb_exists. exists k. rewrite E1. auto.
Qed.

Lemma negateDNF_ok gs v :
  gs <> [] -> (forall g, In g gs -> g <> []) -> allSmall gs -> nonneg v ->
  (dnfsat (negateDNF gs) v <-> ~ dnfsat gs v) /\ allSmall (negateDNF gs).
Proof.
  intros Hne Hnn Hs Hv. unfold negateDNF. destruct gs as [|g gs]; [contradiction|].
  cbn [map]. destruct g as [|k g]; [exfalso; apply (Hnn [] (or_introl eq_refl)); reflexivity|].
  cbn [negateAll map cnfToDnf].
  set (D := cnegate k :: map cnegate g). fold (negateAll g) in D.
  assert (HD : D = negateAll (k :: g)) by reflexivity.
  assert (HDs : smallConsts D) by (rewrite HD; apply negateAll_small, Hs; left; reflexivity).
  assert (H1 : allSmall (map (fun k => [k]) D)).
  { intros h Hh. apply in_map_iff in Hh. destruct Hh as [k' [<- Hk']]. intros k'' [<-|[]]. apply HDs; auto. }
  assert (H2 : allSmall (map negateAll gs)).
  { intros h Hh. apply in_map_iff in Hh. destruct Hh as [k' [<- Hk']]. apply negateAll_small, Hs. right; auto. }
  assert (H3 : forall d, In d (map negateAll gs) -> d <> []).
  { intros h Hh. apply in_map_iff in Hh. destruct Hh as [k' [<- Hk']] .
    specialize (Hnn k' (or_intror Hk')). destruct k'; [contradiction|discriminate]. }
  destruct (cnfToDnf_false (map negateAll gs) (map (fun k => [k]) D) v H1 H2 Hv H3) as [E1 E2].
  split; [|exact E2].
  assert (E3 : dnfsat (map (fun k => [k]) D) v <-> clauseSat D v).
  { split.
    - intros [h [Hh Hg]]. apply in_map_iff in Hh. destruct Hh as [k' [<- Hk']].
      exists k'. split; [auto|]. apply Hg. left; reflexivity.
    - intros [k' [Hk' Hh]]. exists [k']. split; [apply (in_map (fun k => [k])); auto|].
      intros k'' [<-|[]]. auto. }
  eapply iff_trans; [exact E1|].
  rewrite E3, HD, clauseSat_negateAll, dnfsat_cons. split.
  - intros [Ha Hb] [Hc|[h [Hh Hg]]]; [auto|].
    specialize (Hb (negateAll h) (in_map negateAll _ _ Hh)). apply clauseSat_negateAll in Hb. auto.
  - intro H. split; [intro; apply H; auto|]. intros d Hd. apply in_map_iff in Hd. destruct Hd as [h [<- Hh]].
    apply clauseSat_negateAll. intro Hg. apply H. right. exists h. auto.
Qed.
