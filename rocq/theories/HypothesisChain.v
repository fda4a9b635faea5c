(** The transitions of one state of a hypothesis for one letter: their guards
    are the boxes of the rows met by one delay, only neighbours are merged and
    merging is exact. *)
From Coq Require Import QArith Qround ZArith Bool List Arith Lia Lqa.
From Verif Require Import BoundsModel ConstraintModel GuardSpec BoundsProofs ConstraintProofs ConstraintProofs2 ConstraintProofs4
  ZoneModel AutomatonModel AutomatonSpec AutomatonProofs AutomatonProofs6 HypothesisModel HypothesisBox.
Import ListNotations.
Open Scope Q_scope.

Lemma ubZ_snd c : snd (ubZ c) = Z.even c.
Proof. unfold ubZ. destruct (Z.even c); reflexivity. Qed.
Lemma lbZ_snd c : snd (lbZ c) = Z.even c.
Proof. reflexivity. Qed.
Lemma ubZ_eqb b d : ib_eqb (ubZ b) (ubZ d) = true <-> b = d.
Proof.
  rewrite ib_eqb_eq. split; [|congruence]. unfold ubZ.
  destruct (parity b) as [(m & -> & E & D)|(m & -> & E & D & D')], (parity d) as [(m2 & -> & E2 & D2)|(m2 & -> & E2 & D2 & D2')];
    rewrite E, E2, ?D, ?D', ?D2, ?D2'; intro H; try discriminate; injection H as H; lia.
Qed.
Lemma lbZ_eqb a c : ib_eqb (lbZ a) (lbZ c) = true <-> a = c.
Proof.
  rewrite ib_eqb_eq. split; [|congruence]. unfold lbZ.
  destruct (parity a) as [(m & -> & E & D)|(m & -> & E & D & D')], (parity c) as [(m2 & -> & E2 & D2)|(m2 & -> & E2 & D2 & D2')];
    rewrite E, E2, ?D, ?D', ?D2, ?D2'; intro H; try discriminate; injection H as H; lia.
Qed.
(** an upper bound touching a lower bound *)
Lemma touchZ b c : Z.eqb (fst (ubZ b)) (fst (lbZ c)) = true -> eqb (snd (ubZ b)) (snd (lbZ c)) = false -> c = (b + 1)%Z.
Proof.
  rewrite ubZ_snd, lbZ_snd, Z.eqb_eq. unfold ubZ, lbZ.
  destruct (parity b) as [(m & -> & E & D)|(m & -> & E & D & D')], (parity c) as [(m2 & -> & E2 & D2)|(m2 & -> & E2 & D2 & D2')];
    rewrite E, E2, ?D, ?D', ?D2, ?D2'; cbn [fst snd eqb]; intros H H'; try discriminate; lia.
Qed.
Lemma rowKind_codes r a b c d : fillRow r = ((ubZ b, lbZ a), (ubZ d, lbZ c)) -> rowKind r <> None ->
  (b = d /\ a = c) \/ (rowKind r = Some true /\ (c = b + 1 \/ a = d + 1)%Z).
Proof.
  intros F H. unfold rowKind in *. rewrite F in *.
  destruct (ib_eqb (ubZ b) (ubZ d) && ib_eqb (lbZ a) (lbZ c)) eqn:E.
  - apply andb_true_iff in E. rewrite ubZ_eqb, lbZ_eqb in E. auto.
  - right. destruct (fst (ubZ b) =? fst (lbZ c))%Z eqn:E1.
    + destruct (eqb (snd (ubZ b)) (snd (lbZ c))) eqn:E2; [congruence|]. split; auto. left. apply touchZ; auto.
    + destruct (fst (ubZ d) =? fst (lbZ a))%Z eqn:E3; [|congruence].
      destruct (eqb (snd (ubZ d)) (snd (lbZ a))) eqn:E2; [congruence|]. split; auto. right. apply touchZ; auto.
Qed.
Lemma kindOf_codes r a b c d : fillRow r = ((ubZ b, lbZ a), (ubZ d, lbZ c)) ->
  kindOf r = if Z.even a then KLeftLower else if Z.even c then KRightLower else if Z.even b then KLeftUpper else if Z.even d then KRightUpper else KDefault.
Proof. intro F. unfold kindOf. rewrite F, !ubZ_snd, !lbZ_snd. reflexivity. Qed.
Lemma fillZ c : (if snd (lbZ c) then lbZ c else ((fst (lbZ c) + 1)%Z, snd (lbZ c))) = ubZ c.
Proof.
  rewrite lbZ_snd. unfold ubZ, lbZ. destruct (parity c) as [(m2 & -> & E2 & D2)|(m2 & -> & E2 & D2 & D2')]; rewrite E2, ?D2, ?D2'; reflexivity.
Qed.
Lemma neq_ib a b : a <> b -> ib_eqb a b = false.
Proof. intro H. destruct (ib_eqb a b) eqn:E; auto. apply ib_eqb_eq in E. contradiction. Qed.
(** filling the missing upper bound of the right / left guard *)
Lemma fill_right a b c u2 d : ubZ b <> maxUB -> (u2 = maxUB /\ d = c) \/ (u2 = ubZ d /\ u2 <> maxUB) ->
  fillRow ((ubZ b, lbZ a), (u2, lbZ c)) = ((ubZ b, lbZ a), (ubZ d, lbZ c)).
Proof.
  intros Hb [[-> ->]|[-> Hd]]; unfold fillRow, fillUB, ib_neqb; rewrite (neq_ib _ _ Hb); cbn [andb].
  - rewrite ib_eqb_refl. cbn [negb andb]. rewrite fillZ. reflexivity.
  - rewrite (neq_ib _ _ Hd). reflexivity.
Qed.
Lemma fill_left a b c u2 d : ubZ b <> maxUB -> (u2 = maxUB /\ d = c) \/ (u2 = ubZ d /\ u2 <> maxUB) ->
  fillRow ((u2, lbZ c), (ubZ b, lbZ a)) = ((ubZ d, lbZ c), (ubZ b, lbZ a)).
Proof.
  intros Hb [[-> ->]|[-> Hd]]; unfold fillRow, fillUB, ib_neqb; rewrite (neq_ib _ _ Hb).
  - rewrite ib_eqb_refl. cbn [negb andb]. rewrite fillZ. reflexivity.
  - rewrite (neq_ib _ _ Hd). reflexivity.
Qed.
Lemma kinds_one l : forall k0, kindsConsistent k0 l = true ->
  forall k, In k l -> k <> KDefault -> (k0 <> KDefault -> k = k0) /\ forall k', In k' l -> k' <> KDefault -> k' = k.
Proof.
  induction l as [|k1 l IH]; intros k0 H k Hk Nk; [destruct Hk|].
  assert (D : k1 = KDefault \/ k1 <> KDefault) by (destruct k1; auto; right; discriminate).
  destruct D as [->|D].
  - cbn [kindsConsistent] in H. destruct Hk as [<-|Hk]; [congruence|]. destruct (IH k0 H k Hk Nk) as [A B]. split; auto.
    intros k' [<-|Hk'] N'; [congruence|auto].
  - assert (H' : (k0 = KDefault /\ kindsConsistent k1 l = true) \/ (k0 = k1 /\ kindsConsistent k1 l = true)).
    { destruct k1; [congruence| | | | ]; destruct k0; cbn [kindsConsistent kinds_eqb] in H; auto; discriminate. }
    assert (A : forall x, In x (k1 :: l) -> x <> KDefault -> x = k1).
    { intros x [<-|Hx] Nx; auto. destruct H' as [[_ H']|[_ H']]; destruct (IH k1 H' x Hx Nx) as [A _]; auto. }
    split.
    + intro N0. rewrite (A k Hk Nk). destruct H' as [[E _]|[E _]]; congruence.
    + intros k' Hk' N'. rewrite (A k Hk Nk), (A k' Hk' N'). reflexivity.
Qed.
Lemma traverse_length {A B} (f : A -> option B) l bs : traverse f l = Some bs -> length bs = length l.
Proof.
  revert bs. induction l as [|a l IH]; cbn; intros bs H; [injection H as <-; auto|].
  destruct (f a); [|discriminate]. destruct (traverse f l); [|discriminate]. injection H as <-. cbn. f_equal. auto.
Qed.
(** two positions that both satisfy p *)
Lemma filter_two {A} (p : A -> bool) (d : A) l i j : (i < length l)%nat -> (j < length l)%nat -> i <> j ->
  p (nth i l d) = true -> p (nth j l d) = true -> (2 <= length (filter p l))%nat.
Proof.
  intros Hi Hj N Pi Pj. destruct (Nat.le_gt_cases (length (filter p l)) 1) as [L|L]; [|lia]. exfalso. apply N. apply (filter_len1 p d l); auto.
Qed.

(** two assignments with the same effect *)
Definition sameReset (a b : resets) : Prop := forall v v', isReset a v v' <-> isReset b v v'.
Lemma sameReset_refl a : sameReset a a.
Proof. intros v v'. reflexivity. Qed.
Lemma sameReset_sym a b : sameReset a b -> sameReset b a.
Proof. intros H v v'. symmetry. apply H. Qed.
Lemma sameReset_trans a b c : sameReset a b -> sameReset b c -> sameReset a c.
Proof. intros H K v v'. rewrite (H v v'). apply K. Qed.
Lemma resets_eqb_same a b : resets_eqb a b = true -> sameReset a b.
Proof. intros H v v'. split; [apply resets_eqb_equiv; auto|apply resets_eqb_equiv; apply resets_eqb_sym; auto]. Qed.
Lemma insertReset_in (p : clock * rhs) (l : resets) (q : clock * rhs) : In q (insertReset p l) <-> q = p \/ In q l.
Proof.
  induction l as [|r l IH]; cbn [insertReset In]; [intuition|]. destruct (fst r <? fst p)%nat; cbn [In]; [|intuition].
  split; [intros [H|H]; [auto|apply IH in H; tauto]|]. intros [H|[H|H]]; [right; apply IH; auto|auto|right; apply IH; auto].
Qed.
Lemma sortResets_in (rs : resets) (q : clock * rhs) : In q (sortResets rs) <-> In q rs.
Proof.
  induction rs as [|p rs IH]; [tauto|]. unfold sortResets in *. cbn [fold_right]. fold (sortResets rs) in *. split.
  - intro H. apply insertReset_in in H. destruct H as [->|H]; [left; auto|right; apply IH; auto].
  - intro H. apply insertReset_in. destruct H as [<-|H]; [left; auto|right; apply IH; auto].
Qed.
Lemma insertReset_nodup p l : NoDup (map fst (p :: l)) -> NoDup (map fst (insertReset p l)).
Proof.
  induction l as [|r l IH]; cbn [insertReset map]; auto. intro H. destruct (fst r <? fst p)%nat; auto.
  inversion H as [|? ? A B]; subst. inversion B as [|? ? C D]; subst. cbn in A. cbn [map]. constructor.
  - intro Q. apply in_map_iff in Q. destruct Q as (q & E & Iq). apply insertReset_in in Iq. destruct Iq as [->|Iq]; [apply A; left; auto|apply C; rewrite <- E; apply in_map; auto].
  - apply IH. constructor; auto.
Qed.
Lemma sortResets_nodup rs : NoDup (map fst rs) -> NoDup (map fst (sortResets rs)).
Proof.
  induction rs as [|p rs IH]; intro H; [constructor|]. unfold sortResets in *. cbn [fold_right]. apply insertReset_nodup. cbn [map] in *. inversion H; subst. constructor; auto.
  intro Q. apply in_map_iff in Q. destruct Q as (q & E & Iq). apply (sortResets_in rs q) in Iq. apply H2. rewrite <- E. apply in_map; auto.
Qed.
(** with distinct keys only the entries matter *)
Lemma isReset_entries rs v v' : NoDup (map fst rs) ->
  (isReset rs v v' <-> forall x, (~ In x (map fst rs) -> v' x == v x) /\ forall r, In (x, r) rs -> v' x == match r with RConst q => q | RVar y => v y end).
Proof.
  intro ND. split; intros H x; destruct (H x) as [A B]; (split; [auto|]).
  - intros r Hr. apply in_split in Hr. destruct Hr as (a & b & E). apply (B a r b E). rewrite E, map_app in ND. apply NoDup_remove_2 in ND. intro Q. apply ND. apply in_or_app. right. auto.
  - intros a r b E _. apply B. rewrite E. apply in_or_app. right. left. auto.
Qed.
Lemma entries_same a b : NoDup (map fst a) -> NoDup (map fst b) -> (forall q, In q a <-> In q b) -> sameReset a b.
Proof.
  intros Na Nb H v v'. rewrite (isReset_entries a), (isReset_entries b) by auto.
  assert (K : forall x, In x (map fst a) <-> In x (map fst b)). { intro x. rewrite !in_map_iff. split; intros (q & E & I); exists q; split; auto; apply H; auto. }
  split; intros G x; destruct (G x) as [A B]; split; intros; [apply A; rewrite K; auto|apply B; apply H; auto|apply A; rewrite <- K; auto|apply B; apply H; auto].
Qed.
Lemma sortResets_same rs : NoDup (map fst rs) -> sameReset (sortResets rs) rs.
Proof. intro H. apply entries_same; [apply sortResets_nodup; auto|auto|apply sortResets_in]. Qed.
Lemma fop_app {A} (R : A -> A -> Prop) (l : list A) : ForallOrdPairs R l -> forall a b, l = a ++ b -> forall x y, In x a -> In y b -> R x y.
Proof.
  induction 1 as [|z l F D IH]; intros a b E x y Hx Hy.
  - destruct a; [destruct Hx|discriminate].
  - destruct a as [|z' a]; [destruct Hx|]. cbn in E. injection E as <- ->. destruct Hx as [<-|Hx].
    + rewrite Forall_forall in F. apply F. apply in_or_app. auto.
    + apply (IH a b); auto.
Qed.
Lemma fop_app2 {A} (R : A -> A -> Prop) (l : list A) : ForallOrdPairs R l -> forall a t r, l = a ++ t :: r -> forall y, In y r -> R t y.
Proof.
  intros F a t r E y Hy. apply (fop_app R l F (a ++ [t]) r); auto; [rewrite <- app_assoc; auto|apply in_or_app; right; left; auto].
Qed.

Definition apart (p q : nat * nat) : Prop := (snd p < fst q)%nat \/ (snd q < fst p)%nat.
Lemma apart_sym p q : apart p q -> apart q p.
Proof. unfold apart. tauto. Qed.
Lemma apart_range p q r : (fst p <= snd p)%nat -> (fst q <= snd q)%nat -> (fst r <= snd r)%nat ->
  (forall m, (fst r <= m /\ m <= snd r)%nat -> (fst p <= m /\ m <= snd p)%nat \/ (fst q <= m /\ m <= snd q)%nat) ->
  forall z, (fst z <= snd z)%nat -> apart p z -> apart q z -> apart r z.
Proof.
  intros P Q R H z Z A B. unfold apart in *. destruct (Nat.le_gt_cases (snd r) (fst z)) as [L1|L1].
  - destruct (Nat.eq_dec (snd r) (fst z)) as [E|]; [|left; lia]. exfalso. specialize (H (snd r) ltac:(lia)). lia.
  - destruct (Nat.le_gt_cases (fst r) (snd z)) as [L2|L2]; [|right; lia]. exfalso.
    specialize (H (Nat.max (fst r) (fst z)) ltac:(lia)). lia.
Qed.

Section Chain.
Context (N e : nat) (X : nat -> Q) (tm : nat -> Q).
Definition KK (i : nat) (s : nat) : Z := code (X s + tm i).
Context (Xnn : forall s, 0 <= X s) (tnn : forall i, 0 <= tm i)
        (tinc : forall i j, (i < j)%nat -> (j <= e)%nat -> tm i < tm j)
        (sep : forall i j, (i < j)%nat -> (j <= e)%nat -> exists s, (s < N)%nat /\ (KK i s < KK j s)%Z).

Definition top (j : nat) : option (nat -> Z) := if (j =? e)%nat then None else Some (KK j).
(** [g] is the union of the rows i..j *)
Definition grp (g : guard) (i j : nat) : Prop := (i <= j)%nat /\ (j <= e)%nat /\ sbox N g (KK i) (top j).
Lemma tle i j : (i <= j)%nat -> (j <= e)%nat -> tm i <= tm j.
Proof using tinc. intros H Hj. destruct (Nat.eq_dec i j) as [->|Ne]; [lra|]. assert (tm i < tm j) by (apply tinc; lia). lra. Qed.
Lemma Kmono i j s : (i <= j)%nat -> (j <= e)%nat -> (KK i s <= KK j s)%Z.
Proof using tinc. intros. apply code_mono. assert (tm i <= tm j) by (apply tle; auto). lra. Qed.
Lemma Knn i s : (0 <= KK i s)%Z.
Proof using Xnn tnn. apply code_nonneg. assert (A := Xnn s). assert (B := tnn i). lra. Qed.

Lemma grp_row g i j x : grp g i j -> (x < N)%nat ->
  nth x (toBounds g) defB = (if (j =? e)%nat then maxUB else ubZ (KK j x), lbZ (KK i x)) /\ (j <> e -> ubZ (KK j x) <> maxUB).
Proof using Xnn tnn.
  intros (Hij & Hj & B) Hx. destruct (sbox_row N g (KK i) (top j) x B Hx (Knn i x)) as [R M].
  { intros h E. unfold top in E. destruct (j =? e)%nat; [discriminate|]. injection E as <-. apply Knn. }
  split.
  - rewrite R. unfold top. destruct (j =? e)%nat; reflexivity.
  - intros Ne. rewrite R in M. unfold top in M. destruct (Nat.eqb_spec j e); [contradiction|]. cbn [fst] in M. apply M. discriminate.
Qed.
Lemma grp_len g i j : grp g i j -> j <> e -> (N <= length (toBounds g))%nat.
Proof using Xnn tnn.
  intros G Ne. destruct (Nat.le_gt_cases N (length (toBounds g))) as [L|L]; [auto|exfalso].
  destruct (grp_row g i j (length (toBounds g)) G L) as [R M]. destruct (Nat.eqb_spec j e); [contradiction|].
  rewrite nth_overflow in R by lia. unfold defB in R. apply (M Ne). congruence.
Qed.
(** the rows the adjacency test sees *)
Lemma adj_rows g g' : adjacent g g' = true ->
  (forall x, (x < length (toBounds g))%nat -> rowKind (nth x (toBounds g) defB, nth x (toBounds g') defB) <> None) /\
  forall x y, (x < length (toBounds g))%nat -> (y < length (toBounds g))%nat -> x <> y ->
    let r z := (nth z (toBounds g) defB, nth z (toBounds g') defB) in
    rowKind (r x) = Some true -> rowKind (r y) = Some true -> kindOf (r x) <> KDefault -> kindOf (r y) <> KDefault -> kindOf (r x) = kindOf (r y).
Proof using.
  intro Ha. unfold adjacent in Ha. destruct (Nat.eqb_spec (length (toBounds g)) (length (toBounds g'))) as [EL|]; [|discriminate].
  destruct (traverse rowKind (adjRows g g')) as [bs|] eqn:Et; [|discriminate].
  assert (LA : length (adjRows g g') = length (toBounds g)) by (rewrite adjRows_length; lia).
  split.
  - intros x Hx. apply (traverse_all _ _ _ Et). rewrite <- nth_adjRows by auto. apply nth_In. lia.
  - intros x y Hx Hy Ne r Rx Ry Kx Ky.
    assert (In1 : forall z, (z < length (toBounds g))%nat -> rowKind (r z) = Some true -> In (r z) (differing g g')).
    { intros z Hz Rz. unfold differing. apply filter_In. split; [|rewrite Rz; auto]. unfold r. rewrite <- nth_adjRows by auto. apply nth_In. lia. }
    assert (L2 : (2 <= length (differing g g'))%nat).
    { unfold differing. assert (Nx : nth x (adjRows g g') (defB, defB) = r x) by (apply nth_adjRows; auto).
      assert (Ny : nth y (adjRows g g') (defB, defB) = r y) by (apply nth_adjRows; auto).
      apply (filter_two _ (defB, defB) _ x y); [exact (Nat.lt_le_trans _ _ _ Hx (Nat.eq_le_incl _ _ (eq_sym LA)))|exact (Nat.lt_le_trans _ _ _ Hy (Nat.eq_le_incl _ _ (eq_sym LA)))|auto| |].
      - refine (eq_trans (f_equal (fun z => match rowKind z with Some true => true | _ => false end) Nx) _). cbv beta. rewrite Rx. reflexivity.
      - refine (eq_trans (f_equal (fun z => match rowKind z with Some true => true | _ => false end) Ny) _). cbv beta. rewrite Ry. reflexivity. }
    destruct (Nat.leb_spec (length (differing g g')) 1); [lia|].
    destruct (kinds_one _ _ Ha (kindOf (r y))) as [_ B]; [apply in_map; auto|auto|]. apply B; [apply in_map; auto|auto].
Qed.
Lemma even_int i s : Z.even (KK i s) = true -> exists n, X s + tm i == inject_Z n.
Proof using. apply code_even. Qed.
(** rows that are not neighbours are never merged *)
Lemma adjacent_next g g' i j k l : grp g i j -> grp g' k l -> (j < k)%nat ->
  adjacent g g' = true \/ adjacent g' g = true -> k = S j.
Proof using Xnn tnn tinc sep.
  intros G G' Hjk Ha. assert (Gc := G). assert (Gc' := G').
  destruct G as (Hij & Hje & B), G' as (Hkl & Hle & B'). assert (Nje : j <> e) by lia.
  destruct (Nat.eq_dec k (S j)) as [|Nk]; [auto|exfalso].
  destruct (sep j (S j)) as (s1 & H1 & D1); [lia|lia|]. destruct (sep (S j) k) as (s2 & H2 & D2); [lia|lia|].
  assert (LN : (N <= length (toBounds g))%nat) by (apply (grp_len g i j); auto).
  set (dd := fun x => if (l =? e)%nat then KK k x else KK l x).
  assert (DD : forall x, (KK k x <= dd x)%Z) by (intro x; unfold dd; destruct (l =? e)%nat; [lia|apply Kmono; auto]).
  assert (R : forall x, (x < N)%nat -> nth x (toBounds g) defB = (ubZ (KK j x), lbZ (KK i x)) /\ ubZ (KK j x) <> maxUB).
  { intros x Hx. destruct (grp_row g i j x Gc Hx) as [R M]. destruct (Nat.eqb_spec j e); [contradiction|]. auto. }
  assert (R' : forall x, (x < N)%nat -> exists u2, nth x (toBounds g') defB = (u2, lbZ (KK k x)) /\ ((u2 = maxUB /\ dd x = KK k x) \/ (u2 = ubZ (dd x) /\ u2 <> maxUB))).
  { intros x Hx. destruct (grp_row g' k l x Gc' Hx) as [Rr M]. unfold dd. destruct (Nat.eqb_spec l e); eexists; (split; [exact Rr|auto]). }
  (* every clock moves by at most one step between the two groups *)
  assert (Step : forall x, (x < N)%nat ->
     let r := if adjacent g g' then (nth x (toBounds g) defB, nth x (toBounds g') defB) else (nth x (toBounds g') defB, nth x (toBounds g) defB) in
     (KK k x = KK j x \/ (KK k x = KK j x + 1)%Z /\ rowKind r = Some true)).
  { intros x Hx. assert (M1 := Kmono i j x Hij ltac:(lia)). assert (M2 := Kmono j k x ltac:(lia) ltac:(lia)). specialize (DD x).
    destruct (R x Hx) as [Rx Nx]. destruct (R' x Hx) as (u2 & Rx' & U2).
    destruct (adjacent g g') eqn:Ea; cbv zeta.
    - destruct (adj_rows g g' Ea) as [A _]. specialize (A x ltac:(lia)). rewrite Rx, Rx' in *.
      destruct (rowKind_codes _ _ _ _ _ (fill_right (KK i x) (KK j x) (KK k x) u2 (dd x) Nx U2) A) as [[Y Z]|[Y [Z|Z]]]; [left; lia|right; auto|lia].
    - destruct Ha as [Ha|Ha]; [congruence|]. assert (EL := adjacent_len _ _ Ha). destruct (adj_rows g' g Ha) as [A _]. specialize (A x ltac:(lia)). rewrite Rx, Rx' in *.
      destruct (rowKind_codes _ _ _ _ _ (fill_left (KK i x) (KK j x) (KK k x) u2 (dd x) Nx U2) A) as [[Y Z]|[Y [Z|Z]]]; [left; lia|lia|right; auto]. }
  (* s1 moves between j and j+1, s2 afterwards *)
  assert (T1 : tm j < tm (S j)) by (apply tinc; lia). assert (T2 : tm (S j) < tm k) by (apply tinc; lia).
  assert (M1 := Kmono (S j) k s1 ltac:(lia) ltac:(lia)). assert (M2 := Kmono j (S j) s2 ltac:(lia) ltac:(lia)).
  destruct (Step s1 H1) as [S1|[S1 Q1]]; [lia|]. destruct (Step s2 H2) as [S2|[S2 Q2]]; [lia|].
  assert (E1 : KK (S j) s1 = KK k s1) by lia. assert (E2 : KK j s2 = KK (S j) s2) by lia.
  assert (Int : forall p q s, KK p s = KK q s -> tm p < tm q -> Z.even (KK p s) = false).
  { intros p q s E L. destruct (Z.even (KK p s)) eqn:Ev; auto. exfalso.
    assert (Ev' := Ev). rewrite E in Ev'. apply code_even in Ev. apply code_even in Ev'. destruct Ev as [n Hn], Ev' as [m Hm].
    unfold KK in E. rewrite (code_ext _ _ Hn), (code_ext _ _ Hm), !code_int in E. assert (n = m) by lia. subst m. lra. }
  assert (O1 : Z.even (KK k s1) = false) by (rewrite <- E1; apply (Int (S j) k s1 E1 T2)).
  assert (O2 : Z.even (KK j s2) = false) by (apply (Int j (S j) s2 E2 T1)).
  assert (V1 : Z.even (KK j s1) = true). { destruct (Z.even (KK j s1)) eqn:V; auto. rewrite S1, Z.even_add, V in O1. discriminate. }
  assert (V2 : Z.even (KK k s2) = true) by (rewrite S2, Z.even_add, O2; reflexivity).
  assert (Ne12 : s1 <> s2) by (intros ->; lia).
  destruct (R s1 H1) as [R1 N1]. destruct (R s2 H2) as [R2 N2]. destruct (R' s1 H1) as (u1 & R1' & U1). destruct (R' s2 H2) as (u2 & R2' & U2).
  destruct (adjacent g g') eqn:Ea.
  - destruct (adj_rows g g' Ea) as [_ A]. specialize (A s1 s2 ltac:(lia) ltac:(lia) Ne12). cbv zeta beta in A. specialize (A Q1 Q2).
    rewrite R1, R2, R1', R2' in A.
    rewrite (kindOf_codes _ _ _ _ _ (fill_right (KK i s1) (KK j s1) (KK k s1) u1 (dd s1) N1 U1)) in A.
    rewrite (kindOf_codes _ _ _ _ _ (fill_right (KK i s2) (KK j s2) (KK k s2) u2 (dd s2) N2 U2)) in A.
    rewrite O1, V1, V2 in A.
    destruct (Z.even (KK i s1)) eqn:W1, (Z.even (KK i s2)) eqn:W2; try (specialize (A ltac:(discriminate) ltac:(discriminate)); discriminate A).
    apply code_even in V1, W1, W2. destruct V1 as [a Va], W1 as [b Wb], W2 as [c Wc].
    assert (Y : X s2 + tm j == inject_Z (c + (a - b))). { rewrite inject_Z_plus. unfold Z.sub. rewrite inject_Z_plus, inject_Z_opp. lra. }
    unfold KK in O2. rewrite (code_ext _ _ Y), code_int, Z.even_mul in O2. discriminate.
  - destruct Ha as [Ha|Ha]; [congruence|]. assert (EL := adjacent_len _ _ Ha). destruct (adj_rows g' g Ha) as [_ A].
    specialize (A s1 s2 ltac:(lia) ltac:(lia) Ne12). cbv zeta beta in A. specialize (A Q1 Q2).
    rewrite R1, R2, R1', R2' in A.
    rewrite (kindOf_codes _ _ _ _ _ (fill_left (KK i s1) (KK j s1) (KK k s1) u1 (dd s1) N1 U1)) in A.
    rewrite (kindOf_codes _ _ _ _ _ (fill_left (KK i s2) (KK j s2) (KK k s2) u2 (dd s2) N2 U2)) in A.
    rewrite O1, V1, V2 in A.
    destruct (Z.even (KK i s1)), (Z.even (dd s1)); specialize (A ltac:(discriminate) ltac:(discriminate)); discriminate A.
Qed.
(** merging two neighbours gives the union *)
Lemma grp_merge g g' i j l : grp g i j -> grp g' (S j) l -> grp (unionHull2 g g') i l /\ grp (unionHull2 g' g) i l.
Proof using Xnn tnn tinc.
  intros (Hij & Hj & B) (Hkl & Hl & B'). unfold top in B at 1. destruct (Nat.eqb_spec j e); [lia|].
  destruct (hull2_sbox N g g' (KK i) (KK j) (KK (S j)) (top l) B B') as [A1 A2].
  - intros x Hx. apply Kmono; lia.
  - intros x Hx c Hc. unfold top. destruct (l =? e)%nat; [exact I|]. cbn [capZ]. assert (M := Kmono j l x ltac:(lia) Hl). lia.
  - split; (split; [lia|split; [lia|auto]]).
Qed.

(** a valuation lies in the row m of the chain *)
Definition inRow (m : nat) (v : valuation) : Prop :=
  (m <= e)%nat /\ forall x, (x < N)%nat -> (KK m x <= code (v x))%Z /\ (m <> e -> code (v x) = KK m x).
Lemma grp_sat g i j m v : grp g i j -> nonneg v -> inRow m v -> (gsat g v <-> (i <= m /\ m <= j)%nat).
Proof using Xnn tnn tinc sep.
  intros (Hij & Hj & B) Hv (Hm & R). rewrite (sbox_sat N g _ _ v B Hv). split.
  - intro H. split.
    + destruct (Nat.le_gt_cases i m) as [L|L]; [auto|exfalso]. destruct (sep m i L) as (s & Hs & D); [lia|].
      destruct (H s Hs) as [A _]. destruct (R s Hs) as [_ C]. specialize (C ltac:(lia)). lia.
    + destruct (Nat.le_gt_cases m j) as [L|L]; [auto|exfalso]. destruct (sep j m L) as (s & Hs & D); [lia|].
      destruct (H s Hs) as [_ A]. unfold top in A. destruct (Nat.eqb_spec j e); [lia|]. cbn [capZ] in A. destruct (R s Hs) as [C _]. lia.
  - intros [Hi Hmj] x Hx. destruct (R x Hx) as [A C]. split.
    + assert (M := Kmono i m x Hi Hm). lia.
    + unfold top. destruct (Nat.eqb_spec j e); [exact I|]. cbn [capZ]. rewrite C by lia. apply Kmono; lia.
Qed.
Lemma grp_disj g g' i j k l v : grp g i j -> grp g' k l -> (j < k)%nat -> nonneg v -> gsat g v -> gsat g' v -> False.
Proof using sep.
  intros (Hij & Hj & B) (Hkl & Hl & B') Hjk Hv G G'. destruct (sep j k Hjk) as (s & Hs & D); [lia|].
  apply (sbox_sat N g _ _ v B Hv) with (x := s) in G; [|auto]. apply (sbox_sat N g' _ _ v B' Hv) with (x := s) in G'; [|auto].
  unfold top in G. destruct (Nat.eqb_spec j e); [lia|]. cbn [capZ] in G. lia.
Qed.
(** the representative of a row *)
Definition rowPt (m : nat) : valuation := fun s => X s + tm m.
Lemma rowPt_in m : (m <= e)%nat -> inRow m (rowPt m).
Proof using. intro H. split; auto. intros x Hx. split; [|reflexivity]. unfold KK, rowPt. lia. Qed.
Lemma rowPt_nn m : nonneg (rowPt m).
Proof using Xnn tnn. intro s. unfold rowPt. assert (A := Xnn s). assert (B := tnn m). lra. Qed.
Lemma grp_inhab g i j : grp g i j -> gsat g (rowPt i).
Proof using Xnn tnn tinc sep. intro G. assert (G' := G). destruct G' as (A & B & _). apply (grp_sat g i j i _ G (rowPt_nn i)); [apply rowPt_in; lia|lia]. Qed.
Lemma grp_small g i j : grp g i j -> smallConsts g.
Proof using. intros (_ & _ & B). apply B. Qed.

(** *** lists of transitions *)
Context (T : nat -> trans).
(** [tr] does on the rows i..j what the transitions of those rows do *)
Definition covers (tr : trans) (p : nat * nat) : Prop :=
  grp (tgrd tr) (fst p) (snd p) /\
  forall m, (fst p <= m)%nat -> (m <= snd p)%nat -> ttgt tr = ttgt (T m) /\ sameReset (trst tr) (trst (T m)).
Definition coverL (ts : list trans) (ps : list (nat * nat)) : Prop :=
  Forall2 covers ts ps /\ ForallOrdPairs apart ps.
Definition within (ps : list (nat * nat)) (m : nat) : Prop := exists p, In p ps /\ (fst p <= m)%nat /\ (m <= snd p)%nat.

Lemma covers_sort tr p : NoDup (map fst (trst tr)) -> covers tr p -> covers (sortT tr) p.
Proof using.
  intros ND [G H]. split; [exact G|]. intros m A B. destruct (H m A B) as [H1 H2]. split; [exact H1|].
  unfold sortT. cbn [trst]. apply (sameReset_trans _ (trst tr)); [apply sortResets_same; auto|auto].
Qed.
Lemma coverL_sort ts ps : (forall t, In t ts -> NoDup (map fst (trst t))) -> coverL ts ps -> coverL (map sortT ts) ps.
Proof using.
  intros ND [F O]. split; [|auto]. clear O. induction F; [constructor|]. cbn [map]. constructor; [apply covers_sort; auto; apply ND; left; auto|].
  apply IHF. intros; apply ND; right; auto.
Qed.
Lemma covers_merge it t p q : covers it p -> covers t q -> apart p q -> mergeable it t = true ->
  exists p', covers (mergeT it t) p' /\ (forall m, (fst p' <= m /\ m <= snd p')%nat <-> (fst p <= m /\ m <= snd p)%nat \/ (fst q <= m /\ m <= snd q)%nat).
Proof using Xnn tnn tinc sep.
  intros [G1 H1] [G2 H2] Ap M. unfold mergeable in M. apply andb_true_iff in M. destruct M as [M Mr]. apply andb_true_iff in M. destruct M as [Mt Ma].
  apply Nat.eqb_eq in Mt. assert (Sr : sameReset (trst it) (trst t)) by (apply resets_eqb_same; auto).
  destruct Ap as [Ap|Ap].
  - assert (E := adjacent_next _ _ _ _ _ _ G1 G2 Ap (or_introl Ma)). destruct q as [k l]. cbn [fst snd] in *. subst k.
    destruct (grp_merge _ _ _ _ _ G1 G2) as [_ G]. exists (fst p, l). cbn [fst snd]. destruct G1 as (A1 & A2 & _), G2 as (B1 & B2 & _). split; [|intro m; lia].
    split; [exact G|]. cbn [fst snd mergeT ttgt trst]. intros m X1 X2. destruct (Nat.le_gt_cases m (snd p)) as [L|L].
    + destruct (H1 m X1 L) as [Y1 Y2]. split; [congruence|]. apply (sameReset_trans _ (trst it)); auto. apply sameReset_sym; auto.
    + apply H2; lia.
  - assert (E := adjacent_next _ _ _ _ _ _ G2 G1 Ap (or_intror Ma)). destruct p as [k l]. cbn [fst snd] in *. subst k.
    destruct (grp_merge _ _ _ _ _ G2 G1) as [G _]. exists (fst q, l). cbn [fst snd]. destruct G1 as (A1 & A2 & _), G2 as (B1 & B2 & _). split; [|intro m; lia].
    split; [exact G|]. cbn [fst snd mergeT ttgt trst]. intros m X1 X2. destruct (Nat.le_gt_cases m (snd q)) as [L|L].
    + apply H2; lia.
    + destruct (H1 m ltac:(lia) X2) as [Y1 Y2]. split; [congruence|]. apply (sameReset_trans _ (trst it)); auto. apply sameReset_sym; auto.
Qed.
Lemma covers_range tr p : covers tr p -> (fst p <= snd p)%nat.
Proof using. intros [(A & _) _]. exact A. Qed.
Lemma absorb_cover rest : forall ps it p, covers it p -> Forall2 covers rest ps -> Forall (apart p) ps -> ForallOrdPairs apart ps ->
  exists p' ps', covers (fst (absorb it rest)) p' /\ Forall2 covers (snd (absorb it rest)) ps' /\ Forall (apart p') ps' /\ ForallOrdPairs apart ps' /\
    (forall m, within (p' :: ps') m <-> within (p :: ps) m) /\
    (forall z, (fst z <= snd z)%nat -> apart z p -> Forall (apart z) ps -> apart z p' /\ Forall (apart z) ps').
Proof using Xnn tnn tinc sep.
  induction rest as [|t rest IH]; intros ps it p Ci F A O; cbn [absorb].
  - inversion F; subst. exists p, []. cbn [fst snd]. split; [auto|]. split; [constructor|]. split; [constructor|]. split; [constructor|]. split; [tauto|auto].
  - inversion F as [|t0 q rest0 ps0 Ct F' E1 E2]; subst. inversion A as [|q0 ps1 A1 A2]; subst. inversion O as [|q1 ps2 O1 O2]; subst.
    destruct (mergeable it t) eqn:M.
    + destruct (covers_merge it t p q Ci Ct A1 M) as (p1 & C1 & R1).
      assert (Rp := covers_range _ _ Ci). assert (Rq := covers_range _ _ Ct). assert (R' := covers_range _ _ C1).
      assert (Ap1 : Forall (apart p1) ps0).
      { apply Forall_forall. intros z Hz. assert (Zr : (fst z <= snd z)%nat).
        { clear - F' Hz. induction F' as [|t1 z1 l1 l2 H1 H2 I]; [destruct Hz|]. destruct Hz as [<-|Hz]; [apply (covers_range _ _ H1)|auto]. }
        apply (apart_range p q p1); auto; [intro m; apply R1| |].
        - rewrite Forall_forall in A2. auto.
        - rewrite Forall_forall in O1. auto. }
      destruct (IH ps0 (mergeT it t) p1 C1 F' Ap1 O2) as (p' & ps' & B1 & B2 & B3 & B4 & B5 & B6). exists p', ps'. split; [exact B1|]. split; [exact B2|]. split; [exact B3|]. split; [exact B4|]. split; [intro m; split|intros z H H0 H1; split].
      * intro H. apply B5 in H. destruct H as (z & [<-|Hz] & Hm); [|exists z; split; [right; right; auto|auto]].
        apply R1 in Hm. destruct Hm as [Hm|Hm]; [exists p|exists q]; split; auto; [left; auto|right; left; auto].
      * intro H. apply B5. destruct H as (z & [<-|[<-|Hz]] & Hm); [exists p1; split; [left; auto|apply R1; auto]|exists p1; split; [left; auto|apply R1; auto]|exists z; split; [right; auto|auto]].
      * destruct (B6 z) as [Y _]; auto.
        -- apply apart_sym. apply (apart_range p q p1); auto; [intro m; apply R1|apply apart_sym; auto|]. inversion H1; subst. apply apart_sym; auto.
        -- inversion H1; auto.
      * destruct (B6 z) as [_ Y]; auto.
        -- apply apart_sym. apply (apart_range p q p1); auto; [intro m; apply R1|apply apart_sym; auto|]. inversion H1; subst. apply apart_sym; auto.
        -- inversion H1; auto.
    + destruct (IH ps0 it p Ci F' A2 O2) as (p' & ps' & B1 & B2 & B3 & B4 & B5 & B6).
      destruct (absorb it rest) as [it' r']. cbn [fst snd] in *. exists p', (q :: ps').
      assert (Rp := covers_range _ _ Ci). assert (Rq := covers_range _ _ Ct).
      destruct (B6 q Rq (apart_sym _ _ A1) O1) as [Y1 Y2].
      split; [exact B1|]. split; [constructor; auto|]. split; [|split; [|split; [intro m; split|intros z H H0 H1; split]]].
      * constructor; auto. apply apart_sym; auto.
      * constructor; auto.
      * intros (z & Hz & Hm). destruct Hz as [<-|[<-|Hz]].
        -- destruct (proj1 (B5 m)) as (z & Hz & Hm'); [exists p'; split; [left; auto|auto]|]. destruct Hz as [<-|Hz]; [exists p; split; [left; auto|auto]|exists z; split; [right; right; auto|auto]].
        -- exists q; split; [right; left; auto|auto].
        -- destruct (proj1 (B5 m)) as (z' & Hz' & Hm'); [exists z; split; [right; auto|auto]|]. destruct Hz' as [<-|Hz']; [exists p; split; [left; auto|auto]|exists z'; split; [right; right; auto|auto]].
      * intros (z & Hz & Hm). destruct Hz as [<-|[<-|Hz]].
        -- destruct (proj2 (B5 m)) as (z & Hz & Hm'); [exists p; split; [left; auto|auto]|]. destruct Hz as [<-|Hz]; [exists p'; split; [left; auto|auto]|exists z; split; [right; right; auto|auto]].
        -- exists q; split; [right; left; auto|auto].
        -- destruct (proj2 (B5 m)) as (z' & Hz' & Hm'); [exists z; split; [right; auto|auto]|]. destruct Hz' as [<-|Hz']; [exists p'; split; [left; auto|auto]|exists z'; split; [right; right; auto|auto]].
      * destruct (B6 z) as [Y _]; auto. inversion H1; auto.
      * inversion H1; subst. constructor; auto. destruct (B6 z) as [_ Y]; auto.
Qed.
Lemma mergeAdj_cover n : forall ts ps, coverL ts ps -> exists ps', coverL (mergeAdj n ts) ps' /\ (forall m, within ps' m <-> within ps m) /\
  (forall z, (fst z <= snd z)%nat -> Forall (apart z) ps -> Forall (apart z) ps').
Proof using Xnn tnn tinc sep.
  induction n as [|n IH]; intros ts ps [F O].
  - exists ps. destruct ts; cbn [mergeAdj]; (split; [split; auto|split; [tauto|auto]]).
  - destruct ts as [|t r]; cbn [mergeAdj].
    + exists ps. split; [split; auto|split; [tauto|auto]].
    + inversion F as [|t0 q rest0 ps0 Ct F' E1 E2]; subst. inversion O as [|q1 ps2 O1 O2]; subst.
      destruct (absorb_cover r ps0 t q Ct F' O1 O2) as (p' & ps' & B1 & B2 & B3 & B4 & B5 & B6).
      destruct (absorb t r) as [t' r']. cbn [fst snd] in *.
      destruct (IH r' ps' (conj B2 B4)) as (ps'' & [D1 D2] & D3 & D4). exists (p' :: ps''). split; [split|split].
      * constructor; auto.
      * constructor; auto. apply D4; auto. apply (covers_range _ _ B1).
      * intro m. rewrite <- B5. split; intros (z & Hz & Hm); destruct Hz as [<-|Hz].
        -- exists p'; split; [left; auto|auto].
        -- destruct (proj1 (D3 m)) as (z' & Hz' & Hm'); [exists z; auto|]. exists z'; split; [right; auto|auto].
        -- exists p'; split; [left; auto|auto].
        -- destruct (proj2 (D3 m)) as (z' & Hz' & Hm'); [exists z; auto|]. exists z'; split; [right; auto|auto].
      * intros z Zr Hz. inversion Hz; subst. destruct (B6 z Zr) as [Y1 Y2]; auto.
Qed.
Lemma covers_disj t u p q v : covers t p -> covers u q -> apart p q -> nonneg v -> gsat (tgrd t) v -> gsat (tgrd u) v -> False.
Proof using sep. intros [G _] [G' _] [A|A] Nv S1 S2; [apply (grp_disj _ _ _ _ _ _ v G G' A)|apply (grp_disj _ _ _ _ _ _ v G' G A)]; auto. Qed.
Lemma covers_small t p : covers t p -> smallConsts (tgrd t).
Proof using. intros [G _]. apply (grp_small _ _ _ G). Qed.
Lemma covers_sat t p : covers t p -> exists v, nonneg v /\ gsat (tgrd t) v.
Proof using Xnn tnn tinc sep. intros [G _]. exists (rowPt (fst p)). split; [apply rowPt_nn|apply (grp_inhab _ _ _ G)]. Qed.
Lemma coverL_pairs ts ps : coverL ts ps -> ForallOrdPairs (fun t u => forall v, nonneg v -> gsat (tgrd t) v -> gsat (tgrd u) v -> False) ts.
Proof using sep.
  intros [F O]. induction F as [|t p ts ps C F IH]; [constructor|]. inversion O; subst. constructor; [|auto].
  clear IH O. induction F as [|u q ts ps C' F IH]; constructor.
  - inversion H1; subst. intros v Nv. apply (covers_disj t u p q); auto.
  - inversion H1; subst. inversion H2; subst. apply IH; auto.
Qed.
Lemma coverL_all ts ps : coverL ts ps -> forall t, In t ts -> smallConsts (tgrd t) /\ exists v, nonneg v /\ gsat (tgrd t) v.
Proof using Xnn tnn tinc sep.
  intros [F _] t Ht. induction F as [|u p ts ps C F IH]; [destruct Ht|]. destruct Ht as [<-|Ht]; [split; [apply (covers_small _ _ C)|apply (covers_sat _ _ C)]|auto].
Qed.
End Chain.

(** *** the remaining clean-up does nothing to pairwise disjoint guards *)
Definition disjTs (ts : list trans) : Prop := ForallOrdPairs (fun t u => forall v, nonneg v -> gsat (tgrd t) v -> gsat (tgrd u) v -> False) ts.
Lemma disj_conj t u : smallConsts (tgrd t) -> smallConsts (tgrd u) -> (forall v, nonneg v -> gsat (tgrd t) v -> gsat (tgrd u) v -> False) ->
  satisfiable (conjunction (tgrd t) (tgrd u)) = false.
Proof.
  intros St Su D. destruct (satisfiable (conjunction (tgrd t) (tgrd u))) eqn:E; auto. exfalso.
  apply satisfiable_exact in E; [|apply smallConsts_app; auto]. destruct E as (v & Nv & G). unfold conjunction in G. apply gsat_app in G. apply (D v Nv); tauto.
Qed.
Lemma removeWeaker_id ts : disjTs ts -> (forall t, In t ts -> exists v, nonneg v /\ gsat (tgrd t) v) -> removeWeaker [] ts = ts.
Proof.
  intros D S.
  assert (G : forall rest kept, ts = kept ++ rest -> removeWeaker kept rest = kept ++ rest).
  { induction rest as [|t r IH]; intros kept E; cbn [removeWeaker]; [rewrite app_nil_r; auto|].
    destruct (existsb _ (kept ++ t :: r)) eqn:Ex.
    - exfalso. apply existsb_exists in Ex. destruct Ex as (u & Iu & Hu). rewrite !andb_true_iff in Hu. destruct Hu as [[N W] _].
      destruct (S t) as (v & Nv & Gv); [rewrite E; apply in_or_app; right; left; auto|].
      assert (Gu := isWeaker_sound _ _ v W Gv). apply in_app_or in Iu. destruct Iu as [Iu|[<-|Iu]].
      + apply (fop_app _ _ D kept (t :: r) E u t Iu (or_introl eq_refl) v Nv Gu Gv).
      + rewrite trans_eqb_refl in N. discriminate.
      + apply (fop_app2 _ _ D kept t r E u Iu v Nv Gv Gu).
    - rewrite IH; [rewrite <- app_assoc; reflexivity|]. rewrite E, <- app_assoc. reflexivity. }
  apply (G ts []). reflexivity.
Qed.
Lemma absorbND_id prefer it rest : Forall (fun u => satisfiable (conjunction (tgrd it) (tgrd u)) = false) rest -> absorbND prefer it rest = (it, rest).
Proof. induction 1 as [|u r H F IH]; cbn [absorbND]; [reflexivity|]. rewrite H, IH. reflexivity. Qed.
Lemma disj_fop ts : disjTs ts -> (forall t, In t ts -> smallConsts (tgrd t)) -> ForallOrdPairs (fun t u => satisfiable (conjunction (tgrd t) (tgrd u)) = false) ts.
Proof.
  intro D. induction D as [|t ts F D IH]; intro S; constructor.
  - apply Forall_forall. intros u Hu. rewrite Forall_forall in F. apply disj_conj; [apply S; left; auto|apply S; right; auto|apply F; auto].
  - apply IH. intros; apply S; right; auto.
Qed.
Lemma mergeND_id prefer n : forall ts, ForallOrdPairs (fun t u => satisfiable (conjunction (tgrd t) (tgrd u)) = false) ts -> mergeND prefer n ts = ts.
Proof.
  induction n as [|n IH]; intros ts F; destruct ts as [|t r]; cbn [mergeND]; auto.
  inversion F; subst. rewrite absorbND_id by auto. rewrite IH; auto.
Qed.
Lemma needSplit_false ts : ForallOrdPairs (fun t u => satisfiable (conjunction (tgrd t) (tgrd u)) = false) ts -> needSplitTs ts = false.
Proof.
  induction 1 as [|t r F D IH]; cbn [needSplitTs]; [reflexivity|]. rewrite IH, orb_false_r.
  destruct (existsb _ r) eqn:E; auto. apply existsb_exists in E. destruct E as (u & Hu & E). rewrite Forall_forall in F. rewrite (F u Hu), andb_false_r in E. discriminate.
Qed.

Section Tidy.
Context (N e : nat) (X : nat -> Q) (tm : nat -> Q).
Context (Xnn : forall s, 0 <= X s) (tnn : forall i, 0 <= tm i)
        (tinc : forall i j, (i < j)%nat -> (j <= e)%nat -> tm i < tm j)
        (sep : forall i j, (i < j)%nat -> (j <= e)%nat -> exists s, (s < N)%nat /\ (KK X tm i s < KK X tm j s)%Z).
Context (T : nat -> trans).
(** the clean-up keeps what the transitions do on every row *)
Lemma tidyTs_cover prefer ts ps : (forall t, In t ts -> NoDup (map fst (trst t))) -> coverL N e X tm T ts ps ->
  exists ps', coverL N e X tm T (tidyTs prefer ts) ps' /\ forall m, within ps' m <-> within ps m.
Proof using Xnn tnn tinc sep.
  intros ND C. apply (coverL_sort N e X tm T _ _ ND) in C.
  destruct (mergeAdj_cover N e X tm Xnn tnn tinc sep T (length (map sortT ts)) _ _ C) as (ps' & C' & W & _).
  exists ps'. split; [|exact W]. unfold tidyTs.
  assert (D : disjTs (mergeAdj (length (map sortT ts)) (map sortT ts))) by (apply (coverL_pairs N e X tm sep T _ _ C')).
  assert (A := coverL_all N e X tm Xnn tnn tinc sep T _ _ C').
  rewrite (removeWeaker_id _ D) by (intros t Ht; apply (A t Ht)).
  rewrite mergeND_id; [exact C'|]. apply disj_fop; auto. intros t Ht. apply (A t Ht).
Qed.
Lemma cover_disj ts ps : coverL N e X tm T ts ps -> disjTs ts.
Proof using sep. apply (coverL_pairs N e X tm sep T). Qed.
Lemma cover_needSplit ts ps : coverL N e X tm T ts ps -> needSplitTs ts = false.
Proof using Xnn tnn tinc sep.
  intro C. apply needSplit_false, disj_fop; [apply (cover_disj _ _ C)|]. intros t Ht. apply (coverL_all N e X tm Xnn tnn tinc sep T _ _ C t Ht).
Qed.
Lemma cover_step ts ps m v : coverL N e X tm T ts ps -> within ps m -> nonneg v -> inRow N e X tm m v ->
  (exists tr, In tr ts /\ gsat (tgrd tr) v) /\
  forall tr, In tr ts -> gsat (tgrd tr) v -> ttgt tr = ttgt (T m) /\ sameReset (trst tr) (trst (T m)).
Proof using Xnn tnn tinc sep.
  intros [F _] W Nv R. split.
  - destruct W as (p & Hp & A & B). induction F as [|t q ts ps C F IH]; [destruct Hp|]. destruct Hp as [<-|Hp].
    + exists t. split; [left; auto|]. destruct C as [G _]. apply (grp_sat N e X tm Xnn tnn tinc sep _ _ _ m v G Nv R). auto.
    + destruct (IH Hp) as (tr & I1 & I2). exists tr. split; [right; auto|auto].
  - clear W. intros tr Htr G. induction F as [|t q ts ps C F IH]; [destruct Htr|]. destruct Htr as [<-|Htr]; [|auto].
    destruct C as [Gr H]. apply (grp_sat N e X tm Xnn tnn tinc sep _ _ _ m v Gr Nv R) in G. apply H; tauto.
Qed.
(** the rows themselves *)
Lemma cover_rows is : NoDup is -> (forall i, In i is -> grp N e X tm (tgrd (T i)) i i) ->
  coverL N e X tm T (map T is) (map (fun i => (i, i)) is).
Proof using N e X tm T.
  intros ND G. split.
  - clear ND. induction is as [|i is IH]; cbn [map]; constructor.
    + split; [apply G; left; auto|]. cbn [fst snd]. intros m A B. assert (m = i) by lia. subst m. split; [auto|apply sameReset_refl].
    + apply IH. intros; apply G; right; auto.
  - clear G. induction ND as [|i is Ni ND IH]; cbn [map]; constructor; auto.
    apply Forall_forall. intros q Hq. apply in_map_iff in Hq. destruct Hq as (j & <- & Hj). unfold apart; cbn [fst snd].
    assert (i <> j) by (intros ->; contradiction). lia.
Qed.
Lemma within_rows is m : within (map (fun i => (i, i)) is) m <-> In m is.
Proof using.
  split.
  - intros (p & Hp & A & B). apply in_map_iff in Hp. destruct Hp as (j & <- & Hj). cbn [fst snd] in *. assert (m = j) by lia. subst; auto.
  - intro H. exists (m, m). cbn [fst snd]. split; [apply (in_map (fun i => (i, i))); auto|lia].
Qed.
End Tidy.
