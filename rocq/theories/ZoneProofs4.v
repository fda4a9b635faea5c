(** Zones: renaming extraction, sampling, reverted resets, zone sets. *)
From Coq Require Import QArith ZArith Bool List Lqa Lia.
From Verif Require Import BoundsModel ConstraintModel GuardSpec BoundsProofs ConstraintProofs ZoneModel ZoneSpec ZoneProofs ZoneProofs2 ZoneProofs3.
Import ListNotations.
Open Scope Q_scope.

(** ** makeRenaming *)
Lemma point_entries a b : ble bzero (badd a b) = true -> ble a bzero = true -> ble b bzero = true ->
  bequiv a bzero /\ bequiv b bzero.
Proof.
  intros H Ha Hb. rewrite bzero_le_sat in H.
  destruct a as [c s|], b as [d t|]; try discriminate.
  rewrite ble_spec in Ha, Hb.
  assert (c <= 0).
  { destruct (Qlt_le_dec 0 c); auto. specialize (Ha (c / 2)). cbn in Ha.
    assert (c / 2 == c * (1#2)) by (field). destruct s; cbn in Ha; lra. }
  assert (d <= 0).
  { destruct (Qlt_le_dec 0 d); auto. specialize (Hb (d / 2)). cbn in Hb.
    assert (d / 2 == d * (1#2)) by (field). destruct t; cbn in Hb; lra. }
  cbn [badd] in H. qred. destruct s, t; cbn in H; try lra.
  split; split; apply ble_spec; intros q; cbn; lra.
Qed.

Lemma makeRenaming_exact ls rs m : dim m = (ls + rs + 1)%nat -> closed m -> nonneg2 m ->
  forall p, In p (makeRenaming ls rs m) <->
    (fst p < ls)%nat /\ (snd p < rs)%nat /\ forall w, inZone m w -> w (fst p) == w (ls + snd p)%nat.
Proof.
  intros D C N p. unfold makeRenaming. rewrite in_flat_map. split.
  - intros [l [Hl H]]. apply in_flat_map in H. destruct H as [r [Hr H]]. apply in_seq in Hl, Hr.
    destruct (beqb _ _ && beqb _ _) eqn:E; [|destruct H]. destruct H as [<-|[]]. cbn [fst snd].
    split; [lia|]. split; [lia|]. intros w Hw.
    apply andb_true_iff in E. destruct E as [E1 E2]. unfold beqb in E1, E2.
    apply andb_true_iff in E1, E2. destruct E1 as [E1 _], E2 as [E2 _].
    assert (A := Hw (S l) (ls + S r)%nat ltac:(lia) ltac:(lia)).
    assert (B := Hw (ls + S r)%nat (S l) ltac:(lia) ltac:(lia)).
    apply (ble_sat_1 _ _ E1) in A. apply (ble_sat_1 _ _ E2) in B.
    replace (ls + S r)%nat with (S (ls + r)) in A, B by lia. cbn [ext bsat bz] in A, B. lra.
  - intros (Hl & Hr & H). exists (fst p). split; [apply in_seq; lia|].
    apply in_flat_map. exists (snd p). split; [apply in_seq; lia|].
    assert (T := closed_tight m C N).
    assert (A : ble (get m (S (fst p)) (ls + S (snd p))) bzero = true).
    { apply T; try lia. intros w Hw. specialize (H w Hw).
      replace (ls + S (snd p))%nat with (S (ls + snd p)) by lia. cbn [ext bsat bzero]. lra. }
    assert (B : ble (get m (ls + S (snd p)) (S (fst p))) bzero = true).
    { apply T; try lia. intros w Hw. specialize (H w Hw).
      replace (ls + S (snd p))%nat with (S (ls + snd p)) by lia. cbn [ext bsat bzero]. lra. }
    destruct (point_entries _ _ (N (S (fst p)) (ls + S (snd p))%nat ltac:(lia) ltac:(lia)) A B) as [[E1 E2] [E3 E4]].
    assert (beqb (get m (S (fst p)) (ls + S (snd p))) bz && beqb (get m (ls + S (snd p)) (S (fst p))) bz = true) as ->.
    { unfold beqb. rewrite bz_bzero, E1, E2, E3, E4. reflexivity. }
    left. destruct p; reflexivity.
Qed.

(** ** sets of juxtaposed zones *)
Definition inSet (zs : list matrix) (w : valuation) : Prop := exists m, In m zs /\ inZone m w.

Lemma jsAddRenaming_exact ls n zs ren w :
  (forall m, In m zs -> dim m = n /\ closed m) -> renOk ls n ren ->
  (inSet (jsAddRenaming ls zs ren) w <-> inSet zs w /\ forall p, In p ren -> w (fst p) == w (ls + snd p)%nat)
  /\ forall m, In m (jsAddRenaming ls zs ren) -> canonicalZ m /\ nonemptyZ m.
Proof.
  intros Hz Hr. unfold jsAddRenaming. split.
  - split.
    + intros [m [Hin Hw]]. apply filter_In in Hin. destruct Hin as [Hin _].
      apply in_map_iff in Hin. destruct Hin as [m0 [<- Hin]]. destruct (Hz m0 Hin) as [D C].
      apply addRenaming_exact in Hw; [|rewrite D; auto]. destruct Hw. split; auto. exists m0; auto.
    + intros [[m [Hin Hw]] E]. destruct (Hz m Hin) as [D C].
      assert (K : inZone (addRenaming ls m ren) w) by (apply addRenaming_exact; [rewrite D; auto|auto]).
      exists (addRenaming ls m ren). split; auto. apply filter_In. split; [apply in_map_iff; exists m; auto|].
      apply isSatNoCanon_spec. apply (nonneg2_of_point _ _ K).
  - intros m Hin. apply filter_In in Hin. destruct Hin as [Hin HS]. apply isSatNoCanon_spec in HS.
    apply in_map_iff in Hin. destruct Hin as [m0 [<- Hin]]. destruct (Hz m0 Hin) as [D C].
    assert (CC : closed (addRenaming ls m0 ren)) by (apply addRenaming_closed; auto; rewrite D; auto).
    split; [split; auto|]. apply closed_sat; auto.
Qed.

Definition canonSet (n : nat) (zs : list matrix) : Prop :=
  forall m, In m zs -> dim m = n /\ canonicalZ m.

Definition sameZone (a b : matrix) : Prop := forall w, inZone a w <-> inZone b w.

(** zones of the list are pairwise different sets *)
Inductive pairwiseDiff : list matrix -> Prop :=
| pd_nil : pairwiseDiff []
| pd_cons m zs : (forall m', In m' zs -> ~ sameZone m m') -> pairwiseDiff zs -> pairwiseDiff (m :: zs).

Lemma jsEq_all n a b : canonSet n a -> canonSet n b ->
  (jsEq a b = true <-> length a = length b /\ forall m, In m a -> exists m', In m' b /\ sameZone m m').
Proof.
  intros Ca Cb. unfold jsEq. rewrite andb_true_iff, Nat.eqb_eq, forallb_forall.
  split; intros [L H]; (split; [exact L|]).
  - intros m Hm. specialize (H m Hm). apply existsb_exists in H. destruct H as [m' [Hm' E]].
    exists m'. split; auto. destruct (Ca m Hm) as [D [C N]], (Cb m' Hm') as [D' [C' N']].
    exact (proj1 (zstrictEqual_exact m m' ltac:(congruence) C N C' N') E).
  - intros m Hm. destruct (H m Hm) as [m' [Hm' E]]. apply existsb_exists. exists m'. split; auto.
    destruct (Ca m Hm) as [D [C N]], (Cb m' Hm') as [D' [C' N']].
    exact (proj2 (zstrictEqual_exact m m' ltac:(congruence) C N C' N') E).
Qed.

Lemma sameZone_sym a b : sameZone a b -> sameZone b a.
Proof. intros H w; symmetry; apply H. Qed.
Lemma sameZone_trans a b c : sameZone a b -> sameZone b c -> sameZone a c.
Proof. intros H K w; rewrite (H w); apply K. Qed.

Lemma cover_back : forall a b, length a = length b -> pairwiseDiff a ->
  (forall m, In m a -> exists m', In m' b /\ sameZone m m') ->
  forall m', In m' b -> exists m, In m a /\ sameZone m m'.
Proof.
  induction a as [|x a IH]; intros b L P H m' Hm'.
  - destruct b; [destruct Hm'|discriminate].
  - inversion P as [|? ? Hx P']; subst.
    destruct (H x (or_introl eq_refl)) as [y [Hy Exy]].
    destruct (in_split _ _ Hy) as [b1 [b2 ->]].
    assert (L' : length a = length (b1 ++ b2)) by (rewrite app_length in *; cbn [length] in *; lia).
    assert (H' : forall m, In m a -> exists m', In m' (b1 ++ b2) /\ sameZone m m').
    { intros m Hm. destruct (H m (or_intror Hm)) as [z [Hz Emz]].
      apply in_app_iff in Hz. destruct Hz as [Hz|[->|Hz]].
      - exists z. split; auto. apply in_app_iff; auto.
      - exfalso. apply (Hx m Hm). eapply sameZone_trans; [exact Exy|]. apply sameZone_sym; auto.
      - exists z. split; auto. apply in_app_iff; auto. }
    apply in_app_iff in Hm'. destruct Hm' as [K|[->|K]].
    + destruct (IH _ L' P' H' m') as [m [Hm E]]; [apply in_app_iff; auto|]. exists m; split; [right|]; auto.
    + exists x. split; [left|]; auto.
    + destruct (IH _ L' P' H' m') as [m [Hm E]]; [apply in_app_iff; auto|]. exists m; split; [right|]; auto.
Qed.

(** with no duplicates in the left set, a positive answer means the two sets denote the same valuations *)
Lemma jsEq_sound n a b : canonSet n a -> canonSet n b -> pairwiseDiff a ->
  jsEq a b = true -> forall w, inSet a w <-> inSet b w.
Proof.
  intros Ca Cb P H w. apply (jsEq_all n) in H; auto. destruct H as [L H]. split.
  - intros [m [Hm Hw]]. destruct (H m Hm) as [m' [Hm' E]]. exists m'; split; auto. apply E; auto.
  - intros [m' [Hm' Hw]]. destruct (cover_back a b L P H m' Hm') as [m [Hm E]]. exists m; split; auto. apply E; auto.
Qed.

(** with duplicates it does not *)
Lemma jsEq_dup : let A := canonize (zpoint 1 (fun _ => 1)) in let B := canonize (zpoint 1 (fun _ => 2)) in
  jsEq [A; A] [A; B] = true /\ jsEq [A; B] [A; A] = false.
Proof. vm_compute. auto. Qed.

(** ** revertResets *)
Definition constOnly (rs : resets) : Prop := forall x r, In (x, r) rs -> exists q, r = RConst q.

Lemma revFind_const rs y : constOnly rs -> revFind rs y = None.
Proof.
  unfold revFind. intros H.
  match goal with |- fold_left ?f _ _ = _ => cut (forall acc, fold_left f rs acc = acc); [intro K; apply K|] end.
  induction rs as [|[x r] rs IH]; intros acc; cbn [fold_left]; auto.
  assert (exists q, r = RConst q) as [q ->] by (apply (H x); left; reflexivity).
  apply IH. intros x' r' K; apply (H x' r'); right; auto.
Qed.

Lemma dim_zrevert1 rs m x : dim (zrevert1 rs m x) = dim m.
Proof.
  unfold zrevert1. cbv zeta. rewrite dim_canonize. destruct (revFind rs x); rewrite ?dim_set1; apply dim_unconstrain.
Qed.

Lemma zrevert_fold rs : forall l m n, dim m = S n -> canonicalZ m -> nonemptyZ m ->
  (forall x, In x l -> (x < n)%nat) -> (forall x, In x l -> revFind rs x = None) ->
  let m' := fold_left (zrevert1 rs) l m in
  canonicalZ m' /\ forall w, inZone m' w <-> exists w', inZone m w' /\ forall z, (z < n)%nat -> ~ In z l -> w z == w' z.
Proof.
  induction l as [|x l IH]; intros m n D C N Hl Hc; cbn [fold_left].
  - split; auto. intro w; split.
    + intro H; exists w; split; auto. intros; reflexivity.
    + intros [w' [H E]]. eapply inZone_ext; [|exact H]. rewrite D. cbn [pred]. intros z Hz. symmetry; apply E; auto.
  - assert (Hx : (x < n)%nat) by (apply Hl; left; auto).
    assert (E1 : zrevert1 rs m x = canonize (unconstrain m x)).
    { unfold zrevert1. cbv zeta. rewrite Hc by (left; auto). auto. }
    assert (N1 : nonemptyZ (unconstrain m x)).
    { destruct N as [w Hw]. exists (upd w x 0). apply unconstrain_sound; auto. }
    assert (D1 : dim (zrevert1 rs m x) = S n) by (rewrite dim_zrevert1; auto).
    destruct (IH (zrevert1 rs m x) n D1) as [C' E'].
    + rewrite E1. apply canonical_of_nonempty_canonize; auto.
    + rewrite E1. destruct N1 as [w Hw]. exists w. apply canonize_inZone; auto.
    + intros; apply Hl; right; auto.
    + intros; apply Hc; right; auto.
    + split; auto. intro w. rewrite E'. split.
      * intros [w1 [H1 A1]]. rewrite E1 in H1. rewrite canonize_inZone in H1. destruct C as [C0 C1].
        destruct (unconstrain_complete m x w1 C0 C1 ltac:(lia) H1) as [q Hq].
        exists (upd w1 x q). split; auto. intros z Hz Hni. rewrite (A1 z Hz) by (intro K; apply Hni; right; auto).
        unfold upd. destruct (z =? x)%nat eqn:Ez; [|reflexivity]. apply Nat.eqb_eq in Ez; subst.
        exfalso; apply Hni; left; auto.
      * intros [w' [H' A']]. exists (upd w' x (w x)). split.
        -- rewrite E1, canonize_inZone. apply unconstrain_sound; auto.
        -- intros z Hz Hni. unfold upd. destruct (z =? x)%nat eqn:Ez.
           ++ apply Nat.eqb_eq in Ez; subst. reflexivity.
           ++ apply A'; auto. intros [K|K]; [apply Nat.eqb_neq in Ez; congruence|auto].
Qed.

(** constant resets: the valuations that coincide with some valuation of the zone on the clocks not reset *)
Lemma zrevertResets_gen rs m n : dim m = S n -> canonicalZ m -> nonemptyZ m -> (forall x, In x (map fst rs) -> revFind rs x = None) ->
  (forall x r, In (x, r) rs -> (x < n)%nat) ->
  canonicalZ (zrevertResets m rs) /\
  forall w, inZone (zrevertResets m rs) w <->
    exists w', inZone m w' /\ forall z, (z < n)%nat -> ~ In z (map fst rs) -> w z == w' z.
Proof.
  intros D C N Hc Hx. unfold zrevertResets.
  destruct (zrevert_fold rs (rev (map fst rs)) m n D C N) as [K E].
  { intros x Hin. apply in_rev in Hin. apply in_map_iff in Hin. destruct Hin as [[y r] [<- Hin]].
    apply (Hx y r); auto. }
  { intros x Hin. apply in_rev in Hin. auto. }
  split; [exact K|]. intro w. clear K. rewrite E. split; intros [w' [H A]]; exists w'; split; auto; intros z Hz Hni; apply A; auto;
    intro K; apply Hni; [apply in_rev in K|apply in_rev; rewrite rev_involutive]; auto.
Qed.

Lemma zrevertResets_const rs m n : dim m = S n -> canonicalZ m -> nonemptyZ m -> constOnly rs ->
  (forall x r, In (x, r) rs -> (x < n)%nat) ->
  forall w, inZone (zrevertResets m rs) w <->
    exists w', inZone m w' /\ forall z, (z < n)%nat -> ~ In z (map fst rs) -> w z == w' z.
Proof. intros D C N Hc Hx. apply zrevertResets_gen; auto. intros x _. apply revFind_const; auto. Qed.

(** exact weakest precondition when the zone only holds valuations that the constant resets can produce *)
Lemma zrevertResets_wp rs m n : dim m = S n -> canonicalZ m -> nonemptyZ m -> constOnly rs ->
  NoDup (map fst rs) -> (forall x r, In (x, r) rs -> (x < n)%nat) ->
  (forall w' x q, inZone m w' -> In (x, RConst q) rs -> w' x == q) ->
  forall w, inZone (zrevertResets m rs) w <-> inZone m (applyReset w rs).
Proof.
  intros D C N Hc ND Hx Him w. rewrite (zrevertResets_const rs m n D C N Hc Hx w). split.
  - intros [w' [H E]]. eapply inZone_ext; [|exact H]. rewrite D. cbn [pred]. intros z Hz. unfold applyReset.
    destruct (in_dec Nat.eq_dec z (map fst rs)) as [Hin|Hin].
    + apply in_map_iff in Hin. destruct Hin as [[x r] [Ex Hin]]. cbn [fst] in Ex; subst x.
      destruct (Hc z r Hin) as [q ->].
      rewrite (Him w' z q H Hin).
      assert (K := applyReset_in rs w ND w z (RConst q) Hin). cbn [rval] in K. 
      change (q == fold_left (applyReset1 w) rs w z). rewrite K. reflexivity.
    + assert (K := applyReset_notin rs w w z Hin).
      change (w' z == fold_left (applyReset1 w) rs w z). rewrite K. symmetry. apply E; auto.
  - intro H. exists (applyReset w rs). split; auto. intros z Hz Hni.
    assert (K := applyReset_notin rs w w z Hni).
    change (w z == fold_left (applyReset1 w) rs w z). rewrite K. reflexivity.
Qed.

(** with renamings the code can lose predecessors: y := z followed by x := y *)
Lemma zrevertResets_rename_lost :
  let rs := [(1%nat, RVar 2%nat); (0%nat, RVar 1%nat)] in
  let w : valuation := fun x => match x with O => 5 | 1%nat => 1 | _ => 2 end in
  let m := zpoint 3 (applyReset w rs) in
  isSatisfiable (zand (zrevertResets m rs) (zpoint 3 w)) = false.
Proof. vm_compute. auto. Qed.
