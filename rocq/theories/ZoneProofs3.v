(** Zones: parallel resets, point zones, juxtaposition, projections, sampling. *)
From Coq Require Import QArith ZArith Bool List Lqa Lia.
From Verif Require Import BoundsModel ConstraintModel GuardSpec BoundsProofs ConstraintProofs ZoneModel ZoneSpec ZoneProofs ZoneProofs2.
Import ListNotations.
Open Scope Q_scope.

(** ** parallel versus sequential resets *)
(** A reset list is race free: no clock is assigned twice, and a clock is not
    read by a renaming after an earlier renaming in the list changed it. *)
Definition raceFree (rs : resets) : Prop :=
  NoDup (map fst rs) /\
  forall a x y b, rs = a ++ (x, RVar y) :: b -> forall z, In (y, RVar z) a -> z = y.

Lemma applyReset_notin rs old : forall acc z, ~ In z (map fst rs) ->
  fold_left (applyReset1 old) rs acc z = acc z.
Proof.
  induction rs as [|[x r] rs IH]; intros acc z H; cbn [fold_left]; auto.
  rewrite IH by (intro K; apply H; right; auto). unfold applyReset1; cbn [fst].
  destruct (z =? x)%nat eqn:E; auto. apply Nat.eqb_eq in E; subst. exfalso; apply H; left; auto.
Qed.

Lemma applyReset_in rs old : NoDup (map fst rs) -> forall acc x r, In (x, r) rs ->
  fold_left (applyReset1 old) rs acc x = rval old r.
Proof.
  induction rs as [|[x' r'] rs IH]; intros ND acc x r H; [destruct H|]. cbn [fold_left].
  cbn [map fst] in ND. inversion ND as [|? ? Nx ND']; subst.
  destruct H as [[= -> ->]|H].
  - rewrite applyReset_notin by auto. unfold applyReset1; cbn [fst snd]. rewrite Nat.eqb_refl. reflexivity.
  - apply IH; auto.
Qed.

Lemma seqAssign_notin rs : forall w z, (forall q, ~ In (z, RConst q) rs) -> fold_left seqAssign rs w z = w z.
Proof.
  induction rs as [|[x [q|y]] rs IH]; intros w z H; cbn [fold_left]; auto.
  - rewrite IH by (intros q' K; apply (H q'); right; auto). cbn [seqAssign]. unfold upd.
    destruct (z =? x)%nat eqn:E; auto. apply Nat.eqb_eq in E; subst. exfalso; apply (H q); left; auto.
  - rewrite IH by (intros q' K; apply (H q'); right; auto). reflexivity.
Qed.

Lemma seqAssign_in rs : NoDup (map fst rs) -> forall w x q, In (x, RConst q) rs -> fold_left seqAssign rs w x = q.
Proof.
  induction rs as [|[x' r'] rs IH]; intros ND w x q H; [destruct H|]. cbn [fold_left].
  cbn [map fst] in ND. inversion ND as [|? ? Nx ND']; subst.
  destruct H as [[= -> ->]|H].
  - rewrite seqAssign_notin.
    + cbn [seqAssign]. unfold upd. rewrite Nat.eqb_refl; auto.
    + intros q' K. apply Nx. apply in_map_iff. exists (x, RConst q'); auto.
  - apply IH; auto.
Qed.

Lemma seqRename_spec b : forall a w0 w,
  NoDup (map fst (a ++ b)) ->
  (forall p x y s, a ++ b = p ++ (x, RVar y) :: s -> forall z, In (y, RVar z) p -> z = y) ->
  (forall z, (forall y, ~ In (z, RVar y) a) -> w z = w0 z) ->
  (forall z y, In (z, RVar y) a -> w z = w0 y) ->
  (forall z, (forall y, ~ In (z, RVar y) (a ++ b)) -> fold_left seqRename b w z = w0 z) /\
  (forall z y, In (z, RVar y) (a ++ b) -> fold_left seqRename b w z = w0 y).
Proof.
  induction b as [|[x r] b IH]; intros a w0 w ND RF H1 H2; cbn [fold_left].
  - rewrite app_nil_r in *. split; auto.
  - assert (EQ : a ++ (x, r) :: b = (a ++ [(x, r)]) ++ b) by (rewrite <- app_assoc; reflexivity).
    rewrite EQ. apply IH.
    + rewrite <- EQ; auto.
    + rewrite <- EQ; auto.
    + intros z Hz. assert (Ha : forall y, ~ In (z, RVar y) a).
      { intros y K; apply (Hz y), in_app_iff; auto. }
      destruct r as [q|y]; cbn [seqRename]; [apply H1; auto|]. unfold upd.
      destruct (z =? x)%nat eqn:E; [|apply H1; auto]. apply Nat.eqb_eq in E; subst.
      exfalso. apply (Hz y). apply in_app_iff; right; left; auto.
    + intros z y Hz. apply in_app_iff in Hz. destruct Hz as [Hz|[Hz|[]]].
      * assert (Nzx : z <> x).
        { intros ->. rewrite map_app in ND. apply NoDup_remove_2 in ND. apply ND.
          apply in_app_iff; left. apply in_map_iff. exists (x, RVar y); auto. }
        destruct r as [q|y']; cbn [seqRename]; [apply H2; auto|]. unfold upd.
        apply Nat.eqb_neq in Nzx. rewrite Nzx. apply H2; auto.
      * injection Hz as -> ->. cbn [seqRename]. unfold upd. rewrite Nat.eqb_refl.
        (* w y = w0 y *)
        assert (D : (exists z', In (y, RVar z') a) \/ (forall z', ~ In (y, RVar z') a)).
        { clear. induction a as [|[p [q|s]] a IHa].
          - right; intros z' [].
          - destruct IHa as [[z' K]|K]; [left; exists z'; right; auto|].
            right. intros z' [E|E]; [discriminate|]. apply (K z' E).
          - destruct (Nat.eq_dec p y) as [->|Hp]; [left; exists s; left; auto|].
            destruct IHa as [[z' K]|K]; [left; exists z'; right; auto|].
            right. intros z' [E|E]; [injection E as -> ->; congruence|apply (K z' E)]. }
        destruct D as [[z' K]|K]; [|apply H1; auto].
        rewrite (H2 _ _ K). f_equal. apply (RF a z y b eq_refl z' K).
Qed.

Lemma seq_is_par rs w : raceFree rs -> forall z, seqApply w rs z = applyReset w rs z.
Proof.
  intros [ND RF] z. unfold seqApply, applyReset.
  destruct (seqRename_spec rs [] w w ND RF (fun _ _ => eq_refl) (fun _ _ H => match H with end)) as [A B].
  cbn [app] in A, B.
  destruct (in_dec Nat.eq_dec z (map fst rs)) as [Hin|Hin].
  - apply in_map_iff in Hin. destruct Hin as [[x r] [E Hin]]. cbn [fst] in E; subst x.
    transitivity (rval w r); [|symmetry; exact (applyReset_in rs w ND w z r Hin)].
    destruct r as [q|y]; cbn [rval].
    + apply seqAssign_in; auto.
    + rewrite seqAssign_notin; [apply B; auto|].
      intros q K. assert (X : RVar y = RConst q); [|discriminate].
      clear -ND Hin K. induction rs as [|[x r] rs IH]; [destruct Hin|].
      cbn [map fst] in ND. inversion ND as [|? ? Nx ND']; subst.
      destruct Hin as [E1|Hin], K as [E2|K]; auto.
      * congruence.
      * injection E1 as -> ->. exfalso; apply Nx. apply in_map_iff; exists (z, RConst q); auto.
      * injection E2 as -> ->. exfalso; apply Nx. apply in_map_iff; exists (z, RVar y); auto.
  - transitivity (w z); [|symmetry; apply applyReset_notin; auto]. rewrite seqAssign_notin.
    + apply A. intros y K. apply Hin. apply in_map_iff; exists (z, RVar y); auto.
    + intros q K. apply Hin. apply in_map_iff; exists (z, RConst q); auto.
Qed.

Lemma zapplyResets_exact rs m n : dim m = S n -> canonicalZ m -> nonemptyZ m -> rwf (S n) rs -> raceFree rs ->
  forall w', inZone (zapplyResets m rs) w' <-> exists w, inZone m w /\ agree n w' (applyReset w rs).
Proof.
  intros D Hc Hn Hr RF w'.
  destruct (zapplyResets_seq rs m n D Hc Hn Hr) as (D' & _ & _ & F & B).
  split.
  - intro H. destruct (B w' H) as [w [Hw E]]. exists w. split; auto.
    intros z Hz. rewrite (E z Hz), (seq_is_par rs w RF z). reflexivity.
  - intros [w [Hw E]]. apply (inZone_ext _ (seqApply w rs)); [|apply F; auto].
    rewrite D'. cbn [pred]. intros z Hz. rewrite (seq_is_par rs w RF z). symmetry. apply E; auto.
Qed.

(** the code's result always contains the sequential image; for swapped clocks
    it misses the parallel one *)
Lemma zapplyResets_swap :
  let m := zpoint 2 (fun x => match x with O => 1 | _ => 2 end) in
  let rs := [(0%nat, RVar 1%nat); (1%nat, RVar 0%nat)] in
  let w := (fun x => match x with O => 1 | _ => 2 end) : valuation in
  zincludes m (zpoint 2 w) = true /\
  isSatisfiable (zand (zapplyResets m rs) (zpoint 2 (applyReset w rs))) = false.
Proof. vm_compute. auto. Qed.

(** ** top, zero and point zones *)
Lemma ztop_all n w : inZone (ztop n) w.
Proof. intros i j Hi Hj. unfold ztop in *. rewrite dim_mk in *. rewrite get_mk by auto. cbn; auto. Qed.

Lemma zzero_exact n w : inZone (zzero (S n)) w <-> forall x, (x < n)%nat -> w x == 0.
Proof.
  unfold zzero. split.
  - intros H x Hx. assert (A := H 0%nat (S x)). assert (B := H (S x) 0%nat). rewrite dim_mk in A, B.
    rewrite get_mk in A, B by lia. cbn [ext bsat bz] in A, B. specialize (A ltac:(lia) ltac:(lia)).
    specialize (B ltac:(lia) ltac:(lia)). lra.
  - intros H i j Hi Hj. rewrite dim_mk in *. rewrite get_mk by auto. cbn [bsat bz].
    assert (forall k, (k < S n)%nat -> ext w k == 0) as E.
    { intros [|k] Hk; cbn [ext]; [reflexivity|]. apply H; lia. }
    rewrite (E i Hi), (E j Hj). lra.
Qed.

Lemma zpoint_fold v l : forall m, (forall i, In i l -> (S i < dim m)%nat) ->
  dim (fold_left (zpoint1 v) l m) = dim m /\
  forall w, inZone (fold_left (zpoint1 v) l m) w <-> inZone m w /\ forall i, In i l -> w i == v i.
Proof.
  induction l as [|i l IH]; intros m Hl; cbn [fold_left].
  - split; auto. intro w. split; [intro H; split; auto; intros i []|tauto].
  - assert (D : dim (zpoint1 v m i) = dim m) by (unfold zpoint1; rewrite !dim_tighten; auto).
    assert (Hi : (S i < dim m)%nat) by (apply Hl; left; auto).
    destruct (IH (zpoint1 v m i)) as [D' E].
    { rewrite D. intros; apply Hl; right; auto. }
    split; [congruence|]. intro w. rewrite E.
    assert (X : inZone (zpoint1 v m i) w <-> inZone m w /\ w i == v i).
    { unfold zpoint1. rewrite !inZone_Z, !tighten_Z by (rewrite ?dim_tighten; lia). cbn [ext bsat].
      intuition lra. }
    rewrite X. split.
    + intros [[A B] C]. split; auto. intros k [<-|Hk]; auto.
    + intros [A B]. split; [split; auto; apply B; left; auto|intros; apply B; right; auto].
Qed.

Lemma zpoint_exact n v w : inZone (zpoint n v) w <-> agree n w v.
Proof.
  unfold zpoint. destruct (zpoint_fold v (seq 0 n) (ztop (S n))) as [_ E].
  { intros i Hi. apply in_seq in Hi. unfold ztop; rewrite dim_mk; lia. }
  rewrite E. unfold agree. split.
  - intros [_ H] x Hx. apply H, in_seq; lia.
  - intro H. split; [apply ztop_all|]. intros i Hi. apply in_seq in Hi. apply H; lia.
Qed.

(** ** juxtaposition *)
(** the right component of a joint valuation *)
Definition rightPart (ls : nat) (w : valuation) : valuation := fun k => w (ls + k)%nat.

Lemma jux_exact l r w : (0 < dim l)%nat -> (0 < dim r)%nat -> bsat (get r 0 0) 0 ->
  (inZone (jux l r) w <-> inZone l w /\ inZone r (rightPart (pred (dim l)) w)).
Proof.
  intros Hl Hr H00. unfold jux. rewrite canonize_inZone.
  set (nl := dim l) in *. set (nr := dim r) in *.
  assert (EX : forall i, (0 < i)%nat -> (i < nr)%nat -> ext (rightPart (pred nl) w) i = ext w (i + nl - 1)).
  { intros [|i] Hi1 Hi2; [lia|]. cbn [ext]. unfold rightPart. replace (S i + nl - 1)%nat with (S (pred nl + i)) by lia.
    reflexivity. }
  split.
  - intro H. split; intros i j Hi Hj.
    + assert (A := H i j). rewrite dim_mk in A. rewrite get_mk in A by (fold nl in Hi, Hj; lia).
      assert ((i <? nl)%nat = true) as E1 by (apply Nat.ltb_lt; auto).
      assert ((j <? nl)%nat = true) as E2 by (apply Nat.ltb_lt; auto).
      rewrite E1, E2 in A. cbn [andb] in A. apply A; fold nl in Hi, Hj; lia.
    + fold nr in Hi, Hj.
      destruct i as [|i], j as [|j].
      * eapply bsat_ext; [|exact H00]. cbn [ext]. ring.
      * assert (A := H 0%nat (S j + nl - 1)%nat). rewrite dim_mk in A. rewrite get_mk in A by lia.
        assert ((0 <? nl)%nat && (S j + nl - 1 <? nl)%nat = false) as E1
          by (rewrite andb_false_iff; right; apply Nat.ltb_ge; lia).
        assert ((nl <=? 0)%nat = false) as E2 by (apply Nat.leb_gt; lia).
        assert ((nl <=? S j + nl - 1)%nat = true) as E3 by (apply Nat.leb_le; lia).
        rewrite E1, E2, E3 in A. cbn [andb Nat.eqb] in A.
        replace (S j + nl - 1 - nl + 1)%nat with (S j) in A by lia.
        rewrite (EX (S j)) by lia. apply A; lia.
      * assert (A := H (S i + nl - 1)%nat 0%nat). rewrite dim_mk in A. rewrite get_mk in A by lia.
        assert ((S i + nl - 1 <? nl)%nat = false) as E1 by (apply Nat.ltb_ge; lia).
        assert ((nl <=? 0)%nat = false) as E2 by (apply Nat.leb_gt; lia).
        assert ((nl <=? S i + nl - 1)%nat = true) as E3 by (apply Nat.leb_le; lia).
        rewrite E1, E2, E3 in A. rewrite !andb_false_r in A. cbn [andb Nat.eqb] in A.
        replace (S i + nl - 1 - nl + 1)%nat with (S i) in A by lia.
        rewrite (EX (S i)) by lia. apply A; lia.
      * assert (A := H (S i + nl - 1)%nat (S j + nl - 1)%nat). rewrite dim_mk in A. rewrite get_mk in A by lia.
        assert ((S i + nl - 1 <? nl)%nat = false) as E1 by (apply Nat.ltb_ge; lia).
        assert ((nl <=? S j + nl - 1)%nat = true) as E2 by (apply Nat.leb_le; lia).
        assert ((nl <=? S i + nl - 1)%nat = true) as E3 by (apply Nat.leb_le; lia).
        rewrite E1, E2, E3 in A. cbn [andb] in A.
        replace (S i + nl - 1 - nl + 1)%nat with (S i) in A by lia.
        replace (S j + nl - 1 - nl + 1)%nat with (S j) in A by lia.
        rewrite (EX (S i)), (EX (S j)) by lia. apply A; lia.
  - intros [A B] i j Hi Hj. rewrite dim_mk in *. rewrite get_mk by auto.
    destruct (i <? nl)%nat eqn:E1, (j <? nl)%nat eqn:E2; cbn [andb];
      rewrite ?Nat.ltb_lt, ?Nat.ltb_ge in *.
    + apply A; auto.
    + assert ((nl <=? i)%nat = false) as -> by (apply Nat.leb_gt; lia).
      assert ((nl <=? j)%nat = true) as -> by (apply Nat.leb_le; lia). cbn [andb].
      destruct (i =? 0)%nat eqn:E; [|cbn; auto]. apply Nat.eqb_eq in E; subst. cbn [andb].
      assert (K := B 0%nat (j - nl + 1)%nat ltac:(fold nr; lia) ltac:(fold nr; lia)).
      rewrite (EX (j - nl + 1)%nat) in K by lia. replace (j - nl + 1 + nl - 1)%nat with j in K by lia. exact K.
    + assert ((nl <=? j)%nat = false) as -> by (apply Nat.leb_gt; lia).
      assert ((nl <=? i)%nat = true) as -> by (apply Nat.leb_le; lia). cbn [andb].
      rewrite andb_false_r. destruct (j =? 0)%nat eqn:E; [|cbn; auto]. apply Nat.eqb_eq in E; subst.
      assert (K := B (i - nl + 1)%nat 0%nat ltac:(fold nr; lia) ltac:(fold nr; lia)).
      rewrite (EX (i - nl + 1)%nat) in K by lia. replace (i - nl + 1 + nl - 1)%nat with i in K by lia. exact K.
    + assert ((nl <=? j)%nat = true) as -> by (apply Nat.leb_le; lia).
      assert ((nl <=? i)%nat = true) as -> by (apply Nat.leb_le; lia). cbn [andb].
      assert (K := B (i - nl + 1)%nat (j - nl + 1)%nat ltac:(fold nr; lia) ltac:(fold nr; lia)).
      rewrite (EX (i - nl + 1)%nat), (EX (j - nl + 1)%nat) in K by lia.
      replace (i - nl + 1 + nl - 1)%nat with i in K by lia.
      replace (j - nl + 1 + nl - 1)%nat with j in K by lia. exact K.
Qed.

Lemma dim_jux l r : dim (jux l r) = (dim l + dim r - 1)%nat.
Proof. unfold jux. rewrite dim_canonize, dim_mk. reflexivity. Qed.

(** ** addRenaming *)
Definition renOk (ls n : nat) (ren : list (nat * nat)) : Prop :=
  forall p, In p ren -> (S (fst p) < n)%nat /\ (snd p + ls + 1 < n)%nat.

Lemma dim_renameSet ls m p : dim (renameSet ls m p) = dim m.
Proof. unfold renameSet. rewrite !dim_set1; auto. Qed.

Lemma renameSet_mle ls m p : (S (fst p) < dim m)%nat -> (snd p + ls + 1 < dim m)%nat -> mle (renameSet ls m p) m.
Proof.
  intros H1 H2. unfold renameSet. cbv zeta.
  assert (G : forall m x y b, mle (set1 m x y (bmin (get m x y) b)) m).
  { clear. intros. split; [apply dim_set1|]. rewrite dim_set1. intros i j Hi Hj. rewrite get_set1 by auto.
    destruct ((i =? x)%nat && (j =? y)%nat) eqn:E; [|apply ble_refl].
    apply andb_true_iff in E. rewrite !Nat.eqb_eq in E. destruct E; subst. apply bmin_le_l. }
  eapply mle_trans; apply G.
Qed.

Lemma fold_renameSet ls ren : forall m, renOk ls (dim m) ren ->
  dim (fold_left (renameSet ls) ren m) = dim m /\
  (forall w, inZone (fold_left (renameSet ls) ren m) w <->
             inZone m w /\ forall p, In p ren -> w (fst p) == w (ls + snd p)%nat) /\
  (forall k, (k < dim m)%nat -> Cl m k -> (forall p, In p ren -> k <> S (fst p) /\ k <> (snd p + ls + 1)%nat) ->
             Cl (fold_left (renameSet ls) ren m) k).
Proof.
  induction ren as [|p ren IH]; intros m Hr; cbn [fold_left].
  - split; [auto|]. split; [|auto]. intro w; split; [intro H; split; auto; intros p []|tauto].
  - destruct (Hr p (or_introl eq_refl)) as [Hp1 Hp2].
    destruct (IH (renameSet ls m p)) as (D & E & C).
    { rewrite dim_renameSet. intros p' H; apply Hr; right; auto. }
    rewrite dim_renameSet in *. split; [auto|]. split.
    + intro w. rewrite E.
      assert (X : inZone (renameSet ls m p) w <-> inZone m w /\ w (fst p) == w (ls + snd p)%nat).
      { unfold renameSet. cbv zeta. rewrite !inZone_Z.
        rewrite set1_min_Z by (rewrite dim_set1; auto). rewrite set1_min_Z by auto.
        replace (snd p + ls + 1)%nat with (S (ls + snd p)) by lia. cbn [ext bsat bz]. intuition lra. }
      rewrite X. split.
      * intros [[A B] K]. split; auto. intros q [<-|Hq]; auto.
      * intros [A B]. split; [split; auto; apply B; left; auto|intros; apply B; right; auto].
    + intros k Hk HC Hne. apply C; auto; [|intros; apply Hne; right; auto].
      destruct (Hne p (or_introl eq_refl)) as [N1 N2]. unfold renameSet. cbv zeta.
      apply set1_Cl_other; rewrite ?dim_set1; auto; [apply bmin_le_l|].
      apply set1_Cl_other; auto. apply bmin_le_l.
Qed.

Lemma addRenaming_exact ls m ren w : renOk ls (dim m) ren ->
  (inZone (addRenaming ls m ren) w <-> inZone m w /\ forall p, In p ren -> w (fst p) == w (ls + snd p)%nat).
Proof.
  intro Hr. unfold addRenaming. destruct (fold_renameSet ls ren m Hr) as (D & E & _).
  rewrite inZone_Z. rewrite (proj2 (proj2 (fold_close1 _ _))).
  - apply E.
  - rewrite D. intros x Hx. apply in_flat_map in Hx. destruct Hx as [p [Hp [<-|[<-|[]]]]]; apply Hr; auto.
Qed.

Lemma dim_addRenaming ls m ren : renOk ls (dim m) ren -> dim (addRenaming ls m ren) = dim m.
Proof.
  intro Hr. unfold addRenaming. rewrite (proj1 (fold_close1 _ _)). apply fold_renameSet; auto.
Qed.

Lemma addRenaming_closed ls m ren : renOk ls (dim m) ren -> closed m ->
  nonneg2 (addRenaming ls m ren) -> closed (addRenaming ls m ren).
Proof.
  intros Hr C N. apply closed_Cl. rewrite dim_addRenaming by auto. intros k Hk.
  unfold addRenaming in *. destruct (fold_renameSet ls ren m Hr) as (D & E & K).
  apply fold_close1_Cl; auto.
  - rewrite D. intros x Hx. apply in_flat_map in Hx. destruct Hx as [p [Hp [<-|[<-|[]]]]]; apply Hr; auto.
  - rewrite D; auto.
  - destruct (in_dec Nat.eq_dec k (flat_map (fun p => [S (fst p); (snd p + ls + 1)%nat]) ren)) as [Hin|Hin]; [left; auto|].
    right. apply K; auto; [apply (proj1 (closed_Cl m) C); auto|].
    intros p Hp. split; intros ->; apply Hin; apply in_flat_map; exists p; split; auto; cbn; auto.
Qed.

(** ** getRight: projection *)
Lemma getRight_exact ls rs m w : dim m = (ls + rs + 1)%nat -> closed m -> nonneg2 m ->
  (inZone (getRight ls rs m) w <-> exists w0, inZone m w0 /\ agree rs w (rightPart ls w0)).
Proof.
  intros D C N. unfold getRight. rewrite canonize_inZone. split.
  - intro H.
    set (f := fun i : nat => match i with O => 0%nat | S i' => (ls + S i')%nat end).
    set (u := fun k => if (k =? 0)%nat then 0 else ext w (k - ls)).
    assert (Uf : forall i, (i <= rs)%nat -> u (f i) = ext w i).
    { intros [|i] Hi; unfold u, f; [reflexivity|].
      assert ((ls + S i =? 0)%nat = false) as -> by (apply Nat.eqb_neq; lia).
      replace (ls + S i - ls)%nat with (S i) by lia. reflexivity. }
    destruct (extend_Z m (map f (seq 0 (S rs))) u C N) as [u' [E Hu]].
    + intros s Hs. apply in_map_iff in Hs. destruct Hs as [i [<- Hi]]. apply in_seq in Hi.
      unfold f. destruct i; lia.
    + intros a b Ha Hb. apply in_map_iff in Ha, Hb. destruct Ha as [i [<- Hi]], Hb as [j [<- Hj]].
      apply in_seq in Hi, Hj. rewrite !Uf by lia.
      assert (A := H i j). rewrite dim_mk in A. rewrite get_mk in A by lia. specialize (A ltac:(lia) ltac:(lia)).
      destruct i as [|i], j as [|j]; cbn [f]; auto.
      eapply bsat_ext; [|apply bzero_le_sat, (nonneg2_diag m); auto; lia]. cbn [ext]. ring.
    + exists (fun k => u' (S k) - u' 0%nat). split; [apply Z_inZone; auto|].
      intros x Hx. unfold rightPart.
      assert (E0 : u' 0%nat = 0).
      { rewrite E; [reflexivity|]. apply in_map_iff. exists 0%nat. split; auto. apply in_seq; lia. }
      assert (E1 : u' (S (ls + x)) = w x).
      { rewrite E.
        - replace (S (ls + x)) with (f (S x)) by (unfold f; lia). rewrite Uf by lia. reflexivity.
        - apply in_map_iff. exists (S x). split; [unfold f; lia|]. apply in_seq; lia. }
      rewrite E0, E1. ring.
  - intros [w0 [H E]] i j Hi Hj. rewrite dim_mk in *. rewrite get_mk by auto.
    assert (EX : forall k, (S k < S rs)%nat -> ext w (S k) == ext w0 (ls + S k)).
    { intros k Hk. cbn [ext]. rewrite (E k) by lia. unfold rightPart.
      replace (ls + S k)%nat with (S (ls + k)) by lia. reflexivity. }
    destruct i as [|i], j as [|j]; [cbn; auto| | |].
    + eapply bsat_ext; [|exact (H 0%nat (ls + S j)%nat ltac:(lia) ltac:(lia))]. rewrite (EX j Hj). reflexivity.
    + eapply bsat_ext; [|exact (H (ls + S i)%nat 0%nat ltac:(lia) ltac:(lia))]. rewrite (EX i Hi). reflexivity.
    + eapply bsat_ext; [|exact (H (ls + S i)%nat (ls + S j)%nat ltac:(lia) ltac:(lia))].
      rewrite (EX i Hi), (EX j Hj). reflexivity.
Qed.

(** the whole pipeline *)
Lemma jux_right_exact l r ren w : (0 < dim l)%nat -> (0 < dim r)%nat -> bsat (get r 0 0) 0 ->
  (forall p, In p ren -> (fst p < pred (dim l))%nat /\ (snd p < pred (dim r))%nat) ->
  nonemptyZ l -> nonemptyZ r ->
  isSatNoCanon (addRenaming (pred (dim l)) (jux l r) ren) = true ->
  (inZone (getRight (pred (dim l)) (pred (dim r)) (addRenaming (pred (dim l)) (jux l r) ren)) w <->
   inZone r w /\ exists wl, inZone l wl /\ forall p, In p ren -> wl (fst p) == w (snd p)).
Proof.
  intros Hl Hr H00 Hren0 Nl Nr HS.
  assert (Hren : renOk (pred (dim l)) (dim l + dim r - 1) ren).
  { intros p Hp. destruct (Hren0 p Hp). lia. }
  assert (Hren' : renOk (pred (dim l)) (dim (jux l r)) ren) by (rewrite dim_jux; auto).
  assert (DJ : dim (addRenaming (pred (dim l)) (jux l r) ren) = (pred (dim l) + pred (dim r) + 1)%nat).
  { rewrite dim_addRenaming by auto. rewrite dim_jux. lia. }
  assert (NJ : nonneg2 (addRenaming (pred (dim l)) (jux l r) ren)) by (apply isSatNoCanon_spec; auto).
  assert (NE : nonemptyZ (jux l r)).
  { destruct Nl as [wl Hwl], Nr as [wr Hwr].
    exists (fun k => if (k <? pred (dim l))%nat then wl k else wr (k - pred (dim l))%nat).
    apply jux_exact; auto. split.
    - eapply inZone_ext; [|exact Hwl]. intros z Hz. apply Nat.ltb_lt in Hz. rewrite Hz. reflexivity.
    - eapply inZone_ext; [|exact Hwr]. intros z Hz. unfold rightPart.
      assert ((pred (dim l) + z <? pred (dim l))%nat = false) as -> by (apply Nat.ltb_ge; lia).
      replace (pred (dim l) + z - pred (dim l))%nat with z by lia. reflexivity. }
  assert (CJ : closed (addRenaming (pred (dim l)) (jux l r) ren)).
  { apply addRenaming_closed; auto. unfold jux in *. apply canonize_closed_sat.
    destruct NE as [w0 Hw0]. exists w0. apply canonize_inZone; auto. }
  rewrite getRight_exact by auto. split.
  - intros [w0 [H E]]. apply addRenaming_exact in H; auto. destruct H as [H Heq].
    apply jux_exact in H; auto. destruct H as [H1 H2]. split.
    + eapply inZone_ext; [|exact H2]. intros z Hz. symmetry. apply E; auto.
    + exists w0. split; auto. intros p Hp. rewrite (Heq p Hp).
      destruct (Hren p Hp) as [_ Hs]. rewrite (E (snd p)) by lia. reflexivity.
  - intros [Hw [wl [Hwl Heq]]].
    exists (fun k => if (k <? pred (dim l))%nat then wl k else w (k - pred (dim l))%nat). split.
    + apply addRenaming_exact; auto. split.
      * apply jux_exact; auto. split.
        -- eapply inZone_ext; [|exact Hwl]. intros z Hz. apply Nat.ltb_lt in Hz. rewrite Hz. reflexivity.
        -- eapply inZone_ext; [|exact Hw]. intros z Hz. unfold rightPart.
           assert ((pred (dim l) + z <? pred (dim l))%nat = false) as -> by (apply Nat.ltb_ge; lia).
           replace (pred (dim l) + z - pred (dim l))%nat with z by lia. reflexivity.
      * intros p Hp. destruct (Hren p Hp) as [H1 H2].
        destruct (fst p <? pred (dim l))%nat eqn:E1.
        -- assert ((pred (dim l) + snd p <? pred (dim l))%nat = false) as -> by (apply Nat.ltb_ge; lia).
           replace (pred (dim l) + snd p - pred (dim l))%nat with (snd p) by lia. apply Heq; auto.
        -- (* left index out of the left block *) exfalso.
           apply Nat.ltb_ge in E1. destruct (Hren0 p Hp). lia.
    + intros z Hz. unfold rightPart.
      assert ((pred (dim l) + z <? pred (dim l))%nat = false) as -> by (apply Nat.ltb_ge; lia).
      replace (pred (dim l) + z - pred (dim l))%nat with z by lia. reflexivity.
Qed.
