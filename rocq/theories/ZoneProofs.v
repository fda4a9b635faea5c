(** Zones: basic facts, canonicalization, satisfiability, tightness. *)
From Coq Require Import QArith ZArith Bool List Lqa Lia.
From Verif Require Import BoundsModel ConstraintModel GuardSpec BoundsProofs ConstraintProofs ZoneModel ZoneSpec.
Import ListNotations.
Open Scope Q_scope.

(** ** get / mk *)
Lemma dim_mk n f : dim (mk n f) = n.
Proof. unfold dim, mk. rewrite map_length, seq_length. reflexivity. Qed.

Lemma get_mk n f i j : (i < n)%nat -> (j < n)%nat -> get (mk n f) i j = f i j.
Proof.
  intros Hi Hj. unfold get, mk.
  rewrite (nth_indep _ [] (map (f 0%nat) (seq 0 n))) by (rewrite map_length, seq_length; lia).
  rewrite (map_nth (fun i => map (f i) (seq 0 n)) (seq 0 n) 0%nat i).
  rewrite seq_nth by lia. cbn [plus].
  rewrite (nth_indep _ Inf (f i 0%nat)) by (rewrite map_length, seq_length; lia).
  rewrite (map_nth (f i) (seq 0 n) 0%nat j), seq_nth by lia. reflexivity.
Qed.

Lemma dim_set1 m x y b : dim (set1 m x y b) = dim m.
Proof. apply dim_mk. Qed.

Lemma get_set1 m x y b i j : (i < dim m)%nat -> (j < dim m)%nat ->
  get (set1 m x y b) i j = if (i =? x)%nat && (j =? y)%nat then b else get m i j.
Proof. intros; unfold set1; rewrite get_mk; auto. Qed.

Lemma bz_bzero : bz = bzero. Proof. reflexivity. Qed.

(** the matrix denotation over arbitrary index valuations *)
Definition Z_ (m : matrix) (u : nat -> Q) : Prop :=
  forall i j, (i < dim m)%nat -> (j < dim m)%nat -> bsat (get m i j) (u i - u j).

Lemma inZone_Z m w : inZone m w <-> Z_ m (ext w).
Proof. reflexivity. Qed.

Lemma Z_shift m u d : Z_ m u <-> Z_ m (fun i => u i + d).
Proof.
  split; intros H i j Hi Hj; specialize (H i j Hi Hj); cbn beta in *;
    (eapply bsat_ext; [|exact H]); ring.
Qed.

Lemma Z_ext m u u' : (forall i, (i < dim m)%nat -> u i == u' i) -> Z_ m u -> Z_ m u'.
Proof.
  intros E H i j Hi Hj. eapply bsat_ext; [|exact (H i j Hi Hj)].
  rewrite (E i Hi), (E j Hj). reflexivity.
Qed.

Lemma Z_inZone m u : Z_ m u -> inZone m (fun k => u (S k) - u 0%nat).
Proof.
  intros H i j Hi Hj. eapply bsat_ext; [|exact (H i j Hi Hj)].
  destruct i, j; cbn [ext]; ring.
Qed.

Lemma inZone_ext m w w' : agree (pred (dim m)) w w' -> inZone m w -> inZone m w'.
Proof.
  intros E. apply Z_ext. intros [|i] Hi; [reflexivity|]. cbn [ext]. apply E. lia.
Qed.

(** pointwise smaller matrices denote smaller sets *)
Definition mle (a b : matrix) : Prop :=
  dim a = dim b /\ forall i j, (i < dim a)%nat -> (j < dim a)%nat -> ble (get a i j) (get b i j) = true.

Lemma mle_refl a : mle a a.
Proof. split; [auto|]. intros; apply ble_refl. Qed.

Lemma mle_trans a b c : mle a b -> mle b c -> mle a c.
Proof.
  intros [D1 H1] [D2 H2]. split; [congruence|]. intros i j Hi Hj.
  eapply ble_trans; [apply H1|apply H2]; auto; rewrite <- D1; auto.
Qed.

Lemma mle_Z a b u : mle a b -> Z_ a u -> Z_ b u.
Proof.
  intros [D H] Ha i j Hi Hj. rewrite <- D in *.
  eapply ble_sat_1; [apply H|apply Ha]; auto.
Qed.

(** ** one row of close1 *)
Lemma dim_closeRow x m i : dim (closeRow x m i) = dim m.
Proof. apply dim_mk. Qed.

Lemma closeRow_mle x m i : mle (closeRow x m i) m.
Proof.
  split; [apply dim_closeRow|]. rewrite dim_closeRow. intros a j Ha Hj.
  unfold closeRow. rewrite get_mk by auto. destruct (a =? i)%nat eqn:E; [|apply ble_refl].
  apply Nat.eqb_eq in E; subst. apply bmin_le_l.
Qed.

Lemma closeRow_Z x m i u : (x < dim m)%nat -> (i < dim m)%nat -> Z_ m u -> Z_ (closeRow x m i) u.
Proof.
  intros Hx Hi H a j Ha Hj. rewrite dim_closeRow in *. unfold closeRow. rewrite get_mk by auto.
  destruct (a =? i)%nat eqn:E; [|apply H; auto]. apply Nat.eqb_eq in E; subst.
  apply bsat_bmin. split; [apply H; auto|].
  apply (bsat_ext _ ((u x - u j) + (u i - u x))); [ring|]. apply badd_sat; apply H; auto.
Qed.

Lemma fold_closeRow x l : forall m,
  dim (fold_left (closeRow x) l m) = dim m /\ mle (fold_left (closeRow x) l m) m /\
  ((x < dim m)%nat -> (forall i, In i l -> (i < dim m)%nat) -> forall u, Z_ m u -> Z_ (fold_left (closeRow x) l m) u).
Proof.
  induction l as [|i l IH]; intros m; cbn [fold_left].
  - split; [auto|]. split; [apply mle_refl|auto].
  - destruct (IH (closeRow x m i)) as (D & M & S). rewrite dim_closeRow in *.
    split; [auto|]. split; [eapply mle_trans; [exact M|apply closeRow_mle]|].
    intros Hx Hl u Hu. apply S; auto.
    + intros; apply Hl; right; auto.
    + apply closeRow_Z; auto. apply Hl; left; auto.
Qed.

Lemma dim_close1 m x : dim (close1 m x) = dim m.
Proof. apply fold_closeRow. Qed.

Lemma close1_mle m x : mle (close1 m x) m.
Proof. apply fold_closeRow. Qed.

Lemma close1_Z m x u : (x < dim m)%nat -> (Z_ (close1 m x) u <-> Z_ m u).
Proof.
  intro Hx. split; [apply mle_Z, close1_mle|].
  apply fold_closeRow; auto. intros i Hi. apply in_seq in Hi. lia.
Qed.

Lemma fold_close1 l : forall m,
  dim (fold_left close1 l m) = dim m /\ mle (fold_left close1 l m) m /\
  ((forall x, In x l -> (x < dim m)%nat) -> forall u, Z_ (fold_left close1 l m) u <-> Z_ m u).
Proof.
  induction l as [|x l IH]; intros m; cbn [fold_left].
  - split; [auto|]. split; [apply mle_refl|]. intros; tauto.
  - destruct (IH (close1 m x)) as (D & M & S). rewrite dim_close1 in *.
    split; [auto|]. split; [eapply mle_trans; [exact M|apply close1_mle]|].
    intros Hl u. rewrite S by (intros; apply Hl; right; auto). apply close1_Z. apply Hl; left; auto.
Qed.

Lemma dim_canonize m : dim (canonize m) = dim m.
Proof. apply fold_close1. Qed.

Lemma canonize_mle m : mle (canonize m) m.
Proof. apply fold_close1. Qed.

Lemma canonize_Z m u : Z_ (canonize m) u <-> Z_ m u.
Proof. apply fold_close1. intros x Hx. apply in_seq in Hx. lia. Qed.

Lemma canonize_inZone m w : inZone (canonize m) w <-> inZone m w.
Proof. apply canonize_Z. Qed.

(** ** entries after close1, when value(x,x) is not negative *)
(** state after processing a set of rows: processed rows hold the closed
    value, row x itself is unchanged up to equivalence *)
Definition bequiv (a b : bound) : Prop := ble a b = true /\ ble b a = true.

Lemma bequiv_refl a : bequiv a a. Proof. split; apply ble_refl. Qed.
Lemma bequiv_sym a b : bequiv a b -> bequiv b a. Proof. intros [? ?]; split; auto. Qed.
Lemma bequiv_trans a b c : bequiv a b -> bequiv b c -> bequiv a c.
Proof. intros [? ?] [? ?]; split; eapply ble_trans; eauto. Qed.
Lemma bequiv_min a b c d : bequiv a b -> bequiv c d -> bequiv (bmin a c) (bmin b d).
Proof.
  intros [H1 H2] [H3 H4]. split; apply bmin_glb.
  - eapply ble_trans; [apply bmin_le_l|auto].
  - eapply ble_trans; [apply bmin_le_r|auto].
  - eapply ble_trans; [apply bmin_le_l|auto].
  - eapply ble_trans; [apply bmin_le_r|auto].
Qed.
Lemma bequiv_add a b c d : bequiv a b -> bequiv c d -> bequiv (badd a c) (badd b d).
Proof. intros [? ?] [? ?]; split; apply badd_mono; auto. Qed.

Definition nonneg2 (m : matrix) : Prop :=
  forall i j, (i < dim m)%nat -> (j < dim m)%nat -> ble bzero (badd (get m i j) (get m j i)) = true.

Lemma nonneg2_diag m i : nonneg2 m -> (i < dim m)%nat -> ble bzero (get m i i) = true.
Proof.
  intros H Hi. specialize (H i i Hi Hi). rewrite bzero_le_sat in *.
  destruct (get m i i) as [c [|]|]; cbn [badd bsat andb] in *; qred; try lra; auto.
Qed.

Lemma nonneg2_mle a b : mle a b -> nonneg2 a -> nonneg2 b.
Proof.
  intros [D H] Ha i j Hi Hj. rewrite <- D in *.
  eapply ble_trans; [apply (Ha i j Hi Hj)|]. apply badd_mono; apply H; auto.
Qed.

Lemma nonneg2_of_point m u : Z_ m u -> nonneg2 m.
Proof.
  intros H i j Hi Hj. apply bzero_le_sat.
  apply (bsat_ext _ ((u i - u j) + (u j - u i))); [ring|]. apply badd_sat; apply H; auto.
Qed.

Lemma isSatNoCanon_spec m : isSatNoCanon m = true <-> nonneg2 m.
Proof.
  unfold isSatNoCanon. rewrite forallb_forall. split.
  - intros H i j Hi Hj. specialize (H i). rewrite forallb_forall in H.
    apply H; apply in_seq; lia.
  - intros H i Hi. rewrite forallb_forall. intros j Hj. apply in_seq in Hi, Hj. apply H; lia.
Qed.

Lemma closeRow_equiv x m i a j :
  ble bzero (get m x x) = true -> (x < dim m)%nat -> (a < dim m)%nat -> (j < dim m)%nat ->
  bequiv (get (closeRow x m i) a j)
         (if (a =? i)%nat then bmin (get m a j) (badd (get m a x) (get m x j)) else get m a j)
  /\ bequiv (get (closeRow x m i) x j) (get m x j).
Proof.
  intros Hxx Hx Ha Hj. unfold closeRow. rewrite !get_mk by auto.
  split.
  - destruct (a =? i)%nat eqn:E; [|apply bequiv_refl]. apply Nat.eqb_eq in E; subst a.
    apply bequiv_min; [apply bequiv_refl|]. split; apply badd_comm_le.
  - destruct (x =? i)%nat eqn:E; [|apply bequiv_refl]. apply Nat.eqb_eq in E; subst i.
    split; [apply bmin_le_l|]. apply bmin_glb; [apply ble_refl|].
    apply badd_zero_le; auto.
Qed.

Lemma fold_closeRow_get x l : forall m m0,
  NoDup l -> dim m = dim m0 -> (x < dim m0)%nat -> ble bzero (get m0 x x) = true ->
  (forall j, (j < dim m0)%nat -> bequiv (get m x j) (get m0 x j)) ->
  (forall a j, In a l -> (a < dim m0)%nat -> (j < dim m0)%nat -> bequiv (get m a j) (get m0 a j)) ->
  forall a j, (a < dim m0)%nat -> (j < dim m0)%nat ->
   bequiv (get (fold_left (closeRow x) l m) a j)
     (if existsb (Nat.eqb a) l then bmin (get m0 a j) (badd (get m0 a x) (get m0 x j)) else get m a j).
Proof.
  induction l as [|i l IH]; intros m m0 ND D Hx Hxx Rx Rl a j Ha Hj; cbn [fold_left existsb].
  - apply bequiv_refl.
  - inversion ND as [|? ? Ni ND']; subst.
    assert (Hxx' : ble bzero (get m x x) = true).
    { eapply ble_trans; [exact Hxx|]. apply Rx; auto. }
    assert (E : forall a j, (a < dim m0)%nat -> (j < dim m0)%nat -> _)
      by (intros a' j' Ha' Hj'; rewrite <- D in *; exact (closeRow_equiv x m i a' j' Hxx' Hx Ha' Hj')).
    assert (Hfold := IH (closeRow x m i) m0 ND').
    rewrite dim_closeRow in Hfold. specialize (Hfold D Hx Hxx).
    assert (A1 : forall j, (j < dim m0)%nat -> bequiv (get (closeRow x m i) x j) (get m0 x j)).
    { intros j' Hj'. eapply bequiv_trans; [apply (E x j' Hx Hj')|]. apply Rx; auto. }
    assert (A2 : forall a j, In a l -> (a < dim m0)%nat -> (j < dim m0)%nat ->
                 bequiv (get (closeRow x m i) a j) (get m0 a j)).
    { intros a' j' Hin Ha' Hj'. destruct (E a' j' Ha' Hj') as [E1 _].
      destruct (a' =? i)%nat eqn:Eai; [apply Nat.eqb_eq in Eai; subst; contradiction|].
      eapply bequiv_trans; [exact E1|]. apply Rl; auto. right; auto. }
    specialize (Hfold A1 A2 a j Ha Hj). eapply bequiv_trans; [exact Hfold|].
    destruct (existsb (Nat.eqb a) l) eqn:Ex; [rewrite orb_true_r; apply bequiv_refl|].
    rewrite orb_false_r. destruct (E a j Ha Hj) as [E1 _].
    destruct (a =? i)%nat eqn:Eai; [|exact E1]. apply Nat.eqb_eq in Eai; subst a.
    eapply bequiv_trans; [exact E1|]. apply bequiv_min; [apply Rl; auto; left; auto|].
    apply bequiv_add; [apply Rl; auto; left; auto|apply Rx; auto].
Qed.

Lemma close1_get m x i j :
  (x < dim m)%nat -> (i < dim m)%nat -> (j < dim m)%nat -> ble bzero (get m x x) = true ->
  bequiv (get (close1 m x) i j) (bmin (get m i j) (badd (get m i x) (get m x j))).
Proof.
  intros Hx Hi Hj Hxx. unfold close1.
  assert (H := fold_closeRow_get x (seq 0 (dim m)) m m (seq_NoDup _ _) eq_refl Hx Hxx
               (fun j _ => bequiv_refl _) (fun a j _ _ _ => bequiv_refl _) i j Hi Hj).
  assert (Ex : existsb (Nat.eqb i) (seq 0 (dim m)) = true).
  { apply existsb_exists. exists i. split; [apply in_seq; lia|apply Nat.eqb_refl]. }
  rewrite Ex in H. exact H.
Qed.

(** ** closedness through one index *)
Definition Cl (m : matrix) (k : nat) : Prop :=
  forall i j, (i < dim m)%nat -> (j < dim m)%nat -> ble (get m i j) (badd (get m i k) (get m k j)) = true.

Lemma closed_Cl m : closed m <-> forall k, (k < dim m)%nat -> Cl m k.
Proof. unfold closed, Cl; split; intros H; intros; apply H; auto. Qed.

Lemma badd_zero_r_le a b c : ble bzero b = true -> ble a c = true -> ble a (badd c b) = true.
Proof. intros H1 H2. eapply ble_trans; [exact H2|]. apply badd_zero_le; auto. Qed.

Lemma close1_Cl_self m x : nonneg2 m -> (x < dim m)%nat -> Cl (close1 m x) x.
Proof.
  intros N Hx i j Hi Hj. rewrite dim_close1 in *.
  assert (Hxx : ble bzero (get m x x) = true) by (apply nonneg2_diag; auto).
  destruct (close1_get m x i j Hx Hi Hj Hxx) as [A _].
  destruct (close1_get m x i x Hx Hi Hx Hxx) as [_ B].
  destruct (close1_get m x x j Hx Hx Hj Hxx) as [_ C].
  assert (B' : ble (get m i x) (get (close1 m x) i x) = true).
  { eapply ble_trans; [|exact B]. apply bmin_glb; [apply ble_refl|]. apply badd_zero_le; auto. }
  assert (C' : ble (get m x j) (get (close1 m x) x j) = true).
  { eapply ble_trans; [|exact C]. apply bmin_glb; [apply ble_refl|]. apply badd_zero_le_l; auto. }
  eapply ble_trans; [exact A|]. eapply ble_trans; [apply bmin_le_r|]. apply badd_mono; auto.
Qed.

Lemma bmin_add_cases a b c d e :
  ble e (badd a c) = true -> ble e (badd a d) = true -> ble e (badd b c) = true -> ble e (badd b d) = true ->
  ble e (badd (bmin a b) (bmin c d)) = true.
Proof.
  intros. apply (bmin_case a b (fun x => ble e (badd x _) = true)); apply (bmin_case c d (fun x => ble e (badd _ x) = true)); auto.
Qed.

Lemma close1_Cl_keep m x k : nonneg2 m -> (x < dim m)%nat -> (k < dim m)%nat -> Cl m k -> Cl (close1 m x) k.
Proof.
  intros N Hx Hk C i j Hi Hj. rewrite dim_close1 in *.
  assert (Hxx : ble bzero (get m x x) = true) by (apply nonneg2_diag; auto).
  destruct (close1_get m x i j Hx Hi Hj Hxx) as [A _].
  destruct (close1_get m x i k Hx Hi Hk Hxx) as [_ B].
  destruct (close1_get m x k j Hx Hk Hj Hxx) as [_ D].
  eapply ble_trans; [exact A|]. eapply ble_trans; [|apply badd_mono; [exact B|exact D]].
  apply bmin_add_cases.
  - eapply ble_trans; [apply bmin_le_l|]. apply C; auto.
  - eapply ble_trans; [apply bmin_le_r|].
    eapply ble_trans; [|apply badd_assoc_le2]. apply badd_mono; [apply C; auto|apply ble_refl].
  - eapply ble_trans; [apply bmin_le_r|].
    eapply ble_trans; [|apply badd_assoc_le1]. apply badd_mono; [apply ble_refl|apply C; auto].
  - (* m_ix + m_xk + (m_kx + m_xj) *)
    eapply ble_trans; [apply bmin_le_r|].
    eapply ble_trans; [|apply badd_assoc_le1]. apply badd_mono; [apply ble_refl|].
    eapply ble_trans; [|apply badd_assoc_le2]. apply badd_zero_le_l. apply N; auto.
Qed.

Lemma fold_close1_Cl l : forall m,
  nonneg2 (fold_left close1 l m) -> (forall x, In x l -> (x < dim m)%nat) ->
  forall k, (k < dim m)%nat -> (In k l \/ Cl m k) -> Cl (fold_left close1 l m) k.
Proof.
  induction l as [|x l IH]; intros m N Hl k Hk H; cbn [fold_left] in *.
  - destruct H as [[]|H]; auto.
  - assert (N1 : nonneg2 (close1 m x)).
    { eapply nonneg2_mle; [|exact N]. apply fold_close1. }
    assert (N0 : nonneg2 m) by (eapply nonneg2_mle; [apply close1_mle|exact N1]).
    assert (Hx : (x < dim m)%nat) by (apply Hl; left; auto).
    apply IH; auto.
    + intros; rewrite dim_close1; apply Hl; right; auto.
    + rewrite dim_close1; auto.
    + destruct H as [[->|H]|H]; [right; apply close1_Cl_self; auto|left; auto|].
      right. apply close1_Cl_keep; auto.
Qed.

Lemma canonize_closed m : nonneg2 (canonize m) -> closed (canonize m).
Proof.
  intro N. apply closed_Cl. intros k Hk. rewrite dim_canonize in Hk.
  apply fold_close1_Cl; auto.
  - intros x Hx; apply in_seq in Hx; lia.
  - left. apply in_seq; lia.
Qed.

(** ** extension *)
Definition sb (b : bound) (q : Q) : bound := badd b (Fin q true).

Lemma sb_sat b q p : bsat (sb b q) p <-> bsat b (p - q).
Proof. unfold sb. destruct b as [c [|]|]; cbn [badd bsat andb]; try tauto; qred; intuition lra. Qed.

Definition okOn (m : matrix) (S : list nat) (u : nat -> Q) : Prop :=
  forall i j, In i S -> In j S -> bsat (get m i j) (u i - u j).

Fixpoint minOver (f : nat -> bound) (l : list nat) : bound :=
  match l with [] => Inf | a :: r => bmin (f a) (minOver f r) end.

Lemma minOver_sat f l q : bsat (minOver f l) q <-> forall s, In s l -> bsat (f s) q.
Proof.
  induction l as [|a l IH]; cbn [minOver].
  - split; cbn; auto. intros _ s [].
  - rewrite bsat_bmin, IH. split.
    + intros [H1 H2] s [<-|H]; auto.
    + intros H; split; [apply H; left; auto|intros; apply H; right; auto].
Qed.

Lemma minOver_attained f l : minOver f l = Inf \/ exists s, In s l /\ minOver f l = f s.
Proof.
  induction l as [|a l IH]; cbn [minOver]; [auto|].
  apply (bmin_case (f a) (minOver f l) (fun b => b = Inf \/ exists s, (a = s \/ In s l) /\ b = f s)).
  - right. exists a; auto.
  - destruct IH as [->|[s [Hs ->]]]; [left; auto|right; exists s; auto].
Qed.

Lemma extend_one m S u x :
  closed m -> nonneg2 m -> (x < dim m)%nat -> (forall s, In s S -> (s < dim m)%nat) ->
  okOn m S u ->
  exists q, forall s, In s S -> bsat (get m x s) (q - u s) /\ bsat (get m s x) (u s - q).
Proof.
  intros C N Hx HS Hu.
  set (U := minOver (fun s => sb (get m x s) (u s)) S).
  set (L := minOver (fun s => sb (get m s x) (- u s)) S).
  assert (H : exists q, bsat U q /\ bsat L (- q)).
  { apply badd_nonneg_iff. apply bzero_le_sat.
    destruct (minOver_attained (fun s => sb (get m x s) (u s)) S) as [E|[s [Hs E]]];
      fold U in E; rewrite E; [cbn; auto|].
    destruct (minOver_attained (fun s => sb (get m s x) (- u s)) S) as [E'|[t [Ht E']]];
      fold L in E'; rewrite E'.
    { destruct (sb (get m x s) (u s)); cbn; auto. }
    assert (K : bsat (badd (get m t x) (get m x s)) (u t - u s)).
    { eapply ble_sat_1; [apply (C t s x); auto|]. apply Hu; auto. }
    unfold sb. destruct (get m x s) as [c [|]|], (get m t x) as [d [|]|]; cbn [badd bsat andb] in K |- *; auto; qred; lra. }
  destruct H as [q [HU HL]]. exists q. intros s Hs.
  unfold U in HU; unfold L in HL. rewrite minOver_sat in HU, HL.
  specialize (HU s Hs). specialize (HL s Hs). cbn beta in *. rewrite sb_sat in HU, HL.
  split; [exact HU|]. eapply bsat_ext; [|exact HL]. ring.
Qed.

Lemma extend_all m l : forall S u,
  closed m -> nonneg2 m -> (forall s, In s S -> (s < dim m)%nat) -> (forall x, In x l -> (x < dim m)%nat) ->
  NoDup l -> (forall x, In x l -> ~ In x S) ->
  okOn m S u ->
  exists u', (forall s, In s S -> u' s = u s) /\ okOn m (l ++ S) u'.
Proof.
  induction l as [|x l IH]; intros S u C N HS Hl ND NI Hu; cbn [app].
  - exists u; auto.
  - inversion ND as [|? ? Nx ND']; subst.
    destruct (IH S u C N HS (fun x H => Hl x (or_intror H)) ND' (fun x H => NI x (or_intror H)) Hu) as [u' [E Hu']].
    assert (Hx : (x < dim m)%nat) by (apply Hl; left; auto).
    assert (NxA : ~ In x (l ++ S)).
    { rewrite in_app_iff. intros [H|H]; [auto|]. apply (NI x (or_introl eq_refl) H). }
    destruct (extend_one m (l ++ S) u' x C N Hx) as [q Hq]; auto.
    { intros s Hs. apply in_app_iff in Hs. destruct Hs; [apply Hl; right; auto|apply HS; auto]. }
    exists (fun i => if (i =? x)%nat then q else u' i). split.
    + intros s Hs. destruct (s =? x)%nat eqn:Es; [|apply E; auto].
      apply Nat.eqb_eq in Es; subst. exfalso. apply NxA. apply in_app_iff; auto.
    + intros i j Hi Hj.
      destruct (i =? x)%nat eqn:Ei; destruct (j =? x)%nat eqn:Ej.
      * apply Nat.eqb_eq in Ei, Ej; subst. eapply bsat_ext; [|apply bzero_le_sat, nonneg2_diag; auto]. ring.
      * apply Nat.eqb_eq in Ei; subst. apply Nat.eqb_neq in Ej.
        destruct Hj as [Hj|Hj]; [congruence|]. apply Hq; auto.
      * apply Nat.eqb_eq in Ej; subst. apply Nat.eqb_neq in Ei.
        destruct Hi as [Hi|Hi]; [congruence|]. apply Hq; auto.
      * apply Nat.eqb_neq in Ei, Ej.
        destruct Hi as [Hi|Hi]; [congruence|]. destruct Hj as [Hj|Hj]; [congruence|].
        apply Hu'; auto.
Qed.

(** every consistent partial assignment extends to the whole matrix *)
Lemma extend_Z m S u :
  closed m -> nonneg2 m -> (forall s, In s S -> (s < dim m)%nat) -> okOn m S u ->
  exists u', (forall s, In s S -> u' s = u s) /\ Z_ m u'.
Proof.
  intros C N HS Hu.
  set (l := filter (fun i => negb (existsb (Nat.eqb i) S)) (seq 0 (dim m))).
  assert (Hnot : forall x, In x l -> ~ In x S).
  { intros x Hx Hin. unfold l in Hx. apply filter_In in Hx. destruct Hx as [_ Hx].
    rewrite negb_true_iff in Hx. assert (existsb (Nat.eqb x) S = true); [|congruence].
    apply existsb_exists. exists x; split; auto. apply Nat.eqb_refl. }
  destruct (extend_all m l S u C N HS) as [u' [E H]]; auto.
  - intros x Hx. apply filter_In in Hx. destruct Hx as [Hx _]. apply in_seq in Hx; lia.
  - apply NoDup_filter, seq_NoDup.
  - exists u'. split; auto. intros i j Hi Hj.
    assert (A : forall k, (k < dim m)%nat -> In k (l ++ S)).
    { intros k Hk. apply in_app_iff. destruct (existsb (Nat.eqb k) S) eqn:Ek.
      - right. apply existsb_exists in Ek. destruct Ek as [y [Hy Ey]]. apply Nat.eqb_eq in Ey; subst; auto.
      - left. apply filter_In. split; [apply in_seq; lia|]. rewrite Ek; auto. }
    apply H; auto.
Qed.

Lemma closed_sat m : closed m -> nonneg2 m -> exists w, inZone m w.
Proof.
  intros C N. destruct (extend_Z m [] (fun _ => 0) C N) as [u [_ Hu]].
  - intros s [].
  - intros i j [].
  - exists (fun k => u (S k) - u 0%nat). apply Z_inZone; auto.
Qed.

(** C10 *)
Lemma isSatisfiable_exact m : isSatisfiable m = true <-> exists w, inZone m w.
Proof.
  unfold isSatisfiable. rewrite isSatNoCanon_spec. split.
  - intro N. destruct (closed_sat _ (canonize_closed m N) N) as [w Hw].
    exists w. apply canonize_inZone; auto.
  - intros [w Hw]. apply canonize_inZone in Hw. apply (nonneg2_of_point _ _ Hw).
Qed.

Lemma canonize_closed_sat m : nonemptyZ m -> closed (canonize m).
Proof.
  intros [w Hw]. apply canonize_closed. apply canonize_inZone in Hw. apply (nonneg2_of_point _ _ Hw).
Qed.

Lemma nonempty_nonneg2 m : nonemptyZ m -> nonneg2 m.
Proof. intros [w Hw]. apply (nonneg2_of_point _ _ Hw). Qed.

(** ** tightness *)
Lemma realise m i j q :
  closed m -> nonneg2 m -> (i < dim m)%nat -> (j < dim m)%nat -> i <> j ->
  bsat (get m i j) q -> bsat (get m j i) (- q) ->
  exists w, inZone m w /\ ext w i - ext w j == q.
Proof.
  intros C N Hi Hj Hij H1 H2.
  set (u := fun k => if (k =? i)%nat then q else 0).
  assert (Ui : u i = q) by (unfold u; rewrite Nat.eqb_refl; auto).
  assert (Uj : u j = 0) by (unfold u; destruct (j =? i)%nat eqn:E; auto; apply Nat.eqb_eq in E; congruence).
  destruct (extend_Z m [i; j] u C N) as [u' [E Hu]].
  - intros s [<-|[<-|[]]]; auto.
  - intros a b [<-|[<-|[]]] [<-|[<-|[]]]; rewrite ?Ui, ?Uj.
    + eapply bsat_ext; [|apply bzero_le_sat, nonneg2_diag; auto]. ring.
    + eapply bsat_ext; [|exact H1]. ring.
    + eapply bsat_ext; [|exact H2]. ring.
    + eapply bsat_ext; [|apply bzero_le_sat, nonneg2_diag; auto]. ring.
  - exists (fun k => u' (S k) - u' 0%nat). split; [apply Z_inZone; auto|].
    assert (Ei : u' i = q) by (rewrite E by (left; auto); auto).
    assert (Ej : u' j = 0) by (rewrite E by (right; left; auto); auto).
    assert (X : forall k, ext (fun k => u' (S k) - u' 0%nat) k == u' k - u' 0%nat).
    { intros [|k]; cbn [ext]; ring. }
    rewrite !X, Ei, Ej. ring.
Qed.

Lemma closed_tight m : closed m -> nonneg2 m -> tight m.
Proof.
  intros C N i j b Hi Hj Hij H. apply ble_spec. intros q Hq.
  destruct (proj1 (badd_nonneg_iff _ _) (N i j Hi Hj)) as [q0 [A B]].
  assert (D : bsat (get m j i) (- q) \/ ~ bsat (get m j i) (- q)).
  { destruct (get m j i) as [c [|]|]; cbn; auto.
    - destruct (Qlt_le_dec c (- q)); [right; lra|left; auto].
    - destruct (Qlt_le_dec (- q) c); [left; auto|right; lra]. }
  destruct D as [D|D].
  - destruct (realise m i j q C N Hi Hj Hij Hq D) as [w [Hw E]].
    eapply bsat_ext; [exact E|]. apply H; auto.
  - destruct (realise m i j q0 C N Hi Hj Hij A B) as [w [Hw E]].
    apply (bsat_down b q0).
    + destruct (Qlt_le_dec q q0); [lra|]. exfalso. apply D. eapply bsat_down; [|exact B]. lra.
    + eapply bsat_ext; [exact E|]. apply H; auto.
Qed.
