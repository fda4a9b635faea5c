(** Zones: juxtaposition with common variables. *)
From Coq Require Import QArith ZArith Bool List Lqa Lia.
From Verif Require Import BoundsModel ConstraintModel GuardSpec BoundsProofs ConstraintProofs ZoneModel ZoneSpec ZoneProofs ZoneProofs2 ZoneProofs3.
Import ListNotations.
Open Scope Q_scope.

Lemma conjZ m n f (h : nat -> nat -> option bound) u : dim m = n ->
  (forall i j, (i < n)%nat -> (j < n)%nat ->
     match h i j with Some b => f i j = bmin (get m i j) b \/ (get m i j = Inf /\ f i j = b)
                    | None => f i j = get m i j end) ->
  (Z_ (mk n f) u <-> Z_ m u /\ forall i j b, (i < n)%nat -> (j < n)%nat -> h i j = Some b -> bsat b (u i - u j)).
Proof.
  intros D Hf. split.
  - intro H. split.
    + intros i j Hi Hj. rewrite D in *. specialize (H i j). rewrite dim_mk, get_mk in H by auto. specialize (H Hi Hj).
      specialize (Hf i j Hi Hj). destruct (h i j) as [b|]; [|rewrite Hf in H; auto].
      destruct Hf as [Hf|[Hf1 Hf2]]; [rewrite Hf in H; apply bsat_bmin in H; tauto|rewrite Hf1; cbn; auto].
    + intros i j b Hi Hj E. specialize (H i j). rewrite dim_mk, get_mk in H by auto. specialize (H Hi Hj).
      specialize (Hf i j Hi Hj). rewrite E in Hf.
      destruct Hf as [Hf|[Hf1 Hf2]]; [rewrite Hf in H; apply bsat_bmin in H; tauto|rewrite <- Hf2; auto].
  - intros [Hm Hh] i j Hi Hj. rewrite dim_mk in *. rewrite get_mk by auto.
    specialize (Hf i j Hi Hj). specialize (Hh i j). destruct (h i j) as [b|].
    + specialize (Hh b Hi Hj eq_refl). specialize (Hm i j). rewrite D in Hm. specialize (Hm Hi Hj).
      destruct Hf as [->|[_ ->]]; auto. apply bsat_bmin; auto.
    + rewrite Hf. apply Hm; rewrite D; auto.
Qed.

Definition infFrom (rb : nat) (m : matrix) : Prop :=
  forall i j, (i < dim m)%nat -> (j < dim m)%nat -> (rb <= i \/ rb <= j)%nat -> get m i j = Inf.

Lemma closeRow_inf rb x m i : (x < dim m)%nat -> infFrom rb m -> infFrom rb (closeRow x m i).
Proof.
  intros Hx H a j Ha Hj K. rewrite dim_closeRow in *. unfold closeRow. rewrite get_mk by auto.
  destruct (a =? i)%nat eqn:E; [|apply H; auto]. apply Nat.eqb_eq in E; subst.
  rewrite (H i j) by auto.
  assert (badd (get m x j) (get m i x) = Inf) as ->; [|reflexivity].
  destruct K as [K|K].
  - rewrite (H i x) by auto. destruct (get m x j); auto.
  - rewrite (H x j) by auto. reflexivity.
Qed.

Lemma canonize_inf rb m : infFrom rb m -> infFrom rb (canonize m).
Proof.
  intro H. unfold canonize.
  assert (G : forall l m', dim m' = dim m -> (forall x, In x l -> (x < dim m)%nat) -> infFrom rb m' -> infFrom rb (fold_left close1 l m')).
  { induction l as [|x l IH]; intros m' D Hl Hm'; cbn [fold_left]; auto.
    apply IH; [rewrite dim_close1; auto|intros; apply Hl; right; auto|].
    unfold close1.
    assert (G' : forall l' m'', dim m'' = dim m -> infFrom rb m'' -> infFrom rb (fold_left (closeRow x) l' m'')).
    { induction l' as [|i l' IH']; intros m'' D'' H''; cbn [fold_left]; auto.
      apply IH'; [rewrite dim_closeRow; auto|]. apply closeRow_inf; auto. rewrite D''. apply Hl; left; auto. }
    apply G'; auto. }
  apply G; auto. intros x Hx; apply in_seq in Hx; lia.
Qed.

(** the right component of a valuation of a juxtaposition with [cv] common
    clocks: first the clocks only in the right zone, then the common ones *)
Definition rightCommon (M N cv : nat) (w : valuation) : valuation :=
  fun k => if (k <? N - cv)%nat then w (M + k)%nat else w (M - cv + (k - (N - cv)))%nat.

Section JC.
Variables (l r : matrix) (cv : nat).
Let M := pred (dim l).
Let N := pred (dim r).
Hypothesis (Hl : (0 < dim l)%nat) (Hr : (0 < dim r)%nat) (H1 : (cv <= M)%nat) (H2 : (cv <= N)%nat).
Hypothesis (H00 : bsat (get r 0 0) 0).
Let n := (M + N - cv + 1)%nat.
Let cb := (M - cv + 1)%nat.
Let cr := (N - cv + 1)%nat.
Let rb := (M + 1)%nat.
Let isC i := (cb <=? i)%nat && (i <? cb + cv)%nat.
Let isR i := (rb <=? i)%nat.

(** matrix index of the right zone -> matrix index of the result *)
Let rho (a : nat) : nat := match a with O => O | S k => if (k <? N - cv)%nat then (M + 1 + k)%nat else (cb + (k - (N - cv)))%nat end.

Let m0 := mk n (fun i j => if (i <=? M)%nat && (j <=? M)%nat then get l i j else Inf).
Let m1 := mk n (fun i j =>
      if isC i && isC j then bmin (get m0 i j) (get r (cr + (i - cb)) (cr + (j - cb)))
      else if (i =? 0)%nat && isC j then bmin (get m0 i j) (get r 0 (cr + (j - cb)))
      else if isC i && (j =? 0)%nat then bmin (get m0 i j) (get r (cr + (i - cb)) 0)
      else get m0 i j).
Let m2 := canonize m1.
Let m3 := mk n (fun i j =>
      if isR i && isR j then get r (1 + (i - rb)) (1 + (j - rb))
      else if (i =? 0)%nat && isR j then get r 0 (1 + (j - rb))
      else if isR i && (j =? 0)%nat then get r (1 + (i - rb)) 0
      else get m2 i j).
Let m4 := canonize m3.
Let m5 := mk n (fun i j =>
      if isR i && isC j then bmin (get m4 i j) (get r (1 + (i - rb)) (cr + (j - cb)))
      else if isC i && isR j then bmin (get m4 i j) (get r (cr + (i - cb)) (1 + (j - rb)))
      else get m4 i j).

Lemma juxCommon_unfold : juxCommon l r cv = canonize m5.
Proof. reflexivity. Qed.

Ltac bools :=
  repeat match goal with
  | H : _ && _ = true |- _ => apply andb_true_iff in H; destruct H
  | H : (_ <=? _)%nat = true |- _ => apply Nat.leb_le in H
  | H : (_ <=? _)%nat = false |- _ => apply Nat.leb_gt in H
  | H : (_ <? _)%nat = true |- _ => apply Nat.ltb_lt in H
  | H : (_ <? _)%nat = false |- _ => apply Nat.ltb_ge in H
  | H : (_ =? _)%nat = true |- _ => apply Nat.eqb_eq in H
  | H : (_ =? _)%nat = false |- _ => apply Nat.eqb_neq in H
  end.

Lemma isC_true i : isC i = true <-> (cb <= i /\ i < cb + cv)%nat.
Proof. unfold isC. rewrite andb_true_iff, Nat.leb_le, Nat.ltb_lt. tauto. Qed.
Lemma isR_true i : isR i = true <-> (rb <= i)%nat.
Proof. unfold isR. apply Nat.leb_le. Qed.

Lemma Z_m0 u : Z_ m0 u <-> Z_ l u.
Proof.
  unfold m0. split.
  - intros H i j Hi Hj. specialize (H i j). rewrite dim_mk in H.
    assert (Di : (i <= M)%nat) by (unfold M; lia). assert (Dj : (j <= M)%nat) by (unfold M; lia).
    rewrite get_mk in H by (unfold n; lia).
    apply Nat.leb_le in Di, Dj. rewrite Di, Dj in H. apply H; bools; unfold n; lia.
  - intros H i j Hi Hj. rewrite dim_mk in *. rewrite get_mk by auto.
    destruct (i <=? M)%nat eqn:Ei, (j <=? M)%nat eqn:Ej; cbn [andb]; try (cbn; auto; fail).
    bools. apply H; unfold M in *; lia.
Qed.

Let h1 i j : option bound :=
  if isC i && isC j then Some (get r (cr + (i - cb)) (cr + (j - cb)))
  else if (i =? 0)%nat && isC j then Some (get r 0 (cr + (j - cb)))
  else if isC i && (j =? 0)%nat then Some (get r (cr + (i - cb)) 0)
  else None.
Let h3 i j : option bound :=
  if isR i && isR j then Some (get r (1 + (i - rb)) (1 + (j - rb)))
  else if (i =? 0)%nat && isR j then Some (get r 0 (1 + (j - rb)))
  else if isR i && (j =? 0)%nat then Some (get r (1 + (i - rb)) 0)
  else None.
Let h5 i j : option bound :=
  if isR i && isC j then Some (get r (1 + (i - rb)) (cr + (j - cb)))
  else if isC i && isR j then Some (get r (cr + (i - cb)) (1 + (j - rb)))
  else None.

Lemma inf_m2 : infFrom rb m2.
Proof.
  apply canonize_inf. intros i j Hi Hj K. unfold m1 in *. rewrite dim_mk in *. rewrite get_mk by auto.
  assert (E0 : get m0 i j = Inf).
  { unfold m0. rewrite get_mk by auto. destruct (i <=? M)%nat eqn:Ei, (j <=? M)%nat eqn:Ej; cbn [andb]; auto.
    bools. unfold rb in K. lia. }
  assert (NC : forall k, (rb <= k)%nat -> isC k = false).
  { intros k Hk. destruct (isC k) eqn:E; auto. apply isC_true in E. unfold rb, cb in *. lia. }
  assert (N0 : forall k, (rb <= k)%nat -> (k =? 0)%nat = false).
  { intros k Hk. apply Nat.eqb_neq. unfold rb in Hk; lia. }
  destruct K as [K|K]; rewrite (NC _ K), (N0 _ K), ?andb_false_r; cbn [andb]; auto.
Qed.

Lemma Z_m5 u : Z_ (juxCommon l r cv) u <->
  Z_ l u /\ (forall i j b, (i < n)%nat -> (j < n)%nat -> (h1 i j = Some b \/ h3 i j = Some b \/ h5 i j = Some b) -> bsat b (u i - u j)).
Proof.
  rewrite juxCommon_unfold, canonize_Z.
  assert (D2 : dim m2 = n) by (unfold m2; rewrite dim_canonize; apply dim_mk).
  assert (D4 : dim m4 = n) by (unfold m4; rewrite dim_canonize; apply dim_mk).
  unfold m5. rewrite (conjZ m4 n _ h5); [|auto|].
  2:{ intros i j Hi Hj; unfold h5; destruct (isR i && isC j); [left; auto|destruct (isC i && isR j); auto]. }
  unfold m4. rewrite canonize_Z. unfold m3.
  rewrite (conjZ m2 n _ h3); [| auto |].
  2:{ intros i j Hi Hj. assert (I := inf_m2 i j). rewrite D2 in I. specialize (I Hi Hj). unfold h3.
      destruct (isR i) eqn:Ei, (isR j) eqn:Ej; cbn [andb]; rewrite ?andb_true_r, ?andb_false_r; rewrite ?isR_true in *.
      - right; split; auto.
      - destruct (j =? 0)%nat; auto.
      - destruct (i =? 0)%nat; cbn [andb]; auto.
      - auto. }
  unfold m2. rewrite canonize_Z. unfold m1.
  rewrite (conjZ m0 n _ h1); [|apply dim_mk|].
  2:{ intros i j Hi Hj. unfold h1. destruct (isC i && isC j); auto. destruct ((i =? 0)%nat && isC j); auto.
      destruct (isC i && (j =? 0)%nat); auto. }
  rewrite Z_m0. split.
  - intros [[[A B] C] E]. split; auto. intros i j b Hi Hj [K|[K|K]]; eauto.
  - intros [A B]. repeat split; eauto.
Qed.

Lemma rho_lt a : (a < dim r)%nat -> (rho a < n)%nat.
Proof.
  intro Ha. unfold rho. destruct a as [|k]; [unfold n; lia|].
  destruct (k <? N - cv)%nat eqn:E; bools; unfold n, cb, N in *; lia.
Qed.

Lemma juxCommon_exact w : inZone (juxCommon l r cv) w <->
  inZone l w /\ inZone r (rightCommon M N cv w).
Proof.
  rewrite inZone_Z, Z_m5.
  assert (EX : forall a, (a < dim r)%nat -> ext (rightCommon M N cv w) a = ext w (rho a)).
  { intros [|k] Ha; cbn [ext rho]; auto. unfold rightCommon. destruct (k <? N - cv)%nat eqn:E.
    - replace (M + 1 + k)%nat with (S (M + k)) by lia. reflexivity.
    - replace (cb + (k - (N - cv)))%nat with (S (M - cv + (k - (N - cv)))) by (unfold cb; lia). reflexivity. }
  split; intros [A B]; split; auto.
  - intros a b Ha Hb. rewrite (EX a Ha), (EX b Hb).
    destruct (Nat.eq_dec (a + b) 0) as [Z0|Z0].
    { assert (a = 0%nat) by lia; assert (b = 0%nat) by lia; subst. eapply bsat_ext; [|exact H00]. cbn [rho ext]. ring. }
    apply (B (rho a) (rho b)); try (apply rho_lt; auto).
    (* classify *)
    assert (CC : forall k, (S k < dim r)%nat -> (k < N - cv)%nat -> isR (rho (S k)) = true /\ isC (rho (S k)) = false /\ (rho (S k) =? 0)%nat = false /\ (1 + (rho (S k) - rb) = S k)%nat).
    { intros k Hk K. unfold rho. apply Nat.ltb_lt in K. rewrite K. split; [apply isR_true; unfold rb; lia|].
      split; [|split; [apply Nat.eqb_neq; lia|unfold rb; lia]].
      destruct (isC (M + 1 + k)) eqn:E; auto. apply isC_true in E. unfold cb in E. lia. }
    assert (CD : forall k, (S k < dim r)%nat -> (N - cv <= k)%nat -> isR (rho (S k)) = false /\ isC (rho (S k)) = true /\ (rho (S k) =? 0)%nat = false /\ (cr + (rho (S k) - cb) = S k)%nat).
    { intros k Hk K. unfold rho. assert (K' := K). apply Nat.ltb_ge in K'. rewrite K'.
      split; [|split; [apply isC_true; unfold cb, N in *; lia|split; [apply Nat.eqb_neq; unfold cb; lia|unfold cr, cb, N in *; lia]]].
      destruct (isR (cb + (k - (N - cv)))) eqn:E; auto. apply isR_true in E. unfold rb, cb, N in *. lia. }
    assert (R0 : isR 0 = false) by (unfold isR, rb; apply Nat.leb_gt; lia).
    assert (C0 : isC 0 = false).
    { destruct (isC 0) eqn:E; auto. apply isC_true in E. unfold cb in E. lia. }
    unfold h1, h3, h5.
    destruct a as [|a], b as [|b].
    + lia.
    + change (rho 0) with 0%nat. rewrite R0, C0. cbn [andb Nat.eqb].
      destruct (Nat.lt_ge_cases b (N - cv)) as [K|K].
      * destruct (CC b Hb K) as (X1 & X2 & X3 & X4). rewrite X1, X2, X4. auto.
      * destruct (CD b Hb K) as (X1 & X2 & X3 & X4). rewrite X1, X2, X4. auto.
    + change (rho 0) with 0%nat. rewrite R0, C0. change (0 =? 0)%nat with true. rewrite ?andb_false_r, ?andb_true_r.
      destruct (Nat.lt_ge_cases a (N - cv)) as [K|K].
      * destruct (CC a Ha K) as (X1 & X2 & X3 & X4). rewrite X1, X2, X4. auto.
      * destruct (CD a Ha K) as (X1 & X2 & X3 & X4). rewrite X1, X2, X4. auto.
    + destruct (Nat.lt_ge_cases a (N - cv)) as [K|K]; [destruct (CC a Ha K) as (X1 & X2 & X3 & X4)|destruct (CD a Ha K) as (X1 & X2 & X3 & X4)];
      (destruct (Nat.lt_ge_cases b (N - cv)) as [K'|K']; [destruct (CC b Hb K') as (Y1 & Y2 & Y3 & Y4)|destruct (CD b Hb K') as (Y1 & Y2 & Y3 & Y4)]);
      rewrite X1, X2, X3, X4, Y1, Y2, Y3, Y4; cbn [andb]; auto.
  - intros i j b Hi Hj H.
    (* every index of the result that h touches is the image of a right index *)
    assert (PC : forall i, (i < n)%nat -> isC i = true -> exists a, (a < dim r)%nat /\ rho a = i /\ a = (cr + (i - cb))%nat).
    { intros k Hk E. apply isC_true in E. exists (cr + (k - cb))%nat.
      split; [unfold cr, cb, N in *; lia|]. split; auto. unfold rho, cr.
      replace (N - cv + 1 + (k - cb))%nat with (S (N - cv + (k - cb))) by lia.
      assert ((N - cv + (k - cb) <? N - cv)%nat = false) as -> by (apply Nat.ltb_ge; lia). lia. }
    assert (PR : forall i, (i < n)%nat -> isR i = true -> exists a, (a < dim r)%nat /\ rho a = i /\ a = (1 + (i - rb))%nat).
    { intros k Hk E. apply isR_true in E. exists (1 + (k - rb))%nat.
      split; [unfold n, rb, N in *; lia|]. split; auto. cbn [plus rho].
      assert ((k - rb <? N - cv)%nat = true) as -> by (apply Nat.ltb_lt; unfold n, rb in *; lia). unfold rb in *; lia. }
    assert (G : forall a c, (a < dim r)%nat -> (c < dim r)%nat -> bsat (get r a c) (ext w (rho a) - ext w (rho c))).
    { intros a c Ha Hc. rewrite <- !EX by auto. apply B; auto. }
    assert (R0 : (0 < dim r)%nat /\ rho 0 = 0%nat) by (split; auto).
    assert (K : exists a c, (a < dim r)%nat /\ (c < dim r)%nat /\ rho a = i /\ rho c = j /\ b = get r a c).
    { unfold h1, h3, h5 in H. destruct H as [H|[H|H]].
      - destruct (isC i && isC j) eqn:E; [|destruct ((i =? 0)%nat && isC j) eqn:E'; [|destruct (isC i && (j =? 0)%nat) eqn:E''; [|discriminate]]];
          injection H as <-; bools; subst.
        + destruct (PC i Hi ltac:(auto)) as (a & ? & ? & ?), (PC j Hj ltac:(auto)) as (c & ? & ? & ?).
          exists a, c. subst a c. auto.
        + destruct (PC j Hj ltac:(auto)) as (c & ? & ? & ?). exists 0%nat, c. subst c. destruct R0; auto.
        + destruct (PC i Hi ltac:(auto)) as (a & ? & ? & ?). exists a, 0%nat. subst a. destruct R0; auto 6.
      - destruct (isR i && isR j) eqn:E; [|destruct ((i =? 0)%nat && isR j) eqn:E'; [|destruct (isR i && (j =? 0)%nat) eqn:E''; [|discriminate]]];
          injection H as <-; bools; subst.
        + destruct (PR i Hi ltac:(auto)) as (a & ? & ? & ?), (PR j Hj ltac:(auto)) as (c & ? & ? & ?).
          exists a, c. subst a c. auto.
        + destruct (PR j Hj ltac:(auto)) as (c & ? & ? & ?). exists 0%nat, c. subst c. destruct R0; auto.
        + destruct (PR i Hi ltac:(auto)) as (a & ? & ? & ?). exists a, 0%nat. subst a. destruct R0; auto 6.
      - destruct (isR i && isC j) eqn:E; [|destruct (isC i && isR j) eqn:E'; [|discriminate]];
          injection H as <-; bools; subst.
        + destruct (PR i Hi ltac:(auto)) as (a & ? & ? & ?), (PC j Hj ltac:(auto)) as (c & ? & ? & ?).
          exists a, c. subst a c. auto.
        + destruct (PC i Hi ltac:(auto)) as (a & ? & ? & ?), (PR j Hj ltac:(auto)) as (c & ? & ? & ?).
          exists a, c. subst a c. auto. }
    destruct K as (a & c & Ka & Kc & Ei & Ej & ->). rewrite <- Ei, <- Ej. apply G; auto.
Qed.
End JC.

Lemma dim_juxCommon l r cv : dim (juxCommon l r cv) = (pred (dim l) + pred (dim r) - cv + 1)%nat.
Proof. unfold juxCommon. cbv zeta. rewrite dim_canonize, dim_mk. reflexivity. Qed.
