From Coq Require Import QArith ZArith Bool List Lia Lqa Qround Arith.
From Verif Require Import BoundsModel BoundsProofs ConstraintModel ZoneModel ZoneSpec ZoneProofs ZoneProofs2
  AutomatonModel TimedWordModel TimedConditionModel TimedConditionSpec TimedConditionProofs TimedConditionProofs2 TimedConditionProofs3.
Import ListNotations.
Open Scope Q_scope.

(** * elimination of one variable *)
Definition minB (l : list bound) : bound := fold_right bmin Inf l.
Lemma minB_sat l q : bsat (minB l) q <-> forall b, In b l -> bsat b q.
Proof.
  induction l as [|a l IH]; cbn [minB fold_right].
  - split; [intros _ b []|intros; exact I].
  - rewrite bsat_bmin. fold (minB l). rewrite IH. split.
    + intros [A B] b [<-|H]; auto.
    + intro H. split; [apply H; left; auto|intros; apply H; right; auto].
Qed.
Lemma minB_attained l : minB l = Inf \/ In (minB l) l.
Proof.
  induction l as [|a l IH]; cbn [minB fold_right]; [auto|]. fold (minB l).
  apply (bmin_case a (minB l) (fun b => b = Inf \/ a = b \/ In b l)); auto. destruct IH; auto.
Qed.
Lemma fourier U L : (forall a b, In a U -> In b L -> bsat (badd a b) 0) ->
  exists q, (forall a, In a U -> bsat a q) /\ (forall b, In b L -> bsat b (- q)).
Proof.
  intro H. assert (K : exists q, bsat (minB U) q /\ bsat (minB L) (- q)).
  { apply badd_nonneg_iff. apply bzero_le_sat.
    destruct (minB_attained U) as [E|E]; [rewrite E; exact I|].
    destruct (minB_attained L) as [E'|E']; [rewrite E'; destruct (minB U); exact I|]. apply H; auto. }
  destruct K as [q [A B]]. exists q. rewrite minB_sat in A, B. auto.
Qed.

(** * concatenation *)
Definition concatSem (a b : tcond) (u : nat -> Q) : Prop :=
  let N := tcSize a in let M := tcSize b in
  let inA i := (1 <= i)%nat /\ (i <= N)%nat in
  let inB k := (2 <= k)%nat /\ (k <= M)%nat in
  let v k := u (N + k - 1)%nat in
  (forall i j, inA i -> inA j -> bsat (get a i j) (u i - u j)) /\
  (forall i, inA i -> bsat (badd (get a i 0) (get b 1 0)) (u i - u 0%nat) /\ bsat (badd (get a 0 i) (get b 0 1)) (u 0%nat - u i)) /\
  (forall i k, inA i -> inB k -> bsat (badd (get a i 0) (get b 1 k)) (u i - v k) /\ bsat (badd (get a 0 i) (get b k 1)) (v k - u i)) /\
  (forall k l, inB k -> inB l -> bsat (get b k l) (v k - v l)) /\
  (forall k, inB k -> bsat (get b k 0) (v k - u 0%nat) /\ bsat (get b 0 k) (u 0%nat - v k)) /\
  bsat (get a 0 0) 0.

Ltac bcases :=
  repeat match goal with
  | |- context [(?x <=? ?y)%nat] => destruct (Nat.leb_spec x y); try lia
  | |- context [(?x <? ?y)%nat] => destruct (Nat.ltb_spec x y); try lia
  | |- context [(?x =? ?y)%nat] => destruct (Nat.eqb_spec x y); try lia
  end; cbn [andb].
Ltac bcasesIn H :=
  repeat match type of H with
  | context [(?x <=? ?y)%nat] => destruct (Nat.leb_spec x y); try lia
  | context [(?x <? ?y)%nat] => destruct (Nat.ltb_spec x y); try lia
  | context [(?x =? ?y)%nat] => destruct (Nat.eqb_spec x y); try lia
  end; cbn [andb] in H.

Lemma dim_tcConcat a b : dim (tcConcat a b) = (tcSize a + tcSize b)%nat.
Proof. unfold tcConcat. rewrite dim_canonize. apply dim_mk. Qed.

Lemma tcConcat_Z a b u : (2 <= dim a)%nat -> (2 <= dim b)%nat -> (Z_ (tcConcat a b) u <-> concatSem a b u).
Proof.
  intros Da Db. unfold tcConcat. rewrite canonize_Z. set (N := tcSize a). set (M := tcSize b).
  assert (HN : (1 <= N)%nat) by (unfold N, tcSize; lia). assert (HM : (1 <= M)%nat) by (unfold M, tcSize; lia).
  unfold Z_. rewrite dim_mk. split.
  - intro H. unfold concatSem. fold N M. cbv zeta.
    split; [|split; [|split; [|split; [|split]]]].
    + intros i j Hi Hj. assert (K := H i j ltac:(lia) ltac:(lia)). rewrite get_mk in K by lia. bcasesIn K. exact K.
    + intros i Hi. split.
      * assert (K := H i 0%nat ltac:(lia) ltac:(lia)). rewrite get_mk in K by lia. bcasesIn K. exact K.
      * assert (K := H 0%nat i ltac:(lia) ltac:(lia)). rewrite get_mk in K by lia. bcasesIn K. exact K.
    + intros i k Hi Hk. split.
      * assert (K := H i (N + k - 1)%nat ltac:(lia) ltac:(lia)). rewrite get_mk in K by lia. bcasesIn K.
        replace (N + k - 1 - N + 1)%nat with k in K by lia. exact K.
      * assert (K := H (N + k - 1)%nat i ltac:(lia) ltac:(lia)). rewrite get_mk in K by lia. bcasesIn K.
        replace (N + k - 1 - N + 1)%nat with k in K by lia. exact K.
    + intros k l Hk Hl. assert (K := H (N + k - 1)%nat (N + l - 1)%nat ltac:(lia) ltac:(lia)). rewrite get_mk in K by lia. bcasesIn K.
      replace (N + k - 1 - N + 1)%nat with k in K by lia. replace (N + l - 1 - N + 1)%nat with l in K by lia. exact K.
    + intros k Hk. split.
      * assert (K := H (N + k - 1)%nat 0%nat ltac:(lia) ltac:(lia)). rewrite get_mk in K by lia. bcasesIn K.
        replace (N + k - 1 - N + 1)%nat with k in K by lia. exact K.
      * assert (K := H 0%nat (N + k - 1)%nat ltac:(lia) ltac:(lia)). rewrite get_mk in K by lia. bcasesIn K.
        replace (N + k - 1 - N + 1)%nat with k in K by lia. exact K.
    + assert (K := H 0%nat 0%nat ltac:(lia) ltac:(lia)). rewrite get_mk in K by lia. bcasesIn K.
      eapply bsat_ext; [|exact K]. ring.
  - intro H. unfold concatSem in H. fold N M in H. cbv zeta in H. destruct H as [H1 [H2 [H3 [H4 [H5 H6]]]]].
    intros i j Hi Hj. rewrite get_mk by lia.
    assert (Ti : i = 0%nat \/ (1 <= i <= N)%nat \/ (N < i)%nat) by lia.
    assert (Tj : j = 0%nat \/ (1 <= j <= N)%nat \/ (N < j)%nat) by lia.
    destruct Ti as [->|[Ti|Ti]], Tj as [->|[Tj|Tj]]; bcases.
    + eapply bsat_ext; [|exact H6]. ring.
    + apply H2; lia.
    + assert (K := proj2 (H5 (j - N + 1)%nat ltac:(lia))). replace (N + (j - N + 1) - 1)%nat with j in K by lia. exact K.
    + apply H2; lia.
    + apply H1; lia.
    + assert (K := proj1 (H3 i (j - N + 1)%nat ltac:(lia) ltac:(lia))). replace (N + (j - N + 1) - 1)%nat with j in K by lia. exact K.
    + assert (K := proj1 (H5 (i - N + 1)%nat ltac:(lia))). replace (N + (i - N + 1) - 1)%nat with i in K by lia. exact K.
    + assert (K := proj2 (H3 j (i - N + 1)%nat ltac:(lia) ltac:(lia))). replace (N + (i - N + 1) - 1)%nat with i in K by lia. exact K.
    + assert (K := H4 (i - N + 1)%nat (j - N + 1)%nat ltac:(lia) ltac:(lia)).
      replace (N + (i - N + 1) - 1)%nat with i in K by lia. replace (N + (j - N + 1) - 1)%nat with j in K by lia. exact K.
Qed.

Lemma sum_swap a b p q : bsat (badd a b) (p + q) -> bsat (badd (sb a (- p)) (sb b (- q))) 0.
Proof. unfold sb. destruct a as [c [|]|], b as [e [|]|]; cbn [badd bsat andb]; auto; qred; lra. Qed.

(** splitting: the value s of the first variable of the second condition *)
Lemma concat_split a b w : okCond a -> okCond b -> Z_ (tcConcat a b) (ext w) ->
  exists s, Z_ a (fun i => match i with O => 0 | S k => w k - s end) /\
            Z_ b (fun k => match k with O => 0 | 1%nat => s | _ => ext w (tcSize a + k - 1) end).
Proof.
  intros [Da [Ca Na]] [Db [Cb Nb]] H. apply tcConcat_Z in H; auto. unfold concatSem in H. cbv zeta in H.
  set (N := tcSize a) in *. set (M := tcSize b) in *. destruct H as [H1 [H2 [H3 [H4 [H5 H6]]]]].
  assert (Ga := nonempty_diag a Na). assert (Gb := nonempty_diag b Nb).
  assert (EN : dim a = S N) by (unfold N, tcSize; lia). assert (EM : dim b = S M) by (unfold M, tcSize; lia).
  assert (HN : (1 <= N)%nat) by lia. assert (HM : (1 <= M)%nat) by lia.
  set (v := fun k => match k with O => 0 | _ => ext w (N + k - 1) end).
  set (KB := 0%nat :: seq 2 (M - 1)).
  set (UL := map (fun i => sb (get a 0 i) (ext w i)) (seq 1 N) ++ map (fun k => sb (get b 1 k) (v k)) KB).
  set (LL := map (fun i => sb (get a i 0) (- ext w i)) (seq 1 N) ++ map (fun k => sb (get b k 1) (- v k)) KB).
  assert (KBs : forall k, In k KB -> (k = 0 \/ (2 <= k <= M))%nat).
  { intros k [<-|Hk]; [auto|]. apply in_seq in Hk. lia. }
  assert (KBin : forall k, (k = 0 \/ (2 <= k <= M))%nat -> In k KB).
  { intros k [->|Hk]; [left; auto|right; apply in_seq; lia]. }
  destruct (fourier UL LL) as [s [SU SL]].
  { unfold UL, LL. intros x y Hx Hy. apply in_app_or in Hx. apply in_app_or in Hy.
    destruct Hx as [Hx|Hx], Hy as [Hy|Hy]; apply in_map_iff in Hx; apply in_map_iff in Hy;
      destruct Hx as [i [<- Hi]], Hy as [j [<- Hj]].
    - apply in_seq in Hi. apply in_seq in Hj.
      assert (K : bsat (badd (get a j 0) (get a 0 i)) (ext w j - ext w i)).
      { eapply ble_sat_1; [apply (Ca j i 0%nat); lia|]. apply H1; lia. }
      unfold sb. destruct (get a j 0) as [c [|]|], (get a 0 i) as [e [|]|]; cbn [badd bsat andb] in K |- *; auto; qred; lra.
    - apply in_seq in Hi. destruct (KBs j Hj) as [->|Hj'].
      + assert (K := proj2 (H2 i ltac:(lia))). cbn [ext v] in K |- *.
        unfold sb. destruct (get b 0 1) as [c [|]|], (get a 0 i) as [e [|]|]; cbn [badd bsat andb] in K |- *; auto; qred; lra.
      + assert (K := proj2 (H3 i j ltac:(lia) ltac:(lia))). assert (E : v j = ext w (N + j - 1)) by (unfold v; destruct j; [lia|reflexivity]).
        rewrite E. unfold sb. destruct (get b j 1) as [c [|]|], (get a 0 i) as [e [|]|]; cbn [badd bsat andb] in K |- *; auto; qred; lra.
    - apply in_seq in Hj. destruct (KBs i Hi) as [->|Hi'].
      + assert (K := proj1 (H2 j ltac:(lia))). cbn [ext v] in K |- *.
        unfold sb. destruct (get b 1 0) as [c [|]|], (get a j 0) as [e [|]|]; cbn [badd bsat andb] in K |- *; auto; qred; lra.
      + assert (K := proj1 (H3 j i ltac:(lia) ltac:(lia))). assert (E : v i = ext w (N + i - 1)) by (unfold v; destruct i; [lia|reflexivity]).
        rewrite E. unfold sb. destruct (get b 1 i) as [c [|]|], (get a j 0) as [e [|]|]; cbn [badd bsat andb] in K |- *; auto; qred; lra.
    - assert (K : bsat (badd (get b j 1) (get b 1 i)) (v j - v i)).
      { eapply ble_sat_1; [apply (Cb j i 1%nat); destruct (KBs i Hi), (KBs j Hj); lia|].
        destruct (KBs i Hi) as [->|Hi'], (KBs j Hj) as [->|Hj'].
        - eapply bsat_ext; [|apply Gb; lia]. cbn [v]. ring.
        - assert (E : v j = ext w (N + j - 1)) by (unfold v; destruct j; [lia|reflexivity]). rewrite E. cbn [v].
          assert (K := proj1 (H5 j ltac:(lia))). cbn [ext] in K. exact K.
        - assert (E : v i = ext w (N + i - 1)) by (unfold v; destruct i; [lia|reflexivity]). rewrite E. cbn [v].
          assert (K := proj2 (H5 i ltac:(lia))). cbn [ext] in K. exact K.
        - assert (E : v i = ext w (N + i - 1)) by (unfold v; destruct i; [lia|reflexivity]).
          assert (E' : v j = ext w (N + j - 1)) by (unfold v; destruct j; [lia|reflexivity]).
          rewrite E, E'. apply H4; lia. }
      unfold sb. destruct (get b j 1) as [c [|]|], (get b 1 i) as [e [|]|]; cbn [badd bsat andb] in K |- *; auto; qred; lra. }
  assert (SA : forall i, (1 <= i <= N)%nat -> bsat (get a 0 i) (s - ext w i) /\ bsat (get a i 0) (ext w i - s)).
  { intros i Hi. split.
    - rewrite <- sb_sat. apply SU. unfold UL. apply in_or_app. left. apply in_map_iff. exists i. split; [auto|apply in_seq; lia].
    - assert (K : bsat (sb (get a i 0) (- ext w i)) (- s)).
      { apply SL. unfold LL. apply in_or_app. left. apply in_map_iff. exists i. split; [auto|apply in_seq; lia]. }
      rewrite sb_sat in K. eapply bsat_ext; [|exact K]. ring. }
  assert (SB : forall k, In k KB -> bsat (get b 1 k) (s - v k) /\ bsat (get b k 1) (v k - s)).
  { intros k Hk. split.
    - rewrite <- sb_sat. apply SU. unfold UL. apply in_or_app. right. apply in_map_iff. exists k. auto.
    - assert (K : bsat (sb (get b k 1) (- v k)) (- s)).
      { apply SL. unfold LL. apply in_or_app. right. apply in_map_iff. exists k. auto. }
      rewrite sb_sat in K. eapply bsat_ext; [|exact K]. ring. }
  exists s. split.
  - intros i j Hi Hj. destruct i as [|i], j as [|j].
    + eapply bsat_ext; [|apply Ga; lia]. ring.
    + eapply bsat_ext; [|apply (SA (S j)); lia]. cbn [ext]. ring.
    + eapply bsat_ext; [|apply (SA (S i)); lia]. cbn [ext]. ring.
    + eapply bsat_ext; [|apply (H1 (S i) (S j)); lia]. cbn [ext]. ring.
  - intros k l Hk Hl.
    assert (Tk : k = 0%nat \/ k = 1%nat \/ (2 <= k <= M)%nat) by lia.
    assert (Tl : l = 0%nat \/ l = 1%nat \/ (2 <= l <= M)%nat) by lia.
    assert (Ev : forall k, (2 <= k)%nat -> match k with O => 0 | 1%nat => s | _ => ext w (N + k - 1) end = ext w (N + k - 1)).
    { intros [|[|x]] Hx; [lia|lia|reflexivity]. }
    assert (Ev' : forall k, (2 <= k)%nat -> v k = ext w (N + k - 1)).
    { intros [|x] Hx; [lia|reflexivity]. }
    destruct Tk as [->|[->|Tk]], Tl as [->|[->|Tl]]; cbn beta; rewrite ?Ev by lia.
    + eapply bsat_ext; [|apply Gb; lia]. ring.
    + destruct (SB 0%nat ltac:(apply KBin; lia)) as [_ K]. cbn [v] in K. exact K.
    + assert (K := proj2 (H5 l ltac:(lia))). cbn [ext] in K. exact K.
    + destruct (SB 0%nat ltac:(apply KBin; lia)) as [K _]. cbn [v] in K. exact K.
    + eapply bsat_ext; [|apply Gb; lia]. ring.
    + destruct (SB l ltac:(apply KBin; lia)) as [K _]. rewrite Ev' in K by lia. exact K.
    + assert (K := proj1 (H5 k ltac:(lia))). cbn [ext] in K. exact K.
    + destruct (SB k ltac:(apply KBin; lia)) as [_ K]. rewrite Ev' in K by lia. exact K.
    + apply H4; lia.
Qed.

Lemma concat_join a b w s : okCond a -> okCond b ->
  Z_ a (fun i => match i with O => 0 | S k => w k - s end) ->
  Z_ b (fun k => match k with O => 0 | 1%nat => s | _ => ext w (tcSize a + k - 1) end) ->
  Z_ (tcConcat a b) (ext w).
Proof.
  intros [Da [Ca Na]] [Db [Cb Nb]] HA HB. apply tcConcat_Z; auto. unfold concatSem. cbv zeta.
  set (N := tcSize a) in *. set (M := tcSize b) in *.
  assert (EN : dim a = S N) by (unfold N, tcSize; lia). assert (EM : dim b = S M) by (unfold M, tcSize; lia).
  assert (HN : (1 <= N)%nat) by lia. assert (HM : (1 <= M)%nat) by lia.
  assert (Eu : forall i, (1 <= i)%nat -> match i with O => 0 | S k => w k - s end == ext w i - s).
  { intros [|i] H; [lia|reflexivity]. }
  assert (Ev : forall k, (2 <= k)%nat -> match k with O => 0 | 1%nat => s | _ => ext w (N + k - 1) end = ext w (N + k - 1)).
  { intros [|[|x]] Hx; [lia|lia|reflexivity]. }
  split; [|split; [|split; [|split; [|split]]]].
  - intros i j Hi Hj. eapply bsat_ext; [|apply (HA i j); lia]. cbn beta. rewrite !Eu by lia. ring.
  - intros i Hi. split.
    + eapply bsat_ext; [|apply badd_sat; [apply (HA i 0%nat); lia|apply (HB 1%nat 0%nat); lia]]. cbn beta. rewrite Eu by lia. cbn [ext]. ring.
    + eapply bsat_ext; [|apply badd_sat; [apply (HA 0%nat i); lia|apply (HB 0%nat 1%nat); lia]]. cbn beta. rewrite Eu by lia. cbn [ext]. ring.
  - intros i k Hi Hk. split.
    + eapply bsat_ext; [|apply badd_sat; [apply (HA i 0%nat); lia|apply (HB 1%nat k); lia]]. cbn beta. rewrite Eu, Ev by lia. cbn [ext]. ring.
    + eapply bsat_ext; [|apply badd_sat; [apply (HA 0%nat i); lia|apply (HB k 1%nat); lia]]. cbn beta. rewrite Eu, Ev by lia. cbn [ext]. ring.
  - intros k l Hk Hl. assert (K := HB k l ltac:(lia) ltac:(lia)). cbn beta in K. rewrite !Ev in K by lia. exact K.
  - intros k Hk. split.
    + assert (K := HB k 0%nat ltac:(lia) ltac:(lia)). cbn beta in K. rewrite (Ev k) in K by lia. exact K.
    + assert (K := HB 0%nat k ltac:(lia) ltac:(lia)). cbn beta in K. rewrite (Ev k) in K by lia. exact K.
  - eapply bsat_ext; [|apply (HA 0%nat 0%nat); lia]. ring.
Qed.

(** in terms of durations *)
Lemma accd_app p s k : (k <= length p)%nat -> accd (p ++ s) k == accd p k + accd s 0.
Proof. intro H. unfold accd. rewrite skipn_app. replace (k - length p)%nat with 0%nat by lia. apply sumQ_app. Qed.
Lemma accd_app2 p s k : (length p <= k)%nat -> accd (p ++ s) k = accd s (k - length p).
Proof. intro H. unfold accd. rewrite skipn_app, skipn_all2 by auto. reflexivity. Qed.

Lemma accd_cons x r : accd (x :: r) 0 == x + accd r 0.
Proof. unfold accd. cbn [skipn sumQ]. reflexivity. Qed.
Lemma accd_nil k : accd [] k = 0. Proof. unfold accd. rewrite skipn_nil. reflexivity. Qed.

Lemma dur_split (d : list Q) N : (1 <= N)%nat -> (N <= length d)%nat ->
  exists p x s, d = p ++ x :: s /\ length p = (N - 1)%nat.
Proof.
  intros H1 H2. assert (L : (N - 1 < length d)%nat) by lia.
  destruct (nth_split d 0 L) as [p [s [E Lp]]]. exists p, (nth (N - 1) d 0), s. auto.
Qed.

Lemma tcSize_concat a b : (2 <= dim a)%nat -> (2 <= dim b)%nat -> tcSize (tcConcat a b) = (tcSize a + tcSize b - 1)%nat.
Proof. intros. unfold tcSize at 1. rewrite dim_tcConcat. lia. Qed.

Lemma okCond_concat_nonempty a b : okCond a -> okCond b -> nonemptyZ (tcConcat a b).
Proof.
  intros Oa Ob. destruct (Oa) as [Da [Ca [wa Ha]]]. destruct (Ob) as [Db [Cb [wb Hb]]].
  set (N := tcSize a).
  exists (fun k => if (k <? N)%nat then wa k + wb 0%nat else wb (k - N + 1)%nat).
  assert (HN : (1 <= N)%nat) by (unfold N, tcSize; lia).
  apply inZone_Z. apply (concat_join a b _ (wb 0%nat)); auto.
  - eapply Z_ext; [|exact Ha]. intros [|i] Hi; [reflexivity|]. cbn [ext].
    destruct (Nat.ltb_spec i N); [ring|]. unfold N, tcSize in *. lia.
  - eapply Z_ext; [|exact Hb]. intros [|[|k]] Hk; [reflexivity|reflexivity|]. fold N.
    replace (N + S (S k) - 1)%nat with (S (N + k)) by lia. cbn [ext].
    destruct (Nat.ltb_spec (N + k) N); [lia|]. replace (N + k - N + 1)%nat with (S k) by lia. reflexivity.
Qed.

Lemma okCond_concat a b : okCond a -> okCond b -> okCond (tcConcat a b).
Proof.
  intros Oa Ob. assert (NE := okCond_concat_nonempty a b Oa Ob). destruct Oa as [Da _], Ob as [Db _].
  split; [rewrite dim_tcConcat; unfold tcSize; lia|]. split; [|auto].
  unfold tcConcat in *. apply canonize_closed_sat. destruct NE as [w H]. exists w. apply canonize_inZone. exact H.
Qed.

Lemma sameDurs_refl d : sameDurs d d.
Proof. induction d; constructor; [reflexivity|auto]. Qed.

Lemma tcConcat_exact a b d : okCond a -> okCond b ->
  (inCond (tcConcat a b) d <-> exists d1 d2, inCond a d1 /\ inCond b d2 /\ joined d1 d2 d).
Proof.
  intros Oa Ob. assert (Oc := okCond_concat a b Oa Ob).
  destruct (Oa) as [Da _]. destruct (Ob) as [Db _].
  assert (HN : (1 <= tcSize a)%nat) by (unfold tcSize; lia). assert (HM : (1 <= tcSize b)%nat) by (unfold tcSize; lia).
  assert (SZ := tcSize_concat a b Da Db).
  split.
  - intro H. apply inCond_iff in H; auto. destruct H as [L H]. rewrite SZ in L. apply inZone_Z in H.
    destruct (concat_split a b (accd d) Oa Ob H) as [s [HA HB]].
    destruct (dur_split d (tcSize a) HN ltac:(lia)) as [p [x [r [-> Lp]]]].
    assert (Lr : length r = (tcSize b - 1)%nat) by (rewrite app_length in L; cbn in L; lia).
    set (tail := accd r 0).
    exists (p ++ [x - (s - tail)]), ((s - tail) :: r).
    assert (Ex : accd (x :: r) 0 == x + tail) by (unfold accd, tail; cbn [skipn sumQ]; reflexivity).
    split; [|split].
    + apply inCond_iff; auto. split; [rewrite app_length; cbn; lia|].
      apply inZone_Z. eapply Z_ext; [|exact HA]. intros [|k] Hk; [reflexivity|]. cbn [ext].
      assert (k <= length p)%nat by (unfold tcSize in *; lia).
      rewrite (accd_app p (x :: r)) by auto. rewrite (accd_app p [x - (s - tail)]) by auto. rewrite Ex.
      rewrite accd_cons, accd_nil. ring.
    + apply inCond_iff; auto. split; [cbn; lia|].
      apply inZone_Z. eapply Z_ext; [|exact HB]. intros [|[|k]] Hk; [reflexivity| |].
      * cbn [ext]. rewrite accd_cons. fold tail. ring.
      * replace (tcSize a + S (S k) - 1)%nat with (S (tcSize a + k)) by lia. cbn [ext].
        rewrite accd_app2 by lia. replace (tcSize a + k - length p)%nat with (S k) by lia. reflexivity.
    + exists p, (x - (s - tail)), (s - tail), r. split; [auto|]. split; [auto|].
      apply Forall2_app; [apply sameDurs_refl|]. constructor; [ring|apply sameDurs_refl].
  - intros [d1 [d2 [H1 [H2 [p [x [y [r [-> [-> E]]]]]]]]]].
    assert (E2 : sameDurs (p ++ (x + y) :: r) d).
    { clear - E. induction E; constructor; auto. symmetry; auto. }
    apply (inCond_same _ _ _ E2). clear E E2 d.
    apply inCond_iff in H1; auto. apply inCond_iff in H2; auto. destruct H1 as [L1 H1], H2 as [L2 H2].
    rewrite app_length in L1. cbn in L1, L2.
    apply inCond_iff; auto. split; [rewrite app_length; cbn; lia|].
    apply inZone_Z. apply (concat_join a b _ (y + accd r 0)); auto.
    + eapply Z_ext; [|exact H1]. intros [|k] Hk; [reflexivity|]. cbn [ext].
      assert (k <= length p)%nat by (unfold tcSize in *; lia).
      rewrite !accd_app by auto. rewrite !accd_cons, accd_nil. ring.
    + eapply Z_ext; [|exact H2]. intros [|[|k]] Hk; [reflexivity| |].
      * cbn [ext]. rewrite accd_cons. reflexivity.
      * replace (tcSize a + S (S k) - 1)%nat with (S (tcSize a + k)) by lia. cbn [ext].
        rewrite accd_app2 by lia. replace (tcSize a + k - length p)%nat with (S k) by lia. reflexivity.
Qed.
