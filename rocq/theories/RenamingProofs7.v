(** The candidate renamings, exactly. *)
From Coq Require Import QArith Bool List Arith Lia.
From Verif Require Import BoundsModel BoundsProofs ConstraintModel ZoneModel ZoneSpec ZoneProofs ZoneProofs2 AutomatonModel
  TimedWordModel TimedWordSpec TimedConditionModel TimedConditionSpec TimedConditionProofs TimedConditionProofs4 ElementaryModel
  ElementarySpec LooseProofs RegionalModel RegionalSpec OracleModel SymbolicModel SymbolicSpec CexModel CexSpec CexProofs RenamingModel RenamingSpec RenamingProofs RenamingProofs2 RenamingProofs3 RenamingProofs4.
Import ListNotations.
Open Scope nat_scope.

Section Exact.
Variables (x y : elem) (lcon rcon : list nat).
Hypotheses (Dl : desc (ec x)) (Dr : desc (ec y)) (Cr : closed (ec y)) (Nr : nonneg2 (ec y)).
Let l := ec x. Let r := ec y. Let g := toGraph l r.
Definition upTo (n : nat) (c : renaming) : Prop :=
  (forall j, In j (map snd c) <-> j < n /\ renamed x y j) /\
  (forall a b, a < b -> b < length c -> snd (nth a c (0, 0)) < snd (nth b c (0, 0))) /\
  forall k, k < length c ->
    let i := fst (nth k c (0, 0)) in let j := snd (nth k c (0, 0)) in
    sameUpper x y i j /\
    (together y j -> 0 < k /\ i = fst (nth (k - 1) c (0, 0))) /\
    (~ together y j -> (k = 0 \/ fst (nth (k - 1) c (0, 0)) < i) /\ (In i lcon <-> In j rcon) /\ ~ together x i).
Lemma edge_same i j : In i (nth j (snd g) []) <-> sameUpper x y i j.
Proof using Dl Dr. unfold sameUpper, g, l, r. rewrite (takes_edge (ec x) (ec y) Dl Dr j i). unfold sameB, ubN, beqb. rewrite andb_true_iff. tauto. Qed.
Lemma skip_iff j : (match nth j (snd g) [] with [] => true | _ => false end || bSnd (ubN r j)) = false <-> renamed x y j.
Proof using Dl Dr.
  unfold renamed. change (getUpperBound (ec y) j (tcSize (ec y) - 1)) with (ubN r j). rewrite orb_false_iff. split.
  - intros [A B]. split; [|auto]. destruct (nth j (snd g) []) as [|i e] eqn:E; [discriminate|]. exists i. apply edge_same. rewrite E. left. auto.
  - intros [[i A] B]. split; [|auto]. apply edge_same in A. destruct (nth j (snd g) []); [destruct A|auto].
Qed.
Lemma existsb_in j c : existsb (Nat.eqb j) c = true <-> In j c.
Proof. rewrite existsb_exists. split; [intros [k [A B]]; apply Nat.eqb_eq in B; subst; auto|intro A; exists j; split; [auto|apply Nat.eqb_refl]]. Qed.
Lemma together_iff z k : (0 <? k) && beqb (getUpperBound (ec z) (k - 1) (k - 1)) bz = true <-> together z k.
Proof. unfold together. rewrite andb_true_iff, Nat.ltb_lt. tauto. Qed.
Lemma together_renamed j : together y j -> renamed x y j -> renamed x y (j - 1).
Proof using Dl Dr Cr Nr.
  intros [H0 Z] R. destruct R as [[i S0] B]. assert (Hj : j < tcSize (ec y)) by apply S0. assert (Sm := zero_same (ec y) Dr Cr Nr j H0 Hj Z).
  assert (T : takes (ec x) (ec y) j). { split; [|exact B]. apply edge_same in S0. intro X. unfold g, l, r in S0. rewrite X in S0. destruct S0. }
  destruct (takes_same (ec x) (ec y) Dl Dr j H0 Hj Sm T) as [T1 T2]. split; [|exact T2]. destruct (nth (j - 1) (snd (toGraph (ec x) (ec y))) []) as [|i' e] eqn:E; [congruence|].
  exists i'. apply edge_same. unfold g, l, r. rewrite E. left. auto.
Qed.
Lemma lastOf (c : renaming) : c <> [] -> last c (0, 0) = nth (length c - 1) c (0, 0).
Proof. intro N. destruct (exists_last N) as (d & p & ->). rewrite last_last, app_length. cbn [length]. rewrite app_nth2 by lia. replace (length d + 1 - 1 - length d) with 0 by lia. reflexivity. Qed.
Lemma upTo_snd n c a : upTo n c -> a < length c -> snd (nth a c (0, 0)) < n.
Proof. intros [A _] H. apply (A (snd (nth a c (0, 0)))). apply in_map, nth_In. exact H. Qed.
Lemma upTo_skip n c : ~ renamed x y n -> (upTo (S n) c <-> upTo n c).
Proof. intro N. unfold upTo. split; intros [A B]; (split; [|exact B]); intro j; rewrite (A j); split; intros [H1 H2]; split; auto; destruct (Nat.eq_dec j n); try (subst; contradiction); lia. Qed.
(** the last pair of a candidate that renames event [n] *)
Definition stepOk (c : renaming) (i n : nat) : Prop :=
  sameUpper x y i n /\ (together y n -> c <> [] /\ i = fst (last c (0, 0))) /\
  (~ together y n -> (c = [] \/ fst (last c (0, 0)) < i) /\ (In i lcon <-> In n rcon) /\ ~ together x i).
Lemma upTo_snoc n c i : renamed x y n -> (upTo (S n) (c ++ [(i, n)]) <-> upTo n c /\ stepOk c i n).
Proof.
  intro R. split.
  - intros (A & B & C). assert (Lt : forall a, a < length c -> snd (nth a c (0, 0)) < n).
    { intros a Ha. specialize (B a (length c) Ha). rewrite app_length in B. cbn [length] in B. specialize (B ltac:(lia)). rewrite app_nth1, app_nth2, Nat.sub_diag in B by lia. exact B. }
    split; [split; [|split]|].
    + intro j. specialize (A j). rewrite map_app, in_app_iff in A. cbn [map snd In] in A. split.
      * intro H. split; [|apply A; auto]. apply in_map_iff in H. destruct H as (p & <- & Hp). destruct (In_nth c p (0, 0) Hp) as (a & Ha & <-). apply Lt. auto.
      * intros [H1 H2]. destruct (proj2 A (conj (Nat.lt_lt_succ_r _ _ H1) H2)) as [X|[X|[]]]; [auto|lia].
    + intros a b Hab Hb. specialize (B a b Hab). rewrite app_length in B. specialize (B ltac:(lia)). rewrite !app_nth1 in B by lia. exact B.
    + intros k Hk. specialize (C k). rewrite app_length in C. specialize (C ltac:(lia)). rewrite (app_nth1 c [(i, n)] (0, 0) Hk) in C. rewrite (app_nth1 c [(i, n)] (0, 0)) in C by lia. exact C.
    + specialize (C (length c)). rewrite app_length in C. cbn [length] in C. specialize (C ltac:(lia)). rewrite app_nth2, Nat.sub_diag in C by lia. cbn [nth fst snd] in C. destruct C as (C1 & C2 & C3).
      split; [exact C1|]. split.
      * intro T. destruct (C2 T) as [K E]. assert (N : c <> []) by (intros ->; cbn in K; lia). split; [exact N|]. rewrite (lastOf c N). rewrite app_nth1 in E by lia. exact E.
      * intro T. destruct (C3 T) as (K & C4). split; [|exact C4]. destruct K as [K|K]; [left; destruct c; [auto|discriminate]|]. destruct c as [|p c]; [left; auto|right]. rewrite (lastOf (p :: c)) by discriminate. rewrite app_nth1 in K by (cbn; lia). exact K.
  - intros (U & S0 & S1 & S2). assert (Lt := fun a => upTo_snd n c a U). destruct U as (A & B & C). split; [|split].
    + intro j. rewrite map_app, in_app_iff, (A j). cbn [map snd In]. split; [intros [[H1 H2]|[<-|[]]]; split; auto; lia|]. intros [H1 H2]. destruct (Nat.eq_dec j n) as [->|]; [right; left; auto|left; split; [lia|auto]].
    + intros a b Hab Hb. rewrite app_length in Hb. cbn [length] in Hb. destruct (Nat.eq_dec b (length c)) as [->|Ne].
      * rewrite app_nth1, app_nth2, Nat.sub_diag by lia. cbn [nth snd]. apply Lt. exact Hab.
      * rewrite !app_nth1 by lia. apply B; lia.
    + intros k Hk. rewrite app_length in Hk. cbn [length] in Hk. destruct (Nat.eq_dec k (length c)) as [->|Ne].
      * rewrite app_nth2, Nat.sub_diag by lia. cbn [nth fst snd]. split; [exact S0|]. split.
        -- intro T. destruct (S1 T) as [N E]. destruct c as [|p c]; [congruence|]. split; [cbn; lia|]. rewrite E, (lastOf (p :: c)) by discriminate. rewrite app_nth1 by (cbn; lia). reflexivity.
        -- intro T. destruct (S2 T) as [K E]. split; [|exact E]. destruct K as [->|K]; [left; reflexivity|]. destruct c as [|p c]; [left; reflexivity|right]. rewrite (lastOf (p :: c)) in K by discriminate. rewrite app_nth1 by (cbn; lia). exact K.
      * rewrite !app_nth1 by lia. apply (C k). lia.
Qed.
Lemma upTo_last n c : renamed x y n -> upTo (S n) c -> exists i c', c = c' ++ [(i, n)].
Proof.
  intros R U. assert (U0 := U). destruct U as (A & B & _). assert (Hn : In n (map snd c)) by (apply A; split; [lia|auto]). apply in_map_iff in Hn. destruct Hn as (p & E & Hp). destruct (In_nth c p (0, 0) Hp) as (a & Ha & Ea).
  assert (N : c <> []) by (intros ->; destruct Hp). destruct (exists_last N) as (c' & q & ->). rewrite app_length in *. cbn [length] in *. destruct (Nat.eq_dec a (length c')) as [->|Ne].
  - rewrite app_nth2, Nat.sub_diag in Ea by lia. cbn [nth] in Ea. subst q. destruct p as [i j]. cbn in E. subst j. exists i, c'. reflexivity.
  - exfalso. specialize (B a (length c') ltac:(lia) ltac:(lia)). rewrite Ea in B. assert (Lt := upTo_snd (S n) _ (length c') U0 ltac:(rewrite app_length; cbn; lia)). lia.
Qed.
(** the candidates after the first [n] events *)
Lemma cands_exact n : n <= tcSize r -> forall c, In c (fold_left (candStep l r lcon rcon (snd g)) (seq 0 n) [[]]) <-> upTo n c.
Proof using Dl Dr Cr Nr.
  induction n as [|n IH]; intros Hn c.
  - cbn [seq fold_left In]. split.
    + intros [<-|[]]. split; [intro j; cbn; split; [intros []|lia]|]. split; [intros a b _ H; cbn in H; lia|intros k H; cbn in H; lia].
    + intros (A & _). left. destruct c as [|p c]; [auto|]. exfalso. destruct (proj1 (A (snd p)) (or_introl eq_refl)). lia.
  - rewrite seq_S, fold_left_app. cbn [fold_left Nat.add]. specialize (IH ltac:(lia)). set (cs := fold_left (candStep l r lcon rcon (snd g)) (seq 0 n) [[]]) in *. unfold candStep.
    destruct (match nth n (snd g) [] with [] => true | _ => false end || bSnd (ubN r n)) eqn:E.
    + assert (N : ~ renamed x y n) by (intro R; apply skip_iff in R; congruence). rewrite IH. symmetry. apply upTo_skip. exact N.
    + apply skip_iff in E. rewrite in_flat_map. unfold extendCand. destruct ((0 <? n) && beqb (getUpperBound r (n - 1) (n - 1)) bz) eqn:Z.
      * apply (together_iff y) in Z. split.
        -- intros (c0 & H0 & [<-|[]]). apply IH in H0. apply upTo_snoc; [exact E|]. split; [exact H0|].
           assert (Rp := together_renamed n Z E). assert (K : In (n - 1) (map snd c0)). { apply (proj1 H0). split; [destruct Z; lia|exact Rp]. }
           assert (N : c0 <> []) by (intros ->; destruct K). assert (Ea : snd (last c0 (0, 0)) = n - 1).
           { apply in_map_iff in K. destruct K as (p & Ep & Hp). destruct (In_nth c0 p (0, 0) Hp) as (a & Ha & Hn'). rewrite (lastOf c0 N). assert (L1 := upTo_snd n c0 (length c0 - 1) H0 ltac:(lia)).
             destruct (Nat.eq_dec a (length c0 - 1)) as [<-|Ne]; [rewrite Hn'; exact Ep|]. destruct H0 as (_ & B & _). specialize (B a (length c0 - 1) ltac:(lia) ltac:(lia)). rewrite Hn', Ep in B. lia. }
           split; [|split; [intros _; split; [exact N|reflexivity]|contradiction]].
           destruct H0 as (_ & _ & C). specialize (C (length c0 - 1) ltac:(destruct c0; [congruence|cbn; lia])). cbv zeta in C. rewrite <- (lastOf c0 N) in C. destruct C as [C _]. rewrite Ea in C.
           destruct Z as [Z0 Z]. assert (Hn' : n < tcSize (ec y)) by (destruct E as [[i0 E] _]; apply E). assert (Sm := zero_same (ec y) Dr Cr Nr n Z0 Hn' Z). destruct C as (C1 & C2 & C3). split; [exact C1|]. split; [exact Hn'|].
           fold (ubN (ec x) (fst (last c0 (0, 0)))) in *. fold (ubN (ec y) (n - 1)) in *. fold (ubN (ec y) n) in *. unfold beqb in *. apply andb_true_iff in C3. destruct C3 as [C3 C4], Sm as [S1 S2]. apply andb_true_iff. split; eapply ble_trans; eauto.
        -- intro U. destruct (upTo_last n c E U) as (i & c' & ->). apply upTo_snoc in U; [|exact E]. destruct U as (U & _ & K & _). destruct (K Z) as [N ->]. exists c'. split; [apply IH; exact U|left; reflexivity].
      * assert (Z' : ~ together y n) by (intro T; apply (together_iff y) in T; unfold r in Z; congruence). split.
        -- intros (c0 & H0 & H1). apply IH in H0. apply in_flat_map in H1. destruct H1 as (i & Hi & H1). destruct (_ && _ && _) eqn:EE in H1; [|destruct H1]. destruct H1 as [<-|[]].
           apply andb_true_iff in EE. destruct EE as [EE E3]. apply andb_true_iff in EE. destruct EE as [E1 E2]. apply upTo_snoc; [exact E|]. split; [exact H0|]. split; [apply edge_same; exact Hi|]. split; [contradiction|]. intros _.
           split; [|split].
           ++ apply Nat.leb_le in E1. destruct c0; [left; auto|right]. lia.
           ++ apply Bool.eqb_prop in E2. rewrite <- !existsb_in, E2. tauto.
           ++ intro T. apply (together_iff x) in T. apply andb_true_iff in T. destruct T as [T1 T2]. apply Nat.ltb_lt in T1. apply orb_true_iff in E3. destruct E3 as [E3|E3]; [apply Nat.eqb_eq in E3; lia|]. unfold l in E3. rewrite T2 in E3. discriminate.
        -- intro U. destruct (upTo_last n c E U) as (i & c' & ->). apply upTo_snoc in U; [|exact E]. destruct U as (U & S0 & _ & K). destruct (K Z') as (K1 & K2 & K3). exists c'. split; [apply IH; exact U|].
           apply in_flat_map. exists i. split; [apply edge_same; exact S0|]. assert (X : (match c' with [] => 0 | _ :: _ => fst (last c' (0, 0)) + 1 end <=? i) && Bool.eqb (existsb (Nat.eqb n) rcon) (existsb (Nat.eqb i) lcon) && ((i =? 0) || negb (beqb (getUpperBound l (i - 1) (i - 1)) bz)) = true); [|rewrite X; left; reflexivity].
           apply andb_true_iff. split; [apply andb_true_iff; split|].
           ++ apply Nat.leb_le. destruct K1 as [->|K1]; [lia|]. destruct c'; lia.
           ++ rewrite <- !existsb_in in K2. apply Bool.eqb_true_iff. destruct K2 as [K4 K5]. destruct (existsb (Nat.eqb n) rcon), (existsb (Nat.eqb i) lcon); auto; symmetry; auto.
           ++ destruct (i =? 0) eqn:Ei; [auto|]. apply Nat.eqb_neq in Ei. cbn [orb]. destruct (beqb (getUpperBound l (i - 1) (i - 1)) bz) eqn:Eb; [|auto]. exfalso. apply K3. split; [lia|exact Eb].
Qed.
Lemma upTo_all c : upTo (tcSize r) c <-> fullCandidate x y lcon rcon c.
Proof.
  unfold upTo, fullCandidate. split; intros [A B]; (split; [|exact B]); intro j; rewrite (A j); split; try tauto; intros R; (split; [|auto]); destruct R as [[i R] _]; apply R.
Qed.
End Exact.

Lemma renEqb_eq a : forall b, renEqb a b = true -> a = b.
Proof.
  induction a as [|[i j] a IH]; intros [|[i' j'] b] H; cbn in H; try discriminate; [auto|]. apply andb_true_iff in H. destruct H as [H1 H2]. unfold pairEqb in H1. cbn in H1. apply andb_true_iff in H1. destruct H1 as [A B].
  apply Nat.eqb_eq in A, B. subst. f_equal. apply IH. exact H2.
Qed.
Lemma insertC_in2 c z d : c = z \/ In z d -> In z (insertC c d).
Proof.
  induction d as [|b d IH]; cbn [insertC]; intro H; [destruct H as [->|[]]; left; auto|]. destruct (renLt c b); [destruct H; [left; auto|right; auto]|]. destruct (renEqb c b) eqn:E.
  - destruct H as [->|H]; [left; symmetry; apply renEqb_eq; exact E|exact H].
  - destruct H as [->|[->|H]]; [right; apply IH; auto|left; auto|right; apply IH; auto].
Qed.
Lemma sortCands_iff d z : In z (sortCands d) <-> In z d.
Proof. split; [apply sortCands_in|]. induction d as [|b d IH]; cbn [sortCands fold_right In]; [auto|]. intro H. apply insertC_in2. destruct H; [left; auto|right; apply IH; auto]. Qed.
