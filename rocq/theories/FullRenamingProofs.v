(** Proofs about FullRenamingModel. *)
From Coq Require Import QArith ZArith Bool List Arith Lia Sorted.
From Verif Require Import BoundsModel ConstraintModel ZoneModel TimedWordModel TimedConditionModel ElementaryModel RegionalModel RenamingModel FullRenamingModel.
Import ListNotations.
Open Scope nat_scope.

Lemma memN_in x l : memN x l = true <-> In x l.
Proof. unfold memN. rewrite existsb_exists. split; [intros (y & A & B); apply Nat.eqb_eq in B; subst; exact A|intro H; exists x; split; [exact H|apply Nat.eqb_refl]]. Qed.
Lemma dropLe_sub b : forall l x, In x (dropLe b l) -> In x l.
Proof. induction l as [|y l IH]; intros x H; [destruct H|]. cbn [dropLe] in H. destruct (y <=? b); [right; auto|exact H]. Qed.
Lemma dropLe_len b : forall l, length (dropLe b l) <= length l.
Proof. induction l as [|y l IH]; cbn [dropLe]; [lia|]. destruct (y <=? b); cbn [length]; lia. Qed.
Lemma last_ge_all : forall l x, StronglySorted le l -> In x l -> x <= last l 0.
Proof.
  induction l as [|y l IH]; intros x SS H; [destruct H|]. inversion SS as [|? ? S1 S2]; subst. destruct l as [|z l]; [destruct H as [<-|[]]; cbn; lia|].
  cbn [last]. destruct H as [<-|H]; [|apply IH; auto]. rewrite Forall_forall in S2. assert (y <= z) by (apply S2; left; reflexivity). assert (z <= last (z :: l) 0) by (apply IH; [exact S1|left; reflexivity]). cbn [last] in *. lia.
Qed.

Section Gen.
Context (e1 e2 : list (list nat)) (P : nat * nat -> Prop).
(** every renaming made consists of edges *)
Lemma genLoop_ok : (forall i j, In j (nth i e1 []) <-> P (i, j)) -> (forall i j, In i (nth j e2 []) <-> P (i, j)) ->
  (forall i j i' j', P (i, j) -> P (i', j) -> P (i, j') -> P (i', j')) ->
  forall n lc rc cs cs', genLoop n e1 e2 lc rc cs = Some cs' -> (forall c p, In c cs -> In p c -> P p) -> (In [] cs -> In [] cs') /\ (forall c p, In c cs' -> In p c -> P p).
Proof.
  intros G1 G2 BI. induction n as [|n IH]; intros [|v1 lc] [|v2 rc] cs cs' H A; cbn [genLoop] in H; try (injection H as <-; auto); [discriminate|].
  destruct (nth v1 e1 []) as [|a1 t1] eqn:E1; [eapply IH; eauto|]. destruct (nth v2 e2 []) as [|a2 t2] eqn:E2; [eapply IH; eauto|].
  destruct (negb (memN v2 (a1 :: t1))) eqn:M1.
  - destruct (v2 <=? _); eapply IH; eauto.
  - destruct (negb (memN v1 (a2 :: t2))) eqn:M2; [destruct (v1 <=? _); eapply IH; eauto|]. apply negb_false_iff, memN_in in M1. apply IH in H; [|].
    + destruct H as [X Y]. split; [|exact Y]. intro N. apply X. unfold extendAll. apply in_flat_map. exists a2. split; [left; reflexivity|]. apply in_flat_map. exists a1. split; [left; reflexivity|]. apply in_flat_map. exists []. split; [exact N|left; reflexivity].
    + intros c p Hc Hp. unfold extendAll in Hc. apply in_flat_map in Hc. destruct Hc as (a & Ha & Hc). apply in_flat_map in Hc. destruct Hc as (b & Hb & Hc). apply in_flat_map in Hc. destruct Hc as (c0 & H0 & Hc).
      assert (PE : P (a, b)).
      { rewrite <- E1 in Hb, M1. rewrite <- E2 in Ha. apply G1 in Hb, M1. apply G2 in Ha. eapply BI; [exact M1|exact Ha|exact Hb]. }
      destruct Hc as [<-|[<-|[<-|[]]]]; [eauto| |destruct Hp as [<-|[]]; exact PE]. apply in_app_or in Hp. destruct Hp as [Hp|[<-|[]]]; [eauto|exact PE].
Qed.
(** and the loop ends *)
Lemma genLoop_ends : (forall i, StronglySorted le (nth i e1 [])) -> (forall i, StronglySorted le (nth i e2 [])) -> forall n lc rc cs, length lc + length rc <= n -> exists cs', genLoop n e1 e2 lc rc cs = Some cs'.
Proof.
  intros S1 S2. induction n as [|n IH]; intros [|v1 lc] [|v2 rc] cs L; cbn [genLoop length] in *; try (eexists; reflexivity); [lia|].
  assert (K : forall lc' rc' cs, length lc' + length rc' <= n -> exists cs', genLoop n e1 e2 lc' rc' cs = Some cs') by (intros; apply IH; assumption).
  assert (Q2 := S2 v2).
  destruct (nth v1 e1 []) as [|a1 t1] eqn:E1; [apply K; cbn [length]; lia|]. destruct (nth v2 e2 []) as [|a2 t2] eqn:E2; [apply K; cbn [length]; lia|].
  destruct (negb (memN v2 (a1 :: t1))); [destruct (v2 <=? _); apply K; cbn [length]; lia|]. destruct (negb (memN v1 (a2 :: t2))) eqn:M2; [destruct (v1 <=? _); apply K; cbn [length]; lia|].
  apply K. apply negb_false_iff, memN_in in M2. assert (Z := last_ge_all _ _ Q2 M2). assert (D := dropLe_len (last (a1 :: t1) 0) (v2 :: rc)). cbn [length] in D.
  assert (D2 := dropLe_len (last (a2 :: t2) 0) lc).
  replace (dropLe (last (a2 :: t2) 0) (v1 :: lc)) with (dropLe (last (a2 :: t2) 0) lc); [lia|].
  set (b := last (a2 :: t2) 0) in *. cbn [dropLe]. destruct (Nat.leb_spec v1 b); [reflexivity|lia].
Qed.
End Gen.

Definition ltE (p q : nat * nat) : Prop := fst p < fst q \/ (fst p = fst q /\ snd p < snd q).
Section SearchP.
Context (pos : renaming -> nat * nat -> nat) (test : renaming -> bool).
Lemma insertEdge_in c e c' p : insertEdge pos c e = Some c' -> In p c' -> p = e \/ In p c.
Proof.
  unfold insertEdge. destruct (nth_error c (pos c e)) as [e'|].
  - destruct (pairEqb e' e); [discriminate|]. intro H. injection H as <-. intro I. apply in_app_or in I. rewrite <- (firstn_skipn (pos c e) c), in_app_iff. destruct I as [I|[I|I]]; auto.
  - intro H. injection H as <-. intro I. apply in_app_or in I. destruct I as [I|[I|[]]]; auto.
Qed.
Lemma tryEdges_found c : forall es c', tryEdges pos test c es = inl c' -> test c' = true /\ forall p, In p c' -> In p es \/ In p c.
Proof.
  induction es as [|e es IH]; intros c' H; cbn [tryEdges] in H; [discriminate|].
  assert (W : tryEdges pos test c es = inl c' -> test c' = true /\ forall p, In p c' -> In p (e :: es) \/ In p c).
  { intro X. destruct (IH c' X) as [A B]. split; [exact A|]. intros p Hp. destruct (B p Hp); [left; right; assumption|auto]. }
  destruct (insertEdge pos c e) as [d|] eqn:E; [|apply W; exact H]. destruct (test d) eqn:T.
  - injection H as <-. split; [exact T|]. intros p Hp. destruct (insertEdge_in c e d p E Hp) as [->|X]; [left; left; reflexivity|auto].
  - destruct (tryEdges pos test c es) as [f|l] eqn:R; [|discriminate]. injection H as ->. apply W. reflexivity.
Qed.
Lemma tryEdges_none c : forall es l, tryEdges pos test c es = inr l -> (forall d p, In d l -> In p d -> In p es \/ In p c) /\
  forall e d, In e es -> insertEdge pos c e = Some d -> test d = false /\ In d l.
Proof.
  induction es as [|e es IH]; intros l H; cbn [tryEdges] in H; [injection H as <-; split; [intros d p []|intros e d []]|].
  destruct (insertEdge pos c e) as [d|] eqn:E.
  - destruct (test d) eqn:T; [discriminate|]. destruct (tryEdges pos test c es) as [f|l'] eqn:R; [discriminate|]. injection H as <-. destruct (IH l' eq_refl) as [A B]. split.
    + intros d' p [<-|Hd] Hp; [destruct (insertEdge_in c e d p E Hp) as [->|X]; [left; left; reflexivity|auto]|]. destruct (A d' p Hd Hp); [left; right; assumption|auto].
    + intros e' d' [<-|Hi] Hd; [rewrite E in Hd; injection Hd as <-; split; [exact T|left; reflexivity]|]. destruct (B e' d' Hi Hd) as [X Y]. split; [exact X|right; exact Y].
  - destruct (IH l H) as [A B]. split; [intros d' p Hd Hp; destruct (A d' p Hd Hp); [left; right; assumption|auto]|]. intros e' d' [<-|Hi] Hd; [congruence|exact (B e' d' Hi Hd)].
Qed.
Lemma searchLoop_found es : forall n q c, searchLoop pos test n es q = Some (Some c) -> test c = true /\ forall p, In p c -> In p es \/ exists d, In d q /\ In p d.
Proof.
  induction n as [|n IH]; intros [|d q] c H; cbn [searchLoop] in H; try discriminate. destruct (tryEdges pos test d es) as [f|l] eqn:E.
  - injection H as ->. destruct (tryEdges_found d es c E) as [A B]. split; [exact A|]. intros p Hp. destruct (B p Hp); [auto|]. right. exists d. split; [left; reflexivity|assumption].
  - destruct (IH _ _ H) as [A B]. split; [exact A|]. intros p Hp. destruct (B p Hp) as [X|(d' & X & Y)]; [auto|]. apply in_app_or in X. destruct X as [X|X]; [right; exists d'; split; [right; exact X|exact Y]|].
    destruct (proj1 (tryEdges_none d es l E) d' p X Y) as [Z|Z]; [auto|]. right. exists d. split; [left; reflexivity|exact Z].
Qed.
(** a search that ends with nothing has tried every ascending continuation *)
Lemma searchLoop_none es : (forall c e, (forall p, In p c -> ltE p e) -> length c <= pos c e) ->
  forall n q, searchLoop pos test n es q = Some None -> forall c f, In c q -> f <> [] -> StronglySorted ltE (c ++ f) -> (forall p, In p f -> In p es) -> test (c ++ f) = false.
Proof.
  intro HP. induction n as [|n IH]; intros [|d q] H c f Hc NF SS HF; cbn [searchLoop] in H; try discriminate; try destruct Hc. 1: subst d.
  - destruct (tryEdges pos test c es) as [f'|l] eqn:E; [discriminate|]. destruct f as [|e f]; [contradiction|]. clear NF.
    assert (LT : forall p, In p c -> ltE p e).
    { clear -SS. induction c as [|x c IH]; intros p []; inversion SS as [|? ? S1 S2]; subst; [rewrite Forall_forall in S2; apply S2; apply in_or_app; right; left; reflexivity|apply IH; assumption]. }
    assert (IE : insertEdge pos c e = Some (c ++ [e])).
    { unfold insertEdge. rewrite (proj2 (nth_error_None c (pos c e)) (HP c e LT)). reflexivity. }
    destruct (proj2 (tryEdges_none c es l E) e (c ++ [e]) (HF e (or_introl eq_refl)) IE) as [T I].
    destruct f as [|e' f]; [exact T|]. replace (c ++ e :: e' :: f) with ((c ++ [e]) ++ e' :: f) in * by (rewrite <- app_assoc; reflexivity).
    apply (IH _ H); [apply in_or_app; right; exact I|discriminate|exact SS|intros p Hp; apply HF; right; exact Hp].
  - destruct (tryEdges pos test d es) as [f'|l] eqn:E; [discriminate|]. apply (IH _ H); auto. apply in_or_app. left. assumption.
Qed.
End SearchP.
