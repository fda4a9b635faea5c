(** Proofs about merging transitions of a state. *)
From Coq Require Import QArith ZArith Bool List Arith Lia Permutation.
From Verif Require Import BoundsModel ConstraintModel GuardSpec ConstraintProofs ConstraintProofs2 ConstraintProofs4 ZoneModel AutomatonModel HypothesisModel HypothesisChain NeighborModel ImpreciseModel MergeModel.
Import ListNotations.

(** ** the double loop *)
Lemma absorbND_W prefer : forall rest it, absorbND prefer it rest = absorbW overlap (mergeTransitions prefer) it rest.
Proof. induction rest as [|t r IH]; intro it; cbn [absorbND absorbW]; [reflexivity|]. unfold overlap at 1. rewrite !IH. reflexivity. Qed.
Lemma mergeND_W prefer : forall n ts, mergeND prefer n ts = mergeW overlap (mergeTransitions prefer) n ts.
Proof. induction n as [|n IH]; intros [|t r]; cbn [mergeND mergeW]; auto. rewrite absorbND_W. destruct (absorbW _ _ t r). rewrite IH. reflexivity. Qed.
Section Loop.
Context (cond : trans -> trans -> bool) (m : trans -> trans -> trans).
Lemma absorbW_length : forall rest it it' r', absorbW cond m it rest = (it', r') -> (length r' <= length rest)%nat.
Proof using.
  induction rest as [|t r IH]; intros it it' r' E; cbn [absorbW] in E; [injection E as <- <-; auto|]. destruct (cond it t); [apply IH in E; cbn; lia|].
  destruct (absorbW cond m it r) as [i2 r2] eqn:E2. injection E as <- <-. apply IH in E2. cbn. lia.
Qed.
Lemma absorbW_none : forall rest it it' r', absorbW cond m it rest = (it', r') -> length r' = length rest -> it' = it /\ r' = rest /\ Forall (fun u => cond it u = false) rest.
Proof using.
  induction rest as [|t r IH]; intros it it' r' E L; cbn [absorbW] in E; [injection E as <- <-; auto|]. destruct (cond it t) eqn:C; [apply absorbW_length in E; cbn in L; lia|].
  destruct (absorbW cond m it r) as [i2 r2] eqn:E2. injection E as <- <-. cbn in L. destruct (IH _ _ _ E2 ltac:(lia)) as (A & B & F). subst. auto.
Qed.
Lemma mergeW_length : forall n ts, (length (mergeW cond m n ts) <= length ts)%nat.
Proof using.
  induction n as [|n IH]; intros [|t r]; cbn [mergeW length]; auto. destruct (absorbW cond m t r) as [t' r'] eqn:E. apply absorbW_length in E. cbn [length]. specialize (IH r'). lia.
Qed.
Lemma mergeW_fix : forall n ts, (length ts <= n)%nat -> length (mergeW cond m n ts) = length ts -> mergeW cond m n ts = ts /\ ForallOrdPairs (fun t u => cond t u = false) ts.
Proof using.
  induction n as [|n IH]; intros [|t r] H L; cbn [mergeW length] in *; try lia; try (split; [reflexivity|apply FOP_nil]). destruct (absorbW cond m t r) as [t' r'] eqn:E. cbn [length] in L. assert (A := absorbW_length _ _ _ _ E). assert (B := mergeW_length n r').
  destruct (absorbW_none _ _ _ _ E ltac:(lia)) as (-> & -> & F). destruct (IH r ltac:(lia) ltac:(lia)) as [I1 I2]. split; [congruence|constructor; auto].
Qed.
Lemma absorbW_id it rest : Forall (fun u => cond it u = false) rest -> absorbW cond m it rest = (it, rest).
Proof using. induction 1 as [|u r H F IH]; cbn [absorbW]; [reflexivity|]. rewrite H, IH. reflexivity. Qed.
Lemma mergeW_id n : forall ts, ForallOrdPairs (fun t u => cond t u = false) ts -> mergeW cond m n ts = ts.
Proof using. induction n as [|n IH]; intros ts F; destruct ts as [|t r]; cbn [mergeW]; auto. inversion F; subst. rewrite absorbW_id by auto. rewrite IH; auto. Qed.

(** every element of the list is merged into one of the result; [R t t'] is kept *)
Lemma absorbW_cover (R : trans -> trans -> Prop) : (forall t it u, R t it -> cond it u = true -> R t (m it u)) -> (forall it u, cond it u = true -> R u (m it u)) -> forall rest it it' r', absorbW cond m it rest = (it', r') ->
  (forall t, R t it -> R t it') /\ (forall t, In t rest -> In t r' \/ R t it').
Proof using.
  intros A B. induction rest as [|u r IH]; intros it it' r' E; cbn [absorbW] in E; [injection E as <- <-; split; [auto|intros ? []]|]. destruct (cond it u) eqn:C.
  - destruct (IH _ _ _ E) as [I1 I2]. split; [auto|]. intros t [<-|I]; [right; auto|auto].
  - destruct (absorbW cond m it r) as [i2 r2] eqn:E2. injection E as <- <-. destruct (IH _ _ _ E2) as [I1 I2]. split; [auto|]. intros t [<-|I]; [left; left; reflexivity|]. destruct (I2 t I); [left; right; auto|auto].
Qed.
Lemma mergeW_cover (R : trans -> trans -> Prop) : (forall t, R t t) -> (forall t it u, R t it -> cond it u = true -> R t (m it u)) -> (forall it u, cond it u = true -> R u (m it u)) ->
  forall n ts t, In t ts -> exists t', In t' (mergeW cond m n ts) /\ R t t'.
Proof using.
  intros Z A B. induction n as [|n IH]; intros [|u r] t I; cbn [mergeW]; [destruct I|exists t; auto|destruct I|]. destruct (absorbW cond m u r) as [t' r'] eqn:E. destruct (absorbW_cover R A B _ _ _ _ E) as [I1 I2].
  destruct I as [<-|I]; [exists t'; split; [left; reflexivity|auto]|]. destruct (I2 t I) as [J|J]; [destruct (IH r' t J) as (x & X & Y); exists x; split; [right; exact X|exact Y]|exists t'; split; [left; reflexivity|exact J]].
Qed.
(** every element of the result is made from elements of the list *)
Lemma absorbW_inv (P : trans -> Prop) : (forall it u, P it -> P u -> cond it u = true -> P (m it u)) -> forall rest it it' r', absorbW cond m it rest = (it', r') -> P it -> (forall u, In u rest -> P u) ->
  P it' /\ forall u, In u r' -> In u rest.
Proof using.
  intro A. induction rest as [|u r IH]; intros it it' r' E Pi Pr; cbn [absorbW] in E; [injection E as <- <-; split; [exact Pi|intros ? []]|]. destruct (cond it u) eqn:C.
  - destruct (IH _ _ _ E) as [I1 I2]; [apply A; auto; apply Pr; left; reflexivity|intros; apply Pr; right; auto|]. split; [exact I1|]. intros; right; auto.
  - destruct (absorbW cond m it r) as [i2 r2] eqn:E2. injection E as <- <-. destruct (IH _ _ _ E2 Pi) as [I1 I2]; [intros; apply Pr; right; auto|]. split; [exact I1|]. intros x [<-|I]; [left; reflexivity|right; auto].
Qed.
Lemma mergeW_inv (P : trans -> Prop) : (forall it u, P it -> P u -> cond it u = true -> P (m it u)) -> forall n ts, (forall u, In u ts -> P u) -> forall u, In u (mergeW cond m n ts) -> P u.
Proof using.
  intro A. induction n as [|n IH]; intros [|t r] H u Hu; cbn [mergeW] in Hu; auto. destruct (absorbW cond m t r) as [t' r'] eqn:E.
  destruct (absorbW_inv P A _ _ _ _ E (H t (or_introl eq_refl)) (fun v Hv => H v (or_intror Hv))) as [I1 I2]. destruct Hu as [<-|Hu]; [exact I1|]. apply (IH r'); [|exact Hu]. intros v Hv. apply H. right. auto.
Qed.
End Loop.

(** ** merging into the hull *)
Lemma merge_guard prefer it u : tgrd (mergeTransitions prefer it u) = unionHull2 (tgrd it) (tgrd u).
Proof. unfold mergeTransitions. destruct (prefer it u); reflexivity. Qed.
Lemma hull_left l r v : gsat l v -> gsat (unionHull2 l r) v.
Proof. intro H. apply (unionHull_sound [l; r] l v); [left; reflexivity|exact H]. Qed.
Lemma hull_right l r v : gsat r v -> gsat (unionHull2 l r) v.
Proof. intro H. apply (unionHull_sound [l; r] r v); [right; left; reflexivity|exact H]. Qed.
(** guards of use: no clock bounded twice from one side, not empty *)
Definition proper (g : guard) : Prop := nonRedundant g /\ smallConsts g /\ exists v, nonneg v /\ gsat g v.
Lemma hull_proper l r : proper l -> proper r -> proper (unionHull2 l r).
Proof.
  intros (A & B & v & N & G) (A' & B' & _). split; [apply hull_nonRedundant|]. split; [apply hull2_small; auto|]. exists v. split; [exact N|]. apply hull_left. exact G.
Qed.
Lemma hull_within l r (h : guard) : proper l -> proper r -> (forall v, nonneg v -> gsat l v -> gsat h v) -> (forall v, nonneg v -> gsat r v -> gsat h v) -> forall v, nonneg v -> gsat (unionHull2 l r) v -> gsat h v.
Proof.
  intros (A & B & C) (A' & B' & C') L R v N G d Hd. refine (unionHull_strongest [l; r] d _ _ _ v N G); [discriminate| |].
  - intros g [<-|[<-|[]]]; auto.
  - intros g u [<-|[<-|[]]] Nu Gu; [apply (L u Nu Gu d Hd)|apply (R u Nu Gu d Hd)].
Qed.
Lemma overlap_iff t u : smallConsts (tgrd t) -> smallConsts (tgrd u) -> (overlap t u = true <-> exists v, nonneg v /\ gsat (tgrd t) v /\ gsat (tgrd u) v).
Proof.
  intros A B. unfold overlap. rewrite satisfiable_exact by (apply ConstraintProofs.smallConsts_app; auto). unfold conjunction. split; intros (v & N & G); exists v; (split; [exact N|]); apply gsat_app; exact G.
Qed.

(** ** classes of overlapping transitions *)
Section Classes.
Context (m : trans -> trans -> trans) (HM : forall it u, tgrd (m it u) = tgrd it \/ tgrd (m it u) = tgrd u \/ tgrd (m it u) = unionHull2 (tgrd it) (tgrd u)) (h : nat -> guard)
  (HD : forall i j v, i <> j -> nonneg v -> gsat (h i) v -> gsat (h j) v -> False).
Definition inClass (t : trans) (i : nat) : Prop := proper (tgrd t) /\ forall v, nonneg v -> gsat (tgrd t) v -> gsat (h i) v.
Lemma apart t u i j : inClass t i -> inClass u j -> i <> j -> overlap t u = false.
Proof using HD.
  intros [A B] [C D] N. destruct (overlap t u) eqn:E; [|reflexivity]. exfalso. apply overlap_iff in E; [|apply A|apply C]. destruct E as (v & Nv & G1 & G2). apply (HD i j v); auto.
Qed.
Lemma inClass_merge t u i : inClass t i -> inClass u i -> inClass (m t u) i.
Proof using HM. intros [A B] [C D]. unfold inClass. destruct (HM t u) as [E|[E|E]]; rewrite E; auto. split; [apply hull_proper; auto|]. apply hull_within; auto. Qed.
Lemma overlap_merge t u p : smallConsts (tgrd t) -> smallConsts (tgrd u) -> smallConsts (tgrd p) -> overlap t p = true -> overlap u p = true -> overlap (m t u) p = true.
Proof using HM.
  intros A B C K K'. assert (X : smallConsts (tgrd (m t u))) by (destruct (HM t u) as [E|[E|E]]; rewrite E; auto; apply hull2_small; auto).
  apply overlap_iff in K; auto. apply overlap_iff in K'; auto. apply overlap_iff; auto. destruct (HM t u) as [E|[E|E]]; rewrite E; auto.
  destruct K as (v & Nv & G1 & G2). exists v. split; [exact Nv|]. split; [apply hull_left; exact G1|exact G2].
Qed.
Lemma absorb_class i : forall L it, inClass it i -> Forall (fun p => inClass (fst p) (snd p)) L -> (forall p, In p L -> snd p = i -> overlap it (fst p) = true) -> ForallOrdPairs (fun p q => snd p = snd q -> overlap (fst p) (fst q) = true) L ->
  exists it', absorbW overlap m it (map fst L) = (it', map fst (filter (fun p => negb (snd p =? i)%nat) L)) /\ inClass it' i.
Proof using HM HD.
  induction L as [|[u j] L IH]; intros it I F O PW; cbn [map absorbW fst]; [exists it; split; [reflexivity|exact I]|]. inversion F as [|? ? F1 F2]; subst. inversion PW as [|? ? W1 W2]; subst. rewrite Forall_forall in W1. cbn [fst snd] in F1. cbn [filter snd]. destruct (Nat.eqb_spec j i) as [->|N]; cbn [negb].
  - assert (OV : overlap it u = true) by (apply (O (u, i)); [left; reflexivity|reflexivity]). rewrite OV.
    apply IH; [apply inClass_merge; auto|exact F2| |exact W2]. intros p Hp E. assert (K := O p (or_intror Hp) E). assert (K' := W1 p Hp). cbn [fst snd] in K'. specialize (K' (eq_sym E)). rewrite Forall_forall in F2. destruct (F2 p Hp) as [Pp _].
    apply overlap_merge; auto; [apply I|apply F1|apply Pp].
  - rewrite (apart it u i j I F1) by auto. destruct (IH it I F2) as (it' & E & I'); [intros p Hp; apply O; right; exact Hp|exact W2|]. rewrite E. exists it'. split; [reflexivity|exact I'].
Qed.
Lemma merge_class : forall n L, (length L <= n)%nat -> Forall (fun p => inClass (fst p) (snd p)) L -> ForallOrdPairs (fun p q => snd p = snd q -> overlap (fst p) (fst q) = true) L ->
  exists L', mergeW overlap m n (map fst L) = map fst L' /\ Forall (fun p => inClass (fst p) (snd p)) L' /\ NoDup (map snd L') /\ forall i, In i (map snd L') -> In i (map snd L).
Proof using HM HD.
  induction n as [|n IH]; intros [|[t i] L] Hn F O; cbn [map mergeW fst length] in *; try lia; try (exists []; split; [reflexivity|]; split; [constructor|]; split; [constructor|auto]).
  inversion F as [|? ? F1 F2]; subst. inversion O as [|? ? O1 O2]; subst. cbn [fst snd] in *. rewrite Forall_forall in O1.
  destruct (absorb_class i L t F1 F2) as (t' & E & I'); [intros p Hp Ep; apply (O1 p Hp); auto|exact O2|]. rewrite E. set (L1 := filter (fun p => negb (snd p =? i)%nat) L) in *.
  assert (S1 : forall p, In p L1 -> In p L /\ snd p <> i) by (intros p Hp; apply filter_In in Hp; destruct Hp as [X Y]; split; [exact X|]; intro Z; rewrite Z, Nat.eqb_refl in Y; discriminate).
  assert (LL : (length L1 <= length L)%nat) by (unfold L1; clear; induction L as [|x l IH]; cbn [filter length]; [lia|]; destruct (negb _); cbn [length]; lia).
  destruct (IH L1) as (L' & E' & A & B & C).
  - lia.
  - apply Forall_forall. intros p Hp. rewrite Forall_forall in F2. apply F2, S1, Hp.
  - unfold L1. clear - O2. induction O2 as [|p l G1 G2 IH]; cbn [filter]; [constructor|]. destruct (negb _); [|exact IH]. constructor; [|exact IH]. apply Forall_forall. intros q Hq. apply filter_In in Hq. rewrite Forall_forall in G1. apply G1, Hq.
  - exists ((t', i) :: L'). cbn [map fst snd]. rewrite E'. split; [reflexivity|]. split; [constructor; auto|]. split.
    + constructor; [|exact B]. intro K. apply C in K. apply in_map_iff in K. destruct K as (p & K1 & K2). apply S1 in K2. destruct K2; auto.
    + intros j [<-|J]; [left; reflexivity|]. right. apply C in J. apply in_map_iff in J. destruct J as (p & <- & Hp). apply in_map. apply S1, Hp.
Qed.
Lemma class_disjoint : forall L, Forall (fun p => inClass (fst p) (snd p)) L -> NoDup (map snd L) -> ForallOrdPairs (fun t u => forall v, nonneg v -> gsat (tgrd t) v -> gsat (tgrd u) v -> False) (map fst L).
Proof using HD.
  induction L as [|[t i] L IH]; intros F N; cbn [map fst snd] in *; constructor; inversion F as [|? ? F1 F2]; subst; inversion N as [|? ? N1 N2]; subst; [|apply IH; auto].
  apply Forall_forall. intros u Hu. apply in_map_iff in Hu. destruct Hu as ([u' j] & <- & Hp). cbn [fst]. rewrite Forall_forall in F2. specialize (F2 _ Hp). cbn [fst snd] in *. intros v Nv G1 G2. apply (HD i j v); [|exact Nv|apply F1; auto|apply F2; auto].
  intros ->. apply N1. change j with (snd (u', j)). apply in_map. exact Hp.
Qed.
End Classes.

(** ** the other ways of merging *)
Lemma mergeP_cases prefer P it t : exists u, (u = it \/ u = t) /\ ttgt (mergeP prefer P it t) = ttgt u /\ trst (mergeP prefer P it t) = trst u /\
  (tgrd (mergeP prefer P it t) = tgrd u \/ tgrd (mergeP prefer P it t) = unionHull2 (tgrd it) (tgrd t)).
Proof.
  assert (MT : exists u, (u = it \/ u = t) /\ ttgt (mergeTransitions prefer it t) = ttgt u /\ trst (mergeTransitions prefer it t) = trst u /\
    (tgrd (mergeTransitions prefer it t) = tgrd u \/ tgrd (mergeTransitions prefer it t) = unionHull2 (tgrd it) (tgrd t))).
  { unfold mergeTransitions. destruct (prefer it t); [exists it|exists t]; cbn; auto. }
  unfold mergeP. cbn zeta. destruct (forallb _ P && negb _); [exists it; auto|]. destruct (negb _ && forallb _ P); [exists t; auto|]. destruct (forallb _ P && forallb _ P); [exact MT|].
  destruct (find _ P) as [c|]; (destruct (isWeaker (tgrd t) (tgrd it)); [exists t; auto|]); (destruct (isWeaker (tgrd it) (tgrd t)); [exists it; auto|]); [|exact MT].
  destruct (isPrecise (simpleVariables (tgrd t)) c); [exists t|exists it]; cbn; auto.
Qed.
Lemma mergeP_nil prefer it t : mergeP prefer [] it t = mergeTransitions prefer it t.
Proof. reflexivity. Qed.
Lemma mergeW_ext cond m m' : (forall it t, m it t = m' it t) -> forall n ts, mergeW cond m n ts = mergeW cond m' n ts.
Proof.
  intro E. assert (A : forall rest it, absorbW cond m it rest = absorbW cond m' it rest) by (induction rest as [|t r IH]; intro it; cbn [absorbW]; [reflexivity|]; rewrite E, !IH; reflexivity).
  induction n as [|n IH]; intros [|t r]; cbn [mergeW]; auto. rewrite A. destruct (absorbW cond m' t r). rewrite IH. reflexivity.
Qed.

(** ** assignments *)
Lemma resetAt_set rs x r y : resetAt (setReset rs x r) y = if (x =? y)%nat then Some r else resetAt rs y.
Proof.
  unfold resetAt. induction rs as [|[z s] rs IH]; cbn [setReset find fst]; [destruct (x =? y)%nat; reflexivity|]. destruct (Nat.eqb_spec z x) as [->|N]; cbn [find fst].
  - destruct (x =? y)%nat; reflexivity.
  - destruct (Nat.eqb_spec z y) as [->|M]; [|exact IH]. destruct (Nat.eqb_spec x y); [congruence|reflexivity].
Qed.
Lemma setReset_keys rs x r y : In y (map fst (setReset rs x r)) <-> y = x \/ In y (map fst rs).
Proof. induction rs as [|[z s] rs IH]; cbn [setReset map fst]; [cbn; intuition congruence|]. destruct (Nat.eqb_spec z x) as [->|N]; cbn [map fst In]; [intuition congruence|]. rewrite IH. intuition congruence. Qed.
Lemma setReset_nodup rs x r : NoDup (map fst rs) -> NoDup (map fst (setReset rs x r)).
Proof.
  induction rs as [|[z s] rs IH]; cbn [setReset map fst]; intro N; [constructor; [intros []|constructor]|]. inversion N as [|? ? N1 N2]; subst. destruct (Nat.eqb_spec z x) as [->|M]; cbn [map fst]; [constructor; auto|].
  constructor; [|auto]. intro K. apply setReset_keys in K. destruct K; [congruence|auto].
Qed.
Lemma asMap_nodup rs : NoDup (map fst (asMap rs)).
Proof.
  induction rs as [|[z s] rs IH]; cbn [asMap map fst]; [constructor|]. constructor.
  - intro K. apply in_map_iff in K. destruct K as ([y r] & E & K). apply filter_In in K. cbn [fst] in *. subst y. rewrite Nat.eqb_refl in K. destruct K. discriminate.
  - assert (F : forall l : resets, NoDup (map fst l) -> NoDup (map fst (filter (fun p => negb (fst p =? z)%nat) l))).
    { clear. induction l as [|p l IH]; cbn [map filter]; intro N; [constructor|]. inversion N as [|? ? N1 N2]; subst. destruct (negb _); cbn [map]; [|auto]. constructor; [|auto]. intro K. apply N1. apply in_map_iff in K. destruct K as (q & E & K). apply filter_In in K. apply in_map_iff. exists q. split; [exact E|apply K]. }
    apply F. exact IH.
Qed.
Lemma resetAt_asMap rs x : resetAt (asMap rs) x = resetAt rs x.
Proof.
  unfold resetAt. induction rs as [|[z s] rs IH]; cbn [asMap find fst]; [reflexivity|]. destruct (Nat.eqb_spec z x) as [->|N]; [reflexivity|]. rewrite <- IH. clear IH.
  induction (asMap rs) as [|[y r] l IH]; cbn [filter find fst]; [reflexivity|]. destruct (Nat.eqb_spec y z) as [->|M]; cbn [negb find fst]; [destruct (Nat.eqb_spec z x); [congruence|exact IH]|]. destruct (y =? x)%nat; [reflexivity|exact IH].
Qed.
Lemma resetAt_in rs x r : NoDup (map fst rs) -> (resetAt rs x = Some r <-> In (x, r) rs).
Proof.
  unfold resetAt. induction rs as [|[z s] rs IH]; cbn [find fst map In]; intro N; [split; [discriminate|intros []]|]. inversion N as [|? ? N1 N2]; subst. destruct (Nat.eqb_spec z x) as [->|M]; cbn [snd].
  - split; [intro H; injection H as <-; auto|]. intros [H|H]; [injection H as <-; reflexivity|]. exfalso. apply N1. change x with (fst (x, r)). apply in_map. exact H.
  - rewrite (IH N2). split; [auto|]. intros [H|H]; [congruence|exact H].
Qed.
Lemma resetAt_perm rs rs' x : Permutation rs rs' -> NoDup (map fst rs) -> resetAt rs' x = resetAt rs x.
Proof.
  intros P N. assert (N' : NoDup (map fst rs')) by (eapply Permutation_NoDup; [apply Permutation_map; exact P|exact N]).
  destruct (resetAt rs x) as [r|] eqn:E.
  - apply resetAt_in; [exact N'|]. apply resetAt_in in E; [|exact N]. eapply Permutation_in; eauto.
  - destruct (resetAt rs' x) as [r|] eqn:E'; [|reflexivity]. apply resetAt_in in E'; [|exact N']. assert (K : In (x, r) rs) by (eapply Permutation_in; [apply Permutation_sym; exact P|exact E']). apply (resetAt_in _ _ _ N) in K. congruence.
Qed.
(** what the map has for [x] afterwards *)
Definition firstIntegral (other : resets) (x : clock) : option rhs :=
  match find (fun p => (fst p =? x)%nat && isIntegral (snd p)) other with Some p => Some (snd p) | None => None end.
Definition integralAt (m : resets) (x : clock) : bool := match resetAt m x with Some r => isIntegral r | None => false end.
Lemma addOne_at m p x : resetAt (addOne m p) x = if ((fst p =? x)%nat && isIntegral (snd p) && negb (integralAt m x))%bool then Some (snd p) else resetAt m x.
Proof.
  unfold addOne, integralAt. destruct p as [y r]. cbn [fst snd]. destruct (Nat.eqb_spec y x) as [->|N]; cbn [andb].
  - destruct (resetAt m x) as [r0|] eqn:E; [destruct (isIntegral r0) eqn:I|]; cbn [negb]; rewrite ?andb_false_r, ?andb_true_r; [exact E| |]; (destruct (isIntegral r); [rewrite resetAt_set, Nat.eqb_refl; reflexivity|exact E]).
  - destruct (match resetAt m y with Some _ => _ | None => _ end); [reflexivity|]. destruct (isIntegral r); [|reflexivity]. rewrite resetAt_set. destruct (Nat.eqb_spec y x); [congruence|reflexivity].
Qed.
Lemma addOne_nodup m p : NoDup (map fst m) -> NoDup (map fst (addOne m p)).
Proof. intro N. unfold addOne. destruct (match resetAt m (fst p) with Some _ => _ | None => _ end); [exact N|]. destruct (isIntegral (snd p)); [apply setReset_nodup; exact N|exact N]. Qed.
Lemma addAll_at x : forall other m, resetAt (fold_left addOne other m) x = if integralAt m x then resetAt m x else match firstIntegral other x with Some r => Some r | None => resetAt m x end.
Proof.
  induction other as [|[y r] other IH]; intro m; cbn [fold_left]; [unfold firstIntegral; cbn; destruct (integralAt m x); reflexivity|]. rewrite IH. unfold integralAt at 1. rewrite addOne_at. unfold firstIntegral. cbn [find fst snd].
  destruct (integralAt m x) eqn:I; cbn [negb]; rewrite ?andb_false_r, ?andb_true_r.
  - unfold integralAt in I. rewrite I. reflexivity.
  - destruct ((y =? x)%nat && isIntegral r)%bool eqn:C; [|unfold integralAt in I; rewrite I; reflexivity]. apply andb_true_iff in C. destruct C as [_ C]. rewrite C. reflexivity.
Qed.
Lemma addAll_nodup : forall other m, NoDup (map fst m) -> NoDup (map fst (fold_left addOne other m)).
Proof. induction other as [|p other IH]; intros m N; cbn [fold_left]; [exact N|]. apply IH. apply addOne_nodup. exact N. Qed.
Lemma addPreciseConsts_at ord rs other x : (forall l, Permutation (ord l) l) ->
  NoDup (map fst (addPreciseConsts ord rs other)) /\
  resetAt (addPreciseConsts ord rs other) x = if integralAt rs x then resetAt rs x else match firstIntegral other x with Some r => Some r | None => resetAt rs x end.
Proof.
  intro HO. unfold addPreciseConsts. assert (N : NoDup (map fst (fold_left addOne other (asMap rs)))) by (apply addAll_nodup, asMap_nodup). split.
  - eapply Permutation_NoDup; [apply Permutation_map; apply Permutation_sym; apply HO|exact N].
  - rewrite (resetAt_perm _ _ x (Permutation_sym (HO _)) N), addAll_at. unfold integralAt. rewrite resetAt_asMap. reflexivity.
Qed.
