(** Proofs about SplitModel: invariants of the map of states. *)
From Coq Require Import QArith ZArith Bool List Arith Lia.
From Verif Require Import BoundsModel ConstraintModel GuardSpec ZoneModel AutomatonModel AutomatonSpec RegionalModel HypothesisModel NeighborModel ImpreciseModel MergeModel MergeProofs SplitModel.
Import ListNotations.
Open Scope nat_scope.

Lemma posOf_some {T} (f : T -> bool) : forall l i, posOf f l = Some i -> exists x, nth_error l i = Some x /\ f x = true.
Proof.
  induction l as [|y l IH]; intros i H; cbn [posOf] in H; [discriminate|]. destruct (f y) eqn:E; [injection H as <-; exists y; auto|].
  destruct (posOf f l) as [k|] eqn:K; [|discriminate]. injection H as <-. cbn [nth_error]. apply IH. reflexivity.
Qed.
Lemma posOf_none {T} (f : T -> bool) : forall l, posOf f l = None -> forall x, In x l -> f x = false.
Proof.
  induction l as [|y l IH]; intros H x I; [destruct I|]; cbn [posOf] in H. destruct (f y) eqn:E; [discriminate|]. destruct (posOf f l) eqn:K; [discriminate|]. destruct I as [<-|I]; auto.
Qed.
Lemma posOf_app {T} (f : T -> bool) : forall l r i, posOf f l = Some i -> posOf f (l ++ r) = Some i.
Proof.
  induction l as [|y l IH]; intros r i H; cbn [posOf app] in *; [discriminate|]. destruct (f y); [exact H|]. destruct (posOf f l) as [k|]; [|discriminate]. rewrite (IH r k eq_refl). exact H.
Qed.
Lemma eqNats_ok : forall a b, eqNats a b = true <-> a = b.
Proof.
  induction a as [|x a IH]; destruct b as [|y b]; cbn; try (split; congruence). rewrite andb_true_iff, Nat.eqb_eq, IH. split; [intros [-> ->]; auto|intro K; injection K; auto].
Qed.
Lemma enhEqb_ok e f : enhEqb e f = true <-> e = f.
Proof.
  destruct e as [o P], f as [o' P']. unfold enhEqb. cbn [fst snd]. rewrite andb_true_iff, eqNats_ok. split; [intros [A B]; apply Nat.eqb_eq in A; congruence|intro E; injection E as <- <-; split; [apply Nat.eqb_refl|reflexivity]].
Qed.
Lemma mapE_some m e l : mapE m e = Some l -> nth_error (smKey m) l = Some e.
Proof. intro H. apply posOf_some in H. destruct H as (x & A & B). apply enhEqb_ok in B. congruence. Qed.
Lemma mapE_none m e : mapE m e = None -> ~ In e (smKey m).
Proof. intros H I. assert (K := posOf_none _ _ H e I). assert (X : enhEqb e e = true) by (apply enhEqb_ok; reflexivity). congruence. Qed.
Lemma visited_ok vis e : visitedE vis e = true <-> In e vis.
Proof. unfold visitedE. rewrite existsb_exists. split; [intros (x & I & E); apply enhEqb_ok in E; congruence|intro I; exists e; split; [exact I|apply enhEqb_ok; reflexivity]]. Qed.
Lemma allSome_F2 {S T} (f : S -> option T) : forall l r, allSome (map f l) = Some r -> Forall2 (fun x y => f x = Some y) l r.
Proof.
  induction l as [|x l IH]; intros r H; cbn in H; [injection H as <-; constructor|]. destruct (f x) as [y|] eqn:E; [|discriminate]. destruct (allSome (map f l)) as [q|]; [|discriminate]. injection H as <-. constructor; auto.
Qed.
Lemma F2_length {S T} (R : S -> T -> Prop) l r : Forall2 R l r -> length l = length r.
Proof. induction 1; cbn; congruence. Qed.
Lemma F2_nth_r {S T} (R : S -> T -> Prop) l r : Forall2 R l r -> forall i y, nth_error r i = Some y -> exists x, nth_error l i = Some x /\ R x y.
Proof. induction 1 as [|x y l r H F IH]; intros [|i] z E; cbn in E; try discriminate; [injection E as <-; exists x; auto|apply IH; exact E]. Qed.
Lemma F2_nth_l {S T} (R : S -> T -> Prop) l r : Forall2 R l r -> forall i x, nth_error l i = Some x -> exists y, nth_error r i = Some y /\ R x y.
Proof. induction 1 as [|x y l r H F IH]; intros [|i] z E; cbn in E; try discriminate; [injection E as <-; exists y; auto|apply IH; exact E]. Qed.
Lemma F2_impl {S T} (R R' : S -> T -> Prop) l r : (forall x y, In x l -> R x y -> R' x y) -> Forall2 R l r -> Forall2 R' l r.
Proof. intros H F. induction F as [|x y l r A F IH]; constructor; [apply H; [left; reflexivity|exact A]|apply IH; intros; apply H; [right; assumption|assumption]]. Qed.
Lemma F2_map_r {S T U} (R : S -> U -> Prop) (g : T -> U) l r : Forall2 (fun x y => R x (g y)) l r -> Forall2 R l (map g r).
Proof. induction 1; cbn; constructor; auto. Qed.

Lemma setNth_length {T} (x : T) : forall l i, length (setNth l i x) = length l.
Proof. induction l as [|y l IH]; destruct i; cbn; auto. Qed.
Lemma setNth_at {T} (x : T) : forall l i, i < length l -> nth_error (setNth l i x) i = Some x.
Proof. induction l as [|y l IH]; destruct i; cbn; intro H; [lia|lia|reflexivity|apply IH; lia]. Qed.
Lemma setNth_other {T} (x : T) : forall l i j, i <> j -> nth_error (setNth l i x) j = nth_error l j.
Proof. induction l as [|y l IH]; destruct i, j; cbn; intro H; auto; try lia. Qed.
Lemma setNth_F2 {S T} (R : S -> T -> Prop) l r : Forall2 R l r -> forall i y, (forall x, nth_error l i = Some x -> R x y) -> Forall2 R l (setNth r i y).
Proof. induction 1 as [|a b l r H F IH]; intros [|i] y K; cbn [setNth]; constructor; auto; apply IH; auto. Qed.
Lemma setNth_in {T} (x : T) : forall l i y, In y (setNth l i x) -> y = x \/ In y l.
Proof. induction l as [|z l IH]; destruct i; cbn; intros y H; auto; [destruct H; auto|]. destruct H as [H|H]; auto. apply IH in H. tauto. Qed.
Lemma setNth_map {T U} (g : T -> U) x : forall l i y, nth_error l i = Some y -> g x = g y -> map g (setNth l i x) = map g l.
Proof. induction l as [|z l IH]; destruct i; cbn; intros y H E; try discriminate; [injection H as ->; congruence|f_equal; eauto]. Qed.

Lemma NoDup_app_comm_one {T} (l : list T) x : NoDup l -> ~ In x l -> NoDup (l ++ [x]).
Proof. intros A B. apply (NoDup_Add (a := x) (l := l)); [|split; auto]. replace l with (l ++ []) at 1 by apply app_nil_r. apply Add_app. Qed.

(** the transition as one of the original states *)
Definition proj (K : list enh) (t : trans) : trans := mkT (fst (nth (ttgt t) K (0, []))) (trst t) (tgrd t).
Lemma proj_app K K' t : ttgt t < length K -> proj (K ++ K') t = proj K t.
Proof. intro H. unfold proj. rewrite app_nth1 by exact H. reflexivity. Qed.

Section Inv.
Context (ordC : list nat -> list nat) (prefer : smap -> enh -> trans -> trans -> bool) (sts : states).
Context (G : list trans -> list trans -> Prop).
Context (Grefl : forall o s0 a ts, In (o, s0) sts -> In (a, ts) (snext s0) -> G ts ts).
Context (Gmerge : forall K ts0 pr P ts, G ts0 (map (proj K) ts) -> G ts0 (map (proj K) (mergeNDP pr P ts))).
Context (ND : NoDup (map fst sts)).

Definition okEntry (K : list enh) (p0 p : letter * list trans) : Prop :=
  fst p = fst p0 /\ (forall t, In t (snd p) -> ttgt t < length K) /\ G (snd p0) (map (proj K) (snd p)).
Definition okState (K : list enh) (s0 s : tastate) : Prop :=
  AutomatonModel.isMatch s = AutomatonModel.isMatch s0 /\ Forall2 (okEntry K) (snext s0) (snext s).
Definition Inv (m : smap) : Prop :=
  length (smKey m) = length (smSt m) /\ NoDup (smKey m) /\
  forall l e s, nth_error (smKey m) l = Some e -> nth_error (smSt m) l = Some s -> exists s0, In (fst e, s0) sts /\ okState (smKey m) s0 s.

Lemma okState_app K K' s0 s : okState K s0 s -> okState (K ++ K') s0 s.
Proof using.
  intros [A F]. split; [exact A|]. revert F. apply F2_impl. intros p0 p _ (B & C & D). split; [exact B|]. split; [intros t I; rewrite app_length; specialize (C t I); lia|].
  replace (map (proj (K ++ K')) (snd p)) with (map (proj K) (snd p)); [exact D|]. apply map_ext_in. intros t I. symmetry. apply proj_app. auto.
Qed.
Lemma in_unique l s s' : In (l, s) sts -> In (l, s') sts -> s = s'.
Proof using ND.
  clear - ND. induction sts as [|[k x] r IH]; intros H H'; [destruct H|]. cbn in ND. inversion ND as [|? ? N1 N2]; subst.
  destruct H as [H|H], H' as [H'|H']; try congruence; [injection H as -> ->; exfalso; apply N1; apply (in_map fst) in H'; exact H'|injection H' as -> ->; exfalso; apply N1; apply (in_map fst) in H; exact H|auto].
Qed.

(** the copies made by the constructor *)
Lemma newMap_inv m : newMap sts = Some m -> Inv m /\ smKey m = map (fun p => (fst p, seq 0 (computeClockSize (snd p)))) sts.
Proof using Grefl ND.
  unfold newMap. destruct (allSome _) as [ss|] eqn:E; [|discriminate]. intro H. injection H as <-. split; [|reflexivity]. cbn [smKey smSt]. apply allSome_F2 in E.
  set (K := map (fun p => (fst p, seq 0 (computeClockSize (snd p)))) sts). assert (LK : length K = length sts) by apply map_length.
  assert (NK : map fst K = map fst sts) by (unfold K; rewrite map_map; reflexivity).
  split; [change (length K = length ss); rewrite LK; exact (F2_length _ _ _ E)|]. fold K. cbn [smKey smSt]. split; [apply (NoDup_map_inv fst); rewrite NK; exact ND|].
  intros l e s HK HS. destruct (F2_nth_r _ _ _ E l s HS) as ([o s0] & X & Y). cbn [snd] in Y. unfold K in HK. rewrite nth_error_map, X in HK. cbn in HK. injection HK as <-. cbn [fst]. exists s0. assert (I : In (o, s0) sts) by (eapply nth_error_In; eauto). split; [exact I|].
  unfold copyState in Y. destruct (allSome _) as [nx|] eqn:Z; [|discriminate]. injection Y as <-. split; [reflexivity|]. cbn [snext]. apply allSome_F2 in Z. revert Z. apply F2_impl.
  intros [a ts] p Ip Hp. unfold copyEntry in Hp. cbn [fst snd] in Hp. destruct (allSome _) as [us|] eqn:W; [|discriminate]. injection Hp as <-. apply allSome_F2 in W. cbn [fst snd].
  assert (PK : forall t t', copyTrans sts t = Some t' -> ttgt t' < length K /\ proj K t' = t).
  { intros t t' C. unfold copyTrans in C. match type of C with context [posOf ?f ?l] => destruct (posOf f l) as [k|] eqn:P end; [|discriminate]. injection C as <-. cbn [ttgt]. apply posOf_some in P. destruct P as ([o' s'] & P1 & P2). cbn [fst] in P2. apply Nat.eqb_eq in P2. change (nth_error sts k = Some (o', s')) in P1. split; [rewrite LK; apply nth_error_Some; congruence|].
    unfold proj. cbn [ttgt trst tgrd]. assert (X1 : nth_error K k = Some (o', seq 0 (computeClockSize s'))) by (unfold K; rewrite nth_error_map, P1; reflexivity).
    assert (X2 := nth_error_nth K k (0, []) X1). transitivity (mkT o' (trst t) (tgrd t)); [exact (f_equal (fun x => mkT (fst x) (trst t) (tgrd t)) X2)|rewrite P2; destruct t; reflexivity]. }
  unfold okEntry. cbn [fst snd]. split; [reflexivity|]. split.
  - intros t It. apply In_nth_error in It. destruct It as [j Hj]. destruct (F2_nth_r _ _ _ W j t Hj) as (t0 & _ & C). apply (PK _ _ C).
  - replace (map (proj K) us) with ts; [apply (Grefl o s0 a ts I Ip)|]. clear -W PK. induction W as [|t t' ts us C W IH]; [reflexivity|]. cbn [map]. f_equal; [symmetry; apply (PK _ _ C)|exact IH].
Qed.

(** retargeting *)
Lemma retarget_ok K s0 s i j l t : okState K s0 s -> transAt s i j = Some t -> l < length K -> fst (nth l K (0, [])) = fst (nth (ttgt t) K (0, [])) ->
  okState K s0 (retarget s i j l).
Proof using.
  intros [A F] H L E. unfold transAt in H. unfold retarget. destruct (nth_error (snext s) i) as [p|] eqn:Hp; [|discriminate]. rewrite H. split; [exact A|]. cbn [snext]. apply setNth_F2; [exact F|]. intros p0 Hp0.
  destruct (F2_nth_r _ _ _ F i p Hp) as (p0' & X & (B & C & D)). assert (p0' = p0) by congruence. subst p0'. split; [exact B|]. cbn [snd]. split.
  - intros u I. apply setNth_in in I. destruct I as [->|I]; [exact L|auto].
  - rewrite (setNth_map (proj K) _ _ _ t H); [exact D|]. unfold proj. cbn. rewrite E. reflexivity.
Qed.
Lemma Inv_set m l s1 : Inv m -> (forall e s, nth_error (smKey m) l = Some e -> nth_error (smSt m) l = Some s -> exists s0, In (fst e, s0) sts /\ okState (smKey m) s0 s1) -> Inv (mkSM (smKey m) (setNth (smSt m) l s1)).
Proof using.
  intros (A & B & C) H. split; [cbn; rewrite setNth_length; exact A|]. split; [exact B|]. cbn [smKey smSt]. intros k e s HK HS. destruct (Nat.eq_dec l k) as [<-|N].
  - assert (L : l < length (smSt m)) by (rewrite <- A; apply nth_error_Some; congruence). rewrite setNth_at in HS by exact L. injection HS as <-. destruct (nth_error (smSt m) l) as [s|] eqn:X; [eauto|]. apply nth_error_None in X. lia.
  - rewrite setNth_other in HS by exact N. eauto.
Qed.
Definition extends (m m' : smap) : Prop := exists K, smKey m' = smKey m ++ K.
Lemma extends_refl m : extends m m.
Proof using. exists []. rewrite app_nil_r. reflexivity. Qed.
Lemma extends_trans m1 m2 m3 : extends m1 m2 -> extends m2 m3 -> extends m1 m3.
Proof using. intros [K E] [K' E']. exists (K ++ K'). rewrite E', E, app_assoc. reflexivity. Qed.
Lemma extends_nth m m' l e : extends m m' -> nth_error (smKey m) l = Some e -> nth_error (smKey m') l = Some e.
Proof using. intros [K ->] H. rewrite nth_error_app1; [exact H|]. apply nth_error_Some. congruence. Qed.

Lemma merged_ok K s0 s P pr b : okState K s0 s -> b = AutomatonModel.isMatch s0 -> okState K s0 (mkS b (mapNext (mergeNDP pr P) (snext s))).
Proof using Gmerge.
  intros [A F] ->. split; [reflexivity|]. cbn [snext]. apply F2_map_r. revert F. apply F2_impl. intros p0 p _ (B & C & D). unfold okEntry. cbn [fst snd]. split; [exact B|]. split; [|apply Gmerge; exact D].
  intros t I. apply (mergeW_inv overlap (mergeP pr P) (fun t => ttgt t < length K)) with (3 := I); [|exact C]. intros it u H1 H2 _. destruct (mergeP_cases pr P it u) as (x & [-> | ->] & E & _); rewrite E; assumption.
Qed.
Lemma makeState_ok m e from o s0 m' l' : makeState ordC prefer sts m e from = Some (m', l') -> Inv m -> o = fst e -> In (o, s0) sts -> okState (smKey m) s0 from ->
  Inv m' /\ extends m m' /\ nth_error (smKey m') l' = Some e /\ (forall k, k <> l' -> k < length (smKey m) -> nth_error (smSt m') k = nth_error (smSt m) k).
Proof using Gmerge ND.
  intros H I -> I0 OK. unfold makeState in H. destruct (mapE m e) as [l|] eqn:E.
  - destruct (nth_error (smSt m) l) as [s|] eqn:Hs; [|discriminate]. injection H as <- <-. cbn [smKey smSt]. assert (HK := mapE_some _ _ _ E). split; [|split; [exists []; cbn [smKey]; rewrite app_nil_r; reflexivity|split; [exact HK|intros k N _; apply setNth_other; auto]]]. apply Inv_set; [exact I|].
    intros e' s' HK' HS'. assert (e' = e) by congruence. subst e'. destruct I as (_ & _ & I). destruct (I l e s HK Hs) as (s1 & J1 & J2). assert (s1 = s0) by (eapply in_unique; eauto). subst s1. exists s0. split; [exact I0|]. apply merged_ok; [exact OK|apply J2].
  - match type of H with context [find ?f ?l] => destruct (find f l) as [[o2 s2]|] eqn:Hf end; [|discriminate]. injection H as <- <-. apply find_some in Hf. destruct Hf as [Hf1 Hf2]. cbn [fst snd] in *. apply Nat.eqb_eq in Hf2. subst o2. assert (s2 = s0) by (eapply in_unique; eauto). subst s2.
    destruct I as (A & B & C). assert (X : extends m (mkSM (smKey m ++ [e]) (smSt m ++ [mkS (AutomatonModel.isMatch s0) (mapNext (mergeNDP (prefer m e) (ordC (snd e))) (snext from))]))) by (exists [e]; reflexivity).
    split; [|split; [exact X|split; [cbn [smKey]; rewrite nth_error_app2 by lia; rewrite Nat.sub_diag; reflexivity|intros k _ L; cbn [smSt]; apply nth_error_app1; lia]]].
    split; [cbn [smKey smSt]; rewrite !app_length; cbn; lia|]. cbn [smKey smSt]. split; [apply (NoDup_app_comm_one _ _ B (mapE_none _ _ E))|]. intros k e' s HK HS.
    destruct (Nat.lt_ge_cases k (length (smKey m))) as [L|L].
    + rewrite nth_error_app1 in HK by exact L. rewrite nth_error_app1 in HS by lia. destruct (C k e' s HK HS) as (s1 & J1 & J2). exists s1. split; [exact J1|]. apply okState_app. exact J2.
    + rewrite nth_error_app2 in HK by exact L. rewrite nth_error_app2 in HS by lia. destruct (k - length (smKey m)) as [|d] eqn:Ed; [|destruct d; discriminate HK]. injection HK as <-. rewrite <- A, Ed in HS. injection HS as <-. exists s0. split; [exact I0|]. apply okState_app. apply merged_ok; [exact OK|reflexivity].
Qed.
End Inv.
