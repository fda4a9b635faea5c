(** ImpreciseClockHandler::run relaxes whatever can be relaxed. *)
From Coq Require Import QArith ZArith Bool List Arith Lia Permutation.
From Verif Require Import BoundsModel ConstraintModel GuardSpec AutomatonModel TimedWordModel TimedConditionModel ElementaryModel RegionalModel RenamingModel
  TableModel HypothesisModel NeighborModel NeighborSpec NeighborProofs4 TargetResetModel ImpreciseModel ImpreciseSpec ImpreciseProofs ImpreciseProofs2.
Import ListNotations.

Lemma upperIs d : (match codr d with Olt | Ole => true | _ => false end) = isUpper d.
Proof. unfold isUpper. destruct (codr d); reflexivity. Qed.
Lemma existsb_upper g : existsb (fun d => match codr d with Olt | Ole => true | _ => false end) g = existsb isUpper g.
Proof. induction g as [|d g IH]; cbn [existsb]; [reflexivity|]. rewrite upperIs, IH. reflexivity. Qed.
Lemma filter_upper g : filter (fun d => match codr d with Olt | Ole => false | _ => true end) g = filter (fun d => negb (isUpper d)) g.
Proof. apply filter_ext. intro d. unfold isUpper. destruct (codr d); reflexivity. Qed.
Lemma relaxOne_relaxable c n v t : relaxable c t -> relaxOne c n v t = Some (mkT (ttgt t) (embedIfImprecise (trst t) (preciseAfterReset (nPrec c) n (trst t)) v) (newGuard c t)).
Proof.
  intros (A & B & C). unfold relaxOne. rewrite A, existsb_upper. unfold newGuard in *. destruct (existsb isUpper (tgrd t)); cbn zeta; rewrite ?filter_upper, B, C; reflexivity.
Qed.

(** ** persistence *)
Lemma clockSize_rel nx nx' b : Forall2 relE nx nx' -> (computeClockSize (mkS b nx) <= computeClockSize (mkS b nx'))%nat.
Proof.
  intro F. destruct (clockSize_tight (mkS b nx)) as [E|(a & ts & t & d & H1 & H2 & H3 & E)]; [rewrite E; apply Nat.le_0_l|]. rewrite E. cbn [snext] in *.
  assert (K : exists ts', In (a, ts') nx' /\ In t ts').
  { clear E. induction F as [|e e' l l' (E1 & n & E2 & _) F IH]; [destruct H1|]. destruct H1 as [->|H1].
    - exists (snd e'). split; [left; destruct e'; cbn in *; congruence|]. rewrite E2. apply in_app_iff. left. exact H2.
    - destruct (IH H1) as (ts' & K1 & K2). exists ts'. split; [right; exact K1|exact K2]. }
  destruct K as (ts' & K1 & K2). assert (X := clockSize_bound (mkS b nx') a ts' t d K1 K2 H3). lia.
Qed.
Lemma clockSizeAt_rel sts sts' l : onlyRelaxes sts sts' -> (clockSizeAt sts l <= clockSizeAt sts' l)%nat.
Proof. intro O. apply clockSize_rel. apply nextOf_rel. exact O. Qed.
Lemma leaves_rel sts sts' q t : onlyRelaxes sts sts' -> leaves sts q t -> leaves sts' q t.
Proof. intros O L. apply leaves_iff in L. destruct L as [a I]. apply leaves_iff. exists a. eapply at_rel; eauto. Qed.
Lemma relaxedInto_mono ord k c a t q s0 s1 s2 s3 (Q Q' : loc * nbr -> Prop) : onlyRelaxes s0 s1 -> onlyRelaxes s2 s3 -> (forall p, Q p -> Q' p) ->
  relaxedInto ord k c a t q s1 s2 Q -> relaxedInto ord k c a t q s0 s3 Q'.
Proof.
  intros O1 O2 HQ H R. destruct (H R) as (N & c' & A & B & C & D & E). exists N, c'. assert (X := clockSizeAt_rel s0 s1 (ttgt t) O1). assert (Y := clockSizeAt_rel s2 s3 (ttgt t) O2).
  split; [lia|]. split; [lia|]. split; [exact C|]. split; [eapply at_rel; eauto|auto].
Qed.
Lemma pushNext_has nx a t (s : trans) : In s (nfind nx a) -> In t (nfind (pushNext nx a t) a).
Proof.
  unfold nfind. induction nx as [|[b ts] nx IH]; cbn [pushNext find fst snd]; [intros []|]. destruct (b =? a)%nat eqn:E; cbn [find fst snd]; rewrite E; cbn [snd]; [intros _; apply in_app_iff; right; left; reflexivity|exact IH].
Qed.
Lemma pushTo_has sts q a t (s : trans) : In s (nfind (nextOf sts q) a) -> In t (nfind (nextOf (pushTo sts q a t) q) a).
Proof.
  intro I. assert (E : nextOf (pushTo sts q a t) q = pushNext (nextOf sts q) a t).
  { clear - I. unfold nextOf, pushTo in *. induction sts as [|[b s0] sts IH]; cbn [map find fst snd] in *; [destruct I|]. destruct (b =? q)%nat eqn:E; cbn [find fst snd snext]; rewrite E; cbn [snd snext]; [reflexivity|apply IH; exact I]. }
  rewrite E. eapply pushNext_has; eauto.
Qed.
Lemma pushAll_has q a (t : trans) : forall new sts (s : trans), NoDup (map fst sts) -> (forall t', In t' new -> exists t, In t (nfind (nextOf sts q) a) /\ relaxation t t') -> In t new ->
  In t (nfind (nextOf (fold_left (fun sts t => pushTo sts q a t) new sts) q) a).
Proof.
  induction new as [|t' new IH]; intros sts s ND H I; cbn [fold_left]; [destruct I|].
  destruct (H t' (or_introl eq_refl)) as (t0 & I0 & R). assert (O := pushTo_rel sts q a t0 t' ND I0 R).
  assert (ND' : NoDup (map fst (pushTo sts q a t'))) by (rewrite (onlyRelaxes_addr _ _ O); exact ND).
  assert (H2 : forall x, In x new -> exists t, In t (nfind (nextOf (pushTo sts q a t') q) a) /\ relaxation t x).
  { intros x Hx. destruct (H x (or_intror Hx)) as (y & Iy & Ry). exists y. split; [|exact Ry]. eapply at_rel; eauto. }
  destruct I as [<-|I]; [|apply IH; auto]. eapply at_rel; [apply pushAll_rel; eauto|]. eapply pushTo_has; eauto.
Qed.

(** ** one letter *)
Lemma handleAll_has ord k sts c a : forall ts new ws, handleAll ord k sts c a ts = Some (new, ws) -> forall t, In t ts -> relaxable c t ->
  exists c', makeAfter ord k c a t (clockSizeAt sts (ttgt t)) = Some c' /\
    In (mkT (ttgt t) (embedIfImprecise (trst t) (preciseAfterReset (nPrec c) (clockSizeAt sts (ttgt t)) (trst t)) (toValuation (ec (fel (nOrig c'))))) (newGuard c t)) new /\
    (preciseAfterReset (nPrec c) (clockSizeAt sts (ttgt t)) (trst t) <> [] -> nbPrecise c' = false -> In (ttgt t, c') ws).
Proof.
  induction ts as [|t0 ts IH]; intros new ws H t I R; cbn [handleAll] in H; [destruct I|].
  destruct (handleOne ord k sts c a t0) as [[o w]|] eqn:E; [|discriminate]. destruct (handleAll ord k sts c a ts) as [[os ws']|]; [|discriminate]. injection H as <- <-. destruct I as [->|I].
  - unfold handleOne in E. rewrite (relaxOne_relaxable c 0 [] t R) in E. cbn zeta in E. destruct (makeAfter _ _ _ _ _ _) as [c'|]; [|discriminate]. rewrite (relaxOne_relaxable c _ _ t R) in E. injection E as <- <-.
    exists c'. split; [reflexivity|]. split; [left; reflexivity|]. intros P X. rewrite X. destruct (preciseAfterReset _ _ _); [congruence|]. left. reflexivity.
  - destruct (IH os ws' eq_refl t I R) as (c' & A & B & C). exists c'. split; [exact A|]. split; [apply in_app_iff; auto|]. intros P X. apply in_app_iff. right. auto.
Qed.

Section Actions.
Context (ord : list frel -> list frel) (k : nat) (q : loc) (c : nbr).
Definition did (s s' : rst) : Prop :=
  (forall p, In p (rWs s) -> In p (rWs s')) /\
  (rMatched s' = true -> rMatched s = true \/ exists t, leaves (rSts s') q t /\ nbMatch c (tgrd t) = true) /\
  (rBounded s' = true -> rBounded s = true \/ exists t, leaves (rSts s') q t /\ nbMatch c (tgrd t) = true /\ existsb isUpper (tgrd t) = true) /\
  (rMatched s = true -> rMatched s' = true) /\ (rBounded s = true -> rBounded s' = true).
Definition didAt (a : letter) (s s' : rst) : Prop :=
  forall t, In t (nfind (nextOf (rSts s) q) a) ->
    relaxedInto ord k c a t q (rSts s) (rSts s') (fun p => In p (rWs s')) /\
    (nbMatch c (tgrd t) = true -> rMatched s' = true) /\ (nbMatch c (tgrd t) = true -> existsb isUpper (tgrd t) = true -> rBounded s' = true).
Lemma handleAction_did s a s' : NoDup (map fst (rSts s)) -> handleAction ord k q c s a = Some s' -> did s s' /\ didAt a s s'.
Proof.
  intros ND H0. assert (O := handleAction_rel ord k q c s a s' ND H0). assert (H := H0). unfold handleAction in H. destruct (handleAll _ _ _ _ _ _) as [[new ws]|] eqn:E; [|discriminate]. injection H as <-. cbn [rSts rWs rBounded rMatched] in *.
  assert (LV : forall t, In t (nfind (nextOf (rSts s) q) a) -> leaves (fold_left (fun sts t => pushTo sts q a t) new (rSts s)) q t) by (intros t I; apply (leaves_rel _ _ q t O); apply leaves_iff; eauto).
  split.
  - unfold did. cbn [rSts rWs rBounded rMatched]. split; [intros p I; apply in_app_iff; auto|]. split; [|split; [|split]].
    + intro B. apply orb_true_iff in B. destruct B as [B|B]; [auto|]. right. unfold matches in B. apply existsb_exists in B. destruct B as (t & J & B). exists t. auto.
    + intro B. apply orb_true_iff in B. destruct B as [B|B]; [auto|]. right. unfold boundedMatches in B. apply existsb_exists in B. destruct B as (t & J & B). apply andb_true_iff in B. exists t. destruct B. auto.
    + intros ->. reflexivity.
    + intros ->. reflexivity.
  - unfold didAt. cbn [rSts rWs rBounded rMatched]. intros t I. split; [|split].
    + intro R. destruct (handleAll_has _ _ _ _ _ _ _ _ E t I R) as (c' & A & B & C). exists (clockSizeAt (rSts s) (ttgt t)), c'. split; [lia|]. split; [apply clockSizeAt_rel; exact O|]. split; [exact A|].
      split; [|intros P X; apply in_app_iff; auto]. apply (pushAll_has q a _ new (rSts s) t ND); [|exact B]. intros t' I'. destruct (handleAll_new _ _ _ _ _ _ _ _ E t' I') as (t0 & n & v & J & R'). exists t0. split; [exact J|]. eapply relaxOne_relaxation; eauto.
    + intro M. apply orb_true_iff. right. unfold matches. apply existsb_exists. eauto.
    + intros M U. apply orb_true_iff. right. unfold boundedMatches. apply existsb_exists. exists t. split; [exact I|]. rewrite M, U. reflexivity.
Qed.
Lemma did_refl s : did s s.
Proof. unfold did. auto 10. Qed.
Lemma did_trans s s1 s2 : onlyRelaxes (rSts s1) (rSts s2) -> did s s1 -> did s1 s2 -> did s s2.
Proof.
  intros O (A & B & C & D & E) (A' & B' & C' & D' & E'). split; [auto|]. split; [|split; [|split; auto]].
  - intro M. destruct (B' M) as [M'|X]; [|auto]. destruct (B M') as [M2|(t & L & X)]; [auto|]. right. exists t. split; [eapply leaves_rel; eauto|exact X].
  - intro M. destruct (C' M) as [M'|X]; [|auto]. destruct (C M') as [M2|(t & L & X)]; [auto|]. right. exists t. split; [eapply leaves_rel; eauto|exact X].
Qed.
Lemma handleActions_did : forall acts s s', NoDup (map fst (rSts s)) -> handleActions ord k q c s acts = Some s' -> did s s' /\ forall a, In a acts -> didAt a s s'.
Proof.
  induction acts as [|a acts IH]; intros s s' ND H; cbn [handleActions] in H; [injection H as <-; split; [apply did_refl|intros ? []]|].
  destruct (handleAction ord k q c s a) as [s1|] eqn:E; [|discriminate]. destruct (handleAction_did s a s1 ND E) as [D1 D2]. assert (O := handleAction_rel ord k q c s a s1 ND E).
  assert (ND1 : NoDup (map fst (rSts s1))) by (rewrite (onlyRelaxes_addr _ _ O); exact ND). destruct (IH s1 s' ND1 H) as [D3 D4]. assert (O' := handleActions_rel ord k q c acts s1 s' ND1 H).
  split; [eapply did_trans; eauto|]. assert (D3' := D3). destruct D3' as (W & _ & _ & MM & BB). intros b [<-|I] t J.
  - destruct (D2 t J) as (R1 & R2 & R3). split; [|split; auto]. eapply relaxedInto_mono; [apply onlyRelaxes_refl|exact O'|exact W|exact R1].
  - destruct (D4 b I t (at_rel _ _ q b t O J)) as (R1 & R2 & R3). split; [|split; auto]. eapply relaxedInto_mono; [exact O|apply onlyRelaxes_refl| |exact R1]. auto.
Qed.
End Actions.

(** ** the do-while loop *)
Section Loop.
Context (ord : list frel -> list frel) (k : nat) (keys : list letter -> list letter) (HK : forall l, Permutation (keys l) l) (q : loc).
Lemma rounds_explored : forall f sts c ws some sts' ws', NoDup (map fst sts) -> rounds f ord k keys q sts c ws some = Done sts' ws' ->
  (forall p, In p ws -> In p ws') /\
  exists n cn, nbSuccs ord k n c = Some cn /\
    (forall j cj a t, (j <= n)%nat -> nbSuccs ord k j c = Some cj -> In t (nfind (nextOf sts q) a) -> relaxedInto ord k cj a t q sts sts' (fun p => In p ws')) /\
    (some = true \/ exists j cj t, (j <= n)%nat /\ nbSuccs ord k j c = Some cj /\ leaves sts' q t /\ nbMatch cj (tgrd t) = true) /\
    (forall t, leaves sts q t -> nbMatch cn (tgrd t) = true -> existsb isUpper (tgrd t) = false) /\
    (forall j cj, (j < n)%nat -> nbSuccs ord k j c = Some cj ->
       (some = false /\ forall i ci t, (i <= j)%nat -> nbSuccs ord k i c = Some ci -> leaves sts q t -> nbMatch ci (tgrd t) = false) \/
       (exists t, leaves sts' q t /\ nbMatch cj (tgrd t) = true /\ existsb isUpper (tgrd t) = true)).
Proof using HK.
  induction f as [|f IH]; intros sts c ws some sts' ws' ND H; cbn [rounds] in H; [discriminate|].
  destruct (handleActions ord k q c (mkR sts ws false some) (keys (map fst (nextOf sts q)))) as [s|] eqn:E; [|discriminate].
  destruct (handleActions_did ord k q c _ (mkR sts ws false some) s ND E) as [(W & MM & BB & M2 & B2) DA]. assert (O : onlyRelaxes sts (rSts s)) by (exact (handleActions_rel ord k q c _ (mkR sts ws false some) s ND E)).
  cbn [rSts rWs rMatched rBounded] in *.
  assert (AT : forall a t, In t (nfind (nextOf sts q) a) -> relaxedInto ord k c a t q sts (rSts s) (fun p => In p (rWs s)) /\ (nbMatch c (tgrd t) = true -> rMatched s = true) /\ (nbMatch c (tgrd t) = true -> existsb isUpper (tgrd t) = true -> rBounded s = true)).
  { intros a t I. apply (DA a); [|exact I]. eapply Permutation_in; [apply Permutation_sym; apply HK|]. eapply nfind_key; eauto. }
  destruct (nbSucc ord k c) as [c1|] eqn:S1; [|discriminate]. destruct (rBounded s || negb (rMatched s)) eqn:G.
  - assert (ND1 : NoDup (map fst (rSts s))) by (rewrite (onlyRelaxes_addr _ _ O); exact ND). destruct (IH (rSts s) c1 (rWs s) (rMatched s) sts' ws' ND1 H) as (W' & n & cn & J0 & J1 & J2 & J3 & J4).
    assert (O' := rounds_rel _ _ _ _ _ _ _ _ _ _ _ ND1 H). split; [auto|]. exists (S n), cn.
    assert (SS : forall j, nbSuccs ord k (S j) c = nbSuccs ord k j c1) by (intro j; cbn [nbSuccs]; rewrite S1; reflexivity).
    split; [rewrite SS; exact J0|]. split; [|split; [|split]].
    + intros [|j] cj a t Hj Sj I.
      * cbn [nbSuccs] in Sj. injection Sj as <-. eapply relaxedInto_mono; [apply onlyRelaxes_refl|exact O'|exact W'|apply (AT a t I)].
      * rewrite SS in Sj. eapply relaxedInto_mono; [exact O|apply onlyRelaxes_refl| |apply (J1 j cj a t ltac:(lia) Sj (at_rel _ _ q a t O I))]. auto.
    + destruct J2 as [J2|(j & cj & t & A & B & C)].
      * destruct (MM J2) as [X|(t & L & X)]; [left; exact X|]. right. exists 0%nat, c, t. split; [lia|]. split; [reflexivity|]. split; [eapply leaves_rel; eauto|exact X].
      * right. exists (S j), cj, t. rewrite SS. split; [lia|auto].
    + intros t L. apply J3. eapply leaves_rel; eauto.
    + intros [|j] cj Hj Sj.
      * cbn [nbSuccs] in Sj. injection Sj as <-. destruct (rBounded s) eqn:B.
        { right. destruct (BB eq_refl) as [X|(t & L & X)]; [discriminate|]. exists t. split; [eapply leaves_rel; eauto|exact X]. }
        left. cbn [orb] in G. apply negb_true_iff in G. split; [destruct some; [rewrite M2 in G by reflexivity; discriminate|reflexivity]|].
        intros i ci t Hi Si L. replace i with 0%nat in Si by lia. cbn [nbSuccs] in Si. injection Si as <-. destruct (nbMatch c (tgrd t)) eqn:X; [|reflexivity]. apply leaves_iff in L. destruct L as [a I].
        assert (Y := proj1 (proj2 (AT a t I)) X). congruence.
      * rewrite SS in Sj. destruct (J4 j cj ltac:(lia) Sj) as [[M J]|J]; [left|right; exact J].
        split; [destruct some; [rewrite M2 in M by reflexivity; discriminate|reflexivity]|]. intros [|i] ci t Hi Si L.
        { cbn [nbSuccs] in Si. injection Si as <-. destruct (nbMatch c (tgrd t)) eqn:X; [|reflexivity]. apply leaves_iff in L. destruct L as [a I]. assert (Y := proj1 (proj2 (AT a t I)) X). congruence. }
        rewrite SS in Si. apply (J i ci t ltac:(lia) Si). eapply leaves_rel; eauto.
  - injection H as <- <-. apply orb_false_iff in G. destruct G as [G1 G2]. apply negb_false_iff in G2. split; [exact W|]. exists 0%nat, c. split; [reflexivity|]. split; [|split; [|split]].
    + intros j cj a t Hj Sj I. replace j with 0%nat in Sj by lia. cbn [nbSuccs] in Sj. injection Sj as <-. apply (AT a t I).
    + destruct (MM G2) as [X|(t & L & X)]; [left; exact X|]. right. exists 0%nat, c, t. auto.
    + intros t L X. destruct (existsb isUpper (tgrd t)) eqn:U; [|reflexivity]. apply leaves_iff in L. destruct L as [a I]. assert (Y := proj2 (proj2 (AT a t I)) X U). congruence.
    + intros j cj Hj. lia.
Qed.
Lemma explored_of_rounds f sts c ws sts' ws' : NoDup (map fst sts) -> rounds f ord k keys q sts c ws false = Done sts' ws' ->
  (forall p, In p ws -> In p ws') /\ explored ord k q c sts sts' (fun p => In p ws').
Proof using HK.
  intros ND H. destruct (rounds_explored f sts c ws false sts' ws' ND H) as (W & n & cn & J0 & J1 & J2 & J3 & J4). split; [exact W|]. exists n, cn. split; [exact J0|]. split; [exact J1|]. split; [destruct J2 as [J2|J2]; [discriminate|exact J2]|].
  split; [exact J3|]. intros j cj Hj Sj. destruct (J4 j cj Hj Sj) as [[_ X]|X]; auto.
Qed.
End Loop.
Lemma explored_mono ord k q c s0 s1 s2 s3 (Q Q' : loc * nbr -> Prop) : onlyRelaxes s0 s1 -> onlyRelaxes s2 s3 -> (forall p, Q p -> Q' p) -> explored ord k q c s1 s2 Q -> explored ord k q c s0 s3 Q'.
Proof.
  intros O1 O2 HQ (n & cn & J0 & J1 & J2 & J3 & J4). exists n, cn. split; [exact J0|]. split; [|split; [|split]].
  - intros j cj a t Hj Sj I. eapply relaxedInto_mono; [exact O1|exact O2|exact HQ|]. apply (J1 j cj a t Hj Sj). eapply at_rel; eauto.
  - destruct J2 as (j & cj & t & A & B & C & D). exists j, cj, t. split; [exact A|]. split; [exact B|]. split; [eapply leaves_rel; eauto|exact D].
  - intros t L. apply J3. eapply leaves_rel; eauto.
  - intros j cj Hj Sj. destruct (J4 j cj Hj Sj) as [J|(t & L & J)].
    + left. intros i ci t Hi Si L. apply (J i ci t Hi Si). eapply leaves_rel; eauto.
    + right. exists t. split; [eapply leaves_rel; eauto|exact J].
Qed.

(** ** the work list *)
Lemma nth_drop {A} (d : A) : forall n l p, In p l -> p = nth n l d \/ In p (dropAt n l).
Proof.
  unfold dropAt. induction n as [|n IH]; intros [|x l] p I; cbn [nth firstn skipn app]; try destruct I as [I|I]; try tauto; subst; auto.
  - right. left. reflexivity.
  - destruct (IH l p I) as [E|J]; [left; exact E|right; right; exact J].
Qed.
Lemma runLoop_explored ord k keys pick hsh : (forall l, Permutation (keys l) l) -> forall f sts ws vis sts' ws', NoDup (map fst sts) -> runLoop f ord k keys pick hsh sts ws vis = Done sts' ws' ->
  forall s0 (V0 : list (loc * nbr)), vis = map hsh V0 -> onlyRelaxes s0 sts ->
  (forall y, In y V0 -> explored ord k (fst y) (snd y) s0 sts (fun p => In p ws \/ exists z, In z V0 /\ hsh z = hsh p)) ->
  exists V, (forall y, In y V0 -> In y V) /\ (forall p, In p ws -> exists z, In z V /\ hsh z = hsh p) /\
    forall y, In y V -> explored ord k (fst y) (snd y) s0 sts' (fun p => exists z, In z V /\ hsh z = hsh p).
Proof.
  intro HK. induction f as [|f IH]; intros sts ws vis sts' ws' ND H s0 V0 EV O HV; cbn [runLoop] in H;
    (destruct ws as [|d ws]; [injection H as <- _; exists V0; split; [auto|]; split; [intros ? []|]; intros y Hy; eapply explored_mono; [apply onlyRelaxes_refl|apply onlyRelaxes_refl| |apply (HV y Hy)]; intros p [[]|X]; exact X|]); [discriminate|].
  cbn zeta in H. set (i := Nat.min (pick (d :: ws)) (length (d :: ws) - 1)) in *. set (x := nth i (d :: ws) d) in *. set (rest := dropAt i (d :: ws)) in *.
  assert (DR : forall p, In p (d :: ws) -> p = x \/ In p rest) by (intros p I; apply nth_drop; exact I).
  destruct (existsb (Nat.eqb (hsh x)) vis) eqn:X.
  - apply existsb_exists in X. destruct X as (h & I & Eh). apply Nat.eqb_eq in Eh. subst h. rewrite EV in I. apply in_map_iff in I. destruct I as (z & Ez & Iz).
    destruct (IH sts rest vis sts' ws' ND H s0 V0 EV O) as (V & A & B & C).
    + intros y Hy. eapply explored_mono; [apply onlyRelaxes_refl|apply onlyRelaxes_refl| |apply (HV y Hy)]. intros p [I|K]; [|auto]. destruct (DR p I) as [->|J]; [right; exists z; auto|auto].
    + exists V. split; [exact A|]. split; [|exact C]. intros p I. destruct (DR p I) as [->|J]; [exists z; auto|auto].
  - destruct (rounds k ord k keys (fst x) sts (snd x) rest false) as [sts1 ws1| | |] eqn:E; [|discriminate|discriminate|discriminate]. assert (O1 := rounds_rel _ _ _ _ _ _ _ _ _ _ _ ND E).
    destruct (explored_of_rounds ord k keys HK (fst x) k sts (snd x) rest sts1 ws1 ND E) as [W EX].
    destruct (IH sts1 ws1 (hsh x :: vis) sts' ws' ltac:(rewrite (onlyRelaxes_addr _ _ O1); exact ND) H s0 (x :: V0)) as (V & A & B & C).
    + cbn [map]. rewrite EV. reflexivity.
    + eapply onlyRelaxes_trans; eauto.
    + intros y [<-|Hy].
      * eapply explored_mono; [exact O|apply onlyRelaxes_refl| |exact EX]. auto.
      * eapply explored_mono; [apply onlyRelaxes_refl|exact O1| |apply (HV y Hy)]. intros p [I|(z & Iz & Ez)]; [|right; exists z; split; [right; exact Iz|exact Ez]].
        destruct (DR p I) as [->|J]; [right; exists x; split; [left; reflexivity|reflexivity]|auto].
    + exists V. split; [intros y Hy; apply A; right; exact Hy|]. split; [|exact C]. intros p I. destruct (DR p I) as [->|J]; [exists x; split; [apply A; left; reflexivity|reflexivity]|auto].
Qed.

(** ** the end of the work list *)
Lemma rounds_waiting ord k keys q : forall f sts c ws some, rounds f ord k keys q sts c ws some <> Waiting.
Proof.
  induction f as [|f IH]; intros sts c ws some; cbn [rounds]; [discriminate|]. destruct (handleActions _ _ _ _ _ _) as [s|]; [|discriminate]. destruct (nbSucc ord k c) as [c1|]; [|discriminate]. destruct (_ || _); [apply IH|discriminate].
Qed.
Lemma pigeon : forall n (l : list nat) (x : nat), NoDup l -> (forall y, In y l -> (y < n)%nat) -> length l = n -> (x < n)%nat -> In x l.
Proof.
  intros n l x N B L X. assert (I : incl (seq 0 n) l).
  { apply NoDup_length_incl; [exact N|rewrite seq_length; lia|]. intros y Hy. apply in_seq. specialize (B y Hy). lia. }
  apply I. apply in_seq. lia.
Qed.
Lemma dropAt_length {A} (l : list A) i : (i < length l)%nat -> length (dropAt i l) = (length l - 1)%nat.
Proof. intro H. unfold dropAt. rewrite app_length, firstn_length, skipn_length. lia. Qed.
Lemma runLoop_ends ord k keys pick hsh H : (forall p, (hsh p < H)%nat) -> forall h m sts ws vis, (length ws <= m)%nat -> NoDup vis -> (forall y, In y vis -> (y < H)%nat) -> (H <= length vis + h)%nat ->
  exists n, forall f, (n <= f)%nat -> runLoop f ord k keys pick hsh sts ws vis <> Waiting.
Proof.
  intro HB. induction h as [|h IHh]; induction m as [|m IHm]; intros sts ws vis LW ND BV LV; (destruct ws as [|d ws]; [exists 0%nat; intros [|f] _; discriminate|]); try (cbn [length] in LW; lia);
    set (i := Nat.min (pick (d :: ws)) (length (d :: ws) - 1)); set (x := nth i (d :: ws) d); set (rest := dropAt i (d :: ws));
    assert (LR : (length rest <= m)%nat) by (unfold rest; rewrite dropAt_length; [cbn [length] in *; lia|unfold i; cbn [length]; lia]);
    (destruct (existsb (Nat.eqb (hsh x)) vis) eqn:X; [destruct (IHm sts rest vis LR ND BV LV) as [n Hn]; exists (S n); intros [|f] Hf; [lia|]; cbn [runLoop]; fold i; fold x; fold rest; rewrite X; apply Hn; lia|]).
  - exfalso. assert (L1 : (length vis <= H)%nat).
    { rewrite <- (seq_length H 0). apply NoDup_incl_length; [exact ND|]. intros y Hy. apply in_seq. specialize (BV y Hy). lia. }
    assert (K : In (hsh x) vis) by (apply (pigeon H); auto; lia). assert (Y : existsb (Nat.eqb (hsh x)) vis = true) by (apply existsb_exists; exists (hsh x); split; [exact K|apply Nat.eqb_refl]). congruence.
  - destruct (rounds k ord k keys (fst x) sts (snd x) rest false) as [sts1 ws1| | |] eqn:E.
    + destruct (IHh (length ws1) sts1 ws1 (hsh x :: vis)) as [n Hn]; [lia| | |cbn [length]; lia|].
      * constructor; [|exact ND]. intro K. assert (Y : existsb (Nat.eqb (hsh x)) vis = true) by (apply existsb_exists; exists (hsh x); split; [exact K|apply Nat.eqb_refl]). congruence.
      * intros y [<-|Hy]; auto.
      * exists (S n). intros [|f] Hf; [lia|]. cbn [runLoop]. fold i. fold x. fold rest. rewrite X, E. apply Hn. lia.
    + exists 1%nat. intros [|f] Hf; [lia|]. cbn [runLoop]. fold i. fold x. fold rest. rewrite X, E. discriminate.
    + exists 1%nat. intros [|f] Hf; [lia|]. cbn [runLoop]. fold i. fold x. fold rest. rewrite X, E. discriminate.
    + exfalso. exact (rounds_waiting ord k keys (fst x) k sts (snd x) rest false E).
Qed.

(** ** what goes to the work list *)
Lemma newNbr_prec ord k x P0 c : newNbr ord k x P0 = Some c -> forall i, In i P0 -> In i (nPrec c).
Proof.
  unfold newNbr. intros H i I. assert (J : In i (addImplicit x P0)) by (unfold addImplicit; apply in_app_iff; auto). destruct (addImplicit x P0) as [|a l]; [destruct J|].
  destruct (updateNeighbors _ _ _ _ _); [|discriminate]. injection H as <-. exact J.
Qed.
Lemma handleAll_queue ord k sts c a : forall ts new ws, handleAll ord k sts c a ts = Some (new, ws) -> forall l c', In (l, c') ws ->
  exists t, In t ts /\ l = ttgt t /\ nbMatch c (tgrd t) = true /\ makeAfter ord k c a t (clockSizeAt sts l) = Some c' /\ nbPrecise c' = false /\ nPrec c' <> [].
Proof.
  induction ts as [|t ts IH]; intros new ws H l c' I; cbn [handleAll] in H; [injection H as <- <-; destruct I|].
  destruct (handleOne ord k sts c a t) as [[o x]|] eqn:E; [|discriminate]. destruct (handleAll ord k sts c a ts) as [[os ws']|]; [|discriminate]. injection H as <- <-. apply in_app_iff in I. destruct I as [I|I].
  - destruct x as [[l' c1]|]; [|destruct I]. destruct I as [I|[]]. injection I as -> ->. unfold handleOne in E. destruct (relaxOne c 0 [] t) as [t'|] eqn:R; [|discriminate]. cbn zeta in E.
    destruct (makeAfter ord k c a t (clockSizeAt sts (ttgt t))) as [c2|] eqn:MA; [|discriminate]. injection E as _ E. destruct (preciseAfterReset _ _ _) as [|p P] eqn:EP; [discriminate|]. destruct (nbPrecise c2) eqn:PR; [discriminate|]. injection E as <- <-.
    exists t. split; [left; reflexivity|]. split; [reflexivity|]. split; [apply (relaxOne_spec c 0 [] t t' R)|]. split; [exact MA|]. split; [exact PR|].
    unfold makeAfter in MA. destruct (originalAfter _ _ _ _); [|discriminate]. assert (J := newNbr_prec _ _ _ _ _ MA p). rewrite EP in J. intro Z. rewrite Z in J. apply J. left. reflexivity.
  - destruct (IH os ws' eq_refl l c' I) as (t0 & J & K). exists t0. split; [right; exact J|exact K].
Qed.
Lemma rounds_queue ord k keys q : forall f sts c ws some sts' ws', NoDup (map fst sts) -> rounds f ord k keys q sts c ws some = Done sts' ws' ->
  forall l c', In (l, c') ws' -> In (l, c') ws \/
    exists j cj a t N, nbSuccs ord k j c = Some cj /\ In t (nfind (nextOf sts' q) a) /\ nbMatch cj (tgrd t) = true /\ l = ttgt t /\ makeAfter ord k cj a t N = Some c' /\ nbPrecise c' = false /\ nPrec c' <> [].
Proof.
  assert (AC : forall c acts s s', NoDup (map fst (rSts s)) -> handleActions ord k q c s acts = Some s' -> forall l c', In (l, c') (rWs s') -> In (l, c') (rWs s) \/
    exists a t N, In t (nfind (nextOf (rSts s') q) a) /\ nbMatch c (tgrd t) = true /\ l = ttgt t /\ makeAfter ord k c a t N = Some c' /\ nbPrecise c' = false /\ nPrec c' <> []).
  { intro c. induction acts as [|a acts IH]; intros s s' ND H l c' I; cbn [handleActions] in H; [injection H as <-; auto|]. destruct (handleAction ord k q c s a) as [s1|] eqn:E; [|discriminate].
    assert (O := handleAction_rel ord k q c s a s1 ND E). assert (ND1 : NoDup (map fst (rSts s1))) by (rewrite (onlyRelaxes_addr _ _ O); exact ND). assert (O1 := handleActions_rel ord k q c acts s1 s' ND1 H).
    destruct (IH s1 s' ND1 H l c' I) as [J|J]; [|right; exact J]. unfold handleAction in E. destruct (handleAll _ _ _ _ _ _) as [[new ws]|] eqn:A; [|discriminate]. injection E as <-. cbn [rWs rSts] in *. apply in_app_iff in J. destruct J as [J|J]; [auto|]. right.
    destruct (handleAll_queue _ _ _ _ _ _ _ _ A l c' J) as (t & T1 & T2 & T3 & T4 & T5 & T6). exists a, t, (clockSizeAt (rSts s) l). split; [|auto]. apply (at_rel _ _ q a t O1). apply (at_rel _ _ q a t O). exact T1. }
  induction f as [|f IH]; intros sts c ws some sts' ws' ND H l c' I; cbn [rounds] in H; [discriminate|].
  destruct (handleActions ord k q c (mkR sts ws false some) (keys (map fst (nextOf sts q)))) as [s|] eqn:E; [|discriminate].
  assert (O : onlyRelaxes sts (rSts s)) by (exact (handleActions_rel ord k q c _ (mkR sts ws false some) s ND E)). destruct (nbSucc ord k c) as [c1|] eqn:S1; [|discriminate]. destruct (_ || _).
  - assert (ND1 : NoDup (map fst (rSts s))) by (rewrite (onlyRelaxes_addr _ _ O); exact ND). destruct (IH _ _ _ _ _ _ ND1 H l c' I) as [J|(j & cj & a & t & N & K1 & K2)].
    + destruct (AC c _ (mkR sts ws false some) s ND E l c' J) as [J'|(a & t & N & K1 & K2)]; [auto|]. right. exists 0%nat, c, a, t, N. split; [reflexivity|]. split; [|exact K2]. apply (at_rel (rSts s) sts' q a t); [|exact K1]. exact (rounds_rel _ _ _ _ _ _ _ _ _ _ _ ND1 H).
    + right. exists (S j), cj, a, t, N. split; [|auto]. cbn [nbSuccs]. rewrite S1. exact K1.
  - injection H as <- <-. destruct (AC c _ (mkR sts ws false some) s ND E l c' I) as [J'|(a & t & N & K1 & K2)]; [auto|]. right. exists 0%nat, c, a, t, N. split; [reflexivity|]. split; [exact K1|exact K2].
Qed.
