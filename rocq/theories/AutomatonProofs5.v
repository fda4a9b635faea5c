(** Structural simplifications: duplicated transitions, unreachable and dead
    states, dead loops, useless transitions. *)
From Coq Require Import QArith ZArith Bool List Arith Lia Lqa.
From Verif Require Import BoundsModel ConstraintModel GuardSpec ZoneModel AutomatonModel AutomatonSpec.
From Verif Require Import BoundsProofs ConstraintProofs ConstraintProofs2 AutomatonProofs AutomatonProofs2.
Import ListNotations.
Open Scope Q_scope.

Lemma sameLang_refl A : sameLang A A.
Proof. intros d0 w. reflexivity. Qed.
Lemma sameLang_trans A B C : sameLang A B -> sameLang B C -> sameLang A C.
Proof. intros H K d0 w. rewrite (H d0 w). apply K. Qed.

(** ** simplifyTransitions *)
Lemma simplifyTs_spec ts : forall red,
  let res := fold_left (fun red t =>
    if existsb (fun an => Nat.eqb (ttgt t) (ttgt an) && resets_eqb (trst t) (trst an)
                          && isWeaker (tgrd an) (tgrd t)) red
    then red else red ++ [t]) ts red in
  (forall u, In u res -> In u red \/ In u ts) /\
  (forall u, In u red -> In u res) /\
  (forall t, In t ts -> exists u, In u res /\ ttgt u = ttgt t /\ (forall v v', isReset (trst t) v v' -> isReset (trst u) v v')
     /\ forall v, gsat (tgrd t) v -> gsat (tgrd u) v).
Proof.
  induction ts as [|t ts IH]; intro red; cbn [fold_left]; cbv zeta.
  - split; [auto|]. split; [auto|intros t []].
  - match goal with |- context [fold_left ?f ts ?r] => set (red' := r); destruct (IH red') as (H1 & H2 & H3) end.
    cbv zeta in H1, H2, H3.
    assert (Sub : forall u, In u red -> In u red') by (subst red'; intros u I; destruct (existsb _ red); auto; apply in_or_app; auto).
    assert (Inv : forall u, In u red' -> In u red \/ u = t).
    { subst red'. intros u I. destruct (existsb _ red); auto. apply in_app_or in I. destruct I as [I|[I|[]]]; auto. }
    split; [|split].
    + intros u I. destruct (H1 u I) as [K|K]; [|right; right; auto]. destruct (Inv u K) as [J| ->]; [auto|right; left; reflexivity].
    + auto.
    + intros u [<-|I]; [|auto]. subst red'.
      destruct (existsb _ red) eqn:E.
      * apply existsb_exists in E. destruct E as (an & I & E). rewrite !andb_true_iff in E. destruct E as [[E1 E2] E3].
        apply Nat.eqb_eq in E1. exists an. split; [apply H2; auto|]. split; [auto|]. split.
        -- intros v v'. apply resets_eqb_equiv; auto.
        -- intros v. apply isWeaker_sound; auto.
      * exists t. split; [apply H2; apply in_or_app; right; left; reflexivity|]. auto.
Qed.

Lemma simplifyTs_sub ts u : In u (simplifyTs ts) -> In u ts.
Proof. intro H. destruct (simplifyTs_spec ts []) as (H1 & _). destruct (H1 u H) as [[]|K]. exact K. Qed.
Lemma simplifyTs_cover ts t : In t ts -> exists u, In u (simplifyTs ts) /\ ttgt u = ttgt t /\ (forall v v', isReset (trst t) v v' -> isReset (trst u) v v')
     /\ forall v, gsat (tgrd t) v -> gsat (tgrd u) v.
Proof. destruct (simplifyTs_spec ts []) as (_ & _ & H). apply H. Qed.

(** any state-wise change of the transition lists that keeps a subset covering
    the original preserves the language and well-formedness *)
Definition coverTs (f : list trans -> list trans) : Prop := forall ts,
  (forall u, In u (f ts) -> In u ts) /\
  (forall t, In t ts -> exists u, In u (f ts) /\ ttgt u = ttgt t /\ (forall v v', isReset (trst t) v v' -> isReset (trst u) v v')
     /\ forall v, gsat (tgrd t) v -> gsat (tgrd u) v).

Lemma mapTs_acc f A l : accepting (mapStates (fun _ s => mkS (isMatch s) (mapNext f (snext s))) A) l <-> accepting A l.
Proof. rewrite mapStates_acc. cbn [isMatch]. reflexivity. Qed.
Lemma mapTs_edge f A l a t : edge (mapStates (fun _ s => mkS (isMatch s) (mapNext f (snext s))) A) l a t <->
  exists s ts, In (l, s) (tstates A) /\ In (a, ts) (snext s) /\ In t (f ts).
Proof.
  rewrite mapStates_edge. cbn [snext]. split.
  - intros (s & H & K). apply (mapNext_edge f) in K. destruct K as (ts & K1 & K2). exists s, ts. split; [exact H|split; [exact K1|exact K2]].
  - intros (s & ts & H & K1 & K2). exists s. split; auto. apply (mapNext_edge f). exists ts. auto.
Qed.
Lemma mapTs_wf f A : (forall ts u, In u (f ts) -> exists t, In t ts /\ ttgt t = ttgt u) -> wfTA A ->
  wfTA (mapStates (fun _ s => mkS (isMatch s) (mapNext f (snext s))) A).
Proof.
  intros Sub (W1 & W2 & W3 & W4). split; [|split; [|split]].
  - rewrite mapStates_fst. auto.
  - intros l s H. apply mapStates_in in H. destruct H as (s0 & H & ->). cbn [snext]. unfold mapNext. rewrite map_map. cbn [fst].
    apply (W2 l s0 H).
  - intros l a t H. rewrite mapStates_fst. apply (mapTs_edge f) in H. destruct H as (s & ts & H1 & H2 & H3).
    destruct (Sub _ _ H3) as (t' & I & <-). apply (W3 l a). exists s, ts. auto.
  - intros l H. rewrite mapStates_fst. apply W4. exact H.
Qed.
Lemma coverTs_lang f A : coverTs f -> sameLang (mapStates (fun _ s => mkS (isMatch s) (mapNext f (snext s))) A) A.
Proof.
  intros C d0 w. split.
  - apply (sim_id _ _ (fun _ => True) (fun _ => False)); [|intros l a t []|intros l []|intros l H; left; split; [exact H|exact I]|intros l _; apply mapTs_acc].
    intros l a t _ H. left. apply (mapTs_edge f) in H. destruct H as (s & ts & H1 & H2 & H3). exists t.
    split; [exists s, ts; split; [auto|split; [auto|apply (C ts); auto]]|]. auto.
  - apply (sim_id _ _ (fun _ => True) (fun _ => False)); [|intros l a t []|intros l []|intros l H; left; split; [exact H|exact I]|intros l _; apply mapTs_acc].
    intros l a t _ (s & ts & H1 & H2 & H3). left. destruct (proj2 (C ts) t H3) as (u & I & E & R & G).
    exists u. split; [apply (mapTs_edge f); exists s, ts; auto|]. auto.
Qed.
Lemma simplifyTransitions_lang A : sameLang (simplifyTransitions A) A.
Proof. apply coverTs_lang. intro ts. split; [apply simplifyTs_sub|apply simplifyTs_cover]. Qed.
Lemma simplifyTransitions_wf A : wfTA A -> wfTA (simplifyTransitions A).
Proof. apply mapTs_wf. intros ts u H. exists u. split; [apply simplifyTs_sub; auto|reflexivity]. Qed.

(** ** work-list search *)
Fixpoint unseen (U seen : list loc) : nat :=
  match U with [] => 0 | x :: r => (if memb x seen then 0 else 1) + unseen r seen end%nat.
Lemma memb_app x a b : memb x (a ++ b) = memb x a || memb x b.
Proof. unfold memb. apply existsb_app. Qed.
Lemma unseen_mono U : forall s x, (unseen U (s ++ [x]) <= unseen U s)%nat.
Proof.
  induction U as [|y U IH]; intros s x; cbn [unseen]; auto. specialize (IH s x). rewrite memb_app.
  destruct (memb y s); cbn [orb]; [lia|]. destruct (memb y [x]); lia.
Qed.
Lemma unseen_dec U : forall s x, In x U -> memb x s = false -> (S (unseen U (s ++ [x])) <= unseen U s)%nat.
Proof.
  induction U as [|y U IH]; intros s x H M; [destruct H|]. cbn [unseen]. rewrite memb_app. destruct H as [->|H].
  - rewrite M. cbn [orb]. assert (E : memb x [x] = true) by (apply memb_in; left; reflexivity). rewrite E.
    assert (K := unseen_mono U s x). lia.
  - specialize (IH s x H M). destruct (memb y s); cbn [orb]; [lia|]. destruct (memb y [x]); lia.
Qed.

Lemma insertNew_fold U ls : forall seen q seen' q', fold_left insertNew ls (seen, q) = (seen', q') -> incl ls U ->
  (forall x, In x seen' <-> In x seen \/ In x ls) /\
  (forall x, In x q -> In x q') /\ (forall x, In x seen' -> In x seen \/ In x q') /\
  (forall x, In x q' -> In x q \/ In x ls) /\
  (NoDup seen -> NoDup seen') /\
  (length q' + unseen U seen' <= length q + unseen U seen)%nat.
Proof.
  induction ls as [|l ls IH]; intros seen q seen' q' H HU; cbn [fold_left] in H.
  - injection H as <- <-. split; [intro; cbn; tauto|]. repeat split; auto.
  - assert (HU' : incl ls U) by (intros x I; apply HU; right; auto).
    unfold insertNew in H at 2. destruct (memb l seen) eqn:M.
    + destruct (IH _ _ _ _ H HU') as (H1 & H2 & H3 & H4 & H5 & H6).
      split; [|split; [auto|split; [auto|split; [|split; auto]]]].
      * intro x. rewrite H1. cbn [In]. apply memb_in in M. split; [tauto|]. intros [K|[<-|K]]; auto.
      * intros x I. destruct (H4 x I); cbn; auto.
    + destruct (IH _ _ _ _ H HU') as (H1 & H2 & H3 & H4 & H5 & H6).
      split; [|split; [|split; [|split; [|split]]]].
      * intro x. rewrite H1, in_app_iff. cbn [In]. tauto.
      * intros x I. apply H2. apply in_or_app; auto.
      * intros x I. destruct (H3 x I) as [K|K]; [|auto]. apply in_app_or in K. destruct K as [K|[<-|[]]]; auto.
        right. apply H2. apply in_or_app. right; left; reflexivity.
      * intros x I. destruct (H4 x I) as [K|K]; [|cbn; auto]. apply in_app_or in K. destruct K as [K|[<-|[]]]; cbn; auto.
      * intro ND. apply H5. apply NoDup_rev in ND. rewrite <- (rev_involutive seen). rewrite <- (rev_involutive seen) in M.
        revert ND M. generalize (rev seen). intros rs ND M.
        assert (E : rev rs ++ [l] = rev (l :: rs)) by reflexivity. rewrite E. apply NoDup_rev. constructor; auto.
        intro K. assert (M' : memb l (rev rs) = true) by (apply memb_in; apply -> in_rev; auto). congruence.
      * rewrite app_length in H6. cbn [length] in H6. assert (K := unseen_dec U seen l (HU l (or_introl eq_refl)) M). lia.
Qed.

(** reachable in the graph [next] from a list *)
Inductive greach (next : loc -> list loc) (start : list loc) : loc -> Prop :=
| gr_start l : In l start -> greach next start l
| gr_step l l' : greach next start l -> In l' (next l) -> greach next start l'.

Lemma search_spec (next : loc -> list loc) U : (forall l, incl (next l) U) ->
  forall fuel seen q, (length q + unseen U seen <= fuel)%nat -> incl q seen ->
    (forall l, In l seen -> In l q \/ incl (next l) seen) ->
    let res := search fuel next seen q in
    incl seen res /\ (forall l, In l res -> incl (next l) res) /\
    (NoDup seen -> NoDup res) /\ (forall l, In l res -> greach next seen l).
Proof.
  intros HU. induction fuel as [|fuel IH]; intros seen q Hf Hq Hc; cbv zeta.
  - destruct q as [|x q]; [|cbn in Hf; lia]. cbn [search]. split; [apply incl_refl|]. split; [|split; [auto|intros l H; constructor; auto]].
    intros l H. destruct (Hc l H) as [[]|K]; auto.
  - cbn [search]. destruct q as [|x q].
    + split; [apply incl_refl|]. split; [|split; [auto|intros l H; constructor; auto]]. intros l H. destruct (Hc l H) as [[]|K]; auto.
    + destruct (fold_left insertNew (next x) (seen, q)) as [seen' q'] eqn:E.
      destruct (insertNew_fold U _ _ _ _ _ E (HU x)) as (H1 & H2 & H3 & H4 & H5 & H6).
      destruct (IH seen' q') as (K1 & K2 & K3 & K4).
      * cbn [length] in Hf. lia.
      * intros y I. destruct (H4 y I) as [J|J]; apply H1; [left; apply Hq; right; auto|auto].
      * intros l I. destruct (H3 l I) as [J|J]; [|auto].
        destruct (Hc l J) as [[<-|K]|K]; [right; intros y Iy; apply H1; auto|left; auto|right; intros y Iy; apply H1; auto].
      * split; [intros y I; apply K1, H1; auto|]. split; [auto|]. split; [auto|].
        intros l I. assert (G := K4 l I). clear -G H1 Hq. induction G as [l I|l l' G IH I].
        -- apply H1 in I. destruct I as [I|I]; [constructor; auto|]. eapply gr_step; [apply gr_start; apply (Hq x); left; reflexivity|auto].
        -- eapply gr_step; eauto.
Qed.

Lemma unseen_le U s : (unseen U s <= length U)%nat.
Proof. induction U as [|x U IH]; cbn; auto. destruct (memb x s); lia. Qed.

(** ** reachable states *)
Lemma succs_iff s l : In l (succs s) <-> exists a t, nedge (snext s) a t /\ ttgt t = l.
Proof.
  unfold succs. rewrite in_flat_map. split.
  - intros ([a ts] & H & K). apply in_map_iff in K. destruct K as (t & E & K). exists a, t. split; auto. exists ts. auto.
  - intros (a & t & (ts & H & K) & E). exists (a, ts). split; auto. apply in_map_iff. exists t. auto.
Qed.
Lemma succsOf_iff A l l' : NoDup (map fst (tstates A)) -> (In l' (succsOf A l) <-> exists a t, edge A l a t /\ ttgt t = l').
Proof.
  intro ND. unfold succsOf. destruct (lookup A l) as [s|] eqn:E.
  - apply lookup_some in E. rewrite succs_iff. split.
    + intros (a & t & H & K). exists a, t. split; auto. apply edge_nedge. eauto.
    + intros (a & t & H & K). exists a, t. split; auto. apply edge_nedge in H. destruct H as (s' & H & H').
      assert (s' = s) by (apply (in_unique (tstates A) l); auto). subst; auto.
  - split; [intros []|]. intros (a & t & (s & ts & H & _) & _). exact (lookup_none _ _ E s H).
Qed.

Section Reach.
Variable A : ta.
Hypothesis W : wfTA A.
Let r := reachableStates A.

Lemma reach_spec : incl (tinit A) r /\ (forall l a t, In l r -> edge A l a t -> In (ttgt t) r) /\ NoDup r /\ (forall l, In l r -> areach A l).
Proof.
  destruct W as (W1 & _). unfold r, reachableStates.
  destruct (fold_left insertNew (tinit A) ([], [])) as [s0 q0] eqn:E.
  destruct (insertNew_fold (tinit A) _ _ _ _ _ E (incl_refl _)) as (H1 & _ & _ & _ & H5 & _). cbn [fst].
  set (U := flat_map (fun p => succs (snd p)) (tstates A)).
  assert (HU : forall l, incl (succsOf A l) U).
  { intros l x I. unfold succsOf in I. destruct (lookup A l) as [s|] eqn:El; [|destruct I].
    apply lookup_some in El. apply in_flat_map. exists (l, s). auto. }
  destruct (search_spec (succsOf A) U HU (searchFuel A) s0 (tinit A)) as (K1 & K2 & K3 & K4).
  - unfold searchFuel. fold U. assert (K := unseen_le U s0). lia.
  - intros x I. apply H1. auto.
  - intros l I. apply H1 in I. destruct I as [[]|I]; auto.
  - split; [intros x I; apply K1, H1; auto|]. split; [|split; [apply K3, H5; constructor|]].
    + intros l a t I He. apply (K2 l I). apply succsOf_iff; auto. eauto.
    + intros l I. apply K4 in I. induction I as [l I|l l' G IH I].
      * apply H1 in I. destruct I as [[]|I]. constructor; auto.
      * apply succsOf_iff in I; auto. destruct I as (a & t & He & <-). eapply ar_step; eauto.
Qed.

Let B := removeTriviallyUnreachableStates A.
Lemma unreach_cases : (B = A /\ length r = length (tstates A)) \/
  (tinit B = tinit A /\ tstates B = filter (fun p => memb (fst p) r) (tstates A)).
Proof.
  unfold B, removeTriviallyUnreachableStates. fold r. destruct (Nat.eqb (length r) (length (tstates A))) eqn:E; [left|right]; auto.
  apply Nat.eqb_eq in E. auto.
Qed.
Lemma filter_states_edge (f : loc * tastate -> bool) C D l a t : tstates C = filter f (tstates D) ->
  (edge C l a t <-> exists s ts, In (l, s) (tstates D) /\ f (l, s) = true /\ In (a, ts) (snext s) /\ In t ts).
Proof.
  intro E. unfold edge. rewrite E. split.
  - intros (s & ts & H & K). apply filter_In in H. destruct H. exists s, ts. tauto.
  - intros (s & ts & H & F & K). exists s, ts. split; [apply filter_In; auto|auto].
Qed.
Lemma nodup_filter_fst {X} (f : nat * X -> bool) (l : list (nat * X)) : NoDup (map fst l) -> NoDup (map fst (filter f l)).
Proof.
  induction l as [|p l IH]; cbn; intro ND; [constructor|]. inversion ND; subst. destruct (f p); cbn; auto.
  constructor; auto. intro K. apply H1. apply in_map_iff in K. destruct K as (q & E & K). apply filter_In in K.
  apply in_map_iff. exists q. tauto.
Qed.

Lemma unreach_lang : sameLang B A.
Proof.
  destruct reach_spec as (R1 & R2 & R3 & R4).
  destruct unreach_cases as [[-> _]|[Ei Es]]; [apply sameLang_refl|]. intros d0 w. split.
  - apply (sim_id _ _ (fun _ => True) (fun _ => False)); [|intros l a t []|intros l []| |].
    + intros l a t _ H. left. apply (filter_states_edge _ B A l a t Es) in H. destruct H as (s & ts & H1 & _ & H2 & H3).
      exists t. split; [exists s, ts; auto|auto].
    + intros l H. left. rewrite Ei in H. auto.
    + intros l _ (s & H & M). rewrite Es in H. apply filter_In in H. exists s. tauto.
  - apply (sim_id _ _ (fun l => In l r) (fun _ => False)); [|intros l a t []|intros l []| |].
    + intros l a t Hl H. left. exists t. split.
      * apply (filter_states_edge _ B A l a t Es). destruct H as (s & ts & H1 & H2 & H3). exists s, ts.
        split; [auto|]. split; [cbn [fst]; apply memb_in; auto|auto].
      * split; [reflexivity|]. split; [auto|]. split; [auto|]. eapply R2; eauto.
    + intros l H. left. rewrite Ei. auto.
    + intros l Hl (s & H & M). exists s. split; auto. rewrite Es. apply filter_In. split; auto. cbn [fst]. apply memb_in; auto.
Qed.
Lemma unreach_wf : wfTA B.
Proof.
  destruct reach_spec as (R1 & R2 & R3 & R4). destruct unreach_cases as [[-> _]|[Ei Es]]; [exact W|].
  destruct W as (W1 & W2 & W3 & W4).
  assert (Hin : forall l, In l (map fst (tstates B)) <-> In l (map fst (tstates A)) /\ In l r).
  { intro l. rewrite !in_fst, Es. split.
    - intros (s & H). apply filter_In in H. cbn [fst] in H. rewrite memb_in in H. destruct H. split; [exists s|]; auto.
    - intros ((s & H) & K). exists s. apply filter_In. cbn [fst]. rewrite memb_in. auto. }
  split; [|split; [|split]].
  - rewrite Es. apply nodup_filter_fst, W1.
  - intros l s H. rewrite Es in H. apply filter_In in H. apply (W2 l s). tauto.
  - intros l a t H. apply Hin. apply (filter_states_edge _ B A l a t Es) in H. destruct H as (s & ts & H1 & F & H2 & H3).
    assert (He : edge A l a t) by (exists s, ts; auto). cbn [fst] in F. apply memb_in in F. split; [eapply W3; eauto|eapply R2; eauto].
  - intros l H. rewrite Ei in H. apply Hin. auto.
Qed.
(** only reachable states are left *)
Lemma areach_in l : areach A l -> In l (map fst (tstates A)).
Proof. destruct W as (_ & _ & W3 & W4). induction 1; eauto. Qed.
Lemma unreach_all l : In l (map fst (tstates B)) <-> areach A l.
Proof.
  destruct reach_spec as (R1 & R2 & R3 & R4).
  assert (Rr : forall l, areach A l -> In l r) by (induction 1; eauto).
  destruct unreach_cases as [[E Len]|[Ei Es]].
  - rewrite E. split; [|apply areach_in]. intro H. apply R4.
    apply (NoDup_length_incl R3 (l' := map fst (tstates A))); [rewrite map_length; lia| |exact H].
    intros x I. apply areach_in, R4, I.
  - rewrite Es, in_fst. split.
    + intros (s & H). apply filter_In in H. destruct H as [_ H]. cbn [fst] in H. apply memb_in in H. auto.
    + intro H. assert (K := areach_in l H). apply in_fst in K. destruct K as (s & K). exists s. apply filter_In. split; auto.
      cbn [fst]. apply memb_in. auto.
Qed.
End Reach.

(** ** dead loops *)
Section DeadLoop.
Variable A : ta.
Hypothesis W : wfTA A.
Let isDead (l : loc) (s : tastate) := negb (isMatch s) && negb (memb l (tinit A)) && onlySelf l s.
Let dead (l : loc) : Prop := exists s, In (l, s) (tstates A) /\ isDead l s = true.
Lemma onlySelf_spec l s : onlySelf l s = true <-> forall a t, nedge (snext s) a t -> ttgt t = l.
Proof.
  unfold onlySelf. rewrite forallb_forall. split.
  - intros H a t K. symmetry. apply Nat.eqb_eq. apply H. apply succs_iff. eauto.
  - intros H x I. apply succs_iff in I. destruct I as (a & t & K & <-). apply Nat.eqb_eq. symmetry. eauto.
Qed.
Lemma dead_dec l : dead l \/ ~ dead l.
Proof.
  destruct (existsb (fun p => Nat.eqb (fst p) l && isDead (fst p) (snd p)) (tstates A)) eqn:E.
  - left. apply existsb_exists in E. destruct E as ([l' s] & H & K). apply andb_true_iff in K. destruct K as [K1 K2].
    cbn [fst snd] in *. apply Nat.eqb_eq in K1. subst. exists s. auto.
  - right. intros (s & H & K). assert (existsb (fun p => Nat.eqb (fst p) l && isDead (fst p) (snd p)) (tstates A) = true) as X; [|congruence].
    apply existsb_exists. exists (l, s). split; auto. cbn [fst snd]. rewrite Nat.eqb_refl, K. reflexivity.
Qed.
Let B := removeDeadLoop A.
Lemma deadLoop_edge l a t : edge B l a t <-> edge A l a t /\ ~ dead l.
Proof.
  destruct W as (W1 & _). unfold B, removeDeadLoop. rewrite mapStates_edge. rewrite edge_nedge. split.
  - intros (s & H & K). destruct (negb (isMatch s) && negb (memb l (tinit A)) && onlySelf l s) eqn:E.
    + destruct K as (ts & [] & _).
    + split; [eauto|]. intros (s' & H' & D). assert (s' = s) by (apply (in_unique (tstates A) l); auto). subst. unfold isDead in D. congruence.
  - intros ((s & H & K) & D). exists s. split; auto. destruct (negb (isMatch s) && negb (memb l (tinit A)) && onlySelf l s) eqn:E; auto.
    exfalso. apply D. exists s. auto.
Qed.
Lemma deadLoop_acc l : accepting B l <-> accepting A l.
Proof.
  unfold B, removeDeadLoop. rewrite mapStates_acc. unfold accepting.
  split; intros (s & H & M); exists s; (split; [auto|]); destruct (_ && _ && _); auto.
Qed.
Lemma deadLoop_lang : sameLang B A.
Proof.
  destruct W as (W1 & _ & _ & W4). intros d0 w. split.
  - apply (sim_id _ _ (fun _ => True) (fun _ => False)); [|intros l a t []|intros l []| |].
    + intros l a t _ H. left. apply deadLoop_edge in H. exists t. split; [tauto|auto].
    + intros l H. left. split; [exact H|exact I].
    + intros l _. apply deadLoop_acc.
  - apply (sim_id _ _ (fun l => ~ dead l) dead).
    + intros l a t Hl H. destruct (dead_dec (ttgt t)) as [D|D]; [right; exact D|left]. exists t.
      split; [apply deadLoop_edge; auto|auto].
    + intros l a t (s & H & D) He. apply edge_nedge in He. destruct He as (s' & H' & K).
      assert (s' = s) by (apply (in_unique (tstates A) l); auto). subst. unfold isDead in D. rewrite !andb_true_iff in D.
      destruct D as [[D1 D2] D3]. rewrite (proj1 (onlySelf_spec l s) D3 a t K). exists s. split; auto. unfold isDead.
      rewrite D1, D2, D3. reflexivity.
    + intros l (s & H & D) (s' & H' & M). assert (s' = s) by (apply (in_unique (tstates A) l); auto). subst.
      unfold isDead in D. rewrite M in D. discriminate.
    + intros l H. left. split; [exact H|]. intros (s & _ & D). unfold isDead in D. rewrite !andb_true_iff in D. destruct D as [[_ D] _].
      apply memb_in in H. rewrite H in D. discriminate.
    + intros l _. apply deadLoop_acc.
Qed.
Lemma deadLoop_wf : wfTA B.
Proof.
  assert (W' := W). destruct W' as (W1 & W2 & W3 & W4). split; [|split; [|split]].
  - unfold B, removeDeadLoop. rewrite mapStates_fst. auto.
  - intros l s H. unfold B, removeDeadLoop in H. apply mapStates_in in H. destruct H as (s0 & H & ->).
    destruct (_ && _ && _); [constructor|eauto].
  - intros l a t H. apply deadLoop_edge in H. unfold B, removeDeadLoop. rewrite mapStates_fst. apply (W3 l a t). tauto.
  - intros l H. unfold B, removeDeadLoop. rewrite mapStates_fst. apply W4. exact H.
Qed.
End DeadLoop.

(** ** dead states *)
Lemma eraseTo_nodup keep nx : NoDup (map fst nx) -> NoDup (map fst (eraseTo keep nx)).
Proof.
  intro ND. unfold eraseTo. apply (nodup_filter_fst (X := list trans)). unfold mapNext. rewrite map_map. cbn [fst]. exact ND.
Qed.

(** removing a set of states together with the transitions into it *)
Section Remove.
Variables (A B : ta) (keep : loc -> bool).
Hypothesis (W : wfTA A).
Hypothesis Es : tstates B = map (fun p => (fst p, mkS (isMatch (snd p)) (eraseTo keep (snext (snd p)))))
                 (filter (fun p => keep (fst p)) (tstates A)).
Hypothesis Ei : tinit B = filter keep (tinit A).
Hypothesis Hdead : forall l a t, keep l = false -> edge A l a t -> keep (ttgt t) = false.
Hypothesis Hacc : forall l, accepting A l -> keep l = true.

Lemma rm_in l s : In (l, s) (tstates B) <-> exists s0, In (l, s0) (tstates A) /\ keep l = true /\ s = mkS (isMatch s0) (eraseTo keep (snext s0)).
Proof.
  rewrite Es, in_map_iff. split.
  - intros ([l0 s0] & E & H). apply filter_In in H. cbn [fst snd] in *. injection E as <- <-. exists s0. tauto.
  - intros (s0 & H & K & ->). exists (l, s0). split; auto. apply filter_In. auto.
Qed.
Lemma rm_edge l a t : edge B l a t <-> edge A l a t /\ keep l = true /\ keep (ttgt t) = true.
Proof.
  rewrite !edge_nedge. split.
  - intros (s & H & K). apply rm_in in H. destruct H as (s0 & H & E & ->). cbn [snext] in K. apply eraseTo_edge in K.
    split; [exists s0; tauto|tauto].
  - intros ((s & H & K) & E & E'). exists (mkS (isMatch s) (eraseTo keep (snext s))). split; [apply rm_in; eauto|].
    cbn [snext]. apply eraseTo_edge. auto.
Qed.
Lemma rm_acc l : accepting B l <-> accepting A l.
Proof.
  split.
  - intros (s & H & M). apply rm_in in H. destruct H as (s0 & H & E & ->). exists s0. auto.
  - intros K. assert (E := Hacc l K). destruct K as (s & H & M). exists (mkS (isMatch s) (eraseTo keep (snext s))).
    split; [apply rm_in; eauto|exact M].
Qed.
Lemma rm_lang : sameLang B A.
Proof.
  intros d0 w. split.
  - apply (sim_id _ _ (fun _ => True) (fun _ => False)); [|intros l a t []|intros l []| |].
    + intros l a t _ H. left. apply rm_edge in H. exists t. split; [tauto|auto].
    + intros l H. rewrite Ei in H. apply filter_In in H. left. split; [tauto|exact I].
    + intros l _. apply rm_acc.
  - apply (sim_id _ _ (fun l => keep l = true) (fun l => keep l = false)).
    + intros l a t Hl H. destruct (keep (ttgt t)) eqn:E; [left|right; auto]. exists t. split; [apply rm_edge; auto|auto].
    + exact Hdead.
    + intros l H K. apply Hacc in K. congruence.
    + intros l H. destruct (keep l) eqn:E; [left|right; auto]. split; auto. rewrite Ei. apply filter_In. auto.
    + intros l _. apply rm_acc.
Qed.
Lemma rm_fst : map fst (tstates B) = filter keep (map fst (tstates A)).
Proof.
  rewrite Es, map_map. cbn [fst]. generalize (tstates A). intro ls. induction ls as [|p ls IH]; cbn [map filter]; auto.
  destruct (keep (fst p)); cbn [map]; rewrite IH; reflexivity.
Qed.
Lemma rm_wf : wfTA B.
Proof.
  destruct W as (W1 & W2 & W3 & W4). split; [|split; [|split]].
  - rewrite rm_fst. apply NoDup_filter, W1.
  - intros l s H. apply rm_in in H. destruct H as (s0 & H & _ & ->). cbn [snext]. apply eraseTo_nodup, (W2 l s0 H).
  - intros l a t H. apply rm_edge in H. rewrite rm_fst. apply filter_In. split; [apply (W3 l a t)|]; tauto.
  - intros l H. rewrite Ei in H. apply filter_In in H. rewrite rm_fst. apply filter_In. split; [apply W4|]; tauto.
Qed.
End Remove.

Lemma predsOf_iff A l l' : In l' (predsOf A l) <-> exists a t, edge A l' a t /\ ttgt t = l.
Proof.
  unfold predsOf. rewrite in_map_iff. split.
  - intros ([x s] & E & H). cbn [fst] in E. subst x. apply filter_In in H. destruct H as [H K]. cbn [snd] in K.
    apply memb_in, succs_iff in K. destruct K as (a & t & K & <-). exists a, t. split; auto. apply edge_nedge. eauto.
  - intros (a & t & H & <-). apply edge_nedge in H. destruct H as (s & H & K). exists (l', s). split; auto.
    apply filter_In. split; auto. cbn [snd]. apply memb_in, succs_iff. eauto.
Qed.

Section Dead.
Variable A : ta.
Hypothesis W : wfTA A.
Let live := liveStates A.
Lemma live_spec : (forall l, accepting A l -> In l live) /\ (forall l a t, edge A l a t -> In (ttgt t) live -> In l live)
  /\ NoDup live /\ (forall l, In l live -> alive A l).
Proof.
  destruct W as (W1 & _). unfold live, liveStates. set (acc := map fst (filter (fun p => isMatch (snd p)) (tstates A))).
  assert (Hacc : forall l, In l acc <-> accepting A l).
  { intro l. unfold acc. rewrite in_fst. split; intros (s & H); exists s; [apply filter_In in H; tauto|apply filter_In; tauto]. }
  destruct (search_spec (predsOf A) (map fst (tstates A))) with (fuel := (length (tstates A) + length acc + 1)%nat) (seen := acc) (q := acc)
    as (K1 & K2 & K3 & K4).
  - intros l x I. apply predsOf_iff in I. destruct I as (a & t & (s & ts & H & _) & _). apply in_fst. eauto.
  - assert (K := unseen_le (map fst (tstates A)) acc). rewrite map_length in K. lia.
  - apply incl_refl.
  - auto.
  - split; [intros l H; apply K1, Hacc, H|]. split; [|split].
    + intros l a t H I. apply (K2 _ I). apply predsOf_iff. eauto.
    + apply K3. unfold acc. apply nodup_filter_fst, W1.
    + intros l I. apply K4 in I. induction I as [l I|l l' G IH I].
      * constructor. apply Hacc, I.
      * apply predsOf_iff in I. destruct I as (a & t & He & <-). eapply al_step; eauto.
Qed.
Lemma alive_live l : alive A l <-> In l live.
Proof. destruct live_spec as (L1 & L2 & L3 & L4). split; [|auto]. induction 1; eauto. Qed.
Lemma alive_in l : alive A l -> In l (map fst (tstates A)).
Proof.
  intros H. destruct H as [l (s & H & _)|l a t (s & ts & H & _) _]; apply in_fst; eauto.
Qed.

Let B := removeTriviallyDeadStates A.
Lemma deadStates_cases : (B = A /\ length live = length (tstates A)) \/
  (tstates B = map (fun p => (fst p, mkS (isMatch (snd p)) (eraseTo (fun t => memb t live) (snext (snd p)))))
                 (filter (fun p => memb (fst p) live) (tstates A)) /\ tinit B = filter (fun l => memb l live) (tinit A)).
Proof.
  unfold B, removeTriviallyDeadStates. fold live. destruct (Nat.eqb (length live) (length (tstates A))) eqn:E; [left|right]; auto.
  apply Nat.eqb_eq in E. auto.
Qed.
Lemma deadStates_ok : sameLang B A /\ wfTA B /\ (forall l, In l (map fst (tstates B)) <-> alive A l).
Proof.
  destruct live_spec as (L1 & L2 & L3 & L4).
  destruct deadStates_cases as [[-> Len]|[Es Ei]].
  - split; [apply sameLang_refl|]. split; [exact W|]. intro l. split; [|apply alive_in]. intro H. apply L4.
    apply (NoDup_length_incl L3 (l' := map fst (tstates A))); [rewrite map_length; lia| |exact H].
    intros x I. apply alive_in, L4, I.
  - assert (Hd : forall l a t, memb l live = false -> edge A l a t -> memb (ttgt t) live = false).
    { intros l a t H He. destruct (memb (ttgt t) live) eqn:E; auto. apply memb_in in E. assert (K := L2 l a t He E). apply memb_in in K. congruence. }
    assert (Ha : forall l, accepting A l -> memb l live = true) by (intros l H; apply memb_in; auto).
    split; [|split].
    + apply (rm_lang A B (fun l => memb l live)); auto.
    + apply (rm_wf A B (fun l => memb l live)); auto.
    + intro l. rewrite (rm_fst A B (fun l => memb l live) Es), filter_In, memb_in. split; [intros [_ H]; auto|].
      intro H. split; [apply alive_in; auto|apply alive_live; auto].
Qed.
End Dead.

(** ** useless states *)
Lemma useless1_ok A l : wfTA A -> ~ accepting A l ->
  sameLang (removeUseless1 A l) A /\ wfTA (removeUseless1 A l) /\ (forall l', accepting (removeUseless1 A l) l' <-> accepting A l').
Proof.
  intros W Na. unfold removeUseless1. destruct (memb l (tinit A)) eqn:Mi; [split; [apply sameLang_refl|split; [auto|reflexivity]]|].
  destruct (lookup A l) as [s|] eqn:El; [|split; [apply sameLang_refl|split; [auto|reflexivity]]].
  destruct (onlySelf l s) eqn:O; [|split; [apply sameLang_refl|split; [auto|reflexivity]]].
  apply lookup_some in El. assert (W1 := proj1 W).
  match goal with |- sameLang ?b _ /\ _ => set (B := b) end.
  set (keep := fun t => negb (Nat.eqb t l)).
  assert (Es : tstates B = map (fun p => (fst p, mkS (isMatch (snd p)) (eraseTo keep (snext (snd p)))))
                 (filter (fun p => keep (fst p)) (tstates A))) by reflexivity.
  assert (Ei : tinit B = filter keep (tinit A)).
  { unfold B. cbn [tinit]. symmetry. assert (K : ~ In l (tinit A)) by (intro K; apply memb_in in K; congruence).
    clear -K. induction (tinit A) as [|x r IH]; cbn [filter]; auto. unfold keep at 1. destruct (Nat.eqb x l) eqn:E.
    - apply Nat.eqb_eq in E. subst. exfalso. apply K. left; reflexivity.
    - cbn [negb]. rewrite IH; auto. intro; apply K; right; auto. }
  assert (Hd : forall l0 a t, keep l0 = false -> edge A l0 a t -> keep (ttgt t) = false).
  { intros l0 a t K He. unfold keep in *. apply negb_false_iff, Nat.eqb_eq in K. subst l0.
    apply edge_nedge in He. destruct He as (s' & H' & K'). assert (s' = s) by (apply (in_unique (tstates A) l); auto). subst s'.
    rewrite (proj1 (onlySelf_spec l s) O a t K'). rewrite Nat.eqb_refl. reflexivity. }
  assert (Ha : forall l0, accepting A l0 -> keep l0 = true).
  { intros l0 K. unfold keep. destruct (Nat.eqb l0 l) eqn:E; auto. apply Nat.eqb_eq in E. subst. contradiction. }
  split; [apply (rm_lang A B keep); auto|]. split; [apply (rm_wf A B keep); auto|]. apply (rm_acc A B keep); auto.
Qed.
Lemma useless_fold ls : forall A, wfTA A -> (forall l, In l ls -> ~ accepting A l) ->
  sameLang (fold_left removeUseless1 ls A) A /\ wfTA (fold_left removeUseless1 ls A).
Proof.
  induction ls as [|l ls IH]; intros A W H; cbn [fold_left]; [split; [apply sameLang_refl|auto]|].
  destruct (useless1_ok A l W (H l (or_introl eq_refl))) as (S1 & W1 & A1).
  destruct (IH (removeUseless1 A l) W1) as [S2 W2].
  { intros l' I K. apply A1 in K. apply (H l'); [right; auto|auto]. }
  split; auto. eapply sameLang_trans; eauto.
Qed.
Lemma useless_ok A : wfTA A -> sameLang (removeUselessTransitions A) A /\ wfTA (removeUselessTransitions A).
Proof.
  intro W. apply useless_fold; auto. intros l H (s & H' & M). apply in_map_iff in H. destruct H as ([x s0] & E & H). cbn [fst] in E. subst x.
  apply filter_In in H. destruct H as [H K]. cbn [snd] in K. assert (s = s0) by (apply (in_unique (tstates A) l); [apply W|auto|auto]). subst.
  rewrite M in K. discriminate.
Qed.
