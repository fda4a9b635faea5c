(** Determinism, composition of resets, and the runner. *)
From Coq Require Import QArith ZArith Bool List Arith Lia Lqa.
From Verif Require Import BoundsModel ConstraintModel GuardSpec ZoneModel AutomatonModel AutomatonSpec.
From Verif Require Import BoundsProofs ConstraintProofs ConstraintProofs2 AutomatonProofs.
Import ListNotations.
Open Scope Q_scope.

(** ** determinism *)
Lemma gsat_app l r v : gsat (l ++ r) v <-> gsat l v /\ gsat r v.
Proof.
  unfold gsat. split.
  - intro H. split; intros k I; apply H, in_app_iff; auto.
  - intros [H K] k I. apply in_app_iff in I. destruct I; auto.
Qed.
Lemma smallConsts_app l r : smallConsts (l ++ r) <-> smallConsts l /\ smallConsts r.
Proof.
  unfold smallConsts. split.
  - intro H. split; intros k I; apply H, in_app_iff; auto.
  - intros [H K] k I. apply in_app_iff in I. destruct I; auto.
Qed.

Lemma in_firstn_nth {X} (l : list X) : forall j p, In p (firstn j l) <-> exists i, (i < j)%nat /\ nth_error l i = Some p.
Proof.
  induction l as [|x l IH]; intros j p.
  - rewrite firstn_nil. split; [intros []|]. intros (i & _ & H). destruct i; discriminate.
  - destruct j as [|j]; cbn [firstn In].
    + split; [intros []|]. intros (i & H & _). lia.
    + rewrite IH. split.
      * intros [->|(i & H & E)]; [exists 0%nat; split; [lia|reflexivity]|exists (S i); split; [lia|exact E]].
      * intros ([|i] & H & E); [left; cbn in E; congruence|right; exists i; split; [lia|exact E]].
Qed.

Lemma detTs_spec rest : forall prev, detTs prev rest = true <->
  forall j t, nth_error rest j = Some t -> forall p, In p (prev ++ firstn j rest) ->
    satisfiable (conjunction (tgrd p) (tgrd t)) = false.
Proof.
  induction rest as [|u r IH]; intro prev; cbn [detTs].
  - split; auto. intros _ [|j] t H; discriminate.
  - destruct (existsb _ prev) eqn:E.
    + split; [discriminate|]. intro H. apply existsb_exists in E. destruct E as (p & I & S).
      rewrite (H 0%nat u eq_refl p) in S; [discriminate|]. cbn. rewrite app_nil_r. auto.
    + rewrite IH. split.
      * intros H [|j] t Ht p I; cbn in Ht.
        -- injection Ht as <-. cbn in I. rewrite app_nil_r in I.
           destruct (satisfiable _) eqn:S; auto.
           enough (false = true) by discriminate. rewrite <- E. apply existsb_exists. exists p; auto.
        -- apply (H j t Ht). cbn [firstn] in I. rewrite <- app_assoc. exact I.
      * intros H j t Ht p I. apply (H (S j) t Ht p). cbn [firstn]. rewrite <- app_assoc in I. exact I.
Qed.

Lemma deterministic_exact A : smallTA A -> (deterministic A = true <-> detTA A).
Proof.
  intro SM. unfold deterministic, stDeterministic, detTA. rewrite forallb_forall. split.
  - intros H l s a ts Hs Ha i j ti tj v Lt Ei Ej Nn [Gi Gj].
    specialize (H (l, s) Hs). rewrite forallb_forall in H. specialize (H (a, ts) Ha). cbn in H.
    rewrite detTs_spec in H. specialize (H j tj Ej ti). cbn [app] in H.
    assert (I : In ti (firstn j ts)) by (apply in_firstn_nth; eauto).
    specialize (H I).
    assert (S : satisfiable (conjunction (tgrd ti) (tgrd tj)) = true); [|congruence].
    apply satisfiable_exact; [|exists v; split; auto; apply gsat_app; auto].
    apply smallConsts_app. split; apply (SM l a); exists s, ts; repeat split; auto; eapply nth_error_In; eauto.
  - intros H [l s] Hs. rewrite forallb_forall. intros [a ts] Ha. cbn. apply detTs_spec. intros j tj Ej ti I.
    cbn [app] in I. apply in_firstn_nth in I. destruct I as (i & Lt & Ei).
    destruct (satisfiable _) eqn:S; auto. exfalso.
    apply satisfiable_exact in S.
    + destruct S as (v & Nn & G). apply gsat_app in G. exact (H l s a ts Hs Ha i j ti tj v Lt Ei Ej Nn G).
    + apply smallConsts_app. split; apply (SM l a); exists s, ts; repeat split; auto; eapply nth_error_In; eauto.
Qed.

(** ** composition of resets *)
Definition rhsVal (v : valuation) (r : rhs) : Q := match r with RConst q => q | RVar y => v y end.
Definition mapVal (m : rmap) (v : valuation) (x : clock) : Q :=
  match rfind m x with Some r => rhsVal v r | None => v x end.

Lemma rfind_cons y r m x : rfind ((y, r) :: m) x = if Nat.eqb y x then Some r else rfind m x.
Proof. unfold rfind. cbn. destruct (Nat.eqb y x); reflexivity. Qed.
Lemma rset_find m : forall x r z, rfind (rset m x r) z = if Nat.eqb x z then Some r else rfind m z.
Proof.
  induction m as [|[y q] m IH]; intros x r z; cbn [rset].
  - rewrite rfind_cons. reflexivity.
  - destruct (Nat.eqb_spec y x) as [->|N]; rewrite ?rfind_cons.
    + destruct (Nat.eqb x z); reflexivity.
    + rewrite IH. destruct (Nat.eqb_spec y z) as [->|N']; auto.
      destruct (Nat.eqb_spec x z) as [->|]; [congruence|reflexivity].
Qed.
Lemma rset_keys m : forall x r z, In z (map fst (rset m x r)) <-> In z (map fst m) \/ z = x.
Proof.
  induction m as [|[y q] m IH]; intros x r z; cbn [rset].
  - cbn. intuition.
  - destruct (Nat.eqb_spec y x) as [->|N]; cbn [map fst In]; [intuition|]. rewrite IH. intuition.
Qed.
Lemma rset_nodup m x r : NoDup (map fst m) -> NoDup (map fst (rset m x r)).
Proof.
  induction m as [|[y q] m IH]; intro ND; cbn [rset].
  - repeat constructor; intros [].
  - inversion ND; subst. destruct (Nat.eqb_spec y x) as [->|N]; [exact ND|].
    cbn [map fst]. constructor; [|auto]. rewrite rset_keys. intros [K|K]; auto.
Qed.

Lemma asMap_nodup rs : NoDup (map fst (asMap rs)).
Proof.
  unfold asMap. assert (G : forall m, NoDup (map fst m) -> NoDup (map fst (fold_left (fun m (p : clock * rhs) => rset m (fst p) (snd p)) rs m))).
  - induction rs as [|p rs IH]; intros m H; cbn [fold_left]; auto. apply IH. apply rset_nodup; auto.
  - apply G. constructor.
Qed.

Lemma applyReset_asMap rs v x : applyReset v rs x = mapVal (asMap rs) v x.
Proof.
  unfold applyReset, asMap.
  assert (G : forall acc m, (forall z, acc z = mapVal m v z) ->
    fold_left (applyReset1 v) rs acc x = mapVal (fold_left (fun m (p : clock * rhs) => rset m (fst p) (snd p)) rs m) v x).
  - induction rs as [|[y r] rs IH]; intros acc m E; cbn [fold_left]; [apply E|]. apply IH.
    intro z. unfold applyReset1, mapVal. cbn [fst snd]. rewrite rset_find. rewrite (Nat.eqb_sym z y).
    destruct (Nat.eqb y z); [destruct r; reflexivity|]. rewrite E. reflexivity.
  - apply G. intro z. reflexivity.
Qed.

Lemma rfind_in m x r : NoDup (map fst m) -> (rfind m x = Some r <-> In (x, r) m).
Proof.
  intro ND. unfold rfind. split.
  - destruct (find (fun p => Nat.eqb (fst p) x) m) as [[y q]|] eqn:E; [|discriminate].
    intro H; injection H as <-. apply (find_key m x) in E. destruct E as [E K]; cbn in K; subst; auto.
  - intro H. rewrite (find_key_nodup m x r ND H). reflexivity.
Qed.
Lemma rfind_none m x : rfind m x = None <-> ~ In x (map fst m).
Proof.
  induction m as [|[y r] m IH].
  - cbn. split; auto.
  - rewrite rfind_cons. cbn [map fst In]. destruct (Nat.eqb_spec y x) as [->|N].
    + split; [discriminate|intros H; exfalso; apply H; auto].
    + rewrite IH. intuition.
Qed.
Lemma rfind_app m1 m2 x : rfind (m1 ++ m2) x = match rfind m1 x with Some r => Some r | None => rfind m2 x end.
Proof.
  induction m1 as [|[y r] m1 IH]; [reflexivity|]. cbn [app]. rewrite !rfind_cons, IH. destruct (Nat.eqb y x); reflexivity.
Qed.

(** on a list without duplicated keys the map is the list *)
Lemma nodup_mapVal rs v x : NoDup (map fst rs) -> applyReset v rs x = mapVal rs v x.
Proof.
  intro ND. unfold mapVal. destruct (rfind rs x) as [r|] eqn:E.
  - apply rfind_in in E; auto. 
    unfold applyReset. assert (G : forall acc, fold_left (applyReset1 v) rs acc x = rhsVal v r); [|apply G].
    revert ND E. induction rs as [|[y q] rs IH]; intros ND E acc; [destruct E|].
    inversion ND; subst. cbn [fold_left]. destruct E as [E|E].
    + injection E as -> ->. rewrite applyReset_out; auto. unfold applyReset1. cbn [fst snd]. rewrite Nat.eqb_refl. destruct r; reflexivity.
    + apply IH; auto.
  - apply rfind_none in E. unfold applyReset. apply applyReset_out; auto.
Qed.

Lemma map_rfind (f : clock -> rhs -> rhs) m x : 
  rfind (map (fun p => (fst p, f (fst p) (snd p))) m) x = option_map (f x) (rfind m x).
Proof.
  induction m as [|[y r] m IH]; [reflexivity|]. cbn [map fst snd]. rewrite !rfind_cons, IH.
  destruct (Nat.eqb_spec y x) as [->|]; reflexivity.
Qed.
Lemma filter_rfind (P : clock -> bool) m x : P x = true -> rfind (filter (fun p => P (fst p)) m) x = rfind m x.
Proof.
  intro H. induction m as [|[y r] m IH]; [reflexivity|]. cbn [filter fst]. rewrite rfind_cons.
  destruct (Nat.eqb_spec y x) as [->|N].
  - rewrite H, rfind_cons, Nat.eqb_refl. reflexivity.
  - destruct (P y); rewrite ?rfind_cons; [destruct (Nat.eqb_spec y x); [congruence|]|]; exact IH.
Qed.
Lemma filter_rfind_not (P : clock -> bool) m x : P x = false -> rfind (filter (fun p => P (fst p)) m) x = None.
Proof.
  intro H. apply rfind_none. intro I. apply in_map_iff in I. destruct I as ([y r] & E & I). cbn in E; subst.
  apply filter_In in I. destruct I as [_ I]. cbn in I. congruence.
Qed.

Definition compRhs (rm : rmap) (r : rhs) : rhs :=
  match r with RConst q => RConst q | RVar mid => match rfind rm mid with None => RVar mid | Some r => r end end.

Lemma composition_eq l r : composition l r =
  map (fun p => (fst p, compRhs (asMap r) (snd p))) (asMap l)
  ++ filter (fun p => match rfind (asMap l) (fst p) with None => true | Some _ => false end) (asMap r).
Proof.
  unfold composition. f_equal. apply map_ext. intros [x [q|y]]; cbn; auto. destruct (rfind (asMap r) y); reflexivity.
Qed.
Lemma composition_keys l r : NoDup (map fst (composition l r)).
Proof.
  rewrite composition_eq, map_app, map_map. cbn [fst].
  assert (ND1 := asMap_nodup l). assert (ND2 := asMap_nodup r). revert ND2.
  generalize (asMap r). intros m ND2. change (map (fun x : clock * rhs => fst x) (asMap l)) with (map fst (asMap l)).
  assert (G : NoDup (map fst (filter (fun p : clock * rhs => match rfind (asMap l) (fst p) with None => true | Some _ => false end) m))).
  { clear -ND2. induction m as [|p m IH]; [constructor|]. inversion ND2; subst. cbn [filter].
    destruct (rfind (asMap l) (fst p)); [auto|]. cbn [map]. constructor; auto.
    intro K. apply H1. apply in_map_iff in K. destruct K as (q & E & K). apply filter_In in K. apply in_map_iff. exists q. tauto. }
  assert (D : forall x, In x (map fst (asMap l)) -> ~ In x (map fst (filter (fun p : clock * rhs => match rfind (asMap l) (fst p) with None => true | Some _ => false end) m))).
  { intros x I J. apply in_map_iff in J. destruct J as (q & E & J). apply filter_In in J. destruct J as [_ J].
    destruct (rfind (asMap l) (fst q)) eqn:F; [discriminate|]. apply rfind_none in F. subst. auto. }
  clear ND2. revert ND1 D. generalize (map fst (asMap l)). intro ks. induction ks as [|k ks IH]; intros ND1 D; [exact G|].
  inversion ND1; subst. cbn [app]. constructor.
  - rewrite in_app_iff. intros [K|K]; auto. apply (D k); [left; reflexivity|exact K].
  - apply IH; auto. intros x I. apply D. right; exact I.
Qed.

Lemma composition_applies l r v x :
  applyReset v (composition l r) x == applyReset (applyReset v r) l x.
Proof.
  rewrite (nodup_mapVal _ v x (composition_keys l r)). rewrite (applyReset_asMap l _ x).
  unfold mapVal. rewrite composition_eq, rfind_app.
  rewrite (map_rfind (fun _ => compRhs (asMap r))). destruct (rfind (asMap l) x) as [[q|y]|] eqn:E; cbn [option_map compRhs rhsVal].
  - reflexivity.
  - rewrite (applyReset_asMap r v y). unfold mapVal. destruct (rfind (asMap r) y); reflexivity.
  - rewrite (filter_rfind (fun z => match rfind (asMap l) z with None => true | Some _ => false end)); [|rewrite E; auto].
    rewrite (applyReset_asMap r v x). reflexivity.
Qed.

Lemma addDefault_applies o d v x :
  applyReset v (addDefault o d) x = if in_dec Nat.eq_dec x (map fst o) then applyReset v o x else applyReset v d x.
Proof.
  unfold addDefault. unfold applyReset at 1. rewrite applyReset_app.
  assert (Hin : In x (map fst o) <-> rfind (asMap o) x <> None).
  { assert (G : forall m z, In z (map fst (fold_left (fun m (p : clock * rhs) => rset m (fst p) (snd p)) o m)) <-> In z (map fst m) \/ In z (map fst o)).
    { clear. induction o as [|[y r] o IH]; intros m z; cbn [fold_left map fst In]; [intuition|]. rewrite IH, rset_keys. cbn [fst]. intuition. }
    specialize (G [] x). cbn [map In] in G. split.
    - intros I E. apply rfind_none in E. apply E. apply G. auto.
    - intro N. destruct (in_dec Nat.eq_dec x (map fst (asMap o))) as [J|J]; [apply G in J; tauto|].
      apply rfind_none in J. congruence. }
  set (P := fun z => match rfind (asMap o) z with None => true | Some _ => false end).
  change (filter (fun p : nat * rhs => match rfind (asMap o) (fst p) with Some _ => false | None => true end) d) with (filter (fun p : nat * rhs => P (fst p)) d).
  destruct (in_dec Nat.eq_dec x (map fst o)) as [I|I].
  - rewrite applyReset_out; [reflexivity|]. intro J. apply in_map_iff in J. destruct J as (q & E & J). apply filter_In in J.
    destruct J as [_ J]. unfold P in J. rewrite E in J. apply Hin in I. destruct (rfind (asMap o) x); [discriminate|congruence].
  - assert (HP : P x = true) by (unfold P; destruct (rfind (asMap o) x) eqn:E; auto; exfalso; apply I, Hin; congruence).
    assert (G : forall acc acc', acc x = acc' x -> fold_left (applyReset1 v) (filter (fun p => P (fst p)) d) acc x = fold_left (applyReset1 v) d acc' x).
    { clear -HP. induction d as [|[y r] d IH]; intros acc acc' E; [exact E|]. cbn [filter fst].
      destruct (P y) eqn:Py; cbn [fold_left].
      - apply IH. unfold applyReset1. cbn [fst snd]. rewrite E. reflexivity.
      - apply IH. unfold applyReset1. cbn [fst snd]. destruct (Nat.eqb_spec x y); [congruence|exact E]. }
    apply G. apply applyReset_out; auto.
Qed.

Lemma clean_applies rs v x : NoDup (map fst rs) -> applyReset v (clean rs) x = applyReset v rs x.
Proof.
  intro ND. rewrite (nodup_mapVal rs v x ND).
  assert (ND' : NoDup (map fst (clean rs))).
  { unfold clean. clear -ND. induction rs as [|p m IH]; [constructor|]. inversion ND; subst. cbn [filter].
    destruct (negb _); [|auto]. cbn [map]. constructor; auto. intro K. apply H1.
    apply in_map_iff in K. destruct K as (q & E & K). apply filter_In in K. apply in_map_iff. exists q. tauto. }
  rewrite (nodup_mapVal _ v x ND'). unfold mapVal.
  destruct (rfind rs x) as [r|] eqn:E.
  - apply rfind_in in E; auto.
    destruct (negb (match r with RVar y => Nat.eqb x y | RConst _ => false end)) eqn:F.
    + assert (K : rfind (clean rs) x = Some r) by (apply rfind_in; auto; unfold clean; apply filter_In; auto). rewrite K. reflexivity.
    + destruct r as [q|y]; [discriminate|]. apply negb_false_iff, Nat.eqb_eq in F. subst y.
      assert (K : rfind (clean rs) x = None).
      { destruct (rfind (clean rs) x) as [r'|] eqn:G; auto. apply rfind_in in G; auto. unfold clean in G.
        apply filter_In in G. destruct G as [G1 G2]. assert (r' = RVar x) by (apply (in_unique rs x); auto). subst. cbn in G2. rewrite Nat.eqb_refl in G2. discriminate. }
      rewrite K. reflexivity.
  - assert (K : rfind (clean rs) x = None).
    { apply rfind_none. apply rfind_none in E. intro I. apply E. apply in_map_iff in I. destruct I as (q & F & I).
      apply filter_In in I. apply in_map_iff. exists q. tauto. }
    rewrite K. reflexivity.
Qed.

(** ** the runner *)
Lemma locMatch_acc A l : NoDup (map fst (tstates A)) -> (locMatch A l = true <-> accepting A l).
Proof.
  intro ND. unfold locMatch, accepting. split.
  - destruct (lookup A l) as [s|] eqn:E; [|discriminate]. intro M. exists s. split; auto. apply lookup_some; auto.
  - intros (s & H & M). rewrite (lookup_in A l s ND H). exact M.
Qed.

Lemma nextOf_edge A l a t : wfTA A -> (In t (nfind (nextOf A l) a) <-> edge A l a t).
Proof.
  intros (ND & NK & _). unfold nextOf. split.
  - destruct (lookup A l) as [s|] eqn:E; [|intros []]. intro H. apply nfind_in in H. destruct H as (ts & H & I).
    exists s, ts. repeat split; auto. apply lookup_some; auto.
  - intros (s & ts & H & I & J). rewrite (lookup_in A l s ND H). apply nfind_iff; eauto.
Qed.

Lemma nonempty_states A l : In l (map fst (tstates A)) -> match tstates A with [] => true | _ => false end = false.
Proof. destruct (tstates A); [intros []|reflexivity]. Qed.

(** with determinism the enabled transition is unique *)
Lemma det_unique A l a t1 t2 v : wfTA A -> detTA A -> nonneg v ->
  In t1 (nfind (nextOf A l) a) -> In t2 (nfind (nextOf A l) a) -> gsat (tgrd t1) v -> gsat (tgrd t2) v -> t1 = t2.
Proof.
  intros (ND & NK & _) DT Nn I1 I2 G1 G2. unfold nextOf in *. destruct (lookup A l) as [s|] eqn:E; [|destruct I1].
  apply lookup_some in E. unfold nfind in *. destruct (find (fun p => Nat.eqb (fst p) a) (snext s)) as [[b ts]|] eqn:F; [|destruct I1].
  apply find_key in F. destruct F as [F Eb]. cbn in Eb. subst b. cbn [snd] in *.
  apply In_nth_error in I1. destruct I1 as [i I1]. apply In_nth_error in I2. destruct I2 as [j I2].
  destruct (Nat.lt_trichotomy i j) as [Lt|[->|Lt]].
  - exfalso. exact (DT l s a ts E F i j t1 t2 v Lt I1 I2 Nn (conj G1 G2)).
  - congruence.
  - exfalso. exact (DT l s a ts E F j i t2 t1 v Lt I2 I1 Nn (conj G2 G1)).
Qed.

Lemma nfind_silent A l : wfTA A -> noSilent A -> nfind (nextOf A l) UNOBSERVABLE = [].
Proof.
  intros W NS. destruct (nfind (nextOf A l) UNOBSERVABLE) as [|t ts] eqn:E; auto.
  exfalso. apply (NS l t). apply nextOf_edge; auto. rewrite E. left; reflexivity.
Qed.

Lemma run_veq A l v v' w c : run A (l, v) w c -> veq v v' -> exists c', run A (l, v') w c' /\ fst c' = fst c.
Proof.
  intros R E. inversion R as [|? a d c1 c2 w' ? Fi Fl Rn]; subst.
  - exists (l, v'). split; [constructor|reflexivity].
  - exists c. split; auto. econstructor; eauto. eapply fire_veq; eauto.
Qed.

Section Run.
Variables (A : ta) (fuel : nat).
Hypotheses (W : wfTA A) (NS : noSilent A) (NR : nonnegResets A).

Lemma isEmptyR_false r l : rta r = A -> In l (map fst (tstates A)) -> isEmptyR r = false.
Proof. intros E Il. unfold isEmptyR. rewrite E. apply (nonempty_states A l Il). Qed.

Lemma stepDur_plain r l d : rta r = A -> rstate r = Some l -> In l (map fst (tstates A)) ->
  exists v', veq v' (delay (rval r) d) /\
    stepDur fuel r d = Some (mkR A (Some l) v' (rnum r), locMatch A l).
Proof.
  intros E Es Il. assert (Em := isEmptyR_false r l E Il). destruct r as [A' st v n]. cbn in E, Es. subst A' st.
  destruct fuel as [|f]; cbn [stepDur]; rewrite Em; cbn [rta rstate rval rnum];
  (destruct (Qeq_bool d 0) eqn:Ed;
   [apply Qeq_bool_eq in Ed; exists v; split; auto; intro x; unfold delay; rewrite Ed; ring
   |rewrite (nfind_silent A l W NS); exists (elapseV v d); split; auto; intro x; reflexivity]).
Qed.

Lemma stepDur_none f r d : rstate r = None -> stepDur f r d = Some (r, false).
Proof. intros Es. destruct f; cbn [stepDur]; rewrite Es; destruct (isEmptyR r); reflexivity. Qed.
Lemma stepChar_none r a : rstate r = None -> stepChar r a = (r, false).
Proof. intros Es. unfold stepChar. rewrite Es. destruct (isEmptyR r); reflexivity. Qed.

Lemma stepChar_ok r l a : rta r = A -> rstate r = Some l -> In l (map fst (tstates A)) -> 
  (exists t, In t (nfind (nextOf A l) a) /\ gsat (tgrd t) (rval r) /\
     stepChar r a = (mkR A (Some (ttgt t)) (applyReset (rval r) (trst t)) (rnum r), locMatch A (ttgt t)))
  \/ ((forall t, In t (nfind (nextOf A l) a) -> ~ gsat (tgrd t) (rval r)) /\
      stepChar r a = (mkR A None (rval r) (rnum r), false)).
Proof.
  intros E Es Il. assert (Em := isEmptyR_false r l E Il). destruct r as [A' st v n]. cbn in E, Es. subst A' st.
  unfold stepChar. rewrite Em. cbn [rta rstate rval rnum].
  destruct (find _ _) as [t|] eqn:F.
  - apply find_some in F. destruct F as [F G]. apply gsatb_gsat in G. left. exists t. auto.
  - right. split; auto. intros t I G. apply (find_none _ _ F) in I. apply gsatb_gsat in G. congruence.
Qed.

Hypothesis DT : detTA A.

Lemma feed_ok w : forall r res,
  rta r = A -> nonneg (rval r) -> (forall a d, In (a, d) w -> 0 <= d) ->
  match rstate r with None => res = false | Some l => res = locMatch A l /\ In l (map fst (tstates A)) end ->
  exists r' b, feed fuel r w res = Some (r', b) /\ rta r' = A /\ rnum r' = rnum r /\
    (b = true <-> exists l c, rstate r = Some l /\ run A (l, rval r) w c /\ accepting A (fst c)).
Proof.
  assert (ND : NoDup (map fst (tstates A))) by (destruct W; auto).
  induction w as [|[a d] w IH]; intros r res E Nn Hd St.
  - exists r, res. cbn [feed]. repeat split; auto.
    + intro B. destruct (rstate r) as [l|] eqn:Es; [|congruence]. destruct St as [St _]. rewrite St in B.
      exists l, (l, rval r). repeat split; [constructor|]. apply locMatch_acc; auto.
    + intros (l & c & Es & Rn & Ac). rewrite Es in St. destruct St as [St _]. rewrite St. clear E. inversion Rn; subst. apply locMatch_acc; auto.
  - cbn [feed]. destruct (rstate r) as [l|] eqn:Es.
    + destruct St as [_ Il]. assert (d0 : 0 <= d) by (apply (Hd a); left; reflexivity).
      destruct (stepChar_ok r l a E Es Il) as [(t & It & Gt & Sc)|[No Sc]]; rewrite Sc; cbn [fst].
      * assert (Et : edge A l a t) by (apply nextOf_edge; auto).
        assert (Il' : In (ttgt t) (map fst (tstates A))) by (destruct W as (_ & _ & W3 & _); eapply W3; eauto).
        destruct (stepDur_plain (mkR A (Some (ttgt t)) (applyReset (rval r) (trst t)) (rnum r)) (ttgt t) d eq_refl eq_refl Il') as (v' & Ev & Sd).
        rewrite Sd. cbn [rnum rval] in *.
        assert (Nn' : nonneg (applyReset (rval r) (trst t))) by (apply applyReset_nonneg; auto; intros x q I; apply (NR l a t x q Et I)).
        destruct (IH (mkR A (Some (ttgt t)) v' (rnum r)) (locMatch A (ttgt t))) as (r' & b & F & Er & En & B); auto.
        { intro x. cbn. rewrite (Ev x). unfold delay. specialize (Nn' x). lra. }
        { intros a' d' I. apply (Hd a'). right; exact I. }
        { cbn. auto. }
        exists r', b. repeat split; auto; rewrite B; cbn [rstate rval].
        -- intros (l1 & c & E1 & Rn & Ac). injection E1 as <-. exists l, c. repeat split; auto.
           apply (run_cons A _ a d (ttgt t, applyReset (rval r) (trst t)) (ttgt t, v')); auto.
           ++ exists t. repeat split; auto; apply applyReset_isReset.
           ++ constructor; auto.
        -- intros (l1 & c & E1 & Rn & Ac). injection E1 as <-.
           clear E Er; inversion Rn as [|? ? ? c1 c2 ? ? Fi Fl Rn']; subst.
           destruct Fi as (t2 & E2 & G2 & T2 & R2). cbn [fst snd] in *.
           assert (t2 = t) by (apply (det_unique A l a t2 t (rval r)); auto; apply nextOf_edge; auto). subst t2.
           apply isReset_applyReset in R2. destruct c1 as [l1 v1]. cbn in T2, R2. subst l1.
           apply flow_noSilent in Fl; auto. destruct Fl as (F1 & F2 & _). destruct c2 as [l2 v2]. cbn in F1, F2. subst l2.
           assert (Eq : veq v2 v').
           { apply (veq_trans _ _ _ F2). apply (veq_trans _ (delay (applyReset (rval r) (trst t)) d)); [apply delay_veq; auto|auto]. }
           destruct (run_veq A (ttgt t) v2 v' w c Rn' Eq) as (c' & Rc & Ec). exists (ttgt t), c'. rewrite Ec. auto.
      * rewrite stepDur_none by reflexivity.
        destruct (IH (mkR A None (rval r) (rnum r)) false) as (r' & b & F & Er & En & B); auto.
        { intros a' d' I. apply (Hd a'). right; exact I. }
        { cbn; auto. }
        exists r', b. repeat split; auto.
        -- intro K. apply B in K. destruct K as (l1 & c & E1 & _). discriminate.
        -- intros (l1 & c & E1 & Rn & Ac). injection E1 as <-. exfalso.
           clear E Er; inversion Rn as [|? ? ? c1 c2 ? ? Fi Fl Rn']; subst.
           destruct Fi as (t2 & E2 & G2 & _). cbn [fst snd] in *. apply (No t2); auto. apply nextOf_edge; auto.
    + rewrite (stepChar_none r a Es). cbn [fst]. rewrite (stepDur_none _ r d Es).
      destruct (IH r false) as (r' & b & F & Er & En & B); auto.
      { intros a' d' I. apply (Hd a'). right; exact I. }
      { rewrite Es. auto. }
      exists r', b. repeat split; auto.
      * intro K. apply B in K. destruct K as (l1 & c & E1 & _). congruence.
      * intros (l1 & c & E1 & _). congruence.
Qed.

Lemma answerQuery_exact r d0 w l0 : rta r = A -> tinit A = [l0] -> 0 <= d0 -> (forall a d, In (a, d) w -> 0 <= d) ->
  exists r' b, answerQuery fuel r d0 w = Some (r', b) /\ rta r' = A /\ rnum r' = S (rnum r) /\
    (b = true <-> accepts A d0 w).
Proof.
  intros E Ei Hd0 Hd. 
  assert (Il : In l0 (map fst (tstates A))) by (destruct W as (_ & _ & _ & W4); apply W4; rewrite Ei; left; reflexivity).
  unfold answerQuery, rpre. rewrite (isEmptyR_false r l0 E Il), E, Ei. cbn [hd_error].
  destruct (stepDur_plain (mkR A (Some l0) (fun _ => 0) (S (rnum r))) l0 d0 eq_refl eq_refl Il) as (v' & Ev & Sd).
  rewrite Sd. cbn [rnum rval] in *.
  destruct (feed_ok w (mkR A (Some l0) v' (S (rnum r))) (locMatch A l0)) as (r' & b & F & Er & En & B); auto.
  { intro x. cbn. rewrite (Ev x). unfold delay. lra. }
  { cbn; auto. }
  exists r', b. repeat split; auto; rewrite B; cbn [rstate rval].
  - intros (l1 & c & E1 & Rn & Ac). injection E1 as <-. exists l0, (l0, v'), c. repeat split; auto; [rewrite Ei; left; reflexivity|].
    constructor; auto.
  - intros (l1 & c0 & c & I & Fl & Rn & Ac). rewrite Ei in I. destruct I as [<-|[]].
    apply flow_noSilent in Fl; auto. destruct Fl as (F1 & F2 & _). destruct c0 as [l2 v2]. cbn in F1, F2. subst l2.
    assert (Eq : veq v2 v') by (apply (veq_trans _ _ _ F2); auto).
    destruct (run_veq A l0 v2 v' w c Rn Eq) as (c' & Rc & Ec). exists l0, c'. rewrite Ec. auto.
Qed.
End Run.
