(** The construction of the hypothesis: the boundaries and the continuous
    exteriors. *)
From Coq Require Import QArith ZArith Bool List Arith Lia Permutation.
From Verif Require Import BoundsModel ConstraintModel ZoneModel AutomatonModel AutomatonProofs TimedWordModel TimedConditionModel
  ElementaryModel RegionalModel OracleModel SymbolicModel CexModel RenamingModel TableModel TableProofs2 TableProofs3 HypothesisModel HypothesisBfs HypothesisBfs2 HypothesisBfs3.
Import ListNotations.

Lemma bdLt_eq p q : bdLt p q = false -> bdLt q p = false -> p = q.
Proof.
  destruct p as [a b], q as [c d]. unfold bdLt. cbn [fst snd]. intros H H'. apply orb_false_iff in H, H'. destruct H as [A B], H' as [A' B'].
  apply Nat.ltb_ge in A, A'. assert (a = c) by lia. subst. rewrite Nat.eqb_refl in *. cbn [andb] in *. apply Nat.ltb_ge in B, B'. f_equal. lia.
Qed.
Lemma pairEqb_eq p q : pairEqb p q = true <-> p = q.
Proof. destruct p as [a b], q as [c d]. unfold pairEqb. cbn [fst snd]. rewrite andb_true_iff, !Nat.eqb_eq. split; [intros [-> ->]; auto|intro E; injection E; auto]. Qed.
Lemma insertBd_in x l y : In y (insertBd x l) <-> y = x \/ In y l.
Proof.
  induction l as [|z l IH]; cbn [insertBd In]; [intuition congruence|]. destruct (bdLt x z); [cbn [In]; intuition congruence|]. destruct (pairEqb x z) eqn:E.
  - apply pairEqb_eq in E. subst z. cbn [In]. intuition congruence.
  - cbn [In]. rewrite IH. intuition congruence.
Qed.
Lemma sortBd_in l y : In y (sortBd l) <-> In y l.
Proof. induction l as [|x l IH]; [tauto|]. unfold sortBd in *. cbn [fold_right In]. rewrite insertBd_in, IH. intuition congruence. Qed.
Definition bdSorted (l : list (nat * letter)) : Prop := ForallOrdPairs (fun p q => bdLt p q = true) l.
Lemma bdLt_trans p q r : bdLt p q = true -> bdLt q r = true -> bdLt p r = true.
Proof.
  destruct p as [a b], q as [c d], r as [e f]. unfold bdLt. cbn [fst snd]. rewrite !orb_true_iff, !andb_true_iff, !Nat.ltb_lt, !Nat.eqb_eq. lia.
Qed.
Lemma bdLt_irr p : bdLt p p = false.
Proof. destruct p as [a b]. unfold bdLt. cbn [fst snd]. rewrite !Nat.ltb_irrefl, andb_false_r. reflexivity. Qed.
Lemma insertBd_sorted x l : bdSorted l -> bdSorted (insertBd x l).
Proof.
  unfold bdSorted. induction 1 as [|z l F H IH]; cbn [insertBd]; [repeat constructor|]. destruct (bdLt x z) eqn:L.
  - constructor; [|constructor; auto]. constructor; [auto|]. rewrite Forall_forall in *. intros y Hy. apply (bdLt_trans x z y); auto.
  - destruct (pairEqb x z) eqn:E; [constructor; auto|]. constructor; [|exact IH]. rewrite Forall_forall in *. intros y Hy. apply insertBd_in in Hy. destruct Hy as [->|Hy]; [|auto].
    destruct (bdLt z x) eqn:L'; [auto|]. assert (x = z) by (apply bdLt_eq; auto). apply pairEqb_eq in H0. congruence.
Qed.
Lemma sortBd_nodup l : NoDup (sortBd l).
Proof.
  assert (H : bdSorted (sortBd l)). { induction l as [|x l IH]; [constructor|]. unfold sortBd in *. cbn [fold_right]. apply insertBd_sorted; auto. }
  unfold bdSorted in H. induction H as [|p l' F H IH]; constructor; [|exact IH]. intro K. rewrite Forall_forall in F. specialize (F p K). rewrite bdLt_irr in F. discriminate.
Qed.

Lemma hAdd_to (h : hyp) st i k : toState (hAdd h st i) k = if (k =? i)%nat then Some st else toState h k.
Proof. unfold toState, hAdd. cbn [hMap]. rewrite mapAt_put, Nat.eqb_sym. reflexivity. Qed.
Lemma hPush_to (h : hyp) l a tr i : toState (hPush h l a tr) i = toState h i.
Proof. reflexivity. Qed.
Lemma pushN_no ns st r x : hasImpreciseClocks r (ec (fel x)) = false -> pushN ns st r x = ns.
Proof. intro H. unfold pushN. rewrite H. reflexivity. Qed.

Section Raw.
Context {St : Type}.
Notation tbl := (ot St).
Context (t : tbl).
Context (T : tree t).
Context (CL : forall i, (i < length (otPre t))%nat -> inP t i = false -> exists j r, chosen t i = Some (j, r)).
Context (NI : forall c a d j r, discAt t c a = Some d -> inP t d = false -> chosen t d = Some (j, r) ->
  hasImpreciseClocks (eraseLeft r (tcSize (condAt t c))) (condAt t j) = false).
Context (R : list nat) (RO : roots t R).

Lemma chosen_P i j r : chosen t i = Some (j, r) -> In j (otP t).
Proof using. intro H. unfold chosen in H. apply find_some in H. cbn [fst] in H. apply inP_iff. tauto. Qed.

Definition reached (done : list (nat * letter)) (i : nat) : bool :=
  existsb (fun e => match discAt t (fst e) (snd e) with Some d => (d =? i)%nat | None => false end) done.
Definition WB (W : loc -> letter -> list trans) (done : list (nat * letter)) (l : loc) (a : letter) : list trans :=
  W l a ++ map (fun e => TR t R (fst e) a) (filter (fun e : nat * letter => ((home t R (fst e) =? l) && (snd e =? a))%nat) done).
Definition binvB (W : loc -> letter -> list trans) (h0 : hyp) (done : list (nat * letter)) (h : hyp) : Prop :=
  stRep (otAlpha t) (hSt h) (length R) (fun l => isMatch t (nth l R 0%nat)) (WB W done) /\
  forall i, toState h i = if reached done i then match chosen t i with Some (j, _) => Some (home t R j) | None => None end else toState h0 i.

Lemma reached_out done i : (forall c a, In (c, a) done -> In a (otAlpha t) /\ goesOut t a c = true) -> reached done i = true -> inP t i = false /\ (i < length (otPre t))%nat /\ exists c a, discAt t c a = Some i /\ In (c, a) done.
Proof using T.
  intros O E. unfold reached in E. apply existsb_exists in E. destruct E as ((c' & a') & I & E). cbn [fst snd] in E. destruct (discAt t c' a') as [d'|] eqn:D'; [|discriminate].
  apply Nat.eqb_eq in E. subst d'. destruct (O c' a' I) as [_ G]. unfold goesOut in G. rewrite D' in G. apply negb_true_iff in G. split; [auto|]. split; [apply (tr_discP t T c' a' i D')|]. exists c', a'. auto.
Qed.
Lemma TR_out c a d j r : discAt t c a = Some d -> inP t d = false -> chosen t d = Some (j, r) ->
  TR t R c a = externalT (condAt t c) (condAt t j) (eraseLeft r (tcSize (condAt t c))) (home t R j).
Proof using. intros D I C. unfold TR. rewrite D, I, C. reflexivity. Qed.
Lemma WB_snoc W done c a : In c (otP t) -> forall l b, WB W (done ++ [(c, a)]) l b = updW (WB W done) (home t R c) a (WB W done (home t R c) a ++ [TR t R c a]) l b.
Proof using.
  intros Pc l b. unfold WB, updW. rewrite filter_app. cbn [filter fst snd]. rewrite map_app, app_assoc. rewrite (Nat.eqb_sym (home t R c) l), (Nat.eqb_sym a b).
  destruct (Nat.eqb_spec l (home t R c)) as [E|Ne]; cbn [andb map]; [|rewrite app_nil_r; reflexivity].
  destruct (Nat.eqb_spec b a) as [E2|Ne]; cbn [andb map fst]; [|rewrite app_nil_r; reflexivity]. rewrite E, E2. reflexivity.
Qed.
Lemma boundaries_ok W h0 : (forall i l, toState h0 i = Some l <-> (l < length R)%nat /\ In i (chain t (nth l R 0%nat))) ->
  forall es done h, binvB W h0 done h -> NoDup (done ++ es) -> (forall c a, In (c, a) (done ++ es) -> In a (otAlpha t) /\ goesOut t a c = true) ->
  exists h', boundaries t (h, []) es = Ok (h', []) /\ binvB W h0 (done ++ es) h'.
Proof using T CL NI RO.
  intros HM. induction es as [|[c a] es IH]; intros done h B N O; cbn [boundaries].
  - rewrite app_nil_r. exists h. split; [reflexivity|auto].
  - destruct (O c a) as [Ha G]; [apply in_or_app; right; left; auto|]. unfold boundary. unfold goesOut in G. destruct (discAt t c a) as [d|] eqn:D; [|discriminate]. apply negb_true_iff in G.
    destruct (tr_discP t T c a d D) as (Pc & _ & Lt & Ld). destruct B as [B1 B2].
    assert (Od : forall c a, In (c, a) done -> In a (otAlpha t) /\ goesOut t a c = true) by (intros; apply O; apply in_or_app; auto).
    assert (Nd : reached done d = false).
    { destruct (reached done d) eqn:E; [|auto]. exfalso. destruct (reached_out done d Od E) as (_ & _ & c' & a' & D' & I).
      destruct (tr_discInj t T _ _ _ _ _ D D') as [<- <-]. apply NoDup_remove_2 in N. apply N. apply in_or_app. auto. }
    assert (Hd : toState h d = None).
    { rewrite B2, Nd. destruct (toState h0 d) as [l|] eqn:E; [|auto]. exfalso. apply HM in E. destruct E as [L I]. destruct (ro_P t R RO _ (nth_In R 0%nat L)) as [Pr Rr].
      destruct (chain_pred t _ _ d Pr (chain_ok t _ T Pr) I) as [E|(p & C & _)]; [|apply (tr_sep t T p c a d); auto]. rewrite <- E in Pr. apply inP_iff in Pr. congruence. }
    rewrite Hd. destruct (CL d Ld G) as (j & r & Ch). rewrite Ch. assert (Pj := chosen_P d j r Ch).
    assert (HP : forall i, In i (otP t) -> toState h i = Some (home t R i)).
    { intros i Pi. rewrite B2. assert (E : reached done i = false).
      { destruct (reached done i) eqn:E; [|auto]. exfalso. destruct (reached_out done i Od E) as (K & _). apply inP_iff in Pi. congruence. }
      rewrite E. apply HM. apply home_ok; auto. }
    rewrite (HP j Pj), (HP c Pc). cbv zeta. rewrite pushN_no by exact (NI c a d j r D G Ch). cbn [bind].
    destruct (IH (done ++ [(c, a)]) (hPush (hAdd h (home t R j) d) (home t R c) a (externalT (condAt t c) (condAt t j) (eraseLeft r (tcSize (condAt t c))) (home t R j)))) as (h' & E' & B').
    + split.
      * rewrite hPush_sts. cbn [hAdd hSt]. rewrite <- (TR_out c a d j r D G Ch).
        refine (stRep_ext _ _ _ _ _ _ _ _ _ (stRep_push _ _ _ _ _ (home t R c) a (TR t R c a) B1 (proj1 (home_ok t T R c RO Pc)) Ha)); [auto|].
        intros l b _. rewrite WB_snoc; auto.
      * intro i. rewrite hPush_to, hAdd_to. unfold reached. rewrite existsb_app. cbn [existsb fst snd]. rewrite D, orb_false_r. fold (reached done i). rewrite (Nat.eqb_sym d i).
        destruct (Nat.eqb_spec i d) as [->|Ne]; [rewrite orb_true_r, Ch; reflexivity|rewrite orb_false_r; apply B2].
    + rewrite <- app_assoc. exact N.
    + intros c' a' I. apply O. rewrite <- app_assoc in I. exact I.
    + exists h'. rewrite <- app_assoc in B'. split; [exact E'|exact B'].
Qed.

(** ** the continuous exteriors *)
Context (SAT : forall p, In p (otP t) -> exists k, contAt t p = Some k /\ (inP t k = true \/ chosen t k = Some (p, []))).
Context (FW : forall l c p, (l < length R)%nat -> In c (front t l R) -> In p (front t l R) -> (isWeaker (toGuard (condAt t c)) (toGuard (condAt t p)) = true <-> c = p)).
Context (RN : forall p a, In p (otP t) -> In a (otAlpha t) -> renamingOf (composition (trst (TR t R p a)) (constResets (toValuation (condAt t p)))) = []).
Context (NU : ~ In UNOBSERVABLE (otAlpha t)).

Lemma TR_guard c a : In c (otP t) -> In a (otAlpha t) -> tgrd (TR t R c a) = toGuard (condAt t c).
Proof using T CL.
  intros Pc Ha. destruct (tr_disc t T c a Pc Ha) as (d & D & Ld & _). unfold TR. rewrite D. destruct (inP t d) eqn:I; [reflexivity|]. destruct (CL d Ld I) as (j & r & Ch). rewrite Ch. reflexivity.
Qed.
Lemma find_row a l p : forall cs, (l < length R)%nat -> In a (otAlpha t) -> In p (front t l R) -> (forall c, In c cs -> In c (front t l R)) -> In p cs ->
  find (fun tr => isWeaker (tgrd tr) (toGuard (condAt t p))) (map (fun c => TR t R c a) cs) = Some (TR t R p a).
Proof using T CL RO FW.
  intros cs L Ha Ip. induction cs as [|c cs IH]; intros S I; [destruct I|]. cbn [map find]. assert (Ic := S c (or_introl eq_refl)).
  rewrite (TR_guard c a (en_P t R l (ended_ok t T R l RO L) c Ic) Ha). destruct (isWeaker _ _) eqn:W.
  - apply (FW l c p) in W; auto. subst. reflexivity.
  - destruct I as [->|I]; [rewrite (proj2 (FW l p p L Ip Ip) eq_refl) in W; discriminate|]. apply IH; auto. intros c' I'. apply S. right; auto.
Qed.
Definition inA (a : letter) : bool := existsb (Nat.eqb a) (otAlpha t).
Definition isExt (p : nat) : bool := match contAt t p with Some k => negb (inP t k) | None => false end.
Definition WC (W : loc -> letter -> list trans) (acts : list letter) (l0 : loc) (l : loc) (a : letter) : list trans :=
  W l a ++ (if (l =? l0)%nat && existsb (Nat.eqb a) acts then [TX t R (prevOf t l R) (extOf t l R) a] else []).
Lemma selfLoops_ok p l : (l < length R)%nat -> p = prevOf t l R -> In p (front t l R) -> forall acts done W h mt, NoDup (done ++ acts) -> (forall a, In a acts -> In a (otAlpha t)) ->
  stRep (otAlpha t) (hSt h) (length R) mt (WC W done l) ->
  (forall a, In a (otAlpha t) -> exists cs, W l a = map (fun c => TR t R c a) cs /\ In p cs /\ forall c, In c cs -> In c (front t l R)) ->
  exists h', selfLoops t (extOf t l R) p l (h, []) acts = Ok (h', []) /\ stRep (otAlpha t) (hSt h') (length R) mt (WC W (done ++ acts) l) /\ hMap h' = hMap h.
Proof using T CL RO FW RN.
  intros L Ep Ip. induction acts as [|a acts IH]; intros done W h mt N A S C; cbn [selfLoops].
  - rewrite app_nil_r. exists h. auto.
  - assert (Ha := A a (or_introl eq_refl)). assert (Pp := en_P t R l (ended_ok t T R l RO L) p Ip). destruct (tr_disc t T p a Pp Ha) as (d & D & Ld & _).
    assert (Na : existsb (Nat.eqb a) done = false). { destruct (existsb (Nat.eqb a) done) eqn:E; [|auto]. apply existsb_exists in E. destruct E as (x & I & E). apply Nat.eqb_eq in E. subst x. apply NoDup_remove_2 in N. exfalso. apply N. apply in_or_app. auto. }
    unfold selfLoop. rewrite (stRep_next _ _ _ _ _ l a S L). unfold WC at 1. rewrite Na, andb_false_r, app_nil_r. destruct (C a Ha) as (cs & E & Icp & Ics). rewrite E.
    rewrite (find_row a l p cs L Ha Ip Ics Icp). rewrite D. cbv zeta. rewrite (RN p a Pp Ha).
    replace (if inP t d then pushN [] (ttgt (TR t R p a)) [] (preAt t d) else match chosen t d with Some (m, _) => pushN [] (ttgt (TR t R p a)) [] (preAt t m) | None => [] end) with ([] : neighbours)
      by (destruct (inP t d); [reflexivity|]; destruct (chosen t d) as [[m ?]|]; reflexivity).
    cbn [bind]. fold (TX t R p (extOf t l R) a).
    destruct (IH (done ++ [a]) W (hPush h l a (TX t R p (extOf t l R) a)) mt) as (h' & E' & S' & M').
    + rewrite <- app_assoc. exact N.
    + intros; apply A; right; auto.
    + rewrite hPush_sts. refine (stRep_ext _ _ _ _ _ _ _ _ _ (stRep_push _ _ _ _ _ l a _ S L Ha)); [auto|].
      intros k b _. unfold updW, WC. rewrite Nat.eqb_refl, Na, andb_false_r, app_nil_r. rewrite existsb_app. cbn [existsb]. rewrite orb_false_r.
      destruct (Nat.eqb_spec k l) as [Ek|Nk]; cbn [andb]; [|reflexivity]. destruct (Nat.eqb_spec b a) as [Eb|Nb]; cbn [andb]; [|rewrite orb_false_r; reflexivity].
      rewrite orb_true_r. subst k b p. reflexivity.
    + exact C.
    + exists h'. rewrite <- app_assoc in S'. split; [exact E'|]. split; [exact S'|]. rewrite M'. reflexivity.
Qed.
(** after the rows [ps] of P *)
Definition WD (W : loc -> letter -> list trans) (ps : list nat) (l : loc) (a : letter) : list trans :=
  W l a ++ (if existsb (Nat.eqb (prevOf t l R)) ps && inA a then [TX t R (prevOf t l R) (extOf t l R) a] else []).
Lemma exteriors_ok W mt M : (forall i, In i (otP t) -> mapAt M i = Some (home t R i)) -> (forall l, (l < length R)%nat -> mapAt M (extOf t l R) = Some l) ->
  (forall l a, (l < length R)%nat -> In a (otAlpha t) -> exists cs, W l a = map (fun c => TR t R c a) cs /\ In (prevOf t l R) cs /\ forall c, In c cs -> In c (front t l R)) ->
  NoDup (otAlpha t) ->
  forall ps done h, NoDup (done ++ ps) -> (forall p, In p ps -> In p (otP t)) -> hMap h = M -> stRep (otAlpha t) (hSt h) (length R) mt (WD W done) ->
  exists h', exteriors t (h, []) ps = Ok (h', []) /\ stRep (otAlpha t) (hSt h') (length R) mt (WD W (done ++ ps)) /\ hMap h' = M.
Proof using T CL RO FW RN SAT.
  intros HP HE HC NDa. induction ps as [|p ps IH]; intros done h N A EM S; cbn [exteriors].
  - rewrite app_nil_r. exists h. auto.
  - assert (Pp := A p (or_introl eq_refl)). destruct (SAT p Pp) as (k & C & K). unfold exterior. rewrite C. destruct (inP t k) eqn:I.
    + cbn [bind]. destruct (IH (done ++ [p]) h) as (h' & E' & S' & M'); [rewrite <- app_assoc; exact N|intros; apply A; right; auto|exact EM| |].
      * refine (stRep_ext _ _ _ _ _ _ _ _ _ S); [auto|]. intros l b L. unfold WD. rewrite existsb_app. cbn [existsb]. rewrite orb_false_r.
        replace (prevOf t l R =? p)%nat with false; [rewrite orb_false_r; reflexivity|]. symmetry. apply Nat.eqb_neq. intro E.
        destruct (ended_ok t T R l RO L) as [_ _ Cx Ox _]. rewrite E in Cx. congruence.
      * exists h'. rewrite <- app_assoc in S'. auto.
    + destruct K as [K|K]; [discriminate|]. destruct (ext_home t T R p k RO Pp C I) as [E1 E2]. destruct (home_ok t T R p RO Pp) as [L Ic]. set (l := home t R p) in *.
      assert (Tk : toState h k = Some l). { unfold toState. rewrite EM, <- E2. apply HE; auto. }
      assert (Tp : toState h p = Some l). { unfold toState. rewrite EM. apply HP; auto. }
      rewrite Tk, K, Tp. cbv zeta. rewrite Nat.eqb_refl. change (pushN [] l [] (preAt t p)) with ([] : neighbours).
      assert (Np : existsb (Nat.eqb p) done = false). { destruct (existsb (Nat.eqb p) done) eqn:E; [|auto]. apply existsb_in in E. apply NoDup_remove_2 in N. exfalso. apply N. apply in_or_app. auto. }
      destruct (selfLoops_ok p l L (eq_sym E1)) with (acts := otAlpha t) (done := @nil letter) (W := WD W done) (h := h) (mt := mt) as (h1 & F1 & F2 & F3).
      * apply (front_home t T R l p RO L Pp). reflexivity.
      * exact NDa.
      * auto.
      * refine (stRep_ext _ _ _ _ _ _ _ _ _ S); [auto|]. intros l' b L'. unfold WC. cbn [existsb]. rewrite andb_false_r, app_nil_r. reflexivity.
      * intros a Ha. destruct (HC l a L Ha) as (cs & E & X & Y). exists cs. unfold WD. rewrite E1, Np. cbn [andb]. rewrite app_nil_r. rewrite E1 in X. auto.
      * rewrite E2 in F1. match goal with |- context [selfLoops ?x ?y ?z ?w ?u ?v] => replace (selfLoops x y z w u v) with (Ok (h1, [] : neighbours)) by (symmetry; exact F1) end. cbn [bind].
        destruct (IH (done ++ [p]) h1) as (h' & E' & S' & M'); [rewrite <- app_assoc; exact N|intros; apply A; right; auto|congruence| |].
        -- refine (stRep_ext _ _ _ _ _ _ _ _ _ F2); [auto|]. intros l' b L'. unfold WC, WD. cbn [app]. rewrite existsb_app. cbn [existsb]. rewrite orb_false_r, <- app_assoc. f_equal. fold (inA b).
           destruct (Nat.eqb_spec l' l) as [->|Nl].
           ++ rewrite E1, Np, Nat.eqb_refl. cbn [andb orb app]. reflexivity.
           ++ replace (prevOf t l' R =? p)%nat with false; [rewrite orb_false_r, app_nil_r; reflexivity|]. symmetry. apply Nat.eqb_neq. intro E. apply Nl.
              destruct (ended_ok t T R l' RO L') as [_ (f & EF & _) _ _ _]. unfold l. symmetry. apply (front_home t T R l' p RO L' Pp). rewrite EF, E. apply in_or_app. right. left; auto.
        -- exists h'. rewrite <- app_assoc in S'. auto.
Qed.
End Raw.
