(** The construction of the hypothesis: the automaton before the clean-up. *)
From Coq Require Import QArith ZArith Bool List Arith Lia Permutation.
From Verif Require Import BoundsModel ConstraintModel ZoneModel AutomatonModel AutomatonProofs TimedWordModel TimedConditionModel
  ElementaryModel RegionalModel OracleModel SymbolicModel CexModel RenamingModel TableModel TableProofs2 TableProofs3 HypothesisModel HypothesisBfs HypothesisBfs2 HypothesisBfs3 HypothesisRaw.
Import ListNotations.

Section Raw2.
Context {St : Type}.
Notation tbl := (ot St).
Context (ordP : tbl -> list nat) (ordI : list (loc * tcond) -> list (loc * tcond)) (t : tbl).
Context (T : tree t) (MS : timeStable t) (P0 : In 0%nat (otP t)) (ND : NoDup (otAlpha t)).
Context (OI : forall l, Permutation l (ordI l)) (OP : Permutation (otP t) (ordP t)).
Context (CL : forall i, (i < length (otPre t))%nat -> inP t i = false -> exists j r, chosen t i = Some (j, r)).
Context (NI : forall c a d j r, discAt t c a = Some d -> inP t d = false -> chosen t d = Some (j, r) ->
  hasImpreciseClocks (eraseLeft r (tcSize (condAt t c))) (condAt t j) = false).
Context (SAT : forall p, In p (otP t) -> exists k, contAt t p = Some k /\ (inP t k = true \/ chosen t k = Some (p, []))).
Context (FW : forall R l c p, roots t R -> (l < length R)%nat -> In c (front t l R) -> In p (front t l R) -> (isWeaker (toGuard (condAt t c)) (toGuard (condAt t p)) = true <-> c = p)).
Context (RN : forall R p a, roots t R -> In p (otP t) -> In a (otAlpha t) -> renamingOf (composition (trst (TR t R p a)) (constResets (toValuation (condAt t p)))) = []).

Record raw (R : list nat) (W : loc -> letter -> list trans) (h : hyp) : Prop := {
  rw_roots : roots t R;
  rw_st : stRep (otAlpha t) (hSt h) (length R) (fun l => isMatch t (nth l R 0%nat)) W;
  rw_W : forall l a, (l < length R)%nat -> In a (otAlpha t) -> exists cs, Permutation (front t l R) cs /\
    W l a = map (fun c => TR t R c a) cs ++ [TX t R (prevOf t l R) (extOf t l R) a];
  rw_map : forall i, (i < length (otPre t))%nat -> exists l, toState h i = Some l }.

Lemma filter_split {A} (f g : A -> bool) l : (forall x, In x l -> g x = negb (f x)) -> Permutation l (filter f l ++ filter g l).
Proof using.
  induction l as [|x l IH]; intro H; [constructor|]. cbn [filter]. assert (Hx := H x (or_introl eq_refl)). rewrite Hx. assert (K := IH (fun y I => H y (or_intror I))).
  destruct (f x); cbn [negb app]; [constructor; auto|]. apply Permutation_cons_app. auto.
Qed.
Lemma front_nodup R l : roots t R -> (l < length R)%nat -> NoDup (front t l R).
Proof using T.
  intros RO L. destruct (ro_P t R RO _ (nth_In R 0%nat L)) as [Pr _]. assert (N := chain_nodup t _ _ T (chain_ok t _ T Pr)). destruct (ended_ok t T R l RO L) as [E _ _ _ _]. rewrite E in N.
  apply NoDup_remove_1 in N. rewrite app_nil_r in N. auto.
Qed.
Lemma prev_front R l : roots t R -> (l < length R)%nat -> In (prevOf t l R) (front t l R).
Proof using T. intros RO L. destruct (ended_ok t T R l RO L) as [_ (f & -> & _) _ _ _]. apply in_or_app. right. left. auto. Qed.

Lemma raw_ok : exists R W h, rawHypothesis ordP ordI t = Ok (h, []) /\ raw R W h.
Proof using T MS P0 ND OI OP CL NI SAT FW RN.
  destruct (after_ok t ordI T MS P0 ND OI) as (R & W0 & b & E & [RO ST MP BD WW]).
  set (es := sortBd (bBd b)). assert (HB : forall c a, In (c, a) es <-> In a (otAlpha t) /\ goesOut t a c = true) by (intros; unfold es; rewrite sortBd_in; apply BD).
  destruct (boundaries_ok t T CL NI R RO W0 (bH b) MP es [] (bH b)) as (h1 & E1 & S1 & M1).
  { split; [|reflexivity]. refine (stRep_ext _ _ _ _ _ _ _ _ _ ST); [auto|]. intros l a _. unfold WB. cbn [filter map]. rewrite app_nil_r. reflexivity. }
  { apply sortBd_nodup. }
  { intros c a I. apply HB; auto. }
  cbn [app] in S1, M1.
  assert (HR : forall i, In i (otP t) -> reached t es i = false).
  { intros i Pi. destruct (reached t es i) eqn:Q; [|auto]. destruct (reached_out t T es i) as (K & _); [intros c a; apply HB|auto|]. apply inP_iff in Pi. congruence. }
  assert (HW : forall l a, (l < length R)%nat -> In a (otAlpha t) -> exists cs, Permutation (front t l R) cs /\ WB t R W0 es l a = map (fun c => TR t R c a) cs).
  { intros l a L Ha. destruct (WW l a L Ha) as (cs & Ecs & Pcs). exists (cs ++ map fst (filter (fun e : nat * letter => ((home t R (fst e) =? l) && (snd e =? a))%nat) es)). split.
    - eapply Permutation_trans; [apply (filter_split (goesIn t a) (goesOut t a))|].
      + intros c Ic. assert (Pc := en_P t R l (ended_ok t T R l RO L) c Ic). destruct (tr_disc t T c a Pc Ha) as (d & D & _). unfold goesIn, goesOut. rewrite D. reflexivity.
      + apply Permutation_app; [exact Pcs|]. apply NoDup_Permutation.
        * apply NoDup_filter. apply front_nodup; auto.
        * assert (N := NoDup_filter (fun e : nat * letter => ((home t R (fst e) =? l) && (snd e =? a))%nat) (sortBd_nodup (bBd b))). fold es in N.
          assert (AA : forall e, In e (filter (fun e : nat * letter => ((home t R (fst e) =? l) && (snd e =? a))%nat) es) -> snd e = a).
          { intros e Ie. apply filter_In in Ie. destruct Ie as [_ Ie]. apply andb_true_iff in Ie. apply Nat.eqb_eq. tauto. }
          clear - N AA. induction N as [|e l' Ne N IH]; [constructor|]. cbn [map]. constructor.
          -- intro K. apply in_map_iff in K. destruct K as (e' & K1 & K2). apply Ne. assert (e = e'); [|congruence]. destruct e as [e1 e2], e' as [e3 e4]. assert (X := AA _ (or_introl eq_refl)). assert (Y := AA _ (or_intror K2)). cbn in *. congruence.
          -- apply IH. intros; apply AA; right; auto.
        * intro c. rewrite filter_In, in_map_iff. split.
          -- intros [Ic G]. exists (c, a). split; [reflexivity|]. apply filter_In. split; [apply HB; auto|]. cbn [fst snd]. rewrite Nat.eqb_refl, andb_true_r. apply Nat.eqb_eq.
             apply (front_home t T R l c RO L); auto. apply (en_P t R l (ended_ok t T R l RO L) c Ic).
          -- intros ((c' & a') & Q & I). cbn [fst] in Q. subst c'. apply filter_In in I. destruct I as [I K]. cbn [fst snd] in K. apply andb_true_iff in K. destruct K as [K1 K2]. apply Nat.eqb_eq in K1, K2. subst a'.
             apply HB in I. destruct I as [_ I]. split; [|auto]. apply (front_home t T R l c RO L); [|auto]. unfold goesOut in I. destruct (discAt t c a) as [d|] eqn:D; [|discriminate]. apply (tr_discP t T c a d D).
    - unfold WB. rewrite Ecs, map_app, map_map. reflexivity. }
  assert (HX : forall l, (l < length R)%nat -> toState h1 (extOf t l R) = Some l).
  { intros l L. destruct (ended_ok t T R l RO L) as [EC _ Cx Ox _]. rewrite M1. replace (reached t es (extOf t l R)) with false.
    - apply MP. split; [auto|]. rewrite EC. apply in_or_app. right. left. auto.
    - symmetry. destruct (reached t es (extOf t l R)) eqn:Q; [|auto]. destruct (reached_out t T es _ (fun c a => proj1 (HB c a)) Q) as (_ & _ & c & a & D & _). exfalso. apply (tr_sep t T _ _ _ _ Cx D). }
  assert (HP : forall i, In i (otP t) -> toState h1 i = Some (home t R i)). { intros i Pi. rewrite M1, HR by auto. apply MP. apply home_ok; auto. }
  destruct (exteriors_ok t T CL R RO SAT (fun l c p => FW R l c p RO) (fun p a => RN R p a RO) (WB t R W0 es) (fun l => isMatch t (nth l R 0%nat)) (hMap h1) HP HX) with (ps := ordP t) (done := @nil nat) (h := h1) as (h2 & E2 & S2 & M2).
  { intros l a L Ha. destruct (HW l a L Ha) as (cs & P & Ecs). exists cs. split; [exact Ecs|]. split.
    - apply (Permutation_in _ P). apply prev_front; auto.
    - intros c. apply (Permutation_in _ (Permutation_sym P)). }
  { exact ND. }
  { cbn [app]. apply (Permutation_NoDup OP). apply (tr_nodup t T). }
  { intros p Ip. apply (Permutation_in _ (Permutation_sym OP)); auto. }
  { reflexivity. }
  { refine (stRep_ext _ _ _ _ _ _ _ _ _ S1); [auto|]. intros l a _. unfold WD. cbn [existsb andb]. rewrite app_nil_r. reflexivity. }
  cbn [app] in S2. exists R, (WD t R (WB t R W0 es) (ordP t)), h2. split.
  - unfold rawHypothesis. cbn [addState hEmpty hSt length hMap hIdx app]. cbn [addState fst hEmpty hSt length hMap hIdx app] in E.
    destruct (mergeCont _ _ _ _ _) as [h0|]; cbn [bind] in *; [|discriminate]. match goal with |- context [explore ?x ?y ?z ?w] => replace (explore x y z w) with (Ok b) by (symmetry; exact E) end. cbn [bind]. fold es. rewrite E1. cbn [bind]. exact E2.
  - constructor; [exact RO|exact S2| |].
    + intros l a L Ha. destruct (HW l a L Ha) as (cs & P & Ecs). exists cs. split; [exact P|]. unfold WD. rewrite Ecs. f_equal.
      replace (existsb (Nat.eqb (prevOf t l R)) (ordP t)) with true; [|symmetry; apply existsb_in; apply (Permutation_in _ OP); apply (en_P t R l (ended_ok t T R l RO L)); apply prev_front; auto].
      replace (inA t a) with true; [reflexivity|]. symmetry. unfold inA. apply existsb_in. auto.
    + intros i Hi. unfold toState. rewrite M2. fold (toState h1 i). destruct (inP t i) eqn:I; [exists (home t R i); apply HP; apply inP_iff; auto|].
      assert (Hz : (0 < i)%nat). { destruct i; [|lia]. apply inP_iff in P0. congruence. }
      destruct (tr_kind t T ND i Hz Hi) as [(p & C)|(p & a & D)].
      * destruct (tr_contP t T p i C) as [Pp _]. destruct (ext_home t T R p i RO Pp C I) as [_ <-]. exists (home t R p). apply HX. apply home_ok; auto.
      * rewrite M1. replace (reached t es i) with true.
        -- destruct (CL i Hi I) as (j & r & ->). eauto.
        -- symmetry. unfold reached. apply existsb_exists. exists (p, a). split; [|cbn [fst snd]; rewrite D; apply Nat.eqb_refl]. apply HB. split; [apply (tr_discP t T p a i D)|]. unfold goesOut. rewrite D, I. reflexivity.
Qed.
End Raw2.
