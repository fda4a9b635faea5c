(** Zone graphs: the construction covers every run. *)
From Coq Require Import QArith ZArith Bool List Lqa Lia Arith.
From Verif Require Import BoundsModel BoundsProofs ConstraintModel GuardSpec ConstraintProofs ZoneModel ZoneSpec ZoneProofs ZoneProofs2 ZoneProofs3
  AutomatonModel AutomatonSpec AutomatonProofs TimedWordModel TimedWordSpec ZoneGraphModel ZoneGraphSpec.
Import ListNotations.
Open Scope Q_scope.

Lemma dim_zeroDiag m : dim (zeroDiag m) = dim m. Proof. apply dim_mk. Qed.
Lemma nonneg2_canonize_sat m : isSatNoCanon (canonize m) = true <-> nonemptyZ m.
Proof. change (isSatNoCanon (canonize m)) with (isSatisfiable m). apply isSatisfiable_exact. Qed.
Lemma zeroDiag_closed m : closed m -> nonneg2 m -> closed (zeroDiag m).
Proof.
  intros C N i j k Hi Hj Hk. rewrite dim_zeroDiag in *. unfold zeroDiag. rewrite !get_mk by auto.
  destruct (i =? j)%nat eqn:Eij; destruct (i =? k)%nat eqn:Eik; destruct (k =? j)%nat eqn:Ekj;
    repeat match goal with H : (_ =? _)%nat = true |- _ => apply Nat.eqb_eq in H end; repeat match goal with H : (_ =? _)%nat = false |- _ => apply Nat.eqb_neq in H end; subst; try congruence.
  - reflexivity.
  - apply N; auto.
  - apply badd_zero_le_l. reflexivity.
  - apply badd_zero_le. reflexivity.
  - apply C; auto.
Qed.

(** one transition on zones *)
Lemma zgPost_some n now t z : dim now = S n -> rwf (S n) (trst t) -> raceFree (trst t) -> gclocks (S n) (tgrd t) ->
  zgPost now t = Some z -> dim z = S n /\ closed z /\ nonemptyZ z /\ exactPost n now t z.
Proof.
  intros D RW RF GC H. unfold zgPost in H. cbv zeta in H.
  destruct (isSatNoCanon (canonize (tightenG now (tgrd t)))) eqn:E1; [|discriminate].
  apply nonneg2_canonize_sat in E1.
  assert (C1 := canonical_of_nonempty_canonize _ E1).
  assert (N1 : nonemptyZ (canonize (tightenG now (tgrd t)))) by (destruct E1 as [w Hw]; exists w; apply canonize_inZone; auto).
  assert (D1 : dim (canonize (tightenG now (tgrd t))) = S n) by (rewrite dim_canonize, dim_tightenG; auto).
  set (z1 := canonize (tightenG now (tgrd t))) in *.
  destruct (zapplyResets_seq (trst t) z1 n D1 C1 N1 RW) as (D2 & C2 & N2 & _).
  assert (EX := zapplyResets_exact (trst t) z1 n D1 C1 N1 RW RF).
  set (z2 := zapplyResets z1 (trst t)) in *.
  destruct (isSatNoCanon (canonize (canonize z2))) eqn:E2; [|discriminate]. injection H as <-.
  assert (I2 : forall w, inZone (canonize (canonize z2)) w <-> inZone z2 w) by (intro w; rewrite !canonize_inZone; reflexivity).
  assert (N3 : nonemptyZ (canonize (canonize z2))) by (destruct N2 as [w Hw]; exists w; apply I2; auto).
  assert (C3 : canonicalZ (canonize (canonize z2))) by (apply canonical_of_nonempty_canonize; destruct N2 as [w Hw]; exists w; apply canonize_inZone; auto).
  destruct C3 as [C3 C3']. assert (ZD := fun w => zeroDiag_exact (canonize (canonize z2)) w C3').
  split; [rewrite dim_zeroDiag, !dim_canonize; auto|]. split; [|split].
  - apply zeroDiag_closed; auto.
  - destruct N3 as [w Hw]. exists w. apply ZD. auto.
  - intro w'. rewrite ZD, I2, EX. unfold z1. split.
    + intros [w [Hw E]]. exists w. rewrite canonize_inZone in Hw. apply (tightenG_exact (tgrd t) now w) in Hw; [|rewrite D; auto]. destruct Hw. auto.
    + intros [w [H1 [H2 H3]]]. exists w. split; auto. rewrite canonize_inZone. apply (tightenG_exact (tgrd t) now w); [rewrite D; auto|auto].
Qed.

Lemma zgPost_none n now t : dim now = S n -> rwf (S n) (trst t) -> gclocks (S n) (tgrd t) ->
  zgPost now t = None -> forall w, inZone now w -> ~ gsat (tgrd t) w.
Proof.
  intros D RW GC H w Hw G. unfold zgPost in H. cbv zeta in H.
  assert (E1 : nonemptyZ (tightenG now (tgrd t))) by (exists w; apply (tightenG_exact (tgrd t) now w); [rewrite D; auto|auto]).
  rewrite (proj2 (nonneg2_canonize_sat _) E1) in H.
  assert (C1 := canonical_of_nonempty_canonize _ E1).
  assert (N1 : nonemptyZ (canonize (tightenG now (tgrd t)))) by (destruct E1 as [u Hu]; exists u; apply canonize_inZone; auto).
  assert (D1 : dim (canonize (tightenG now (tgrd t))) = S n) by (rewrite dim_canonize, dim_tightenG; auto).
  destruct (zapplyResets_seq (trst t) _ n D1 C1 N1 RW) as (D2 & C2 & N2 & _).
  rewrite (proj2 (nonneg2_canonize_sat _)) in H; [discriminate|]. destruct N2 as [u Hu]. exists u. apply canonize_inZone. auto.
Qed.

(** the abstraction a new state's zone goes through *)
Definition zgAbs (quick : bool) (A : ta) (z0 : matrix) : matrix :=
  if quick then zeroDiag (canonize (extrapolate (zgMc A) z0)) else zeroDiag (extrapolate (zgMc A) z0).
Lemma zgAbs_enlarges quick A z0 w : inZone z0 w -> inZone (zgAbs quick A z0) w.
Proof.
  intro H. assert (K := Z_enlarge _ _ (extrapolate_mle (zgMc A) z0) w H). unfold zgAbs.
  destruct quick; apply zeroDiag_exact; [eapply nonneg2_of_point; apply canonize_inZone; exact K|apply canonize_inZone; auto|eapply nonneg2_of_point; exact K|exact K].
Qed.
Lemma dim_zgAbs quick A z0 : dim (zgAbs quick A z0) = dim z0.
Proof. unfold zgAbs. destruct quick; rewrite dim_zeroDiag; rewrite ?dim_canonize; apply dim_extrapolate. Qed.

Section Construction.
  Variables (quick : bool) (pick : picker) (A : ta).
  Hypothesis (PK : picks pick) (WF : wfTA A) (CB : clocksBelow (length (tmax A)) A) (RF : raceFreeTA A).
  Notation n := (length (tmax A)).

  Definition okNode (nd : zn) : Prop :=
    dim (znZone nd) = S n /\ nonemptyZ (znZone nd) /\ exists q, lookup A (znLoc nd) = Some q /\ znMatch nd = isMatch q.
  Definition okEdge (Z : zauto) (e : zedge) : Prop :=
    exists ns nt, nodeAt Z (zeSrc e) ns /\ nodeAt Z (zeTgt e) nt /\ edge A (znLoc ns) (zeAct e) (zeTr e) /\ znLoc nt = ttgt (zeTr e) /\
      (exists w, inZone (elapse (znZone ns)) w /\ gsat (tgrd (zeTr e)) w) /\
      (forall w, inZone (elapse (znZone ns)) w -> gsat (tgrd (zeTr e)) w -> inZone (znZone nt) (applyReset w (trst (zeTr e)))).
  Definition fromEdge (Z : zauto) (k : nat) (nd : zn) : Prop :=
    exists e ns z0, In e (zaEdges Z) /\ zeTgt e = k /\ (zeSrc e < k)%nat /\ nodeAt Z (zeSrc e) ns /\
      nonemptyZ z0 /\ closed z0 /\ exactPost n (elapse (znZone ns)) (zeTr e) z0 /\ znZone nd = zgAbs quick A z0.
  Definition isInitNode (k : nat) (nd : zn) : Prop := nth_error (tinit A) k = Some (znLoc nd) /\ znZone nd = zzero (S n).
  Definition zinv (Z : zauto) : Prop :=
    (forall k nd, nodeAt Z k nd -> okNode nd) /\ (forall e, In e (zaEdges Z) -> okEdge Z e) /\
    zaInit Z = seq 0 (length (tinit A)) /\ (length (tinit A) <= length (zaNodes Z))%nat /\
    (forall k nd, nodeAt Z k nd -> if (k <? length (tinit A))%nat then isInitNode k nd else fromEdge Z k nd).
  Definition zext (Z Z' : zauto) : Prop :=
    (exists ns, zaNodes Z' = zaNodes Z ++ ns) /\ (exists es, zaEdges Z' = zaEdges Z ++ es) /\ zaInit Z' = zaInit Z.
  Definition zdone (Z : zauto) (k : nat) (ct : letter * trans) : Prop :=
    forall nd w, nodeAt Z k nd -> inZone (elapse (znZone nd)) w -> gsat (tgrd (snd ct)) w ->
      exists k', In (mkZE k (fst ct) (snd ct) k') (zaEdges Z).

  Lemma zext_refl Z : zext Z Z.
  Proof. split; [exists []; rewrite app_nil_r; auto|]. split; [exists []; rewrite app_nil_r; auto|auto]. Qed.
  Lemma zext_trans Z1 Z2 Z3 : zext Z1 Z2 -> zext Z2 Z3 -> zext Z1 Z3.
  Proof.
    intros [[a A1] [[b B1] C1]] [[a' A2] [[b' B2] C2]]. split; [exists (a ++ a'); rewrite A2, A1, app_assoc; auto|].
    split; [exists (b ++ b'); rewrite B2, B1, app_assoc; auto|congruence].
  Qed.
  Lemma zext_node Z Z' k nd : zext Z Z' -> nodeAt Z k nd -> nodeAt Z' k nd.
  Proof. intros [[a A1] _] H. unfold nodeAt in *. rewrite A1, nth_error_app1; auto. apply nth_error_Some. congruence. Qed.
  Lemma zext_node_inv Z Z' k nd : zext Z Z' -> (k < length (zaNodes Z))%nat -> nodeAt Z' k nd -> nodeAt Z k nd.
  Proof. intros [[a A1] _] L H. unfold nodeAt in *. rewrite A1, nth_error_app1 in H; auto. Qed.
  Lemma zext_edge Z Z' e : zext Z Z' -> In e (zaEdges Z) -> In e (zaEdges Z').
  Proof. intros [_ [[b B] _]] H. rewrite B. apply in_or_app. auto. Qed.
  Lemma zext_done Z Z' k ct : zext Z Z' -> (k < length (zaNodes Z))%nat -> zdone Z k ct -> zdone Z' k ct.
  Proof.
    intros E L H nd w N I G. destruct (H nd w (zext_node_inv _ _ _ _ E L N) I G) as [k' K]. exists k'. eapply zext_edge; eauto.
  Qed.
  Lemma zext_okEdge Z Z' e : zext Z Z' -> okEdge Z e -> okEdge Z' e.
  Proof. intros E (ns & nt & N1 & N2 & R). exists ns, nt. split; [eapply zext_node; eauto|]. split; [eapply zext_node; eauto|]. auto. Qed.
  Lemma zext_fromEdge Z Z' k nd : zext Z Z' -> fromEdge Z k nd -> fromEdge Z' k nd.
  Proof. intros E (e & ns & z0 & I & T & L & N1 & R). exists e, ns, z0. split; [eapply zext_edge; eauto|]. do 2 (split; [auto|]). split; [eapply zext_node; eauto|]. auto. Qed.

  Lemma outOf_edge l c t : In (c, t) (outOf A l) <-> edge A l c t.
  Proof.
    unfold outOf, edge. split.
    - destruct (lookup A l) as [q|] eqn:E; [|intros []]. intro H. apply in_flat_map in H. destruct H as [[a ts] [H1 H2]]. cbn [fst snd] in H2.
      apply in_map_iff in H2. destruct H2 as [t' [E2 H2]]. injection E2 as <- <-. exists q, ts. split; [apply lookup_some; auto|auto].
    - intros (s & ts & H1 & H2 & H3). rewrite (lookup_in A l s) by (auto; apply WF). apply in_flat_map. exists (c, ts). split; [auto|]. cbn [fst snd]. apply in_map; auto.
  Qed.
  Lemma edge_ok l c t : edge A l c t -> rwf (S n) (trst t) /\ raceFree (trst t) /\ gclocks (S n) (tgrd t).
  Proof.
    intro E. destruct (CB l c t E) as [G R]. split; [|split].
    - intros x r H. destruct (R x r H) as [H1 H2]. split; [lia|]. destruct r; cbn; auto. specialize (H2 y eq_refl). lia.
    - exact (RF l c t E).
    - intros k Hk. specialize (G k Hk). lia.
  Qed.

  (** one transition *)
  Lemma zgEdge_ok s src nd c t : zgFound s = None -> zinv (zgA s) -> nodeAt (zgA s) src nd -> edge A (znLoc nd) c t ->
    let s' := zgEdge quick pick A src (elapse (znZone nd)) s (c, t) in
    zinv (zgA s') /\ zext (zgA s) (zgA s') /\ zdone (zgA s') src (c, t) /\
    (forall k, In k (zgQ s) -> In k (zgQ s')) /\ (forall k, (length (zaNodes (zgA s)) <= k)%nat -> (k < length (zaNodes (zgA s')))%nat -> In k (zgQ s')) /\
    (forall k, In k (zgQ s') -> In k (zgQ s) \/ (k < length (zaNodes (zgA s')))%nat) /\ (quick = false -> zgFound s' = None).
  Proof.
    intros F IV ND ED. cbv zeta. remember (zgEdge quick pick A src (elapse (znZone nd)) s (c, t)) as s' eqn:S'. destruct (edge_ok _ _ _ ED) as [RW [RC GC]].
    assert (ON := proj1 IV src nd ND). destruct ON as [DN _].
    assert (DE : dim (elapse (znZone nd)) = S n) by (rewrite dim_elapse; auto).
    assert (LT : exists q, lookup A (ttgt t) = Some q).
    { destruct WF as [W1 [_ [W3 _]]]. specialize (W3 _ _ _ ED). apply in_map_iff in W3. destruct W3 as [[l q] [<- Hq]]. exists q. apply lookup_in; auto. }
    destruct LT as [q LT].
    unfold zgEdge in S'. rewrite F, LT in S'.
    destruct (zgPost (elapse (znZone nd)) t) as [z0|] eqn:EP.
    2:{ rewrite S'. split; [auto|]. split; [apply zext_refl|]. split.
        - intros nd' w N I G. exfalso. unfold nodeAt in *. assert (nd' = nd) by congruence. subst. cbn [snd] in G. eapply zgPost_none; eauto.
        - split; [auto|]. split; [intros; lia|]. split; [auto|]. intros _; auto. }
    destruct (zgPost_some n _ t z0 DE RW RC GC EP) as (D0 & C0 & N0 & EX).
    cbv zeta in S'. set (z := if quick then z0 else zeroDiag (extrapolate (zgMc A) z0)) in *.
    assert (Dz : dim z = S n) by (unfold z; destruct quick; [auto|]; rewrite dim_zeroDiag, dim_extrapolate; auto).
    assert (Sz : forall w, inZone z0 w -> inZone z w) by (intros w Hw; unfold z; destruct quick; [auto|]; apply (zgAbs_enlarges false A z0 w Hw)).
    assert (POST : forall w, inZone (elapse (znZone nd)) w -> gsat (tgrd t) w -> inZone z0 (applyReset w (trst t))).
    { intros w I G. apply EX. exists w. split; [auto|]. split; [auto|]. intros x _; reflexivity. }
    assert (EN : exists w, inZone (elapse (znZone nd)) w /\ gsat (tgrd t) w).
    { destruct N0 as [w' Hw']. apply EX in Hw'. destruct Hw' as (w & H1 & H2 & _). eauto. }
    set (s1 := match pick (zaNodes (zgA s)) (fun n0 => (znLoc n0 =? ttgt t)%nat && zincludes (znZone n0) z) with
               | Some k => mkZG (mkZA (zaNodes (zgA s)) (zaEdges (zgA s) ++ [mkZE src c t k]) (zaInit (zgA s))) (zgQ s) None
               | None => mkZG (mkZA (zaNodes (zgA s) ++ [mkZN (ttgt t) (isMatch q) (if quick then zeroDiag (canonize (extrapolate (zgMc A) z)) else z)])
                                    (zaEdges (zgA s) ++ [mkZE src c t (length (zaNodes (zgA s)))]) (zaInit (zgA s))) (zgQ s ++ [length (zaNodes (zgA s))]) None
               end) in *.
    assert (R1 : zinv (zgA s1) /\ zext (zgA s) (zgA s1) /\ zdone (zgA s1) src (c, t) /\
      (forall k, In k (zgQ s) -> In k (zgQ s1)) /\ (forall k, (length (zaNodes (zgA s)) <= k)%nat -> (k < length (zaNodes (zgA s1)))%nat -> In k (zgQ s1)) /\
      (forall k, In k (zgQ s1) -> In k (zgQ s) \/ (k < length (zaNodes (zgA s1)))%nat) /\ zgFound s1 = None).
    { destruct IV as (V1 & V2 & V3 & V4 & V5). assert (P := PK (zaNodes (zgA s)) (fun n0 => (znLoc n0 =? ttgt t)%nat && zincludes (znZone n0) z)).
      destruct (pick (zaNodes (zgA s)) _) as [k|] eqn:EK; unfold s1; cbn [zgA zgQ zgFound zaNodes zaEdges zaInit].
      - destruct P as [nt [P1 P2]]. apply andb_true_iff in P2. destruct P2 as [P2 P3]. apply Nat.eqb_eq in P2.
        set (Z' := mkZA _ _ _). assert (X : zext (zgA s) Z').
        { split; [exists []; rewrite app_nil_r; auto|]. split; [eexists; reflexivity|auto]. }
        assert (OE : okEdge Z' (mkZE src c t k)).
        { exists nd, nt. cbn [zeSrc zeTgt zeAct zeTr]. split; [eapply zext_node; eauto|]. split; [eapply zext_node; eauto|]. split; [auto|]. split; [auto|]. split; [auto|].
          intros w I G. refine (zincludes_sound _ z _ _ P3 (Sz _ (POST w I G))). rewrite Dz. apply (V1 k nt P1). }
        split; [|split; [auto|split; [|split; [auto|split; [intros; lia|split; [auto|auto]]]]]].
        + split; [auto|]. split; [|split; [auto|split; [auto|]]].
          * intros e I. cbn [zaEdges Z'] in I. apply in_app_or in I. destruct I as [I|[<-|[]]]; [eapply zext_okEdge; eauto|auto].
          * intros k0 nd0 N. specialize (V5 k0 nd0 N). destruct (k0 <? _)%nat; [auto|eapply zext_fromEdge; eauto].
        + intros nd0 w N I G. exists k. cbn [zaEdges Z' fst snd]. apply in_or_app. right. left. reflexivity.
      - set (nn := mkZN _ _ _). set (Z' := mkZA _ _ _). assert (X : zext (zgA s) Z').
        { split; [eexists; reflexivity|]. split; [eexists; reflexivity|auto]. }
        assert (ZN : znZone nn = zgAbs quick A z0) by (unfold nn, z, zgAbs; cbn [znZone]; destruct quick; reflexivity).
        assert (NA : nodeAt Z' (length (zaNodes (zgA s))) nn) by (unfold nodeAt, Z'; cbn [zaNodes]; rewrite nth_error_app2, Nat.sub_diag by lia; reflexivity).
        assert (SRC : (src < length (zaNodes (zgA s)))%nat) by (apply nth_error_Some; unfold nodeAt in ND; congruence).
        assert (OE : okEdge Z' (mkZE src c t (length (zaNodes (zgA s))))).
        { exists nd, nn. cbn [zeSrc zeTgt zeAct zeTr]. split; [eapply zext_node; eauto|]. split; [auto|]. split; [auto|]. split; [reflexivity|]. split; [auto|].
          intros w I G. rewrite ZN. apply zgAbs_enlarges. auto. }
        assert (CASE : forall k0 nd0, nodeAt Z' k0 nd0 -> nodeAt (zgA s) k0 nd0 \/ (k0 = length (zaNodes (zgA s)) /\ nd0 = nn)).
        { intros k0 nd0 N. destruct (Nat.lt_ge_cases k0 (length (zaNodes (zgA s)))) as [L|L]; [left; eapply zext_node_inv; eauto|right].
          unfold nodeAt, Z' in N. cbn [zaNodes] in N. rewrite nth_error_app2 in N by auto.
          destruct (k0 - length (zaNodes (zgA s)))%nat as [|m] eqn:Em; [|cbn in N; destruct m; discriminate]. cbn in N. split; [lia|congruence]. }
        split; [|split; [auto|split; [|split; [|split; [|split; [|auto]]]]]].
        + split; [|split; [|split; [auto|split]]].
          * intros k0 nd0 N. destruct (CASE _ _ N) as [K|[_ ->]]; [eauto|]. split; [rewrite ZN, dim_zgAbs; auto|]. split; [rewrite ZN; destruct N0 as [w Hw]; exists w; apply zgAbs_enlarges; auto|].
            exists q. split; [auto|reflexivity].
          * intros e I. unfold Z' in I. cbn [zaEdges] in I. apply in_app_or in I. destruct I as [I|[<-|[]]]; [eapply zext_okEdge; eauto|auto].
          * unfold Z'. cbn [zaNodes]. rewrite app_length. lia.
          * intros k0 nd0 N. destruct (CASE _ _ N) as [K|[-> ->]].
            -- specialize (V5 k0 nd0 K). destruct (k0 <? _)%nat; [auto|eapply zext_fromEdge; eauto].
            -- replace (length (zaNodes (zgA s)) <? length (tinit A))%nat with false by (symmetry; apply Nat.ltb_ge; auto).
               exists (mkZE src c t (length (zaNodes (zgA s)))), nd, z0. cbn [zeTgt zeSrc zeTr]. split; [unfold Z'; cbn [zaEdges]; apply in_or_app; right; left; reflexivity|].
               split; [auto|]. split; [auto|]. split; [eapply zext_node; eauto|]. auto.
        + intros nd0 w N I G. eexists. unfold Z'. cbn [zaEdges fst snd]. apply in_or_app. right. left. reflexivity.
        + intros k K. apply in_or_app. auto.
        + intros k K1 K2. unfold Z' in K2. cbn [zaNodes] in K2. rewrite app_length in K2. cbn [length] in K2. apply in_or_app. right. left. lia.
        + intros k K. apply in_app_or in K. destruct K as [K|[<-|[]]]; [auto|]. right. unfold Z'. cbn [zaNodes]. rewrite app_length. cbn [length]. lia. }
    rewrite S'. destruct R1 as (G1 & G2 & G3 & G4 & G5 & G6 & G7).
    destruct (isMatch q && quick)%bool eqn:EM; cbn [zgA zgQ zgFound].
    - repeat (split; [auto|]). intros ->. rewrite andb_false_r in EM. discriminate.
    - repeat (split; [auto|]). auto.
  Qed.

  Lemma zgEdges_ok : forall cts s src nd, zgFound s = None -> zinv (zgA s) -> nodeAt (zgA s) src nd -> (forall c t, In (c, t) cts -> edge A (znLoc nd) c t) ->
    let s' := fold_left (zgEdge quick pick A src (elapse (znZone nd))) cts s in
    zinv (zgA s') /\ zext (zgA s) (zgA s') /\ (zgFound s' = None -> forall ct, In ct cts -> zdone (zgA s') src ct) /\
    (forall k, In k (zgQ s) -> In k (zgQ s')) /\ (forall k, (length (zaNodes (zgA s)) <= k)%nat -> (k < length (zaNodes (zgA s')))%nat -> In k (zgQ s')) /\
    (forall k, In k (zgQ s') -> In k (zgQ s) \/ (k < length (zaNodes (zgA s')))%nat) /\ (quick = false -> zgFound s' = None).
  Proof.
    induction cts as [|[c t] cts IH]; intros s src nd F IV ND ED s'.
    { unfold s'. cbn [fold_left]. split; [auto|]. split; [apply zext_refl|]. split; [intros _ ct []|]. split; [auto|]. split; [intros; lia|]. split; auto. }
    assert (H := zgEdge_ok s src nd c t F IV ND (ED c t (or_introl eq_refl))). cbv zeta in H. destruct H as (H1 & H2 & H3 & H4 & H5 & H6 & H7).
    unfold s'. cbn [fold_left]. remember (zgEdge quick pick A src (elapse (znZone nd)) s (c, t)) as s1 eqn:E1. clear E1 s'.
    destruct (zgFound s1) as [w|] eqn:F1.
    - assert (STOP : forall l, fold_left (zgEdge quick pick A src (elapse (znZone nd))) l s1 = s1).
      { induction l as [|[c' t'] l IHl]; [reflexivity|]. cbn [fold_left]. unfold zgEdge at 2. rewrite F1. exact IHl. }
      rewrite STOP. split; [auto|]. split; [auto|]. split; [rewrite F1; discriminate|]. split; [auto|]. split; [auto|]. split; [auto|]. rewrite F1. exact H7.
    - assert (K := IH s1 src nd F1 H1 (zext_node _ _ _ _ H2 ND) (fun c' t' I => ED c' t' (or_intror I))). cbv zeta in K.
      destruct K as (K1 & K2 & K3 & K4 & K5 & K6 & K7).
      remember (fold_left (zgEdge quick pick A src (elapse (znZone nd))) cts s1) as s2. clear Heqs2.
      split; [auto|]. split; [eapply zext_trans; eauto|]. split.
      { intros F2 ct [<-|I]; [|auto]. eapply zext_done; eauto. apply nth_error_Some. assert (X := zext_node _ _ _ _ H2 ND). unfold nodeAt in X. congruence. }
      split; [auto|]. split.
      { intros k L1 L2. destruct (Nat.lt_ge_cases k (length (zaNodes (zgA s1)))) as [L|L]; auto. }
      split; [|auto]. intros k I. destruct (K6 k I) as [J|J]; [|auto]. destruct (H6 k J) as [J2|J2]; [auto|]. right.
      destruct K2 as [[ns E] _]. rewrite E, app_length. lia.
  Qed.

  Definition linv (s : zgst) : Prop :=
    zinv (zgA s) /\ (forall k, In k (zgQ s) -> (k < length (zaNodes (zgA s)))%nat) /\
    (forall k nd, nodeAt (zgA s) k nd -> In k (zgQ s) \/ forall c t, edge A (znLoc nd) c t -> zdone (zgA s) k (c, t)).
  Lemma zgStep_ok s k q nd : zgFound s = None -> linv s -> zgQ s = k :: q -> nodeAt (zgA s) k nd ->
    let s' := fold_left (zgEdge quick pick A k (elapse (znZone nd))) (outOf A (znLoc nd)) (mkZG (zgA s) q None) in
    zinv (zgA s') /\ zext (zgA s) (zgA s') /\ (zgFound s' = None -> linv s') /\ (quick = false -> zgFound s' = None).
  Proof.
    intros F (IV & Q & DN) EQ ND. cbv zeta.
    assert (H := zgEdges_ok (outOf A (znLoc nd)) (mkZG (zgA s) q None) k nd eq_refl IV ND (fun c t I => proj1 (outOf_edge _ _ _) I)). cbv zeta in H.
    remember (fold_left _ _ _) as s' eqn:E. clear E. cbn [zgA zgQ] in H. destruct H as (H1 & H2 & H3 & H4 & H5 & H6 & H7).
    split; [auto|]. split; [auto|]. split; [|auto]. intro F'. specialize (H3 F'). split; [auto|]. split.
    - intros k0 I. destruct (H6 k0 I) as [J|J]; [|auto]. assert (X := Q k0). rewrite EQ in X. specialize (X (or_intror J)). destruct H2 as [[ns E] _]. rewrite E, app_length. lia.
    - intros k0 nd0 N. destruct (Nat.lt_ge_cases k0 (length (zaNodes (zgA s)))) as [L|L].
      + assert (N' := zext_node_inv _ _ _ _ H2 L N). destruct (DN k0 nd0 N') as [J|J].
        * rewrite EQ in J. destruct J as [<-|J]; [|left; auto]. right. intros c t ED. assert (nd0 = nd) by (unfold nodeAt in *; congruence). subst. apply H3. apply outOf_edge. auto.
        * right. intros c t ED. eapply zext_done; eauto.
      + left. apply H5; auto. apply nth_error_Some. unfold nodeAt in N. congruence.
  Qed.
  Lemma zgLoop_ok : forall fuel s s', zgFound s = None -> linv s -> zgLoop fuel quick pick A s = Some s' ->
    zinv (zgA s') /\ zext (zgA s) (zgA s') /\ (quick = false -> zgFound s' = None) /\
    (zgFound s' = None -> forall k nd c t, nodeAt (zgA s') k nd -> edge A (znLoc nd) c t -> zdone (zgA s') k (c, t)).
  Proof.
    assert (END : forall s, zgFound s = None -> linv s -> zgQ s = [] -> 
      zinv (zgA s) /\ zext (zgA s) (zgA s) /\ (quick = false -> zgFound s = None) /\
      (zgFound s = None -> forall k nd c t, nodeAt (zgA s) k nd -> edge A (znLoc nd) c t -> zdone (zgA s) k (c, t))).
    { intros s F (IV & Q & DN) E. split; [auto|]. split; [apply zext_refl|]. split; [auto|]. intros _ k nd c t N ED. destruct (DN k nd N) as [J|J]; [rewrite E in J; destruct J|auto]. }
    induction fuel as [|fuel IH]; intros s s' F LV H; cbn [zgLoop] in H; rewrite F in H; destruct (zgQ s) as [|k q] eqn:EQ; try discriminate.
    1,2: injection H as <-; apply END; auto.
    destruct (nth_error (zaNodes (zgA s)) k) as [nd|] eqn:EN; [|discriminate].
    assert (K := zgStep_ok s k q nd F LV EQ EN). cbv zeta in K. remember (fold_left _ _ _) as s1 eqn:E1. clear E1. destruct K as (K1 & K2 & K3 & K4).
    destruct (zgFound s1) as [w|] eqn:F1.
    - assert (s1 = s') by (destruct fuel; cbn [zgLoop] in H; rewrite F1 in H; congruence). subst s'. split; [auto|]. split; [auto|]. rewrite F1. split; [auto|discriminate].
    - destruct (IH s1 s' F1 (K3 eq_refl) H) as (J1 & J2 & J3 & J4). split; [auto|]. split; [eapply zext_trans; eauto|]. auto.
  Qed.
  Lemma zgInit_ok : linv (zgInit A).
  Proof.
    assert (NA : forall k nd, nodeAt (zgA (zgInit A)) k nd -> exists l, nth_error (tinit A) k = Some l /\
        nd = mkZN l (match lookup A l with Some q => isMatch q | None => false end) (zzero (S n))).
    { intros k nd H. unfold nodeAt, zgInit in H. cbn [zgA zaNodes] in H. rewrite nth_error_map in H. destruct (nth_error (tinit A) k) as [l|]; [|discriminate]. exists l. split; [reflexivity|]. injection H as <-. reflexivity. }
    assert (LB : forall k nd, nodeAt (zgA (zgInit A)) k nd -> (k < length (tinit A))%nat).
    { intros k nd H. destruct (NA k nd H) as [l [E _]]. apply nth_error_Some. congruence. }
    split; [|split].
    - split; [|split; [|split; [|split]]].
      + intros k nd H. destruct (NA k nd H) as [l [E ->]]. cbn [znZone znLoc znMatch]. split; [apply dim_mk|]. split.
        * exists (fun _ => 0). apply zzero_exact. intros; reflexivity.
        * destruct WF as [W1 [_ [_ W4]]]. specialize (W4 l (nth_error_In _ _ E)). apply in_map_iff in W4. destruct W4 as [[l' q] [E' Hq]]. cbn [fst] in E'. subst l'.
          exists q. assert (X := lookup_in A l q W1 Hq). rewrite X. auto.
      + intros e [].
      + reflexivity.
      + unfold zgInit. cbn [zgA zaNodes]. rewrite map_length. auto.
      + intros k nd H. rewrite (proj2 (Nat.ltb_lt _ _) (LB k nd H)). destruct (NA k nd H) as [l [E ->]]. split; [exact E|reflexivity].
    - intros k H. unfold zgInit in *. cbn [zgA zgQ zaNodes] in *. rewrite map_length. apply in_seq in H. lia.
    - intros k nd H. left. unfold zgInit. cbn [zgQ]. apply in_seq. specialize (LB k nd H). lia.
  Qed.
  Theorem ta2za_ok fuel s : ta2za fuel quick pick A = Some s ->
    zinv (zgA s) /\ (quick = false -> zgFound s = None) /\
    (zgFound s = None -> forall k nd c t, nodeAt (zgA s) k nd -> edge A (znLoc nd) c t -> zdone (zgA s) k (c, t)).
  Proof. intro H. destruct (zgLoop_ok fuel (zgInit A) s eq_refl zgInit_ok H) as (H1 & _ & H2 & H3). auto. Qed.

  (** following a run *)
  Lemma follow_step Z k nd v d v1 a c : zinv Z -> (forall k nd c t, nodeAt Z k nd -> edge A (znLoc nd) c t -> zdone Z k (c, t)) ->
    nodeAt Z k nd -> inZone (znZone nd) v -> 0 <= d -> veq v1 (delay v d) -> fire A a (znLoc nd, v1) c ->
    exists e nd', In e (zaEdges Z) /\ zeSrc e = k /\ zeAct e = a /\ nodeAt Z (zeTgt e) nd' /\ znLoc nd' = fst c /\ inZone (znZone nd') (snd c).
  Proof.
    intros IV DN N I Hd E (t & ED & G & L & R). cbn [fst snd] in *.
    assert (I1 : inZone (elapse (znZone nd)) v1).
    { apply (inZone_ext _ (delay v d)); [intros x _; symmetry; apply E|]. apply elapse_sound; auto. }
    destruct (DN k nd a t N ED nd v1 N I1 G) as [k' Ie]. cbn [fst snd] in Ie.
    destruct (proj1 (proj2 IV) _ Ie) as (ns & nt & N1 & N2 & _ & L2 & _ & PO). cbn [zeSrc zeTgt zeTr] in *.
    assert (ns = nd) by (unfold nodeAt in *; congruence). subst ns.
    exists (mkZE k a t k'), nt. cbn [zeSrc zeTgt zeAct]. do 4 (split; [auto|]). split; [congruence|].
    apply (inZone_ext _ (applyReset v1 (trst t))); [|auto]. intros x _. apply (isReset_fun (trst t) v1); [apply applyReset_isReset|auto].
  Qed.
  Lemma init_node Z l v : zinv Z -> In l (tinit A) -> veq v (fun _ => 0) ->
    exists k nd, In k (zaInit Z) /\ nodeAt Z k nd /\ znLoc nd = l /\ inZone (znZone nd) v.
  Proof.
    intros (V1 & V2 & V3 & V4 & V5) Hl E. destruct (In_nth_error _ _ Hl) as [k Hk].
    assert (L : (k < length (tinit A))%nat) by (apply nth_error_Some; congruence).
    destruct (nth_error (zaNodes Z) k) as [nd|] eqn:EN; [|apply nth_error_None in EN; lia].
    specialize (V5 k nd EN). rewrite (proj2 (Nat.ltb_lt _ _) L) in V5. destruct V5 as [K1 K2].
    exists k, nd. split; [rewrite V3; apply in_seq; lia|]. split; [auto|]. split; [congruence|]. rewrite K2. apply zzero_exact. intros x _. apply E.
  Qed.
End Construction.
