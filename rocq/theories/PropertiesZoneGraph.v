(** Properties of zone graphs (src/ta2za.cc, include/zone_automaton.hh,
    include/symbolic_run.hh): C35. *)
From Coq Require Import QArith ZArith Bool List Lqa Lia Arith.
From Verif Require Import BoundsModel BoundsProofs ConstraintModel GuardSpec ConstraintProofs ZoneModel ZoneSpec ZoneProofs ZoneProofs2 ZoneProofs3
  AutomatonModel AutomatonSpec AutomatonProofs TimedWordModel TimedWordSpec ZoneGraphModel ZoneGraphSpec ZoneGraphProofs ZoneGraphTermination PropertiesAutomata.
Import ListNotations.
Open Scope Q_scope.

(** *** C35 the zone automaton covers every run *)
(** without quickReturn the construction never stops early *)
Theorem C35_full_mode_runs_to_the_end :
  forall (fuel : nat) (pick : picker) (A : ta) (s : zgst),
    picks pick -> wfTA A -> clocksBelow (length (tmax A)) A -> raceFreeTA A ->
    ta2za fuel false pick A = Some s -> zgFound s = None.
Proof. intros fuel pick A s PK WF CB RF H. destruct (ta2za_ok false pick A PK WF CB RF fuel s H) as (_ & K & _). auto. Qed.
Print Assumptions C35_full_mode_runs_to_the_end.

(** every configuration of every run, at the start or just after a transition,
    is in a state of the zone automaton *)
Theorem C35_every_run_is_covered :
  forall (fuel : nat) (quick : bool) (pick : picker) (A : ta) (s : zgst),
    picks pick -> wfTA A -> clocksBelow (length (tmax A)) A -> raceFreeTA A ->
    ta2za fuel quick pick A = Some s -> zgFound s = None ->
    forall l v, entered A (l, v) -> exists k nd, nodeAt (zgA s) k nd /\ znLoc nd = l /\ inZone (znZone nd) v.
Proof.
  intros fuel quick pick A s PK WF CB RF H F l v E. destruct (ta2za_ok quick pick A PK WF CB RF fuel s H) as (IV & _ & DN). specialize (DN F).
  remember (l, v) as c eqn:Ec. revert l v Ec.
  induction E as [l v Hl E|l v d v1 a c E IH Hd EV FI]; intros l' v' Ec.
  - injection Ec as <- <-. destruct (init_node quick A (zgA s) l v IV Hl E) as (k & nd & _ & N & L & I). eauto.
  - subst c. destruct (IH l v eq_refl) as (k & nd & N & L & I). subst l.
    destruct (follow_step _ A (zgA s) k nd v d v1 a (l', v') IV DN N I Hd EV FI) as (e & nd' & _ & _ & _ & N' & L' & I'). cbn [fst snd] in *. eauto.
Qed.
Print Assumptions C35_every_run_is_covered.
(** and at any time a configuration is some delay after one that is *)
Theorem C35_every_reached_configuration_is_covered :
  forall (fuel : nat) (quick : bool) (pick : picker) (A : ta) (s : zgst),
    picks pick -> wfTA A -> clocksBelow (length (tmax A)) A -> raceFreeTA A ->
    ta2za fuel quick pick A = Some s -> zgFound s = None ->
    forall l v, reached A (l, v) -> exists k nd w d, nodeAt (zgA s) k nd /\ znLoc nd = l /\ inZone (znZone nd) w /\ 0 <= d /\ veq v (delay w d).
Proof.
  intros fuel quick pick A s PK WF CB RF H F l v (w & d & E & Hd & EV). cbn [fst snd] in *.
  destruct (C35_every_run_is_covered fuel quick pick A s PK WF CB RF H F l w E) as (k & nd & N & L & I). exists k, nd, w, d. auto.
Qed.
Print Assumptions C35_every_reached_configuration_is_covered.

Lemma zpath_app Z k u k1 u' k2 : zpath Z k u k1 -> zpath Z k1 u' k2 -> zpath Z k (u ++ u') k2.
Proof. induction 1; cbn; auto. intro. constructor; auto. Qed.
Lemma seen_app a b : seen (a ++ b) = seen a ++ seen b.
Proof. apply filter_app. Qed.
Section Follow.
  Variables (quick : bool) (A : ta) (Z : zauto).
  Hypothesis (IV : zinv quick A Z) (DN : forall k nd c t, nodeAt Z k nd -> edge A (znLoc nd) c t -> zdone Z k (c, t)).
  (** the configuration is a delay after one in state k *)
  Definition isAt (k : nat) (c : conf) : Prop := exists nd v d, nodeAt Z k nd /\ znLoc nd = fst c /\ inZone (znZone nd) v /\ 0 <= d /\ veq (snd c) (delay v d).
  Lemma follow_fire k c a c' : isAt k c -> fire A a c c' -> exists k', zpath Z k [a] k' /\ isAt k' c'.
  Proof.
    intros (nd & v & d & N & L & I & Hd & E) F. destruct c as [l v1]. cbn [fst snd] in *. subst l.
    destruct (follow_step quick A Z k nd v d v1 a c' IV DN N I Hd E F) as (e & nd' & Ie & <- & <- & N' & L' & I').
    exists (zeTgt e). split; [constructor; [auto|constructor]|]. exists nd', (snd c'), 0. split; [auto|]. split; [auto|]. split; [auto|]. split; [lra|]. intro x. unfold delay. lra.
  Qed.
  Lemma follow_flow c d c' : flow A c d c' -> forall k, isAt k c -> exists u k', zpath Z k u k' /\ seen u = [] /\ isAt k' c'.
  Proof.
    induction 1 as [l v d v' Hd E|c d1 c1 c2 d2 c' d F1 IH1 FI F2 IH2 E]; intros k (nd & w & d0 & N & L & I & Hd0 & E0).
    - exists [], k. split; [constructor|]. split; [reflexivity|]. exists nd, w, (d0 + d). cbn [fst snd] in *. split; [auto|]. split; [auto|]. split; [auto|]. split; [lra|].
      intro x. rewrite (E x). unfold delay. rewrite (E0 x). unfold delay. lra.
    - destruct (IH1 k) as (u1 & k1 & P1 & S1 & A1); [exists nd, w, d0; auto|]. destruct (follow_fire k1 c1 _ c2 A1 FI) as (k2 & P2 & A2).
      destruct (IH2 k2 A2) as (u3 & k3 & P3 & S3 & A3). exists (u1 ++ [UNOBSERVABLE] ++ u3), k3. split; [eapply zpath_app; eauto; eapply zpath_app; eauto|].
      split; [|auto]. rewrite !seen_app, S1, S3. reflexivity.
  Qed.
  Lemma follow_run c w c' : run A c w c' -> observable w -> forall k, isAt k c -> exists u k', zpath Z k u k' /\ seen u = map fst w /\ isAt k' c'.
  Proof.
    induction 1 as [c|c a d c1 c2 w c' FI FL R IH]; intros O k AT.
    - exists [], k. split; [constructor|]. auto.
    - destruct (follow_fire k c a c1 AT FI) as (k1 & P1 & A1). destruct (follow_flow c1 d c2 FL k1 A1) as (u2 & k2 & P2 & S2 & A2).
      destruct (IH (fun a' d' I => O a' d' (or_intror I)) k2 A2) as (u3 & k3 & P3 & S3 & A3). exists ([a] ++ u2 ++ u3), k3.
      split; [eapply zpath_app; eauto; eapply zpath_app; eauto|]. split; [|auto].
      rewrite !seen_app, S2, S3. cbn. assert (NE := O a d (or_introl eq_refl)). destruct (Nat.eqb a UNOBSERVABLE) eqn:EA; [apply Nat.eqb_eq in EA; congruence|reflexivity].
  Qed.
End Follow.
(** every accepted word labels a path of the zone automaton from an initial
    state to an accepting one (with the silent steps of its run) *)
Theorem C35_accepted_words_have_accepting_paths :
  forall (fuel : nat) (quick : bool) (pick : picker) (A : ta) (s : zgst),
    picks pick -> wfTA A -> clocksBelow (length (tmax A)) A -> raceFreeTA A ->
    ta2za fuel quick pick A = Some s -> zgFound s = None ->
    forall d0 w, accepts A d0 w -> observable w ->
      exists k0 u k nd, In k0 (zaInit (zgA s)) /\ zpath (zgA s) k0 u k /\ seen u = map fst w /\ nodeAt (zgA s) k nd /\ znMatch nd = true.
Proof.
  intros fuel quick pick A s PK WF CB RF H F d0 w (l0 & c0 & c & Hl & FL & R & (st & Hs & AC)) O.
  destruct (ta2za_ok quick pick A PK WF CB RF fuel s H) as (IV & _ & DN). specialize (DN F).
  destruct (init_node quick A (zgA s) l0 (fun _ => 0) IV Hl (fun x => Qeq_refl 0)) as (k0 & nd0 & I0 & N0 & L0 & Z0).
  assert (AT : isAt (zgA s) k0 (l0, fun _ => 0)).
  { exists nd0, (fun _ => 0), 0. split; [auto|]. split; [auto|]. split; [auto|]. split; [lra|]. intro x. cbn [snd]. unfold delay. lra. }
  destruct (follow_flow quick A (zgA s) IV DN _ _ _ FL k0 AT) as (u1 & k1 & P1 & S1 & A1).
  destruct (follow_run quick A (zgA s) IV DN _ _ _ R O k1 A1) as (u2 & k2 & P2 & S2 & (nd & v & d & N & L & _)).
  exists k0, (u1 ++ u2), k2, nd. split; [auto|]. split; [eapply zpath_app; eauto|]. split; [rewrite seen_app, S1, S2; reflexivity|]. split; [auto|].
  destruct (proj1 IV k2 nd N) as (_ & _ & q & Lq & M). rewrite L in Lq. rewrite M. rewrite (lookup_in A (fst c) st (proj1 WF) Hs) in Lq. congruence.
Qed.
Print Assumptions C35_accepted_words_have_accepting_paths.
(** so an automaton whose zone automaton has no accepting state accepts nothing *)
Theorem C35_no_accepting_state_means_empty :
  forall (fuel : nat) (quick : bool) (pick : picker) (A : ta) (s : zgst),
    picks pick -> wfTA A -> clocksBelow (length (tmax A)) A -> raceFreeTA A ->
    ta2za fuel quick pick A = Some s -> zgFound s = None -> (forall nd, In nd (zaNodes (zgA s)) -> znMatch nd = false) ->
    forall d0 w, observable w -> ~ accepts A d0 w.
Proof.
  intros fuel quick pick A s PK WF CB RF H F NM d0 w O AC.
  destruct (C35_accepted_words_have_accepting_paths fuel quick pick A s PK WF CB RF H F d0 w AC O) as (k0 & u & k & nd & _ & _ & _ & N & M).
  rewrite (NM nd) in M; [discriminate|]. eapply nth_error_In; exact N.
Qed.
Print Assumptions C35_no_accepting_state_means_empty.
(** conversely nothing is made up: each edge is a transition of the automaton
    that some valuation of the source zone, after a delay of the zone, can
    take; all the valuations that can take it go to the target zone *)
Theorem C35_edges_are_transitions :
  forall (fuel : nat) (quick : bool) (pick : picker) (A : ta) (s : zgst),
    picks pick -> wfTA A -> clocksBelow (length (tmax A)) A -> raceFreeTA A ->
    ta2za fuel quick pick A = Some s -> forall e, In e (zaEdges (zgA s)) ->
    exists ns nt, nodeAt (zgA s) (zeSrc e) ns /\ nodeAt (zgA s) (zeTgt e) nt /\
      edge A (znLoc ns) (zeAct e) (zeTr e) /\ znLoc nt = ttgt (zeTr e) /\
      (exists w, inZone (elapse (znZone ns)) w /\ gsat (tgrd (zeTr e)) w) /\
      (forall w, inZone (elapse (znZone ns)) w -> gsat (tgrd (zeTr e)) w -> inZone (znZone nt) (applyReset w (trst (zeTr e)))).
Proof. intros fuel quick pick A s PK WF CB RF H e I. destruct (ta2za_ok quick pick A PK WF CB RF fuel s H) as ((_ & K & _) & _). exact (K e I). Qed.
Print Assumptions C35_edges_are_transitions.
(** and every state is an initial one with all clocks at 0, or its zone is the
    extrapolation of exactly what one transition makes of an earlier state; its
    zone is not empty and it is marked as its location is *)
Theorem C35_zones_are_successors :
  forall (fuel : nat) (quick : bool) (pick : picker) (A : ta) (s : zgst),
    picks pick -> wfTA A -> clocksBelow (length (tmax A)) A -> raceFreeTA A ->
    ta2za fuel quick pick A = Some s -> forall k nd, nodeAt (zgA s) k nd ->
    nonemptyZ (znZone nd) /\ (znMatch nd = true <-> accepting A (znLoc nd)) /\
    ((In k (zaInit (zgA s)) /\ nth_error (tinit A) k = Some (znLoc nd) /\
      forall w, inZone (znZone nd) w <-> agree (length (tmax A)) w (fun _ => 0)) \/
     (exists e ns z0, In e (zaEdges (zgA s)) /\ zeTgt e = k /\ (zeSrc e < k)%nat /\ nodeAt (zgA s) (zeSrc e) ns /\
        nonemptyZ z0 /\ closed z0 /\ exactPost (length (tmax A)) (elapse (znZone ns)) (zeTr e) z0 /\
        forall w, inZone (znZone nd) w <-> inZone (extrapolate (map inject_Z (tmax A)) z0) w)).
Proof.
  intros fuel quick pick A s PK WF CB RF H k nd N. destruct (ta2za_ok quick pick A PK WF CB RF fuel s H) as ((V1 & V2 & V3 & V4 & V5) & _).
  destruct (V1 k nd N) as (D & NE & q & Lq & M). split; [auto|]. split.
  { rewrite M. split; [intro E; exists q; split; [apply lookup_some; auto|auto]|]. intros (st & Hs & E). rewrite (lookup_in A _ st (proj1 WF) Hs) in Lq. congruence. }
  specialize (V5 k nd N). destruct (k <? length (tinit A))%nat eqn:E.
  - left. destruct V5 as [K1 K2]. apply Nat.ltb_lt in E. split; [rewrite V3; apply in_seq; lia|]. split; [auto|]. intro w. rewrite K2. apply zzero_exact.
  - right. destruct V5 as (e & ns & z0 & I & T & L & Ns & NZ & C & EX & ZZ). exists e, ns, z0. do 7 (split; [auto|]). intro w. rewrite ZZ.
    assert (NX : nonemptyZ (extrapolate (zgMc A) z0)) by (destruct NZ as [u Hu]; exists u; apply (Z_enlarge _ _ (extrapolate_mle (zgMc A) z0) u Hu)).
    unfold zgAbs. destruct quick.
    + rewrite zeroDiag_exact; [rewrite canonize_inZone; reflexivity|]. destruct NX as [u Hu]. eapply nonneg2_of_point. apply canonize_inZone. exact Hu.
    + apply zeroDiag_exact. apply nonempty_nonneg2. auto.
Qed.
Print Assumptions C35_zones_are_successors.

(** ** a concrete automaton *)
Definition firstPick : picker := fun l f =>
  match find (fun k => match nth_error l k with Some nd => f nd | None => false end) (seq 0 (length l)) with Some k => Some k | None => None end.
Lemma firstPick_ok : picks firstPick.
Proof.
  intros l f. unfold firstPick. destruct (find _ _) as [k|] eqn:E.
  - apply find_some in E. destruct E as [_ E]. destruct (nth_error l k) as [nd|]; [eauto|discriminate].
  - intros nd I. destruct (In_nth_error _ _ I) as [k Hk]. assert (L : (k < length l)%nat) by (apply nth_error_Some; congruence).
    assert (K := find_none _ _ E k ltac:(apply in_seq; lia)). cbv beta in K. rewrite Hk in K. exact K.
Qed.
Fixpoint nodupb (l : list nat) : bool := match l with [] => true | x :: r => negb (existsb (Nat.eqb x) r) && nodupb r end.
Lemma nodupb_ok l : nodupb l = true -> NoDup l.
Proof.
  induction l as [|x l IH]; cbn; [constructor|]. intro H. apply andb_true_iff in H. destruct H as [H1 H2]. constructor; [|auto]. intro I.
  rewrite negb_true_iff in H1. assert (K : existsb (Nat.eqb x) l = true) by (apply existsb_exists; exists x; split; [auto|apply Nat.eqb_refl]). congruence.
Qed.
(** the earlier renamings, tested along the list *)
Fixpoint raceb (earlier rs : resets) : bool :=
  match rs with
  | [] => true
  | (x, r) :: rest =>
      match r with
      | RVar y => forallb (fun p => match snd p with RVar z => negb (fst p =? y)%nat || (z =? y)%nat | RConst _ => true end) earlier
      | RConst _ => true
      end && raceb (earlier ++ [(x, r)]) rest
  end.
Lemma raceb_ok : forall rs earlier, raceb earlier rs = true ->
  forall p x y q, rs = p ++ (x, RVar y) :: q -> forall z, In (y, RVar z) (earlier ++ p) -> z = y.
Proof.
  induction rs as [|[x0 r0] rs IH]; intros earlier H p x y q E z I; [destruct p; discriminate|].
  cbn [raceb] in H. apply andb_true_iff in H. destruct H as [H1 H2]. destruct p as [|e p]; cbn [app] in E.
  - injection E as -> -> ->. rewrite app_nil_r in I. rewrite forallb_forall in H1. specialize (H1 _ I). cbn in H1. rewrite Nat.eqb_refl in H1. cbn in H1. apply Nat.eqb_eq in H1. auto.
  - injection E as <- ->. apply (IH _ H2 p x y q eq_refl z). rewrite <- app_assoc. exact I.
Qed.
Definition rfTAb (A : ta) := edgeAll (fun e => nodupb (map fst (trst (snd e))) && raceb [] (trst (snd e))) A.
Lemma rfTAb_ok A : rfTAb A = true -> raceFreeTA A.
Proof.
  intros H l a t K. apply (edgeAll_ok _ _ _ _ _ H) in K. cbn [snd] in K. apply andb_true_iff in K. destruct K as [K1 K2].
  split; [apply nodupb_ok; auto|]. intros p x y q E z I. apply (raceb_ok _ _ K2 p x y q E z). exact I.
Qed.
Definition belowb (n : nat) (A : ta) := edgeAll (fun e => forallb (fun k => (cx k <? n)%nat) (tgrd (snd e)) &&
  forallb (fun p => (fst p <? n)%nat && match snd p with RVar y => (y <? n)%nat | RConst _ => true end) (trst (snd e))) A.
Lemma belowb_ok n A : belowb n A = true -> clocksBelow n A.
Proof.
  intros H l a t K. apply (edgeAll_ok _ _ _ _ _ H) in K. cbn [snd] in K. apply andb_true_iff in K. destruct K as [K1 K2]. rewrite forallb_forall in K1, K2. split.
  - intros k Hk. apply Nat.ltb_lt. auto.
  - intros x r I. specialize (K2 _ I). cbn [fst snd] in K2. apply andb_true_iff in K2. destruct K2 as [K2 K3]. split; [apply Nat.ltb_lt; auto|]. intros y ->. apply Nat.ltb_lt. auto.
Qed.
Example C35_nonvacuous :
  wfTA exA /\ clocksBelow (length (tmax exA)) exA /\ raceFreeTA exA /\
  (exists s, ta2za 30 false firstPick exA = Some s /\ (3 <= length (zaNodes (zgA s)))%nat /\ (5 <= length (zaEdges (zgA s)))%nat).
Proof.
  split; [apply wfb_ok; reflexivity|]. split; [apply belowb_ok; reflexivity|]. split; [apply rfTAb_ok; reflexivity|].
  eexists. split; [vm_compute; reflexivity|]. cbn. lia.
Qed.

(** with resets that read a clock already renamed (here a swap) a reachable
    configuration can be missed: the zones apply the renamings one after the
    other, the automaton at once *)
Definition exSwap : ta := mkTA
  [ (1%nat, mkS false [ (1%nat, [ mkT 2 [(1%nat, RConst 0)] [mkC 0 Oge 1; mkC 0 Ole 1] ]) ]);
    (2%nat, mkS false [ (1%nat, [ mkT 3 [(0%nat, RVar 1%nat); (1%nat, RVar 0%nat)] [mkC 1 Ole 0] ]) ]);
    (3%nat, mkS true []) ] [1%nat] [1%Z; 1%Z].
Theorem C35_needs_race_free_resets :
  exists (A : ta) (s : zgst) (l : loc) (v : valuation),
    wfTA A /\ clocksBelow (length (tmax A)) A /\ ta2za 10 false firstPick A = Some s /\ zgFound s = None /\ zgQ s = [] /\
    entered A (l, v) /\ forall nd, In nd (zaNodes (zgA s)) -> znLoc nd = l -> ~ inZone (znZone nd) v.
Proof.
  set (v2 := (fun x => match x with O => 1 | 1%nat => 0 | _ => 1 end) : valuation).
  eexists exSwap, _, 3%nat, (applyReset v2 [(0%nat, RVar 1%nat); (1%nat, RVar 0%nat)]).
  split; [apply wfb_ok; reflexivity|]. split; [apply belowb_ok; reflexivity|]. split; [vm_compute; reflexivity|].
  split; [reflexivity|]. split; [reflexivity|]. split.
  - assert (E1 : entered exSwap (2%nat, v2)).
    { apply (en_step exSwap 1%nat (fun _ => 0) 1 (fun _ => 1) 1%nat).
      - constructor; [left; reflexivity|intro; reflexivity].
      - lra.
      - intro x. unfold delay. lra.
      - eexists. split; [eexists; eexists; split; [left; reflexivity|split; [left; reflexivity|left; reflexivity]]|]. cbn [tgrd trst ttgt fst snd]. split; [|split; [reflexivity|]].
        + intros k [<-|[<-|[]]]; unfold holds; vm_compute; congruence.
        + eapply isReset_veq; [| |apply applyReset_isReset]; [intro; reflexivity|]. intro x. unfold applyReset, applyReset1, v2. cbn. destruct x as [|[|x]]; cbn; reflexivity. }
    apply (en_step exSwap 2%nat v2 0 v2 1%nat); [exact E1|lra|intro x; unfold delay; lra|].
    eexists. split; [eexists; eexists; split; [right; left; reflexivity|split; [left; reflexivity|left; reflexivity]]|]. cbn [tgrd trst ttgt fst snd]. split; [|split; [reflexivity|apply applyReset_isReset]].
    intros k [<-|[]]; unfold holds; vm_compute; congruence.
  - intros nd H L K. cbn [zgA zaNodes] in H. destruct H as [<-|[<-|[<-|[]]]]; try (cbn [znLoc] in L; discriminate L).
    cbn [znZone] in K. specialize (K 2%nat 0%nat ltac:(cbn; lia) ltac:(cbn; lia)). vm_compute in K. apply K. reflexivity.
Qed.
Print Assumptions C35_needs_race_free_resets.

(** *** C47 the construction ends *)
Lemma zgLoop_more quick pick A : forall fuel s s' more, zgLoop fuel quick pick A s = Some s' -> zgLoop (fuel + more) quick pick A s = Some s'.
Proof.
  induction fuel as [|fuel IH]; intros s s' more H.
  - cbn [zgLoop plus] in *. destruct more; cbn [zgLoop]; destruct (zgFound s); auto; destruct (zgQ s); auto; discriminate.
  - cbn [zgLoop plus] in *. destruct (zgFound s); auto. destruct (zgQ s); auto. destruct (nth_error _ _); [|discriminate]. apply IH. auto.
Qed.
(** for every automaton (whatever its resets), both modes and every way of
    searching the states: after finitely many steps there is a result, and it
    does not depend on how much longer one waits *)
Theorem C47_construction_terminates :
  forall (quick : bool) (pick : picker) (A : ta),
    picks pick -> clocksBelow (length (tmax A)) A ->
    exists fuel s, forall more, ta2za (fuel + more) quick pick A = Some s.
Proof.
  intros quick pick A PK CB. destruct (ta2za_ends quick pick A PK CB) as (fuel & s & H). exists fuel, s. intro more. apply zgLoop_more. exact H.
Qed.
Print Assumptions C47_construction_terminates.
(** so the finite zone automaton always exists, and covers every run *)
Theorem C47_finite_zone_automaton_exists :
  forall (pick : picker) (A : ta), picks pick -> wfTA A -> clocksBelow (length (tmax A)) A -> raceFreeTA A ->
    exists fuel s, ta2za fuel false pick A = Some s /\
      forall l v, entered A (l, v) -> exists k nd, nodeAt (zgA s) k nd /\ znLoc nd = l /\ inZone (znZone nd) v.
Proof.
  intros pick A PK WF CB RF. destruct (ta2za_ends false pick A PK CB) as (fuel & s & H). exists fuel, s. split; [auto|].
  apply (C35_every_run_is_covered fuel false pick A s PK WF CB RF H). apply (C35_full_mode_runs_to_the_end fuel pick A s PK WF CB RF H).
Qed.
Print Assumptions C47_finite_zone_automaton_exists.
(** without the extrapolation there would be no end: a clock that is never
    reset, on a loop that resets another one *)
Definition exLoop : ta := mkTA
  [ (1%nat, mkS false [ (1%nat, [ mkT 1 [(0%nat, RConst (1#2))] [mkC 0 Oge 1; mkC 0 Ole 1] ]) ]) ] [1%nat] [1%Z; 0%Z].
Example C47_nonvacuous :
  picks firstPick /\ clocksBelow (length (tmax exLoop)) exLoop /\ clocksBelow (length (tmax exA)) exA /\
  (exists s, ta2za 10 true firstPick exLoop = Some s /\ zgQ s = [] /\ (2 <= length (zaNodes (zgA s)))%nat).
Proof.
  split; [apply firstPick_ok|]. split; [apply belowb_ok; reflexivity|]. split; [apply belowb_ok; reflexivity|].
  eexists. split; [vm_compute; reflexivity|]. split; [reflexivity|]. cbn. lia.
Qed.
