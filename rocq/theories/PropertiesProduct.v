(** Properties of the product automaton (src/intersection.cc) and of the
    difference automata of the equivalence oracle
    (include/timed_automata_equivalence_oracle.hh): C25, C41. *)
From Coq Require Import QArith ZArith Bool List Arith Lqa Lia.
From Verif Require Import BoundsModel ConstraintModel GuardSpec ZoneModel AutomatonModel AutomatonSpec.
From Verif Require Import BoundsProofs ConstraintProofs AutomatonProofs AutomatonProofs2 AutomatonProofs5 AutomatonProofs6 AutomatonProofs7 PropertiesAutomata PropertiesSimplify.
Import ListNotations.
Open Scope Q_scope.
Arguments mkT _%nat_scope _ _.

(** *** C25 *)
Theorem C25_product_exact :
  forall A B : ta, wfTA A -> wfTA B -> clocksBelow (length (tmax A)) A ->
  forall d0 w, observable w ->
    (accepts (intersectionTA A B) d0 w <-> accepts A d0 w /\ accepts B d0 w).
Proof. intros A B WA WB CA d0 w Ow. apply prod_exact; auto. Qed.
Print Assumptions C25_product_exact.

Theorem C25_product_wellformed :
  forall A B : ta, wfTA A -> wfTA B -> wfTA (intersectionTA A B).
Proof. intros A B WA WB. apply prod_wf; auto. Qed.
Print Assumptions C25_product_wellformed.

(** the product's clocks are again within its maximum table, so products nest *)
Theorem C25_product_clocks :
  forall A B : ta, wfTA A -> wfTA B -> clocksBelow (length (tmax A)) A -> clocksBelow (length (tmax B)) B ->
    clocksBelow (length (tmax (intersectionTA A B))) (intersectionTA A B).
Proof.
  intros A B WA WB CA CB L a t H. apply prod_edge in H; auto. destruct H as (l1 & l2 & -> & H).
  unfold intersectionTA. cbn [tmax]. rewrite app_length.
  assert (K : forall r1 g1 r2 g2 tg,
    ((forall k, In k g1 -> (cx k < length (tmax A))%nat) /\ forall x r, In (x, r) r1 -> (x < length (tmax A))%nat /\ forall y, r = RVar y -> (y < length (tmax A))%nat) ->
    ((forall k, In k g2 -> (cx k < length (tmax B))%nat) /\ forall x r, In (x, r) r2 -> (x < length (tmax B))%nat /\ forall y, r = RVar y -> (y < length (tmax B))%nat) ->
    (forall k, In k (tgrd (prodTrans (length (tmax A)) tg r1 r2 g1 g2)) -> (cx k < length (tmax A) + length (tmax B))%nat) /\
    (forall x r, In (x, r) (trst (prodTrans (length (tmax A)) tg r1 r2 g1 g2)) -> (x < length (tmax A) + length (tmax B))%nat /\ forall y, r = RVar y -> (y < length (tmax A) + length (tmax B))%nat)).
  { intros r1 g1 r2 g2 tg [G1 R1] [G2 R2]. unfold prodTrans. cbn [tgrd trst]. split.
    - intros k I. apply in_app_or in I. destruct I as [I|I]; [specialize (G1 k I); lia|]. apply in_map_iff in I. destruct I as (k' & <- & I).
      specialize (G2 k' I). unfold shiftC. cbn [cx]. lia.
    - intros x r I. apply in_app_or in I. destruct I as [I|I]; [destruct (R1 x r I) as [P1 P2]; split; [lia|]; intros y Ey; specialize (P2 y Ey); lia|].
      apply in_map_iff in I. destruct I as ([x' r'] & E & I). unfold shiftReset in E. cbn [fst snd] in E. injection E as <- <-.
      destruct (R2 x' r' I) as [P1 P2]. split; [lia|]. intros y Ey. destruct r' as [q|y']; cbn in Ey; [discriminate|]. injection Ey as <-.
      specialize (P2 y' eq_refl). lia. }
  assert (N : forall n : nat, (forall k : constraint, In k [] -> (cx k < n)%nat) /\ forall (x : clock) (r : rhs), In (x, r) [] -> (x < n)%nat /\ forall y, r = RVar y -> (y < n)%nat)
    by (intro n; split; [intros ? []|intros ? ? []]).
  destruct H as [e1 -> He I ->|e2 -> He I ->|e1 e2 He1 He2 ->]; apply K; eauto.
Qed.
Print Assumptions C25_product_clocks.

(** a word over an alphabet without the unobservable symbol is observable *)
Lemma wordOver_observable al d0 w : ~ In UNOBSERVABLE al -> wordOver al d0 w -> observable w.
Proof. intros N [_ H] a d I E. subst a. apply N. apply (H _ _ I). Qed.

(** a product with an unobservable transition on the right *)
Definition exU : ta := mkTA
  [ (1%nat, mkS false [ (UNOBSERVABLE, [ mkT 2 [(0%nat, RConst 0)] [mkC 0 Oge 2; mkC 0 Ole 2] ]) ]);
    (2%nat, mkS true  [ (1%nat, [ mkT 2 [] [mkC 0 Ole 1] ]) ]) ]
  [1%nat] [2%Z].
Definition clocksBelowb n A := edgeAll (fun e => forallb (fun k => Nat.ltb (cx k) n) (tgrd (snd e)) &&
  forallb (fun p => Nat.ltb (fst p) n && match snd p with RVar y => Nat.ltb y n | _ => true end) (trst (snd e))) A.
Lemma clocksBelowb_ok n A : clocksBelowb n A = true -> clocksBelow n A.
Proof.
  intros H l a t K. apply (edgeAll_ok _ _ _ _ _ H) in K. cbn [fst snd] in K. apply andb_true_iff in K. destruct K as [K1 K2].
  rewrite forallb_forall in K1, K2. split; [intros k I; apply Nat.ltb_lt; exact (K1 k I)|]. intros x r I. specialize (K2 _ I). cbn [fst snd] in K2.
  apply andb_true_iff in K2. destruct K2 as [K2 K3]. split; [apply Nat.ltb_lt, K2|]. intros y ->. apply Nat.ltb_lt, K3.
Qed.
Example C25_meets : wfTA exA /\ wfTA exU /\ clocksBelow (length (tmax exA)) exA /\ clocksBelow (length (tmax exU)) exU /\
  observable [(1%nat, 1 # 2)] /\ length (edgesOf (intersectionTA exA exU)) = 5%nat /\
  accepts (intersectionTA exA exU) (5 # 2) [(1%nat, 1 # 4)].
Proof.
  split; [apply wfb_ok; reflexivity|]. split; [apply wfb_ok; reflexivity|]. split; [apply clocksBelowb_ok; reflexivity|].
  split; [apply clocksBelowb_ok; reflexivity|]. split; [intros a d [E|[]]; injection E as <- <-; discriminate|].
  split; [vm_compute; reflexivity|].
  apply C25_product_exact; [apply wfb_ok; reflexivity|apply wfb_ok; reflexivity|apply clocksBelowb_ok; reflexivity| |].
  { intros a d [E|[]]; injection E as <- <-; discriminate. }
  split.
  - apply (decide exA 1%nat (5 # 2) [(1%nat, 1 # 4)]) with (b := true); reflexivity.
  - set (v1 := delay (fun _ => 0) 2). set (v2 := applyReset v1 [(0%nat, RConst 0)]). set (v3 := delay v2 (1 # 2)).
    exists 1%nat, (2%nat, v3), (2%nat, delay (applyReset v3 []) (1 # 4)). split; [left; reflexivity|]. split; [|split].
    + apply (flow_silent exU _ 2 (1%nat, v1) (2%nat, v2) (1 # 2)); [apply flow_delay; [discriminate|intro; reflexivity]| |apply flow_delay; [discriminate|intro; reflexivity]|reflexivity].
      exists (mkT 2 [(0%nat, RConst 0)] [mkC 0 Oge 2; mkC 0 Ole 2]). split; [apply edgesOf_iff; left; reflexivity|].
      split; [intros k [<-|[<-|[]]]; vm_compute; discriminate|]. split; [reflexivity|apply applyReset_isReset].
    + apply (run_cons exU _ _ _ (2%nat, applyReset v3 []) (2%nat, delay (applyReset v3 []) (1 # 4))); [|apply flow_delay; [discriminate|intro; reflexivity]|constructor].
      exists (mkT 2 [] [mkC 0 Ole 1]). split; [apply edgesOf_iff; right; left; reflexivity|].
      split; [intros k [<-|[]]; vm_compute; discriminate|]. split; [reflexivity|apply applyReset_isReset].
    + eexists. split; [right; left; reflexivity|reflexivity].
Qed.

(** clock numbers must stay within the maximum table of the first operand,
    or the operands' clocks clash *)
Theorem C25_product_without_clock_bound_refuted :
  exists (A B : ta) d0 w, wfTA A /\ wfTA B /\ observable w /\
    accepts A d0 w /\ accepts B d0 w /\ ~ accepts (intersectionTA B A) d0 w /\ wfTA (intersectionTA B A).
Proof.
  (* B's own table is empty although it resets clock 0, so A's clock 0 is reset too *)
  exists (mkTA [(1%nat, mkS true [(1%nat, [mkT 1 [] [mkC 0 Oge 2]])])] [1%nat] [2%Z]),
         (mkTA [(1%nat, mkS true [(1%nat, [mkT 1 [(0%nat, RConst 0)] []])])] [1%nat] []), 2, [(1%nat, 0); (1%nat, 0)].
  split; [apply wfb_ok; reflexivity|]. split; [apply wfb_ok; reflexivity|]. split; [intros a d [E|[E|[]]]; injection E as <- <-; discriminate|].
  split; [eapply decide with (b := true); reflexivity|]. split; [eapply decide with (b := true); reflexivity|].
  split; [|apply wfb_ok; reflexivity].
  intro H. eapply decide with (b := false) in H; try reflexivity. discriminate H.
Qed.
Print Assumptions C25_product_without_clock_bound_refuted.
