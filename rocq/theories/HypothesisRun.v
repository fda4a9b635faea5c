(** The runs of the hypothesis. *)
From Coq Require Import QArith Qround ZArith Bool List Arith Lia Lqa Permutation Wf_nat.
From Verif Require Import BoundsModel BoundsProofs ConstraintModel GuardSpec ConstraintProofs ZoneModel ZoneSpec ZoneProofs ZoneProofs2 ZoneProofs3 ZoneProofs4 AutomatonModel AutomatonSpec AutomatonProofs AutomatonProofs2
  TimedWordModel TimedWordSpec TimedWordProofs TimedConditionModel TimedConditionSpec TimedConditionProofs TimedConditionProofs4 ElementaryModel
  ElementarySpec ElementaryProofs ElementaryProofs2 LooseProofs RegionalModel RegionalSpec RegionalProofs3 RegionalProofs4 RegionalProofs5 RegionalProofs6 OracleModel OracleSpec SymbolicModel SymbolicSpec CexModel CexSpec CexProofs CexProofs2
  RenamingModel RenamingSpec RenamingProofs RenamingProofs2 RenamingProofs5 RenamingProofs6 ShapeProofs TableModel TableProofs2 TableProofs3 TableProofs4 PropertiesRenaming
  HypothesisModel HypothesisBox HypothesisChain HypothesisGuard HypothesisTimes HypothesisBfs HypothesisBfs3 HypothesisRaw HypothesisRaw2 HypothesisRows HypothesisReset HypothesisStep HypothesisStep2.
Import ListNotations.
Open Scope Q_scope.

Lemma run_app A c w c1 w' c2 : run A c w c1 -> run A c1 w' c2 -> run A c (w ++ w') c2.
Proof. induction 1; intro H2; [exact H2|]. cbn [app]. econstructor; eauto. Qed.
(** a word with the letter [a] and the delay [q] added *)
Lemma events_snoc u a q : length (td u) = S (length (tw u)) -> events (mkTW (tw u ++ [a]) (td u ++ [q])) = events u ++ [(a, q)] /\ firstDur (mkTW (tw u ++ [a]) (td u ++ [q])) = firstDur u.
Proof.
  intro L. destruct u as [w [|d0 d]]; [discriminate|]. cbn [tw td length] in *. unfold events, firstDur. cbn [tw td tl hd app]. split; [|reflexivity].
  assert (K : length w = length d) by lia. clear L. revert d K. induction w as [|b w IH]; intros [|x d] K; try discriminate; [reflexivity|]. cbn [app combine]. f_equal. apply IH. injection K as K. exact K.
Qed.

Section Run.
Context {St : Type}.
Notation tbl := (ot St).
Context (t : tbl) (f : tword -> bool) (T : tree t) (MS : timeStable t).
Context (GP : forall i, goodPre (preAt t i)) (ND : NoDup (otAlpha t)) (PR0 : preAt t 0 = frDefault) (P0 : In 0%nat (otP t)).
Context (SM : forall i w, (i < length (otPre t))%nat -> inElem (fel (preAt t i)) w -> smallTW w).
Context (CV : forall i, (i < length (otPre t))%nat -> inP t i = false -> exists j r, chosen t i = Some (j, r) /\ validRel f t i j r).
Context (ME : forall i j r, (i < length (otPre t))%nat -> inP t i = false -> chosen t i = Some (j, r) -> isMatch t i = isMatch t j).
Context (R : list nat) (RO : roots t R).
Context (W : loc -> letter -> list trans) (prefer : trans -> trans -> bool).
Context (WL : forall l a, (l < length R)%nat -> In a (otAlpha t) -> exists cs, Permutation (front t l R) cs /\
    W l a = map (fun c => TR t R c a) cs ++ [TX t R (prevOf t l R) (extOf t l R) a]).
Notation rowOf := (rowOf t R).
Notation lastRow := (lastRow t R).

(** the transition of the row number [m] of the state [l] *)
Definition TF (l : loc) (a : letter) (m : nat) : trans :=
  if (m <? lastRow l)%nat then TR t R (rowOf l m) a else TX t R (prevOf t l R) (extOf t l R) a.
Lemma prev_P l : (l < length R)%nat -> In (prevOf t l R) (otP t).
Proof using T RO. intro L. rewrite <- (row_prev t T R RO l L). apply (row_P t T R RO l); [auto|]. destruct (ch_len t T R RO l L). lia. Qed.
Lemma front_rows l : (l < length R)%nat -> front t l R = map (rowOf l) (seq 0 (lastRow l)).
Proof using T RO.
  intro L. apply nth_ext with 0%nat 0%nat; [rewrite map_length, seq_length; apply (front_len t T R RO l L)|]. intros m Hm. rewrite (front_len t T R RO l L) in Hm.
  rewrite (nth_indep _ 0%nat (rowOf l 0)) at 1 by (rewrite (front_len t T R RO l L); auto). rewrite <- (nth_indep _ 0%nat (rowOf l 0)) by (rewrite (front_len t T R RO l L); auto).
  rewrite <- (row_front t T R RO l m L Hm). rewrite (nth_indep _ 0%nat (rowOf l 0)) by (rewrite map_length, seq_length; auto). rewrite map_nth, seq_nth by auto. reflexivity.
Qed.
Lemma W_rows l a : (l < length R)%nat -> In a (otAlpha t) -> exists is, Permutation (seq 0 (S (lastRow l))) is /\ W l a = map (TF l a) is.
Proof using T RO WL.
  intros L Ha. destruct (WL l a L Ha) as (cs & Pc & E). rewrite (front_rows l L) in Pc. apply Permutation_sym in Pc. destruct (Permutation_map_inv _ _ Pc) as (is & -> & Pi).
  exists (is ++ [lastRow l]). split; [rewrite seq_S; apply Permutation_app; auto|]. rewrite E, map_app, map_map. cbn [map]. f_equal.
  - apply map_ext_in. intros m Hm. apply Permutation_sym in Pi. apply (Permutation_in _ Pi) in Hm. apply in_seq in Hm. unfold TF. assert (X : (m <? lastRow l)%nat = true) by (apply Nat.ltb_lt; lia). rewrite X. reflexivity.
  - unfold TF. rewrite Nat.ltb_irrefl. reflexivity.
Qed.
Lemma TF_keys l a m : (l < length R)%nat -> In a (otAlpha t) -> (m <= lastRow l)%nat -> NoDup (map fst (trst (TF l a m))).
Proof using T RO GP CV. intros L Ha M. unfold TF. destruct (m <? lastRow l)%nat eqn:E; [apply Nat.ltb_lt in E; apply (TR_keys t f T GP CV R); auto; apply (row_P t T R RO); auto|apply TX_keys]. Qed.
Lemma TF_grp l a N X tm m : (l < length R)%nat -> In a (otAlpha t) -> geo t R l N X tm -> (m <= lastRow l)%nat -> grp N (lastRow l) X tm (tgrd (TF l a m)) m m.
Proof using T RO GP CV.
  intros L Ha [g1 g2 g3 g4 g5 g6 g7 g8 g9] M. unfold TF. destruct (m <? lastRow l)%nat eqn:E.
  - apply Nat.ltb_lt in E. rewrite (TR_guard' t f T CV R _ a) by (auto; apply (row_P t T R RO); auto). apply g6; auto.
  - apply Nat.ltb_ge in E. assert (m = lastRow l) by lia. subst m. cbn [TX tgrd]. rewrite <- (row_ext t T R RO l L). exact g7.
Qed.
Lemma W_cover l a N X tm : (l < length R)%nat -> In a (otAlpha t) -> geo t R l N X tm -> exists ps, coverL N (lastRow l) X tm (TF l a) (W l a) ps /\ (forall m, within ps m <-> (m <= lastRow l)%nat) /\
  (forall tr, In tr (W l a) -> NoDup (map fst (trst tr))).
Proof using T RO GP CV WL.
  intros L Ha G. destruct (W_rows l a L Ha) as (is & Pi & E). rewrite E. exists (map (fun i => (i, i)) is).
  assert (In_is : forall m, In m is <-> (m <= lastRow l)%nat). { intro m. split; [intro H; apply Permutation_sym in Pi; apply (Permutation_in _ Pi) in H; apply in_seq in H; lia|intro H; apply (Permutation_in _ Pi); apply in_seq; lia]. }
  split; [|split].
  - apply cover_rows; [apply (Permutation_NoDup Pi), seq_NoDup|]. intros i Hi. apply TF_grp; auto. apply In_is; auto.
  - intro m. rewrite within_rows. apply In_is.
  - intros tr H. apply in_map_iff in H. destruct H as (m & <- & Hm). apply TF_keys; auto. apply In_is; auto.
Qed.
Lemma tidy_cover l a N X tm : (l < length R)%nat -> In a (otAlpha t) -> geo t R l N X tm -> exists ps, coverL N (lastRow l) X tm (TF l a) (tidyTs prefer (W l a)) ps /\ forall m, within ps m <-> (m <= lastRow l)%nat.
Proof using T RO GP CV WL.
  intros L Ha G. destruct (W_cover l a N X tm L Ha G) as (ps & C & Wi & K). destruct G as [g1 g2 g3 g4 g5 g6 g7 g8 g9].
  destruct (tidyTs_cover N (lastRow l) X tm g1 g2 g3 g4 (TF l a) prefer _ _ K C) as (ps' & C' & Wi'). exists ps'. split; [auto|]. intro m. rewrite Wi'. apply Wi.
Qed.
Lemma W_noSplit l a : (l < length R)%nat -> In a (otAlpha t) -> needSplitTs (W l a) = false.
Proof using T RO GP CV WL SM.
  intros L Ha. destruct (geo_ok t T GP SM R RO l L) as (N & X & tm & G). destruct (W_cover l a N X tm L Ha G) as (ps & C & _). destruct G as [g1 g2 g3 g4 g5 g6 g7 g8 g9].
  apply (cover_needSplit N (lastRow l) X tm g1 g2 g3 g4 (TF l a) _ ps C).
Qed.
Lemma TR_tgt c a : In c (otP t) -> In a (otAlpha t) -> (ttgt (TR t R c a) < length R)%nat.
Proof using T RO CV.
  intros Pc Ha. destruct (TR_cases t f T CV R c a Pc Ha) as (d & D & L & [(E & ->)|(E & j & r & C & V & ->)]); cbn [internalT externalT ttgt]; apply (home_ok t T R); auto; [apply inP_iff; auto|].
  apply (chosen_in t T d j r C).
Qed.
Lemma TF_tgt l a m : (l < length R)%nat -> In a (otAlpha t) -> (m <= lastRow l)%nat -> (ttgt (TF l a m) < length R)%nat.
Proof using T RO CV.
  intros L Ha M. unfold TF. destruct (m <? lastRow l)%nat eqn:E; [apply Nat.ltb_lt in E; apply TR_tgt; auto; apply (row_P t T R RO); auto|].
  cbn [TX ttgt]. apply TR_tgt; auto. apply prev_P; auto.
Qed.
Lemma tidy_tgt l a tr : (l < length R)%nat -> In a (otAlpha t) -> In tr (tidyTs prefer (W l a)) -> (ttgt tr < length R)%nat.
Proof using T RO GP CV WL SM.
  intros L Ha I. destruct (geo_ok t T GP SM R RO l L) as (N & X & tm & G). destruct (tidy_cover l a N X tm L Ha G) as (ps & [F _] & Wi).
  assert (K : forall ts qs, Forall2 (covers N (lastRow l) X tm (TF l a)) ts qs -> (forall p, In p qs -> In p ps) -> In tr ts -> (ttgt tr < length R)%nat).
  { induction 1 as [|x p ts qs C F' IH]; intros S I'; [destruct I'|]. destruct I' as [->|I']; [|apply IH; auto; intros; apply S; right; auto].
    destruct C as [G' C]. destruct (C (fst p) (le_n _) ltac:(apply G')) as [-> _]. apply TF_tgt; auto. apply Wi. exists p. split; [apply S; left; auto|]. split; [auto|apply G']. }
  apply (K _ _ F); auto.
Qed.

(** ** configurations *)
Definition At (i : nat) (w : tword) (v : valuation) : Prop :=
  inElem (fel (preAt t i)) w /\ nonneg v /\ forall k, (k < tcSize (condAt t i))%nat -> v k == since (td w) k.
Definition Conf (l : loc) (v : valuation) : Prop :=
  (l < length R)%nat /\ nonneg v /\ exists u q, inElem (fel (preAt t (nth l R 0%nat))) u /\ 0 <= q /\ forall k, (k < tcSize (condAt t (nth l R 0%nat)))%nat -> v k == since (td u) k + q.
Lemma row_size l m : (l < length R)%nat -> (m <= lastRow l)%nat -> tcSize (condAt t (rowOf l m)) = tcSize (condAt t (nth l R 0%nat)).
Proof using T GP SM RO.
  intros L M. destruct (geo_ok t T GP SM R RO l L) as (N & X & tm & G). rewrite (ge_N t R l N X tm G m M). rewrite <- (row_root t T R RO l L). rewrite (ge_N t R l N X tm G 0%nat ltac:(lia)). reflexivity.
Qed.
Lemma at_conf l m w v : (l < length R)%nat -> (m <= lastRow l)%nat -> At (rowOf l m) w v -> Conf l v.
Proof using T GP SM RO ND PR0.
  intros L M (I & N & V). destruct (row_back t T GP ND PR0 R RO l m w L M I) as (d & q & E & Q0 & Iu). split; [auto|]. split; [auto|]. exists (mkTW (tw w) (d ++ [0])), q. split; [auto|]. split; [auto|].
  intros k Hk. rewrite <- (row_size l m L M) in Hk. rewrite (V k Hk). rewrite E. cbn [td]. apply since_drop. rewrite <- (row_len t _ _ I), E, app_length in Hk. cbn in Hk. lia.
Qed.
Lemma conf_delay l v d : Conf l v -> 0 <= d -> Conf l (delay v d).
Proof using.
  intros (L & N & u & q & I & Q0 & V) D. split; [auto|]. split; [intro x; unfold delay; assert (A := N x); lra|]. exists u, (q + d). split; [auto|]. split; [lra|].
  intros k Hk. unfold delay. rewrite (V k Hk). lra.
Qed.
Lemma conf_veq l v v' : veq v' v -> Conf l v -> Conf l v'.
Proof using. intros E (L & N & u & q & I & Q0 & V). split; [auto|]. split; [intro x; rewrite (E x); apply N|]. exists u, q. split; [auto|]. split; [auto|]. intros k Hk. rewrite (E k). auto. Qed.
(** every configuration is in one row *)
Lemma conf_row l v N X tm : geo t R l N X tm -> Conf l v -> exists m, inRow N (lastRow l) X tm m v /\ ((m < lastRow l)%nat -> exists w, At (rowOf l m) w v).
Proof using T GP SM RO.
  intros G (L & Nv & u & q & I & Q0 & V). destruct (ge_reach t R l N X tm G u q I Q0) as (m & M & Lo & Ik). assert (SZ : tcSize (condAt t (nth l R 0%nat)) = N). { rewrite <- (row_root t T R RO l L). apply (ge_N t R l N X tm G). lia. }
  rewrite SZ in V. assert (Lu := row_len t _ _ I). rewrite SZ in Lu.
  assert (Vd : m <> lastRow l -> forall x, (x < N)%nat -> v x == since (delayed (td u) q) x). { intros Ne x Hx. rewrite (V x Hx). symmetry. apply since_delayed. lia. }
  exists m. split; [split; [auto|]|].
  - intros x Hx. split; [rewrite (code_ext _ _ (V x Hx)); apply Lo; auto|]. intro Ne. rewrite (code_ext _ _ (Vd Ne x Hx)). apply (ge_code t R l N X tm G m _ x M (Ik Ne) Hx).
  - intro Lm. assert (Ne : m <> lastRow l) by lia. exists (mkTW (tw u) (delayed (td u) q)). split; [auto|]. split; [auto|]. intros k Hk. rewrite (ge_N t R l N X tm G m M) in Hk. apply Vd; auto.
Qed.
Lemma at_row l m w v N X tm : geo t R l N X tm -> (l < length R)%nat -> (m < lastRow l)%nat -> At (rowOf l m) w v -> inRow N (lastRow l) X tm m v.
Proof using.
  intros G L M (I & Nv & V). split; [lia|]. rewrite (ge_N t R l N X tm G m ltac:(lia)) in V. intros x Hx. assert (E : code (v x) = KK X tm m x) by (rewrite (code_ext _ _ (V x Hx)); apply (ge_code t R l N X tm G m w x ltac:(lia) I Hx)).
  split; [lia|auto].
Qed.
Lemma lands_conf d w l v : lands t R d w l v -> Conf l v.
Proof using T GP SM RO ND PR0.
  intros (i & w' & Pi & -> & I & V & _ & _ & Nv). destruct (home_ok t T R i RO Pi) as [Lh Ih]. destruct (row_of_mem t T R RO _ i Lh Ih) as (m & M & E).
  apply (at_conf (home t R i) m w'); auto. rewrite <- E. split; [auto|]. split; auto.
Qed.
Lemma TF_lands l a m v v' : (l < length R)%nat -> In a (otAlpha t) -> (m <= lastRow l)%nat -> nonneg v -> ((m < lastRow l)%nat -> exists w, At (rowOf l m) w v) ->
  isReset (trst (TF l a m)) v v' -> Conf (ttgt (TF l a m)) v'.
Proof using T GP SM RO ND PR0 CV ME.
  intros L Ha M Nv AtM Hr. unfold TF in *. destruct (m <? lastRow l)%nat eqn:E.
  - apply Nat.ltb_lt in E. destruct (AtM E) as (w & I & _ & V). destruct (TR_lands t f T GP CV ME R (rowOf l m) a w v v' (row_P t T R RO l m L E) Ha I V Nv Hr) as (d & _ & K). apply (lands_conf _ _ _ _ K).
  - destruct (TX_lands t f T GP CV ME R (prevOf t l R) (extOf t l R) a v v' (prev_P l L) Ha Nv Hr) as (w & d & _ & _ & K). apply (lands_conf _ _ _ _ K).
Qed.

(** ** the automaton *)
Context (A : ta) (AL : ~ In UNOBSERVABLE (otAlpha t)).
Context (EA : forall l a tr, edge A l a tr <-> ((l < length R)%nat /\ In a (otAlpha t) /\ In tr (tidyTs prefer (W l a)))).
Context (AA : forall l, accepting A l <-> ((l < length R)%nat /\ isMatch t (nth l R 0%nat) = true)).
Context (IA : tinit A = [0%nat]).

Lemma step_total l v a : Conf l v -> In a (otAlpha t) -> exists l' v', fire A a (l, v) (l', v').
Proof using T GP SM RO CV WL EA.
  intros C Ha. assert (C' := C). destruct C' as (L & Nv & _). destruct (geo_ok t T GP SM R RO l L) as (N & X & tm & G). destruct (conf_row l v N X tm G C) as (m & M & AtM).
  destruct (tidy_cover l a N X tm L Ha G) as (ps & Cv & Wi). assert (G' := G). destruct G' as [g1 g2 g3 g4 _ _ _ _ _].
  destruct (cover_step N (lastRow l) X tm g1 g2 g3 g4 (TF l a) _ ps m v Cv) as ((tr & It & Gt) & _); [apply Wi, M|auto|auto|].
  exists (ttgt tr), (applyReset v (trst tr)), tr. cbn [fst snd]. split; [apply EA; auto|]. split; [auto|]. split; [auto|apply applyReset_isReset].
Qed.
(** one step of a configuration is what its row does *)
Lemma step_row l v a l' v' N X tm m : geo t R l N X tm -> (l < length R)%nat -> nonneg v -> inRow N (lastRow l) X tm m v -> fire A a (l, v) (l', v') ->
  In a (otAlpha t) /\ l' = ttgt (TF l a m) /\ isReset (trst (TF l a m)) v v'.
Proof using T GP SM RO CV WL EA.
  intros G L Nv M (tr & E & Gt & Et & Hr). cbn [fst snd] in *. apply EA in E. destruct E as (_ & Ha & It).
  destruct (tidy_cover l a N X tm L Ha G) as (ps & Cv & Wi). assert (G' := G). destruct G' as [g1 g2 g3 g4 _ _ _ _ _].
  destruct (cover_step N (lastRow l) X tm g1 g2 g3 g4 (TF l a) _ ps m v Cv) as (_ & U); [apply Wi, M|auto|auto|]. destruct (U tr It Gt) as [U1 U2].
  split; [auto|]. split; [congruence|]. apply (U2 v v'). auto.
Qed.
Lemma step_conf l v a l' v' : Conf l v -> fire A a (l, v) (l', v') -> In a (otAlpha t) /\ Conf l' v'.
Proof using T GP SM RO ND PR0 CV ME WL EA.
  intros C F. assert (C' := C). destruct C' as (L & Nv & _). destruct (geo_ok t T GP SM R RO l L) as (N & X & tm & G). destruct (conf_row l v N X tm G C) as (m & M & AtM).
  destruct (step_row l v a l' v' N X tm m G L Nv M F) as (Ha & -> & Hr). split; [auto|]. apply (TF_lands l a m v v' L Ha ltac:(apply M) Nv AtM Hr).
Qed.
Lemma step_unique l v a l1 v1 l2 v2 : Conf l v -> fire A a (l, v) (l1, v1) -> fire A a (l, v) (l2, v2) -> l1 = l2 /\ veq v1 v2.
Proof using T GP SM RO CV WL EA.
  intros C F1 F2. assert (C' := C). destruct C' as (L & Nv & _). destruct (geo_ok t T GP SM R RO l L) as (N & X & tm & G). destruct (conf_row l v N X tm G C) as (m & M & AtM).
  destruct (step_row l v a l1 v1 N X tm m G L Nv M F1) as (_ & -> & H1). destruct (step_row l v a l2 v2 N X tm m G L Nv M F2) as (_ & -> & H2). split; [auto|]. apply (isReset_fun (trst (TF l a m)) v); auto.
Qed.
Lemma step_at l m w v a l' v' : (l < length R)%nat -> (m < lastRow l)%nat -> At (rowOf l m) w v -> fire A a (l, v) (l', v') ->
  exists d, discAt t (rowOf l m) a = Some d /\ lands t R d (concatChar w a) l' v'.
Proof using T GP SM RO CV ME WL EA.
  intros L M K F. assert (K' := K). destruct K' as (I & Nv & V). destruct (geo_ok t T GP SM R RO l L) as (N & X & tm & G).
  destruct (step_row l v a l' v' N X tm m G L Nv (at_row l m w v N X tm G L M K) F) as (Ha & -> & Hr). unfold TF in *. assert (E : (m <? lastRow l)%nat = true) by (apply Nat.ltb_lt; auto). rewrite E in *.
  apply (TR_lands t f T GP CV ME R _ a w v v' (row_P t T R RO l m L M) Ha I V Nv Hr).
Qed.
Lemma silent_none : noSilent A.
Proof using EA AL. intros l tr E. apply EA in E. tauto. Qed.

(** *** the run on a word *)
Definition reads (w : tword) (c : conf) : Prop := exists c0, flow A (0%nat, fun _ => 0) (firstDur w) c0 /\ run A c0 (events w) c.
Lemma init_conf : Conf 0%nat (fun _ => 0).
Proof using PR0 RO.
  destruct (ro_hd t R RO) as [H0 L0]. split; [auto|]. split; [intro; lra|]. rewrite H0. unfold condAt. rewrite PR0. exists emptyTW, 0. split; [apply region_self, frDefault_regional|]. split; [lra|].
  intros k Hk. cbn in Hk. assert (k = 0%nat) by lia. subst k. vm_compute. reflexivity.
Qed.
Lemma flow_conf l v d c : Conf l v -> flow A (l, v) d c -> fst c = l /\ veq (snd c) (delay v d) /\ 0 <= d /\ Conf l (snd c).
Proof using EA AL.
  intros C F. destruct (flow_noSilent A l v d c silent_none F) as (E1 & E2 & E3). split; [auto|]. split; [auto|]. split; [auto|]. apply (conf_veq l (delay v d)); auto. apply conf_delay; auto.
Qed.
Lemma run_unique w : forall l v c c' v1, Conf l v -> veq v v1 -> run A (l, v) w c -> run A (l, v1) w c' -> fst c = fst c' /\ veq (snd c) (snd c') /\ Conf (fst c) (snd c).
Proof using T GP SM RO ND PR0 CV ME WL EA AL.
  induction w as [|[a d] w IH]; intros l v c c' v1 C E H H'.
  - inversion H; subst. inversion H'; subst. cbn [fst snd]. auto.
  - inversion H as [|? ? ? [l1 u1] [l2 u2] ? ? F1 F2 F3]; subst. inversion H' as [|? ? ? [l1' u1'] [l2' u2'] ? ? F1' F2' F3']; subst.
    assert (F0 := fire_veq A a l v1 v _ (veq_sym _ _ E) F1'). destruct (step_unique l v a l1 u1 l1' u1' C F1 F0) as [-> U]. destruct (step_conf l v a l1' u1 C F1) as [_ C1].
    destruct (flow_conf _ _ _ _ C1 F2) as (E1 & E2 & E3 & E4). cbn [fst snd] in *. subst l2. destruct (flow_noSilent A _ _ _ _ silent_none F2') as (E1' & E2' & _). cbn [fst snd] in *. subst l2'.
    apply (IH l1' u2 c c' u2'); auto. apply (veq_trans _ _ _ E2). apply veq_sym. apply (veq_trans _ _ _ E2'). apply delay_veq. apply veq_sym. auto.
Qed.
Lemma reads_unique w c c' : reads w c -> reads w c' -> fst c = fst c' /\ veq (snd c) (snd c').
Proof using T GP SM RO ND PR0 CV ME WL EA AL.
  intros ([l1 v1] & F1 & H1) ([l2 v2] & F2 & H2). destruct (flow_conf _ _ _ _ init_conf F1) as (E1 & E2 & E3 & E4). destruct (flow_conf _ _ _ _ init_conf F2) as (E1' & E2' & _ & _). cbn [fst snd] in *. subst l1 l2.
  destruct (run_unique _ _ _ _ _ v2 E4 ltac:(apply (veq_trans _ _ _ E2); apply veq_sym; auto) H1 H2) as (A1 & A2 & _). auto.
Qed.
Lemma run_total w : forall l v, Conf l v -> (forall a d, In (a, d) w -> In a (otAlpha t) /\ 0 <= d) -> exists c, run A (l, v) w c.
Proof using T GP SM RO ND PR0 CV ME WL EA.
  induction w as [|[a d] w IH]; intros l v C H; [exists (l, v); constructor|]. destruct (H a d (or_introl eq_refl)) as [Ha Hd]. destruct (step_total l v a C Ha) as (l1 & v1 & F). destruct (step_conf l v a l1 v1 C F) as [_ C1].
  destruct (IH l1 (delay v1 d) (conf_delay _ _ _ C1 Hd)) as [c Hc]; [intros; apply H; right; auto|]. exists c. econstructor; [exact F| |exact Hc]. constructor; [auto|apply veq_refl].
Qed.
Lemma reads_total d0 w : wordOver (otAlpha t) d0 w -> exists c0 c, flow A (0%nat, fun _ => 0) d0 c0 /\ run A c0 w c.
Proof using T GP SM RO ND PR0 CV ME WL EA.
  intros [D H]. destruct (run_total w 0%nat (delay (fun _ => 0) d0) (conf_delay _ _ _ init_conf D) H) as [c Hc]. exists (0%nat, delay (fun _ => 0) d0), c. split; [constructor; [auto|apply veq_refl]|auto].
Qed.
Lemma row_match l m : (l < length R)%nat -> (m <= lastRow l)%nat -> isMatch t (rowOf l m) = isMatch t (nth l R 0%nat).
Proof using T MS RO.
  intros L M. assert (C := ch_ok t T R RO l L). assert (I : In (rowOf l m) (ch t R l)) by (apply nth_In; rewrite (proj1 (ch_len t T R RO l L)); lia). revert I. generalize (rowOf l m). clear M.
  induction C as [r k Ck Ik|r k L' Ck Ik C IH]; intros i I.
  - destruct I as [<-|[<-|[]]]; [auto|]. symmetry. apply MS; auto.
  - destruct I as [<-|I]; [auto|]. rewrite (IH i I). symmetry. apply MS; auto.
Qed.
Lemma home_row i : In i (otP t) -> exists m, (home t R i < length R)%nat /\ (m < lastRow (home t R i))%nat /\ i = rowOf (home t R i) m.
Proof using T RO.
  intro Pi. destruct (home_ok t T R i RO Pi) as [Lh Ih]. destruct (row_of_mem t T R RO _ i Lh Ih) as (m & M & E). exists m. split; [auto|]. split; [|auto].
  destruct (Nat.eq_dec m (lastRow (home t R i))) as [->|Ne]; [|lia]. rewrite (row_ext t T R RO _ Lh) in E. assert (X := en_out t R _ (ended_ok t T R _ RO Lh)). rewrite <- E in X. apply inP_iff in Pi. congruence.
Qed.
Lemma row_wlen i w : inElem (fel (preAt t i)) w -> length (td w) = S (length (tw w)).
Proof using GP. intro I. destruct (row_wf t GP i) as (W0 & _). rewrite (word_len _ _ W0 I). destruct I as [-> _]. reflexivity. Qed.
Lemma reads_snoc u a q l v l' v' : length (td u) = S (length (tw u)) -> reads u (l, v) -> fire A a (l, v) (l', v') -> 0 <= q -> reads (mkTW (tw u ++ [a]) (td u ++ [q])) (l', delay v' q).
Proof using.
  intros Lu (c0 & F0 & H0) F Q0. destruct (events_snoc u a q Lu) as [E1 E2]. exists c0. rewrite E1, E2. split; [auto|]. apply (run_app A c0 _ (l, v)); [auto|]. econstructor; [exact F| |constructor]. constructor; [auto|apply veq_refl].
Qed.
Lemma reads_row n : forall l m w, length (tw w) = n -> (l < length R)%nat -> (m <= lastRow l)%nat -> inElem (fel (preAt t (rowOf l m))) w -> exists v, reads w (l, v) /\ At (rowOf l m) w v.
Proof using T GP SM RO ND PR0 CV ME WL EA P0.
  induction n as [n IH] using lt_wf_ind. intros l m w Ln L M I. destruct (row_back t T GP ND PR0 R RO l m w L M I) as (d & q & E & Q0 & Iu).
  assert (Sz := row_size l m L M). assert (Lw := row_len t _ _ I). assert (Ld : length (td w) = S (length d)) by (rewrite E, app_length; cbn; lia).
  destruct (ro_P t R RO _ (nth_In R 0%nat L)) as [Pr Rr]. destruct (Nat.eq_dec (nth l R 0%nat) 0) as [Z|NZ].
  - assert (l = 0%nat). { destruct (ro_hd t R RO) as [H0 L0]. apply (proj1 (NoDup_nth R 0%nat) (ro_nd t R RO)); auto. congruence. } subst l.
    rewrite Z, PR0 in Iu. assert (d = []). { destruct Iu as [_ [Lx _]]. cbn [td] in Lx. rewrite app_length in Lx. cbn in Lx. destruct d; [auto|cbn in Lx; lia]. } subst d. cbn [app] in E.
    assert (Tw : tw w = []) by (destruct Iu as [X _]; exact X).
    exists (delay (fun _ => 0) q). split.
    + exists (0%nat, delay (fun _ => 0) q). unfold events, firstDur. rewrite E, Tw. cbn [hd combine]. split; [constructor; [auto|apply veq_refl]|constructor].
    + split; [auto|]. split; [intro x; unfold delay; lra|]. intros k Hk. rewrite <- Lw, Ld in Hk. cbn in Hk. assert (k = 0%nat) by lia. subst k. rewrite E. assert (X := since_drop [] q 0%nat ltac:(cbn; lia)). cbn [app] in X. rewrite X.
      unfold delay. assert (Y : since [0] 0 == 0) by (vm_compute; reflexivity). lra.
  - destruct (tr_kind t T ND (nth l R 0%nat) ltac:(lia) (tr_lt t T _ Pr)) as [(p & C)|(p & a & D)]; [destruct (Rr p C)|].
    destruct (disc_split t T GP p a _ _ D Iu) as (u & q' & Ip & Zq & Et & Ed). cbn [tw td] in Et, Ed. apply app_inj_tail in Ed. destruct Ed as [-> <-].
    destruct (tr_discP t T p a _ D) as (Pp & Ha & _ & _). destruct (home_row p Pp) as (mp & Lp & Mp & Ep). rewrite Ep in Ip.
    assert (Lu := row_wlen _ _ Ip). destruct (IH (length (tw u)) ltac:(rewrite <- Ln, Et, app_length; cbn; lia) (home t R p) mp u eq_refl Lp ltac:(lia) Ip) as (v & Rv & Av).
    destruct (step_total (home t R p) v a (at_conf _ mp u v Lp ltac:(lia) Av) Ha) as (l' & v' & F). destruct (step_at _ mp u v a l' v' Lp Mp Av F) as (d' & D' & K). rewrite <- Ep in D'. assert (d' = nth l R 0%nat) by congruence. subst d'.
    destruct K as (i & w' & Pi & -> & Iw' & V' & _ & In' & Nv'). destruct (In' (proj2 (inP_iff t _) Pr)) as [-> ->]. rewrite (home_root t T R l RO L) in F.
    exists (delay v' q). split.
    + replace w with (mkTW (tw u ++ [a]) (td u ++ [q])) by (destruct w as [w1 w2]; cbn [tw td] in *; congruence). apply (reads_snoc u a q (home t R p) v l v' Lu Rv F Q0).
    + split; [auto|]. split; [intro x; unfold delay; assert (X := Nv' x); lra|]. intros k Hk. unfold delay. rewrite Sz in Hk. rewrite (V' k Hk). unfold concatChar. cbn [td]. rewrite E. symmetry. apply since_drop. rewrite <- Sz, <- Lw, Ld in Hk. exact Hk.
Qed.
(** the hypothesis accepts the words of a row as the table says *)
Lemma accepts_row i w : (i < length (otPre t))%nat -> inElem (fel (preAt t i)) w -> (acceptsTW A w <-> isMatch t i = true).
Proof using T MS GP SM RO ND PR0 CV ME WL EA AL AA IA P0.
  intros Hi I. assert (G : exists l v, reads w (l, v) /\ (l < length R)%nat /\ isMatch t (nth l R 0%nat) = isMatch t i).
  { assert (Row : forall l m, (l < length R)%nat -> (m <= lastRow l)%nat -> i = rowOf l m -> exists l v, reads w (l, v) /\ (l < length R)%nat /\ isMatch t (nth l R 0%nat) = isMatch t i).
    { intros l m L M E. rewrite E in I. destruct (reads_row _ l m w eq_refl L M I) as (v & Rv & _). exists l, v. split; [auto|]. split; [auto|]. rewrite E. symmetry. apply row_match; auto. }
    destruct (inP t i) eqn:Pi.
    - apply inP_iff in Pi. destruct (home_row i Pi) as (m & L & M & E). apply (Row (home t R i) m); auto. lia.
    - assert (NZ : i <> 0%nat) by (intros ->; apply inP_iff in P0; congruence). destruct (tr_kind t T ND i ltac:(lia) Hi) as [(p & C)|(p & a & D)].
      + destruct (tr_contP t T p i C) as [Pp _]. destruct (ext_home t T R p i RO Pp C Pi) as [_ E]. destruct (home_row p Pp) as (m & L & M & _). apply (Row (home t R p) (lastRow (home t R p))); auto. rewrite (row_ext t T R RO _ L). auto.
      + destruct (disc_split t T GP p a i w D I) as (u & q & Ip & Zq & Et & Ed). destruct (tr_discP t T p a _ D) as (Pp & Ha & _ & _). destruct (home_row p Pp) as (mp & Lp & Mp & Ep). rewrite Ep in Ip.
        destruct (reads_row _ (home t R p) mp u eq_refl Lp ltac:(lia) Ip) as (v & Rv & Av). destruct (step_total (home t R p) v a (at_conf _ mp u v Lp ltac:(lia) Av) Ha) as (l' & v' & F).
        destruct (step_at _ mp u v a l' v' Lp Mp Av F) as (d' & D' & K). rewrite <- Ep in D'. assert (d' = i) by congruence. subst d'. destruct K as (j & w' & Pj & -> & _ & _ & Em & _ & _).
        exists (home t R j), (delay v' q). split; [|split].
        * replace w with (mkTW (tw u ++ [a]) (td u ++ [q])) by (destruct w as [w1 w2]; cbn [tw td] in *; congruence). apply (reads_snoc u a q (home t R p) v _ v' (row_wlen _ _ Ip) Rv F). lra.
        * apply (home_ok t T R j RO Pj).
        * destruct (home_row j Pj) as (mj & Lj & Mj & Ej). rewrite Em. rewrite Ej at 2. symmetry. apply row_match; auto. lia. }
  destruct G as (l & v & Rd & L & E). unfold acceptsTW, accepts. rewrite IA. split.
  - intros (l0 & c0 & c & [<-|[]] & F & H & Ac). destruct (reads_unique w c (l, v) (ex_intro _ c0 (conj F H)) Rd) as [E1 _]. cbn [fst] in E1. rewrite E1 in Ac. apply AA in Ac. rewrite <- E. apply Ac.
  - intro Hm. destruct Rd as (c0 & F & H). exists 0%nat, c0, (l, v). split; [left; auto|]. split; [auto|]. split; [auto|]. apply AA. cbn [fst]. rewrite E. auto.
Qed.
End Run.
