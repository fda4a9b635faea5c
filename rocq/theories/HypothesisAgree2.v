(** The hypothesis does not distinguish a word of a row outside P from its image
    under the morphism to the row the construction uses. *)
From Coq Require Import QArith Qround ZArith Bool List Arith Lia Lqa Permutation Wf_nat.
From Verif Require Import BoundsModel BoundsProofs ConstraintModel GuardSpec ConstraintProofs ZoneModel ZoneSpec ZoneProofs ZoneProofs2 ZoneProofs3 ZoneProofs4 AutomatonModel AutomatonSpec AutomatonProofs AutomatonProofs2
  TimedWordModel TimedWordSpec TimedWordProofs TimedConditionModel TimedConditionSpec TimedConditionProofs TimedConditionProofs4 ElementaryModel
  ElementarySpec ElementaryProofs ElementaryProofs2 LooseProofs RegionalModel RegionalSpec RegionalProofs3 RegionalProofs4 RegionalProofs5 RegionalProofs6 OracleModel OracleSpec SymbolicModel SymbolicSpec CexModel CexSpec CexProofs CexProofs2
  RenamingModel RenamingSpec RenamingProofs RenamingProofs2 RenamingProofs5 RenamingProofs6 ShapeProofs TableModel TableProofs2 TableProofs3 TableProofs4 PropertiesRenaming
  HypothesisModel HypothesisBox HypothesisChain HypothesisGuard HypothesisTimes HypothesisBfs HypothesisBfs3 HypothesisRaw HypothesisRaw2 HypothesisRows HypothesisReset HypothesisStep HypothesisStep2 HypothesisRun HypothesisSample HypothesisAgree.
Import ListNotations.
Open Scope Q_scope.

Section Agree.
Context {St : Type}.
Notation tbl := (ot St).
Context (t : tbl) (f : tword -> bool) (T : tree t).
Context (GP : forall i, goodPre (preAt t i)) (ND : NoDup (otAlpha t)) (PR0 : preAt t 0 = frDefault) (P0 : In 0%nat (otP t)).
Context (SM : forall i w, (i < length (otPre t))%nat -> inElem (fel (preAt t i)) w -> smallTW w).
Context (CV : forall i, (i < length (otPre t))%nat -> inP t i = false -> exists j r, chosen t i = Some (j, r) /\ validRel f t i j r).
Context (ME : forall i j r, (i < length (otPre t))%nat -> inP t i = false -> chosen t i = Some (j, r) -> isMatch t i = isMatch t j).
Context (R : list nat) (RO : roots t R).
Context (W : loc -> letter -> list trans) (prefer : trans -> trans -> bool).
Context (WL : forall l a, (l < length R)%nat -> In a (otAlpha t) -> exists cs, Permutation (front t l R) cs /\
    W l a = map (fun c => TR t R c a) cs ++ [TX t R (prevOf t l R) (extOf t l R) a]).
Context (A : ta) (AL : ~ In UNOBSERVABLE (otAlpha t)).
Context (EA : forall l a tr, edge A l a tr <-> ((l < length R)%nat /\ In a (otAlpha t) /\ In tr (tidyTs prefer (W l a)))).
Context (IA : tinit A = [0%nat]).
Notation rowOf := (rowOf t R).
Notation lastRow := (lastRow t R).
Notation Conf := (Conf t R).
Notation At := (At t).
Notation reads := (HypothesisRun.reads A).
Notation home := (home t R).

(** two valuations that agree on the clocks of a state *)
Definition Same (l : loc) (v u : valuation) : Prop := forall k, (k < tcSize (condAt t (nth l R 0%nat)))%nat -> v k == u k.
Lemma home_size i : In i (otP t) -> tcSize (condAt t (nth (home i) R 0%nat)) = tcSize (condAt t i).
Proof using T GP SM RO. intro Pi. destruct (home_row t T R RO i Pi) as (m & L & M & E). rewrite E at 2. symmetry. apply (row_size t T GP SM R RO); auto. lia. Qed.
Lemma TR_agree c a v v' u u' : In c (otP t) -> In a (otAlpha t) -> (forall k, (k < tcSize (condAt t c))%nat -> v k == u k) -> isReset (trst (TR t R c a)) v v' -> isReset (trst (TR t R c a)) u u' -> Same (ttgt (TR t R c a)) v' u'.
Proof using T GP SM RO CV.
  intros Pc Ha V Hv Hu. destruct (TR_cases t f T CV R c a Pc Ha) as (d & D & L & [(E & K)|(E & j & r & C & Vd & K)]); rewrite K in *; intros k Hk.
  - cbn [internalT trst ttgt] in *. rewrite home_size in Hk by (apply inP_iff; auto). destruct (row_wf t GP d) as (_ & _ & _ & Ed). rewrite Ed, (disc_letters t T c a d D), app_length in Hk. cbn [length] in Hk.
    destruct (row_wf t GP c) as (_ & _ & _ & Ec). destruct (Nat.eq_dec k (tcSize (condAt t c))) as [->|Ne].
    + rewrite (proj2 (Hv _) [] (RConst 0) [] eq_refl) by (intros []). rewrite (proj2 (Hu _) [] (RConst 0) [] eq_refl) by (intros []). reflexivity.
    + rewrite (proj1 (Hv k)), (proj1 (Hu k)) by (cbn; intuition). apply V. lia.
  - cbn [externalT ttgt] in Hk. destruct (chosen_in t T d j r C) as [Pj Lj]. rewrite home_size in Hk by auto. destruct (row_wf t GP c) as (Wc & _ & _ & Ec). destruct (row_wf t GP j) as (Wj & Sj & Ij & Ej).
    refine (ext_agree (fel (preAt t c)) (fel (preAt t j)) _ Wc Wj _ _ (home j) v v' u u' k _ Hv Hu _); [eapply er_renIn; eauto|eapply er_ex; eauto|intros x Hx; apply V; lia|lia].
Qed.
(** the transition beyond the last row forgets everything *)
Lemma TX_TR p c a v v' u u' : In p (otP t) -> In a (otAlpha t) -> (forall k, (k < tcSize (condAt t p))%nat -> u k == nth k (toValuation (condAt t p)) 0) ->
  isReset (trst (TX t R p c a)) v v' -> isReset (trst (TR t R p a)) u u' -> Same (ttgt (TR t R p a)) v' u'.
Proof using T GP SM RO CV.
  intros Pp Ha V Hv Hu. cbn [TX trst] in Hv. apply isReset_applyReset in Hv. destruct (vals_word t GP p) as (_ & _ & Lv & _).
  apply (TR_agree p a (applyReset v (constResets (toValuation (condAt t p)))) v' u u' Pp Ha); [|apply isReset_applyReset; intro x; rewrite (Hv x); apply composition_applies|exact Hu].
  intros k Hk. rewrite const_apply by (rewrite Lv; auto). symmetry. apply V; auto.
Qed.
Lemma TF_agree l m a v v' u u' : (l < length R)%nat -> In a (otAlpha t) -> (m <= lastRow l)%nat -> Same l v u -> isReset (trst (TF t R l a m)) v v' -> isReset (trst (TF t R l a m)) u u' -> Same (ttgt (TF t R l a m)) v' u'.
Proof using T GP SM RO CV.
  intros L Ha M S Hv Hu. unfold TF in *. destruct (m <? lastRow l)%nat eqn:E.
  - apply Nat.ltb_lt in E. apply (TR_agree (rowOf l m) a v v' u u' (row_P t T R RO l m L E) Ha); auto. intros k Hk. rewrite (row_size t T GP SM R RO l m L M) in Hk. apply S; auto.
  - assert (Pp := prev_P t T R RO l L). set (p := prevOf t l R) in *. set (u0 := fun k => nth k (toValuation (condAt t p)) 0).
    assert (K : forall w w', isReset (trst (TX t R p (extOf t l R) a)) w w' -> Same (ttgt (TR t R p a)) w' (applyReset u0 (trst (TR t R p a)))).
    { intros w w' Hw. apply (TX_TR p (extOf t l R) a w w' u0 _ Pp Ha); [intros; reflexivity|exact Hw|apply applyReset_isReset]. }
    intros k Hk. rewrite (K v v' Hv k Hk), (K u u' Hu k Hk). reflexivity.
Qed.
Lemma inRow_same l N X tm m v u : geo t R l N X tm -> (l < length R)%nat -> Same l v u -> inRow N (lastRow l) X tm m v -> inRow N (lastRow l) X tm m u.
Proof using T RO.
  intros G L S [M H]. split; [auto|]. assert (SZ : tcSize (condAt t (nth l R 0%nat)) = N). { rewrite <- (row_root t T R RO l L). apply (ge_N t R l N X tm G). lia. }
  intros x Hx. assert (E : code (u x) = code (v x)) by (apply code_ext; symmetry; apply S; lia). rewrite E. apply H; auto.
Qed.
(** clocks outside the state do not matter *)
Lemma acc_agree es : forall l v u, Conf l v -> Conf l u -> Same l v u -> acc A l v es -> acc A l u es.
Proof using T GP ND PR0 SM CV ME RO WL EA AL.
  induction es as [|[a d] es IH]; intros l v u Cv Cu S (c & H & Ac); inversion H as [|? ? ? [l1 v1] [l2 v2] ? ? F1 F2 F3]; subst.
  - exists (l, u). split; [constructor|exact Ac].
  - assert (Cv' := Cv). destruct Cv' as (L & Nv & _). assert (Nu := proj1 (proj2 Cu)). destruct (geo_ok t T GP SM R RO l L) as (N & X & tm & G). destruct (conf_row t T GP SM R RO l v N X tm G Cv) as (m & M & _).
    destruct (step_row t f T GP SM CV R RO W prefer WL A EA l v a l1 v1 N X tm m G L Nv M F1) as (Ha & E1 & Hv). destruct (step_total t f T GP SM CV R RO W prefer WL A EA l u a Cu Ha) as (l1' & u1 & F1').
    destruct (step_row t f T GP SM CV R RO W prefer WL A EA l u a l1' u1 N X tm m G L Nu (inRow_same l N X tm m v u G L S M) F1') as (_ & E1' & Hu).
    assert (S1 := TF_agree l m a v v1 u u1 L Ha (proj1 M) S Hv Hu). rewrite <- E1 in S1. rewrite <- E1 in E1'. subst l1'.
    destruct (step_conf t f T GP ND PR0 SM CV ME R RO W prefer WL A EA l v a l1 v1 Cv F1) as [_ C1]. destruct (step_conf t f T GP ND PR0 SM CV ME R RO W prefer WL A EA l u a l1 u1 Cu F1') as [_ C1'].
    destruct (flow_conf t R W prefer A AL EA l1 v1 d (l2, v2) C1 F2) as (X1 & X2 & D0 & C2). cbn [fst snd] in *. subst l2.
    destruct (IH l1 v2 (delay u1 d) C2 (conf_delay t R l1 u1 d C1' D0)) as (c' & H' & Ac'); [|exists c; auto|].
    + intros k Hk. rewrite (X2 k). unfold delay. rewrite (S1 k Hk). reflexivity.
    + exists c'. split; [|auto]. apply (run_cons A _ a d (l1, u1) (l1, delay u1 d)); [exact F1'|constructor; [auto|apply veq_refl]|exact H'].
Qed.
Lemma same_sym l v u : Same l v u -> Same l u v.
Proof using. intros H k Hk. symmetry. apply H; auto. Qed.
Lemma same_delay l v u d : Same l v u -> Same l (delay v d) (delay u d).
Proof using. intros H k Hk. unfold delay. rewrite (H k Hk). reflexivity. Qed.
(** reading a suffix after a word that has been read *)
Lemma accepts_concat p s l v : length (td p) = S (length (tw p)) -> (forall q, In q (td p) -> 0 <= q) -> 0 <= firstDur s -> reads p (l, v) -> Conf l v ->
  (acceptsTW A (concatTW p s) <-> acc A l (delay v (firstDur s)) (events s)).
Proof using T GP ND PR0 SM CV ME RO WL EA AL IA.
  intros L NN S0 Rd C. assert (NS := silent_none t R W prefer A AL EA). split; [|apply (reads_concat A NS IA); auto].
  intro H. destruct (reads_concat_inv A NS IA p s L NN S0 H) as (l' & v' & Rd' & Ac). destruct (reads_unique t f T GP ND PR0 SM CV ME R RO W prefer WL A AL EA p (l', v') (l, v) Rd' Rd) as [E V]. cbn [fst snd] in *. subst l'.
  apply (acc_veq A l (delay v' (firstDur s))); [apply delay_veq; auto|auto].
Qed.
(** one letter from a row *)
Lemma acc_step l v N X tm m a d es : geo t R l N X tm -> Conf l v -> inRow N (lastRow l) X tm m v ->
  (acc A l v ((a, d) :: es) <-> In a (otAlpha t) /\ 0 <= d /\ acc A (ttgt (TF t R l a m)) (delay (applyReset v (trst (TF t R l a m))) d) es).
Proof using T GP ND PR0 SM CV ME RO WL EA AL.
  intros G C M. assert (C' := C). destruct C' as (L & Nv & _). split.
  - intros (c & H & Ac). inversion H as [|? ? ? [l1 v1] [l2 v2] ? ? F1 F2 F3]; subst. destruct (step_row t f T GP SM CV R RO W prefer WL A EA l v a l1 v1 N X tm m G L Nv M F1) as (Ha & E1 & Hv).
    destruct (step_conf t f T GP ND PR0 SM CV ME R RO W prefer WL A EA l v a l1 v1 C F1) as [_ C1]. destruct (flow_conf t R W prefer A AL EA l1 v1 d (l2, v2) C1 F2) as (X1 & X2 & D0 & C2). cbn [fst snd] in *. subst l2.
    split; [auto|]. split; [auto|]. rewrite <- E1. apply (acc_veq A l1 v2); [|exists c; auto]. apply (veq_trans _ _ _ X2). apply delay_veq. apply isReset_applyReset. auto.
  - intros (Ha & D0 & Ac). destruct (step_total t f T GP SM CV R RO W prefer WL A EA l v a C Ha) as (l1 & v1 & F1). destruct (step_row t f T GP SM CV R RO W prefer WL A EA l v a l1 v1 N X tm m G L Nv M F1) as (_ & E1 & Hv).
    rewrite <- E1 in Ac. apply isReset_applyReset in Hv. rewrite <- E1 in Hv || idtac. destruct (acc_veq A l1 _ (delay v1 d) es (delay_veq _ _ d (veq_sym _ _ Hv)) Ac) as (c & H & K). exists c. split; [|auto].
    apply (run_cons A _ a d (l1, v1) (l1, delay v1 d)); [exact F1|constructor; [auto|apply veq_refl]|exact H].
Qed.

(** ** a row outside P reached by a letter *)
Lemma precise_cases r c : hasImpreciseClocks r c = false -> renFull r c = true \/ onlyTrivial r c = true.
Proof using. unfold hasImpreciseClocks. intro HI. destruct r; [right; reflexivity|]. cbn [andb] in HI. destruct (renFull _ _); [auto|]. destruct (onlyTrivial _ _); [auto|discriminate]. Qed.
Lemma TR_image c a d j r u p v v' : In c (otP t) -> In a (otAlpha t) -> discAt t c a = Some d -> inP t d = false -> chosen t d = Some (j, r) -> validRel f t d j r ->
  properMorph (mkMorph (fel (preAt t d)) (fel (preAt t j)) r) -> inElem (fel (preAt t c)) u -> inElem (fel (preAt t d)) p -> sameTW p (concatChar u a) ->
  (forall k, (k < tcSize (condAt t c))%nat -> v k == since (td u) k) -> isReset (trst (TR t R c a)) v v' ->
  ttgt (TR t R c a) = home j /\ forall k, (k < tcSize (condAt t j))%nat -> v' k == since (td (mMaps (mkMorph (fel (preAt t d)) (fel (preAt t j)) r) p)) k.
Proof using T GP CV.
  intros Pc Ha D Pd C Vd PM Iu Ip SP V Hv. set (m := mkMorph (fel (preAt t d)) (fel (preAt t j)) r) in *.
  destruct (TR_cases t f T CV R c a Pc Ha) as (d' & D' & L & [(E & K)|(E & j' & r' & C' & _ & K)]); rewrite D in D'; injection D' as <-; [congruence|]. rewrite C in C'. injection C' as <- <-. rewrite K in *. split; [reflexivity|].
  destruct (row_wf t GP c) as (Wc & _ & _ & Ec). destruct (row_wf t GP j) as (Wj & Sj & Ij & Ej). destruct (row_wf t GP d) as (Wd & _ & _ & Ed).
  assert (A1 := er_renIn t f T GP c d j a r D Vd). assert (A2 := er_ex t f T GP c d j a r D Vd). assert (A3 := er_precise t f T GP c d j a r D Vd).
  assert (VV : forall k, (k <= length (ew (fel (preAt t c))))%nat -> v k == since (td u) k) by (intros k Hk; apply V; lia).
  destruct (mMaps_spec m p PM Ip) as (M1 & M2 & M3). cbn [mcod mren m] in M1, M2.
  destruct (precise_cases r (condAt t j) (proj2 (proj2 (proj1 Vd)))) as [F|F]; intros k Hk.
  - destruct (ext_reset (fel (preAt t c)) (fel (preAt t j)) _ Wc Wj Sj Ij A1 A2 A3 (home j) v v' u Iu VV Hv) as (p2 & I2 & R2 & H2). rewrite (H2 k) by lia.
    assert (R2' := rel_up t f T GP c d j a r D Vd u p2 Iu I2 R2). destruct (full_all r (fel (preAt t j)) k F) as [B|B]; [intros [i k'] H; cbn [snd]; destruct (proj1 (proj1 Vd) i k' H); fold (condAt t j); lia|exact Hk| |].
    + apply in_map_iff in B. destruct B as ((i & k') & E' & B). cbn in E'. subst k'. rewrite <- (R2' i k B), <- (M2 i k B). destruct (proj1 (proj1 Vd) i k B) as [Hi _].
      destruct SP as [_ SP]. symmetry. unfold since. assert (LS : length (td p) = length (td (concatChar u a))) by (clear - SP; induction SP; cbn; congruence). rewrite LS. apply T_ext. exact SP.
    + destruct (point_value (condAt t j) k (proj1 Wj) Ij B Hk) as [z Z]. rewrite since_acc by (rewrite (word_len _ p2 Wj I2); lia). rewrite since_acc by (rewrite (word_len _ _ Wj M1); lia).
      rewrite (Z _ (word_zone _ p2 Wj I2)), (Z _ (word_zone _ _ Wj M1)). reflexivity.
  - assert (F' : onlyTrivial (eraseLeft r (tcSize (condAt t c))) (condAt t j) = true).
    { unfold onlyTrivial in *. rewrite forallb_forall in *. intros [i k'] H. unfold eraseLeft in H. apply filter_In in H. apply (F (i, k')). apply H. }
    rewrite (ext_consts (fel (preAt t c)) (fel (preAt t j)) _ Wc Wj Sj Ij A1 A2 (home j) v v' k F' Hv) by lia. symmetry. apply (zsample_trivial m p PM Ip Ij F). cbn [mcod m]. lia.
Qed.
Lemma swap_disc c a d j r p s : discAt t c a = Some d -> inP t d = false -> chosen t d = Some (j, r) -> validRel f t d j r ->
  properMorph (mkMorph (fel (preAt t d)) (fel (preAt t j)) r) -> inElem (fel (preAt t d)) p -> 0 <= firstDur s ->
  (acceptsTW A (concatTW p s) <-> acceptsTW A (concatTW (mMaps (mkMorph (fel (preAt t d)) (fel (preAt t j)) r) p) s)).
Proof using T GP ND PR0 P0 SM CV ME RO WL EA AL IA.
  intros D Pd C Vd PM Ip S0. set (m := mkMorph (fel (preAt t d)) (fel (preAt t j)) r) in *. destruct (tr_discP t T c a d D) as (Pc & Ha & _ & Ld). destruct (chosen_in t T d j r C) as [Pj Lj].
  destruct (disc_split t T GP c a d p D Ip) as (u & q & Iu & Zq & Et & Ed). destruct (home_row t T R RO c Pc) as (mc & Lc & Mc & Ec). assert (Iu' := Iu). rewrite Ec in Iu'.
  destruct (reads_row t f T GP ND PR0 P0 SM CV ME R RO W prefer WL A EA _ (home c) mc u eq_refl Lc ltac:(lia) Iu') as (v & Rv & Av).
  assert (Cv := at_conf t T GP ND PR0 SM R RO (home c) mc u v Lc ltac:(lia) Av). destruct (step_total t f T GP SM CV R RO W prefer WL A EA (home c) v a Cv Ha) as (l' & v' & F).
  destruct (geo_ok t T GP SM R RO (home c) Lc) as (N & X & tm & G). destruct (step_row t f T GP SM CV R RO W prefer WL A EA (home c) v a l' v' N X tm mc G Lc (proj1 (proj2 Av)) (at_row t R _ mc u v N X tm G Lc Mc Av) F) as (_ & El & Hr).
  unfold TF in El, Hr. assert (Xm : (mc <? lastRow (home c))%nat = true) by (apply Nat.ltb_lt; auto). rewrite Xm, <- Ec in El, Hr.
  assert (SP : sameTW p (concatChar u a)).
  { split; [rewrite Et; reflexivity|]. rewrite Ed. unfold concatChar. cbn [td]. apply Forall2_app; [|constructor; [auto|constructor]]. clear. induction (td u); constructor; auto; reflexivity. }
  assert (Vu : forall k, (k < tcSize (condAt t c))%nat -> v k == since (td u) k) by (rewrite Ec; apply Av).
  destruct (TR_image c a d j r u p v v' Pc Ha D Pd C Vd PM Iu Ip SP Vu Hr) as [Et' Im]. fold m in Im. rewrite Et' in El. subst l'.
  destruct (step_conf t f T GP ND PR0 SM CV ME R RO W prefer WL A EA (home c) v a _ v' Cv F) as [_ Cv']. assert (Q0 : 0 <= q) by lra.
  assert (Rp : reads p (home j, delay v' q)).
  { replace p with (mkTW (tw u ++ [a]) (td u ++ [q])) by (destruct p as [p1 p2]; cbn [tw td] in *; congruence). apply (reads_snoc A u a q (home c) v (home j) v' (row_wlen t GP _ _ Iu) Rv F Q0). }
  destruct (mMaps_spec m p PM Ip) as (M1 & _ & M3). cbn [mcod m] in M1. set (p' := mMaps m p) in *. destruct (home_row t T R RO j Pj) as (mj & Lj' & Mj & Ej). assert (M1' := M1). rewrite Ej in M1'.
  destruct (reads_row t f T GP ND PR0 P0 SM CV ME R RO W prefer WL A EA _ (home j) mj p' eq_refl Lj' ltac:(lia) M1') as (v2 & Rv2 & Av2). assert (Cv2 := at_conf t T GP ND PR0 SM R RO (home j) mj p' v2 Lj' ltac:(lia) Av2).
  assert (NNp : forall i w, inElem (fel (preAt t i)) w -> forall q, In q (td w) -> 0 <= q) by (intros i w I; apply Forall_forall; apply (row_nonneg t GP i w I)).
  rewrite (accepts_concat p s (home j) (delay v' q) (row_wlen t GP _ _ Ip) (NNp _ _ Ip) S0 Rp (conf_delay t R _ _ _ Cv' Q0)).
  rewrite (accepts_concat p' s (home j) v2 (row_wlen t GP _ _ M1) (NNp _ _ M1) S0 Rv2 Cv2).
  assert (SS : Same (home j) (delay v' q) v2). { intros k Hk. rewrite (home_size j Pj) in Hk. unfold delay. rewrite Zq. rewrite (Im k Hk). destruct Av2 as (_ & _ & V2). rewrite V2 by (rewrite <- Ej; auto). lra. }
  assert (D1 := conf_delay t R _ _ (firstDur s) (conf_delay t R _ _ _ Cv' Q0) S0). assert (D2 := conf_delay t R _ _ (firstDur s) Cv2 S0).
  split; apply acc_agree; auto; [apply same_delay; auto|apply same_sym, same_delay; auto].
Qed.

(** ** a row outside P reached by letting time pass *)
Context (XT : forall p k, In p (otP t) -> contAt t p = Some k -> inP t k = false -> exists x n, (x < tcSize (condAt t p))%nat /\ forall w, inElem (fel (preAt t p)) w -> since (td w) x == inject_Z n).
Lemma swap_cont p0 i p s : In p0 (otP t) -> contAt t p0 = Some i -> inP t i = false ->
  properMorph (mkMorph (fel (preAt t i)) (fel (preAt t p0)) []) -> inElem (fel (preAt t i)) p -> 0 <= firstDur s ->
  (acceptsTW A (concatTW p s) <-> acceptsTW A (concatTW (mMaps (mkMorph (fel (preAt t i)) (fel (preAt t p0)) []) p) s)).
Proof using T GP ND PR0 P0 SM CV ME RO WL EA AL IA XT.
  intros Pp C Pi PM Ip S0. set (m := mkMorph (fel (preAt t i)) (fel (preAt t p0)) []) in *. destruct (ext_home t T R p0 i RO Pp C Pi) as [Ev Ex]. destruct (home_row t T R RO p0 Pp) as (m0 & L & _ & _). set (l := home p0) in *.
  assert (Ei : i = rowOf l (lastRow l)) by (rewrite (row_ext t T R RO l L); auto). assert (Ep : p0 = rowOf l (lastRow l - 1)) by (rewrite (row_prev t T R RO l L); auto). destruct (ch_len t T R RO l L) as [_ L0].
  assert (Ip' := Ip). rewrite Ei in Ip'. destruct (reads_row t f T GP ND PR0 P0 SM CV ME R RO W prefer WL A EA _ l (lastRow l) p eq_refl L (le_n _) Ip') as (v & Rv & Av).
  destruct (mMaps_spec m p PM Ip) as (M1 & _ & M3). cbn [mcod m] in M1. set (p' := mMaps m p) in *. assert (M1' := M1). rewrite Ep in M1'.
  destruct (reads_row t f T GP ND PR0 P0 SM CV ME R RO W prefer WL A EA _ l (lastRow l - 1) p' eq_refl L ltac:(lia) M1') as (v2 & Rv2 & Av2).
  assert (Cv := at_conf t T GP ND PR0 SM R RO l (lastRow l) p v L (le_n _) Av). assert (Cv2 := at_conf t T GP ND PR0 SM R RO l (lastRow l - 1) p' v2 L ltac:(lia) Av2).
  assert (NNp : forall i w, inElem (fel (preAt t i)) w -> forall q, In q (td w) -> 0 <= q) by (intros i' w I; apply Forall_forall; apply (row_nonneg t GP i' w I)).
  rewrite (accepts_concat p s l v (row_wlen t GP _ _ Ip) (NNp _ _ Ip) S0 Rv Cv). rewrite (accepts_concat p' s l v2 (row_wlen t GP _ _ M1) (NNp _ _ M1) S0 Rv2 Cv2).
  set (e := firstDur s) in *. assert (D1 := conf_delay t R l v e Cv S0). assert (D2 := conf_delay t R l v2 e Cv2 S0).
  destruct (events s) as [|[a d] es].
  { split; intros (c & H & Ac); assert (K : fst c = l) by (inversion H; reflexivity); rewrite K in Ac; eexists; (split; [apply run_nil|exact Ac]). }
  destruct (geo_ok t T GP SM R RO l L) as (N & X & tm & G). assert (SZ := ge_N t R l N X tm G). assert (SZ0 : tcSize (condAt t p0) = N) by (rewrite Ep; apply SZ; lia).
  assert (V2 : forall k, (k < N)%nat -> v2 k == since (td p') k) by (intros k Hk; apply Av2; rewrite SZ by lia; auto).
  assert (R1 : inRow N (lastRow l) X tm (lastRow l) (delay v e)).
  { split; [lia|]. intros x Hx. split; [|lia]. assert (E : code (v x) = KK X tm (lastRow l) x). { rewrite (code_ext (v x) (since (td p) x)) by (apply Av; rewrite SZ by lia; auto). apply (ge_code t R l N X tm G (lastRow l) p x (le_n _) Ip' Hx). }
    rewrite <- E. apply code_mono. unfold delay. lra. }
  assert (Val : forall k, (k < N)%nat -> v2 k == nth k (toValuation (condAt t p0)) 0).
  { intros k Hk. rewrite (V2 k Hk). destruct (row_wf t GP p0) as (Wj & Sj & Ij & Ej). apply (zsample_trivial m p PM Ip Ij eq_refl). cbn [mcod m]. lia. }
  rewrite (acc_step l (delay v e) N X tm (lastRow l) a d es G D1 R1). unfold TF at 1 2. rewrite Nat.ltb_irrefl. rewrite Ev.
  destruct (conf_row t T GP SM R RO l (delay v2 e) N X tm G D2) as (m2 & Rm & _). assert (Hm2 := proj1 Rm).
  rewrite (acc_step l (delay v2 e) N X tm m2 a d es G D2 Rm).
  (* either no time has passed, or the configuration has left the row *)
  assert (Pos : e == 0 /\ m2 = (lastRow l - 1)%nat \/ m2 = lastRow l).
  { destruct (Nat.eq_dec m2 (lastRow l)) as [|Ne]; [auto|left]. destruct Rm as [_ Rm].
    assert (Kp : forall x, (x < N)%nat -> code (v2 x) = KK X tm (lastRow l - 1) x). { intros x Hx. rewrite (code_ext _ _ (V2 x Hx)). apply (ge_code t R l N X tm G (lastRow l - 1)%nat p' x ltac:(lia) M1' Hx). }
    assert (Km : forall x, (x < N)%nat -> (KK X tm m2 x <= KK X tm (lastRow l - 1) x)%Z) by (intros x Hx; apply (Kmono (lastRow l) X tm (ge_inc t R l N X tm G)); lia).
    assert (Mono : forall x, (code (v2 x) <= code (delay v2 e x))%Z) by (intro x; apply code_mono; unfold delay; lra).
    assert (Z0 : e == 0).
    { destruct (XT p0 i Pp C Pi) as (x & n & Hx & Hn). rewrite SZ0 in Hx. assert (E1 := proj2 (Rm x Hx) Ne). assert (E2 := Kp x Hx). assert (E3 := Km x Hx). assert (E4 := Mono x). specialize (Hn p' M1). rewrite <- (V2 x Hx) in Hn.
      assert (E5 : code (v2 x) = (2 * n)%Z) by (rewrite (code_ext _ _ Hn); apply code_int). assert (E6 : (code (delay v2 e x) <= 2 * n)%Z) by lia. apply code_le_even in E6. unfold delay in E6. rewrite Hn in E6. lra. }
    split; [auto|]. destruct (Nat.lt_ge_cases m2 (lastRow l - 1)) as [Lt|Ge]; [exfalso|lia]. destruct (ge_sep t R l N X tm G m2 (lastRow l - 1)%nat Lt ltac:(lia)) as (x & Hx & Hlt).
    assert (E1 := proj2 (Rm x Hx) Ne). assert (E2 := Kp x Hx). assert (E4 := Mono x). lia. }
  assert (Goal' : In a (otAlpha t) -> 0 <= d -> ttgt (TX t R p0 (extOf t l R) a) = ttgt (TF t R l a m2) /\ Same (ttgt (TR t R p0 a)) (applyReset (delay v e) (trst (TX t R p0 (extOf t l R) a))) (applyReset (delay v2 e) (trst (TF t R l a m2))) /\
     Conf (ttgt (TR t R p0 a)) (applyReset (delay v e) (trst (TX t R p0 (extOf t l R) a))) /\ Conf (ttgt (TR t R p0 a)) (applyReset (delay v2 e) (trst (TF t R l a m2)))).
  { intros Ha Hd. assert (CF : forall w m', Conf l w -> inRow N (lastRow l) X tm m' w -> Conf (ttgt (TF t R l a m')) (applyReset w (trst (TF t R l a m')))).
    { intros w m' Cw Rw. destruct (step_total t f T GP SM CV R RO W prefer WL A EA l w a Cw Ha) as (l1 & w1 & F). assert (Nw := proj1 (proj2 Cw)). destruct (step_row t f T GP SM CV R RO W prefer WL A EA l w a l1 w1 N X tm m' G L Nw Rw F) as (_ & E1 & Hw).
      destruct (step_conf t f T GP ND PR0 SM CV ME R RO W prefer WL A EA l w a l1 w1 Cw F) as [_ C1]. rewrite <- E1. apply (conf_veq t R l1 w1); [|auto]. apply veq_sym. apply isReset_applyReset. auto. }
    assert (K1 := CF _ _ D1 R1). assert (K2 := CF _ _ D2 Rm). unfold TF in K1 at 1 2. rewrite Nat.ltb_irrefl, Ev in K1.
    destruct Pos as [[Z0 ->]| ->].
    - unfold TF in K2 |- *. assert (Xm : (lastRow l - 1 <? lastRow l)%nat = true) by (apply Nat.ltb_lt; lia). rewrite Xm in *. rewrite <- Ep in *. split; [reflexivity|]. split; [|split; [exact K1|exact K2]].
      apply (TX_TR p0 (extOf t l R) a (delay v e) _ (delay v2 e) _ Pp Ha); [|apply applyReset_isReset|apply applyReset_isReset]. intros k Hk. rewrite SZ0 in Hk. unfold delay. rewrite Z0, (Val k Hk). lra.
    - unfold TF in K2 |- *. rewrite Nat.ltb_irrefl, Ev in *. split; [reflexivity|]. split; [|split; [exact K1|exact K2]].
      set (u0 := fun k => nth k (toValuation (condAt t p0)) 0).
      assert (K : forall w w', isReset (trst (TX t R p0 (extOf t l R) a)) w w' -> Same (ttgt (TR t R p0 a)) w' (applyReset u0 (trst (TR t R p0 a)))).
      { intros w w' Hw. apply (TX_TR p0 (extOf t l R) a w w' u0 _ Pp Ha); [intros; reflexivity|exact Hw|apply applyReset_isReset]. }
      intros k Hk. rewrite (K _ _ (applyReset_isReset _ (delay v e)) k Hk), (K _ _ (applyReset_isReset _ (delay v2 e)) k Hk). reflexivity. }
  split; intros (Ha & Hd & Ac); (split; [auto|]); (split; [auto|]); destruct (Goal' Ha Hd) as (G1 & G2 & G3 & G4); [rewrite <- G1|rewrite <- G1 in Ac]; cbn [TX ttgt] in *;
    refine (acc_agree es _ _ _ (conf_delay t R _ _ d _ Hd) (conf_delay t R _ _ d _ Hd) _ Ac); auto; [apply same_delay; auto|apply same_sym, same_delay; auto].
Qed.
End Agree.
