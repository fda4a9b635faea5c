(** Theorems for C83 (the search for a renaming that need not be deterministic). *)
From Coq Require Import QArith ZArith Bool List Arith Lia Lqa Sorted.
From Verif Require Import BoundsModel BoundsProofs ConstraintModel ZoneModel ZoneSpec ZoneProofs AutomatonModel AutomatonSpec
  TimedWordModel TimedWordSpec TimedConditionModel TimedConditionSpec TimedConditionProofs TimedConditionProofs3 TimedConditionProofs4 ElementaryModel
  ElementarySpec ElementaryProofs LooseProofs RegionalModel RegionalSpec OracleModel SymbolicModel SymbolicSpec CexModel CexSpec CexProofs RenamingModel RenamingSpec
  RenamingProofs RenamingProofs2 RenamingProofs3 RenamingProofs4 RenamingProofs5 RenamingProofs6 RenamingProofs7 FullRenamingModel FullRenamingProofs PropertiesRenaming.
Import ListNotations.
Open Scope nat_scope.

(** ** Vocabulary *)
(** some cell of the row has a zone with another bound on event [i] than the
    language with the suffix appended *)
Definition constrainedIn (x : elem) (sufs : list elem) (row : list (list tcond)) (i : nat) : Prop :=
  i <= length (ew x) /\ exists cell s c k, In (cell, s) (combine row sufs) /\ In c cell /\ k < dim c /\
    (beqb (get c k (S i)) (get (ec (elConcat x s)) k (S i)) = false \/ beqb (get c (S i) k) (get (ec (elConcat x s)) (S i) k) = false).
(** the order of pairs *)
Definition pairBefore (p q : nat * nat) : Prop := fst p < fst q \/ (fst p = fst q /\ snd p < snd q).

Lemma constrainedVars_iff x sufs row i : In i (constrainedVars row (map (fun s => ec (elConcat x s)) sufs) (length (ew x) + 1)) <-> constrainedIn x sufs row i.
Proof.
  unfold constrainedVars, constrainedIn. rewrite sortUniq_in, in_flat_map. split.
  - intros ([cell conc] & H & I). cbn [fst snd] in I. unfold strictlyConstrainedS in I. apply in_flat_map in I. destruct I as (c & C & I). unfold strictlyConstrained in I. apply filter_In in I. destruct I as [I1 I2]. apply in_seq in I1. split; [lia|].
    apply existsb_exists in I2. destruct I2 as (k & K1 & K2). apply in_seq in K1. assert (X : exists s, In (cell, s) (combine row sufs) /\ conc = ec (elConcat x s)).
    { clear -H. revert sufs H. induction row as [|a row IH]; intros [|s sufs] H; cbn in H; try destruct H; [injection H as <- <-; exists s; split; [left; reflexivity|reflexivity]|]. destruct (IH sufs H) as (s' & A & B). exists s'. split; [right; exact A|exact B]. }
    destruct X as (s & A & ->). exists cell, s, c, k. split; [exact A|]. split; [exact C|]. split; [lia|]. rewrite orb_true_iff, !negb_true_iff in K2. exact K2.
  - intros (L & cell & s & c & k & A & C & K & D). exists (cell, ec (elConcat x s)). split.
    + revert A. clear. revert sufs. induction row as [|a row IH]; intros [|s' sufs] H; cbn in H |- *; try destruct H; [injection H as -> ->; left; reflexivity|right; auto].
    + cbn [fst snd]. unfold strictlyConstrainedS. apply in_flat_map. exists c. split; [exact C|]. unfold strictlyConstrained. apply filter_In. split; [apply in_seq; lia|]. apply existsb_exists. exists k. split; [apply in_seq; lia|]. rewrite orb_true_iff, !negb_true_iff. exact D.
Qed.
Lemma sameEmptiness_iff : forall lr rr, sameEmptiness lr rr = true <-> Forall2 (fun a b => a = [] <-> b = []) lr rr.
Proof.
  induction lr as [|a lr IH]; intros [|b rr]; cbn [sameEmptiness]; split; intro H; try discriminate; try (inversion H; fail); try constructor; try reflexivity.
  - apply andb_true_iff in H. destruct H as [H _]. destruct a, b; split; intro; try reflexivity; discriminate.
  - apply andb_true_iff in H. apply IH, H.
  - inversion H as [|? ? ? ? H1 H2]; subst. apply andb_true_iff. split; [|apply IH; exact H2]. destruct a, b; cbn; try reflexivity; [assert (X := proj1 H1 eq_refl)|assert (X := proj2 H1 eq_refl)]; discriminate.
Qed.
Lemma sortUniq_le l : StronglySorted le (sortUniq l).
Proof.
  assert (H := sortUniq_asc l). revert H. generalize (sortUniq l). intros m H. induction H as [|y m S1 S2 IH]; constructor; [exact IH|]. apply Forall_forall. intros z Hz. specialize (S1 z Hz). lia.
Qed.
Lemma graph_sorted l r i : StronglySorted le (nth i (fst (toGraph l r)) []) /\ StronglySorted le (nth i (snd (toGraph l r)) []).
Proof.
  assert (G : forall e, StronglySorted le (nth i (map sortUniq e) [])) by (intro e; change (@nil nat) with (sortUniq []) at 1; rewrite map_nth; apply sortUniq_le).
  unfold toGraph. cbv zeta. cbn [fst snd]. split; apply G.
Qed.

Section One.
Context (x y : elem) (Px : properEL x) (Py : properEL y).
Notation g := (toGraph (ec x) (ec y)).
Lemma g1 i j : In j (nth i (fst g) []) <-> sameUpper x y i j.
Proof using Px Py. exact (proj1 (C54_graph_exact x y i j Px Py)). Qed.
Lemma g2 i j : In i (nth j (snd g) []) <-> sameUpper x y i j.
Proof using Px Py. exact (proj2 (C54_graph_exact x y i j Px Py)). Qed.
Lemma sameUpper_box i j i' j' : sameUpper x y i j -> sameUpper x y i' j -> sameUpper x y i j' -> sameUpper x y i' j'.
Proof using.
  intros (A1 & A2 & A3) (B1 & B2 & B3) (C1 & C2 & C3). split; [exact B1|]. split; [exact C2|]. unfold beqb in *. rewrite andb_true_iff in *. destruct A3 as [A3 A4], B3 as [B3 B4], C3 as [C3 C4]. split.
  - eapply ble_trans; [exact B3|]. eapply ble_trans; [exact A4|exact C3].
  - eapply ble_trans; [exact C4|]. eapply ble_trans; [exact A3|exact B4].
Qed.
Lemma genLoop_P n lc rc cs : genLoop n (fst g) (snd g) lc rc [[]] = Some cs -> In [] cs /\ forall c p, In c cs -> In p c -> sameUpper x y (fst p) (snd p).
Proof using Px Py.
  intro H. destruct (genLoop_ok (fst g) (snd g) (fun p => sameUpper x y (fst p) (snd p)) (fun i j => g1 i j) (fun i j => g2 i j) (fun i j i' j' A B C => sameUpper_box i j i' j' A B C) n lc rc [[]] cs H) as [A B].
  - intros c p [<-|[]] [].
  - split; [apply A; left; reflexivity|exact B].
Qed.
End One.

(** what is found relates words of the two languages, and no suffix of the
    given languages distinguishes related words *)
Theorem C83_found_sound :
  forall (f : tword -> bool) (pos : renaming -> nat * nat -> nat) (n : nat) (x y : elem) (sufs : list elem) (lr rr : list (list tcond)) (ren : renaming),
    properEL x -> properEL y -> (forall z, In z sufs -> wfElem z) -> exactRow f x sufs lr -> exactRow f y sufs rr ->
    findFull pos n x lr y rr sufs = Some (Some ren) -> renIn ren x y /\ indistinguishable f x y sufs ren.
Proof.
  intros f pos n x y sufs lr rr ren Px Py W RX RY H. assert (W' : forall z, In z sufs -> looseElem z) by (intros z Hz; apply wfElem_loose; auto).
  assert (Wx := proj1 Px). assert (Wy := proj1 Py).
  assert (RNG : forall c : renaming, (forall p, In p c -> fst p < tcSize (ec x) /\ snd p < tcSize (ec y)) -> renIn c x y).
  { intros c K i j Hij. specialize (K _ Hij). cbn [fst snd] in K. destruct Wx as [_ Sx], Wy as [_ Sy]. rewrite Sx, Sy in K. lia. }
  unfold findFull in H. cbv zeta in H. destruct (equivE x lr y rr sufs []) eqn:E0.
  { injection H as <-. assert (RI : renIn [] x y) by (intros i j []). split; [exact RI|]. eapply C52_equivalence_sound; eauto. }
  destruct (negb (sameEmptiness lr rr)); [discriminate|]. match type of H with context [genLoop ?a ?b ?c ?d ?e ?f] => destruct (genLoop a b c d e f) as [cs|] eqn:EG end; [|discriminate].
  destruct (genLoop_P x y Px Py _ _ _ _ EG) as [_ GP].
  match type of H with context [map ?F (sortCands cs)] => set (cands := map F (sortCands cs)) in H end.
  assert (CR : forall c, In c cands -> forall p, In p c -> fst p < tcSize (ec x) /\ snd p < tcSize (ec y)).
  { intros c Hc. unfold cands in Hc. apply in_map_iff in Hc. destruct Hc as (c0 & <- & H0). apply sortCands_in in H0.
    assert (R0 : forall p, In p c0 -> fst p < tcSize (ec x) /\ snd p < tcSize (ec y)) by (intros p Hp; destruct (GP c0 p H0 Hp) as (A & B & _); auto).
    destruct c0 as [|p0 c0]; [intros p []|]. exact (addImplicit_range _ (tcSize (ec x), jux (ec x) (ec y)) _ R0). }
  match type of H with context [find ?F cands] => destruct (find F cands) as [c|] eqn:EF end.
  - injection H as <-. apply find_some in EF. destruct EF as [I E]. assert (RI := RNG c (CR c I)). split; [exact RI|]. eapply equivJ_sound; eauto.
  - apply searchLoop_found in H. destruct H as [T S1]. assert (RI : renIn ren x y).
    { apply RNG. intros p Hp. destruct (S1 p Hp) as [X|(d & D1 & D2)]; [|eauto]. apply in_flat_map in X. destruct X as (i & _ & X). apply in_map_iff in X. destruct X as (j & <- & X). apply (g1 x y Px Py) in X. destruct X as (A & B & _). auto. }
    split; [exact RI|]. eapply C52_equivalence_sound; eauto.
Qed.
Print Assumptions C83_found_sound.
(** if nothing is found, the two rows differ in which cells are empty, or no
    renaming passes the test whose pairs relate a constrained event to one with
    the same upper bound; the empty renaming fails in either case.  Of
    std::lower_bound only this is used: what is greater than all elements is
    inserted at the end. *)
Theorem C83_nothing_found :
  forall (pos : renaming -> nat * nat -> nat) (n : nat) (x y : elem) (sufs : list elem) (lr rr : list (list tcond)),
    properEL x -> properEL y -> (forall c e, (forall p, In p c -> pairBefore p e) -> length c <= pos c e) ->
    findFull pos n x lr y rr sufs = Some None ->
    equivE x lr y rr sufs [] = false /\
    (~ Forall2 (fun a b => a = [] <-> b = []) lr rr \/
     forall ren, StronglySorted pairBefore ren -> (forall i j, In (i, j) ren -> constrainedIn x sufs lr i /\ sameUpper x y i j) -> equivE x lr y rr sufs ren = false).
Proof.
  intros pos n x y sufs lr rr Px Py HP H. unfold findFull in H. cbv zeta in H. destruct (equivE x lr y rr sufs []) eqn:E0; [discriminate|]. split; [reflexivity|].
  destruct (sameEmptiness lr rr) eqn:ES; cbn [negb] in H; [right|left; intro F; apply sameEmptiness_iff in F; congruence].
  match type of H with context [genLoop ?a ?b ?c ?d ?e ?f] => destruct (genLoop a b c d e f) as [cs|] eqn:EG end; [|discriminate].
  destruct (genLoop_P x y Px Py _ _ _ _ EG) as [GN _]. match type of H with context [map ?F (sortCands cs)] => set (cands := map F (sortCands cs)) in H end.
  match type of H with context [find ?F cands] => destruct (find F cands) as [c|] eqn:EF end; [discriminate|].
  intros ren SS HR. destruct ren as [|e ren]; [exact E0|].
  apply (searchLoop_none pos (equivE x lr y rr sufs) _ HP n cands H [] (e :: ren)); [|discriminate|exact SS|].
  - unfold cands. apply in_map_iff. exists []. split; [reflexivity|]. apply sortCands_iff. exact GN.
  - intros [i j] Hp. destruct (HR i j Hp) as [C U]. apply in_flat_map. exists i. split; [|apply in_map; apply (g1 x y Px Py); exact U]. apply filter_In. split; [apply constrainedVars_iff; exact C|].
    apply (g1 x y Px Py) in U. destruct (nth i (fst (toGraph (ec x) (ec y))) []); [destruct U|reflexivity].
Qed.
Print Assumptions C83_nothing_found.
(** the last search ends if the candidates it starts with are sorted and
    std::lower_bound is exact on sorted candidates *)
Section SearchEnds.
Context (pos : renaming -> nat * nat -> nat) (test : renaming -> bool).
Context (LB : forall c e k p, StronglySorted pairBefore c -> nth_error c k = Some p -> (k < pos c e <-> pairBefore p e)).
Lemma before_trans p q r : pairBefore p q -> pairBefore q r -> pairBefore p r.
Proof using. unfold pairBefore. lia. Qed.
Lemma before_total p q : p = q \/ pairBefore p q \/ pairBefore q p.
Proof using. destruct p as [a b], q as [c d]. unfold pairBefore. cbn [fst snd]. destruct (lt_eq_lt_dec a c) as [[X|X]|X]; [lia| |lia]. subst. destruct (lt_eq_lt_dec b d) as [[X|X]|X]; [lia|subst; auto|lia]. Qed.
Lemma insert_ss e : forall a b, StronglySorted pairBefore (a ++ b) -> Forall (fun p => pairBefore p e) a -> Forall (pairBefore e) b -> StronglySorted pairBefore (a ++ e :: b).
Proof using.
  induction a as [|p a IH]; intros b H A B; cbn [app] in *; [constructor; assumption|]. inversion H as [|? ? H1 H2]; subst. inversion A as [|? ? A1 A2]; subst. constructor; [apply IH; assumption|].
  apply Forall_app in H2. destruct H2 as [X Y]. apply Forall_app. split; [exact X|]. constructor; assumption.
Qed.
Lemma ss_nodup : forall c, StronglySorted pairBefore c -> NoDup c.
Proof using. intros c H. induction H as [|p c S1 IH S2]; constructor; [|exact IH]. intro I. rewrite Forall_forall in S2. specialize (S2 p I). unfold pairBefore in S2. lia. Qed.
Lemma insertEdge_ss c e c' : StronglySorted pairBefore c -> insertEdge pos c e = Some c' -> StronglySorted pairBefore c' /\ length c' = S (length c).
Proof using LB.
  intros SS H. assert (LO : forall k p, nth_error c k = Some p -> k < pos c e -> pairBefore p e) by (intros k p N; apply (LB c e k p SS N)).
  unfold insertEdge in H. destruct (nth_error c (pos c e)) as [e'|] eqn:E.
  - destruct (pairEqb e' e) eqn:PE; [discriminate|]. injection H as <-. split.
    + apply insert_ss; [rewrite firstn_skipn; exact SS| |].
      * apply Forall_forall. intros p Hp. apply In_nth_error in Hp. destruct Hp as [k Hk]. assert (L : k < length (firstn (pos c e) c)) by (apply nth_error_Some; congruence). rewrite firstn_length in L. apply (LO k); [|lia].
        rewrite <- Hk. rewrite <- (firstn_skipn (pos c e) c) at 1. rewrite nth_error_app1; [reflexivity|rewrite firstn_length; lia].
      * assert (L : pos c e < length c) by (apply nth_error_Some; congruence).
        assert (SB : StronglySorted pairBefore (skipn (pos c e) c)). { clear - SS. revert SS. generalize (pos c e). intro m. revert c. induction m as [|m IH]; intros c SS; [exact SS|]. destruct c as [|p c]; [constructor|]. inversion SS; subst. cbn [skipn]. apply IH. assumption. }
        assert (HD : exists r, skipn (pos c e) c = e' :: r). { clear - E. revert E. generalize (pos c e). intro m. revert c. induction m as [|m IH]; intros [|p c] E; cbn in E; try discriminate; [injection E as ->; exists c; reflexivity|]. destruct (IH c E) as [r X]. exists r. exact X. }
        destruct HD as [r HD]. rewrite HD in *. inversion SB as [|? ? B1 B2]; subst.
        assert (NE : ~ pairBefore e' e) by (intro X; apply (LB c e _ _ SS E) in X; lia).
        assert (EE : pairBefore e e'). { destruct (before_total e' e) as [X|[X|X]]; [|contradiction|exact X]. subst. unfold pairEqb in PE. rewrite !Nat.eqb_refl in PE. discriminate. }
        constructor; [exact EE|]. eapply Forall_impl; [|exact B2]. intros q Q. eapply before_trans; [exact EE|exact Q].
    + rewrite app_length. cbn [length]. assert (X := firstn_skipn (pos c e) c). apply (f_equal (@length _)) in X. rewrite app_length in X. lia.
  - injection H as <-. split; [|rewrite app_length; cbn; lia]. apply insert_ss; [rewrite app_nil_r; exact SS| |constructor]. apply nth_error_None in E. apply Forall_forall. intros p Hp. apply In_nth_error in Hp. destruct Hp as [k Hk]. assert (L : k < length c) by (apply nth_error_Some; congruence). apply (LO k p Hk). lia.
Qed.
Lemma tryEdges_new c : forall es l, tryEdges pos test c es = inr l -> length l <= length es /\ forall d, In d l -> exists e, In e es /\ insertEdge pos c e = Some d.
Proof using.
  induction es as [|e es IH]; intros l H; cbn [tryEdges] in H; [injection H as <-; split; [apply le_n|intros d []]|]. destruct (insertEdge pos c e) as [c'|] eqn:E.
  - destruct (test c'); [discriminate|]. destruct (tryEdges pos test c es) as [f|l'] eqn:R; [discriminate|]. injection H as <-. destruct (IH l' eq_refl) as [A B]. split; [cbn [length]; lia|]. intros d [<-|Hd]; [exists e; split; [left; reflexivity|exact E]|]. destruct (B d Hd) as (e0 & X & Y). exists e0. split; [right; exact X|exact Y].
  - destruct (IH l H) as [A B]. split; [cbn [length]; lia|]. intros d Hd. destruct (B d Hd) as (e0 & X & Y). exists e0. split; [right; exact X|exact Y].
Qed.
Lemma search_ends (es U : list (nat * nat)) : incl es U -> forall n q, (forall c, In c q -> StronglySorted pairBefore c /\ incl c U) ->
  list_sum (map (fun c : renaming => (length es + 1) ^ (S (length U) - length c)) q) <= n -> exists r, searchLoop pos test n es q = Some r.
Proof using LB.
  intro IU. induction n as [|n IH]; intros [|c q] HQ L; cbn [searchLoop]; try (eexists; reflexivity).
  - exfalso. cbn [map list_sum fold_right] in L. assert (X := Nat.pow_nonzero (length es + 1) (S (length U) - length c)). unfold list_sum in L. cbn [fold_right] in L. lia.
  - destruct (tryEdges pos test c es) as [f|l] eqn:E; [eexists; reflexivity|]. destruct (HQ c (or_introl eq_refl)) as [SC IC]. destruct (tryEdges_new c es l E) as [LL LN].
    assert (LC : length c <= length U) by (apply NoDup_incl_length; [apply ss_nodup; exact SC|exact IC]).
    apply IH.
    + intros d Hd. apply in_app_or in Hd. destruct Hd as [Hd|Hd]; [apply HQ; right; exact Hd|]. destruct (LN d Hd) as (e & X & Y). split; [apply (insertEdge_ss c e d SC Y)|]. intros p Hp. destruct (insertEdge_in pos c e d p Y Hp) as [->|Z]; auto.
    + rewrite map_app, list_sum_app. cbn [map] in L. change (list_sum (?a :: ?b)) with (a + list_sum b) in L.
      set (w := (length es + 1) ^ (length U - length c)).
      assert (WN : w <> 0) by (apply Nat.pow_nonzero; lia).
      replace ((length es + 1) ^ (S (length U) - length c)) with ((length es + 1) * w) in L by (unfold w; rewrite <- Nat.pow_succ_r'; f_equal; lia).
      assert (NL : list_sum (map (fun c : renaming => (length es + 1) ^ (S (length U) - length c)) l) <= length l * w).
      { assert (K : forall d, In d l -> (length es + 1) ^ (S (length U) - length d) = w). { intros d Hd. destruct (LN d Hd) as (e & X & Y). rewrite (proj2 (insertEdge_ss c e d SC Y)). unfold w. f_equal. }
        clear - K. induction l as [|d l IH]; [cbn; lia|]. cbn [map length]. change (list_sum (?a :: ?b)) with (a + list_sum b). rewrite (K d (or_introl eq_refl)). assert (X := IH (fun d H => K d (or_intror H))). cbn [Nat.mul]. lia. }
      assert (length l * w <= length es * w) by (apply Nat.mul_le_mono_r; exact LL). lia.
Qed.
End SearchEnds.
Theorem C83_search_ends :
  forall (pos : renaming -> nat * nat -> nat) (test : renaming -> bool) (es : list (nat * nat)) (q : list renaming),
    (forall c e k p, StronglySorted pairBefore c -> nth_error c k = Some p -> (k < pos c e <-> pairBefore p e)) ->
    (forall c, In c q -> StronglySorted pairBefore c) ->
    exists n0, forall n, n0 <= n -> exists r, searchLoop pos test n es q = Some r.
Proof.
  intros pos test es q LB HQ. eexists. intros n L. apply (search_ends pos test LB es (es ++ concat q)) with (2 := fun c Hc => conj (HQ c Hc) (fun p Hp => in_or_app _ _ p (or_intror (proj2 (in_concat q p) (ex_intro _ c (conj Hc Hp)))))); [intros p Hp; apply in_or_app; left; exact Hp|exact L].
Qed.
Print Assumptions C83_search_ends.
(** the generation of candidates ends , and the empty renaming is tried first *)
Theorem C83_candidates_made :
  forall (x y : elem) (lc rc : list nat), exists n0, forall n, n0 <= n -> exists cs, genLoop n (fst (toGraph (ec x) (ec y))) (snd (toGraph (ec x) (ec y))) lc rc [[]] = Some cs.
Proof. intros x y lc rc. exists (length lc + length rc). intros n L. apply genLoop_ends; [intro i; apply graph_sorted|intro i; apply graph_sorted|exact L]. Qed.
Print Assumptions C83_candidates_made.
(** the values of C52_nonvacuous *)
Example C83_satisfiable :
  exists ren, findFull (fun c _ => length c) 20 rx rlr ry rrr rsuf = Some (Some ren) /\ ren <> [] /\
    (forall c e, (forall p, In p c -> pairBefore p e) -> length c <= (fun (c : renaming) (_ : nat * nat) => length c) c e).
Proof.
  destruct (findFull (fun c _ => length c) 20 rx rlr ry rrr rsuf) as [[ren|]|] eqn:E; vm_compute in E; try discriminate. exists ren. split; [reflexivity|]. split; [injection E as <-; discriminate|intros; apply le_n].
Qed.
(** what is asked of std::lower_bound can be had, also in C83_nothing_found *)
Fixpoint posLB (c : renaming) (e : nat * nat) : nat :=
  match c with [] => 0 | p :: r => if (fst p <? fst e) || ((fst p =? fst e) && (snd p <? snd e)) then S (posLB r e) else 0 end.
Example C83_lower_bound_exists :
  (forall c e k p, StronglySorted pairBefore c -> nth_error c k = Some p -> (k < posLB c e <-> pairBefore p e)) /\
  (forall c e, (forall p, In p c -> pairBefore p e) -> length c <= posLB c e).
Proof.
  assert (B : forall p e, (fst p <? fst e) || ((fst p =? fst e) && (snd p <? snd e)) = true <-> pairBefore p e).
  { intros p e. unfold pairBefore. rewrite orb_true_iff, andb_true_iff, !Nat.ltb_lt, Nat.eqb_eq. tauto. }
  split.
  - intros c e k p H. revert k p. induction H as [|q c S1 IH S2]; intros [|k] p N; cbn [nth_error] in N; try discriminate; cbn [posLB].
    + injection N as <-. specialize (B q e). destruct (_ || _); [split; [intros _; apply B; reflexivity|lia]|]. split; [lia|]. intro X. apply B in X. discriminate.
    + assert (BQ := B q e). destruct (_ || _); [rewrite <- (IH k p N); lia|]. split; [lia|]. intro X. apply nth_error_In in N. rewrite Forall_forall in S2. assert (Y := before_trans _ _ _ (S2 p N) X). apply BQ in Y. discriminate.
  - induction c as [|q c IH]; intros e H; cbn [length posLB]; [lia|]. rewrite (proj2 (B q e) (H q (or_introl eq_refl))). assert (X := IH e (fun p Hp => H p (or_intror Hp))). lia.
Qed.
