(** Theorems for C52 (rows declared equivalent are), C53 (the renaming found),
    C54 (graph and candidates) and C55 (the resets built from a renaming). *)
From Coq Require Import QArith ZArith Bool List Arith Lia Lqa.
From Verif Require Import BoundsModel BoundsProofs ConstraintModel ZoneModel ZoneSpec ZoneProofs AutomatonModel AutomatonSpec
  TimedWordModel TimedWordSpec TimedConditionModel TimedConditionSpec TimedConditionProofs TimedConditionProofs3 TimedConditionProofs4 ElementaryModel
  ElementarySpec ElementaryProofs LooseProofs RegionalModel RegionalSpec OracleModel SymbolicModel SymbolicSpec CexModel CexSpec CexProofs RenamingModel RenamingSpec
  RenamingProofs RenamingProofs2 RenamingProofs3 RenamingProofs4 RenamingProofs5 RenamingProofs6 RenamingProofs7 PropertiesAutomata PropertiesOracles PropertiesSymbolic OracleInstance QueryableProofs SymbolicProofs2 OracleSpec PropertiesCex.
Import ListNotations.
Open Scope Q_scope.

(** *** C52 *)
(** If the rows of [x] and [y] are what the symbolic oracle answers and
    equivalence() declares them equivalent for a renaming, then related words of
    [x] and [y] exist, and no suffix in the languages of the columns separates
    related words in the target. *)
Theorem C52_equivalence_sound :
  forall (f : tword -> bool) (x y : elem) (sufs : list elem) (lr rr : list (list tcond)) (ren : renaming),
    wfElem x -> wfElem y -> (forall z, In z sufs -> wfElem z) -> renIn ren x y ->
    exactRow f x sufs lr -> exactRow f y sufs rr ->
    equivE x lr y rr sufs ren = true -> indistinguishable f x y sufs ren.
Proof. intros. eapply equivB_sound; eauto using wfElem_loose. Qed.
Print Assumptions C52_equivalence_sound.
(** the overload used by the table, with the concatenations it stores *)
Theorem C52_equivalence_stored_sound :
  forall (f : tword -> bool) (x y : elem) (sufs : list elem) (lr rr : list (list tcond)) (lc rc : list tcond) (ren : renaming),
    wfElem x -> wfElem y -> (forall z, In z sufs -> wfElem z) -> renIn ren x y ->
    exactRow f x sufs lr -> exactRow f y sufs rr ->
    lc = map (fun s => ec (elConcat x s)) sufs -> rc = map (fun s => ec (elConcat y s)) sufs ->
    equivB (ec x) lr lc (ec y) rr rc sufs ren = true -> indistinguishable f x y sufs ren.
Proof. intros f x y sufs lr rr lc rc ren Wx Wy W R RX RY -> ->. apply equivB_sound; auto using wfElem_loose. Qed.
Print Assumptions C52_equivalence_stored_sound.
(** a suffix that separates related words is noticed *)
Theorem C52_distinguishing_suffix_detected :
  forall (f : tword -> bool) (x y : elem) (sufs : list elem) (lr rr : list (list tcond)) (ren : renaming) (z : elem) (p p' s : tword),
    wfElem x -> wfElem y -> (forall z, In z sufs -> wfElem z) -> renIn ren x y ->
    exactRow f x sufs lr -> exactRow f y sufs rr ->
    In z sufs -> inElem z s -> inElem x p -> inElem y p' -> related ren p p' -> f (concatTW p s) <> f (concatTW p' s) ->
    equivE x lr y rr sufs ren = false.
Proof.
  intros f x y sufs lr rr ren z p p' s Wx Wy W R RX RY Hz Is Ip Ip' Rel D. destruct (equivE x lr y rr sufs ren) eqn:E; [|reflexivity].
  exfalso. apply D. destruct (C52_equivalence_sound f x y sufs lr rr ren Wx Wy W R RX RY E) as [_ H]. exact (H z p p' s Hz Ip Ip' Rel Is).
Qed.
Print Assumptions C52_distinguishing_suffix_detected.

(** *** C53 *)
Theorem C53_renaming_found_sound :
  forall (f : tword -> bool) (x y : elem) (sufs : list elem) (lr rr : list (list tcond)) (ren : renaming),
    properEL x -> properEL y -> (forall z, In z sufs -> wfElem z) -> exactRow f x sufs lr -> exactRow f y sufs rr ->
    findDetE x lr y rr sufs = Some ren ->
    renIn ren x y /\ NoDup (map snd ren) /\ hasImpreciseClocks ren (ec y) = false /\ indistinguishable f x y sufs ren.
Proof.
  intros f x y sufs lr rr ren [Wx [_ Nx]] [Wy [_ Ny]] W RX RY H. unfold findDetE in H. destruct (negb (sameEmptiness lr rr)); [discriminate|].
  destruct (findDet_sound f x y sufs lr rr ren Wx Wy (fun z Hz => wfElem_loose z (W z Hz)) Nx Ny RX RY H) as [A [B C]].
  split; [auto|]. split; [apply unique_nodup; auto|]. split; [exact (findDet_precise x y sufs _ _ _ _ ren Wx Wy Nx Ny H)|auto].
Qed.
Print Assumptions C53_renaming_found_sound.
Theorem C53_renaming_found_stored_sound :
  forall (f : tword -> bool) (x y : elem) (sufs : list elem) (lr rr : list (list tcond)) (lc rc : list tcond) (ren : renaming),
    properEL x -> properEL y -> (forall z, In z sufs -> wfElem z) -> exactRow f x sufs lr -> exactRow f y sufs rr ->
    lc = map (fun s => ec (elConcat x s)) sufs -> rc = map (fun s => ec (elConcat y s)) sufs ->
    findDet x lr lc y rr rc sufs = Some ren ->
    renIn ren x y /\ NoDup (map snd ren) /\ hasImpreciseClocks ren (ec y) = false /\ indistinguishable f x y sufs ren.
Proof.
  intros f x y sufs lr rr lc rc ren [Wx [_ Nx]] [Wy [_ Ny]] W RX RY -> -> H.
  destruct (findDet_sound f x y sufs lr rr ren Wx Wy (fun z Hz => wfElem_loose z (W z Hz)) Nx Ny RX RY H) as [A [B C]].
  split; [auto|]. split; [apply unique_nodup; auto|]. split; [exact (findDet_precise x y sufs _ _ _ _ ren Wx Wy Nx Ny H)|auto].
Qed.
Print Assumptions C53_renaming_found_stored_sound.
(** Between regions one related pair is enough: every word of [x] is related to
    a word of [y]; so the morphism of the hypothesis built from the renaming can
    be applied to all of its domain. *)
Theorem C53_renaming_total_on_regions :
  forall (x y : elem) (ren : renaming), wfElem x -> wfElem y -> isSimple (ec x) = true -> intCond (ec x) -> intCond (ec y) -> renIn ren x y ->
    (exists p p', inElem x p /\ inElem y p' /\ related ren p p') ->
    forall p, inElem x p -> exists p', inElem y p' /\ related ren p p'.
Proof. exact region_extension. Qed.
Print Assumptions C53_renaming_total_on_regions.
Theorem C53_morphism_of_renaming_found :
  forall (f : tword -> bool) (x y : elem) (sufs : list elem) (lr rr : list (list tcond)) (ren : renaming),
    properEL x -> properEL y -> (forall z, In z sufs -> wfElem z) -> exactRow f x sufs lr -> exactRow f y sufs rr ->
    isSimple (ec x) = true -> isSimple (ec y) = true -> intCond (ec x) -> intCond (ec y) ->
    findDetE x lr y rr sufs = Some ren -> properMorph (mkMorph x y ren).
Proof.
  intros f x y sufs lr rr ren Px Py W RX RY Sx Sy Ix Iy H. destruct (C53_renaming_found_sound f x y sufs lr rr ren Px Py W RX RY H) as [A [_ [_ [B _]]]].
  split; [auto|]. split; [auto|]. split; [exact Sy|]. split; [exact A|]. apply region_extension; auto; [apply Px|apply Py].
Qed.
Print Assumptions C53_morphism_of_renaming_found.

(** *** C54 *)
(** toGraph: an edge exactly between events whose times since have the same
    upper bound; both adjacency lists agree *)
Theorem C54_graph_exact :
  forall (x y : elem) (i j : nat), properEL x -> properEL y ->
    let N := tcSize (ec x) in let M := tcSize (ec y) in
    let same := (i < N)%nat /\ (j < M)%nat /\ beqb (getUpperBound (ec x) i (N - 1)) (getUpperBound (ec y) j (M - 1)) = true in
    (In j (nth i (fst (toGraph (ec x) (ec y))) []) <-> same) /\ (In i (nth j (snd (toGraph (ec x) (ec y))) []) <-> same).
Proof.
  intros x y i j [Wx [_ Nx]] [Wy [_ Ny]]. cbv zeta. destruct (toGraph_exact (ec x) (ec y) (nonneg_desc x Wx Nx) (nonneg_desc y Wy Ny) i j) as [A B].
  unfold edge in *. unfold beqb. rewrite andb_true_iff. exact (conj A B).
Qed.
Print Assumptions C54_graph_exact.
Lemma ordered_nth c : ordered c -> forall a b, (a < b)%nat -> (b < length c)%nat ->
  (fst (nth a c (0, 0)%nat) <= fst (nth b c (0, 0)%nat))%nat /\ (snd (nth a c (0, 0)%nat) < snd (nth b c (0, 0)%nat))%nat.
Proof.
  intro O. induction O as [|p|c p q O IH F F2]; intros a b Hab Hb; [cbn in Hb; lia|cbn in Hb; lia|].
  rewrite app_assoc in *. set (d := c ++ [p]) in *. rewrite app_length in Hb. cbn [length] in Hb.
  assert (Ld : length d = S (length c)) by (unfold d; rewrite app_length; cbn; lia).
  assert (Last : nth (length c) d (0, 0)%nat = p) by (unfold d; apply nth_middle).
  destruct (Nat.eq_dec b (length d)) as [->|Ne].
  - rewrite nth_middle. rewrite app_nth1 by lia. destruct (Nat.eq_dec a (length c)) as [->|Na]; [rewrite Last; auto|].
    destruct (IH a (length c) ltac:(lia) ltac:(lia)) as [A B]. rewrite Last in A, B. lia.
  - rewrite !app_nth1 by lia. apply IH; lia.
Qed.
(** the candidates: each pair relates an event of [y] whose time since is not
    fixed with one of [x] of the same upper bound; the order of the events is
    respected, so each event of [y] occurs at most once; no clock of the target
    would be imprecise *)
Theorem C54_candidates :
  forall (x y : elem) (lcon rcon : list nat) (c : renaming), properEL x -> properEL y ->
    In c (genCandidates (ec x) (ec y) lcon rcon (toGraph (ec x) (ec y))) ->
    (forall i j, In (i, j) c -> (i <= length (ew x))%nat /\ (j <= length (ew y))%nat /\
       beqb (getUpperBound (ec x) i (tcSize (ec x) - 1)) (getUpperBound (ec y) j (tcSize (ec y) - 1)) = true /\ isPointAt (ec y) j = false) /\
    (forall a b, (a < b)%nat -> (b < length c)%nat ->
       (fst (nth a c (0, 0)) <= fst (nth b c (0, 0)))%nat /\ (snd (nth a c (0, 0)) < snd (nth b c (0, 0)))%nat) /\
    hasImpreciseClocks c (ec y) = false.
Proof.
  intros x y lcon rcon c [Wx [_ Nx]] [Wy [_ Ny]] H.
  apply genCandidates_ok in H; [|apply nonneg_desc; auto|apply nonneg_desc; auto|apply Wy|apply nonempty_nonneg2, Wy].
  destruct H as [A [B C]]. split; [|split; [apply ordered_nth; auto|auto]].
  intros i j Hij. destruct (A (i, j) Hij) as [A1 [A2 [A3 A4]]]. cbn [fst snd] in *. destruct Wx as [_ Sx], Wy as [_ Sy]. rewrite Sx in A1. rewrite Sy in A2.
  split; [lia|]. split; [lia|]. split; [unfold beqb; apply andb_true_iff; exact A3|].
  unfold isPointAt. change (getUpperBound (ec y) j (tcSize (ec y) - 1)) with (ubN (ec y) j). unfold isPoint.
  destruct (ubN (ec y) j) as [u us|]; [|auto]. destruct (getLowerBound _ _ _) as [l ls|]; [|auto]. cbn [bSnd] in A4. subst us. rewrite andb_false_r. reflexivity.
Qed.
Print Assumptions C54_candidates.
(** ... and exactly these: the candidates are the empty renaming and the full
    ones, as far as they leave no imprecise clock *)
Theorem C54_candidates_exact :
  forall (x y : elem) (lcon rcon : list nat) (c : renaming), properEL x -> properEL y ->
    (In c (genCandidates (ec x) (ec y) lcon rcon (toGraph (ec x) (ec y))) <-> (c = [] \/ fullCandidate x y lcon rcon c) /\ hasImpreciseClocks c (ec y) = false).
Proof.
  intros x y lcon rcon c [Wx [_ Nx]] [Wy [_ Ny]]. assert (Dx := nonneg_desc x Wx Nx). assert (Dy := nonneg_desc y Wy Ny). assert (Cy : closed (ec y)) by apply Wy. assert (N2 : nonneg2 (ec y)) by (apply nonempty_nonneg2, Wy).
  unfold genCandidates. rewrite sortCands_iff, filter_In, in_app_iff, negb_true_iff. cbn [In].
  rewrite (cands_exact x y lcon rcon Dx Dy Cy N2 (tcSize (ec y)) (le_n _) c), upTo_all. intuition.
Qed.
Print Assumptions C54_candidates_exact.
(** candidate.back() (equivalence.hh:232) is only applied to non-empty
    candidates *)
Theorem C54_back_is_defined :
  forall (x y : elem) (lcon rcon : list nat) (j : nat) (c : renaming), properEL x -> properEL y ->
    let g := toGraph (ec x) (ec y) in
    (0 < j)%nat -> (j < tcSize (ec y))%nat -> beqb (getUpperBound (ec y) (j - 1) (j - 1)) bz = true ->
    nth j (snd g) [] <> [] -> bSnd (getUpperBound (ec y) j (tcSize (ec y) - 1)) = false ->
    In c (fold_left (candStep (ec x) (ec y) lcon rcon (snd g)) (seq 0 j) [[]]) -> c <> [].
Proof.
  intros x y lcon rcon j c [Wx [_ Nx]] [Wy [_ Ny]] g H0 Hj Z E P Hc.
  assert (Dx := nonneg_desc x Wx Nx). assert (Dy := nonneg_desc y Wy Ny). assert (Cy : closed (ec y)) by apply Wy. assert (N2 : nonneg2 (ec y)) by (apply nonempty_nonneg2, Wy).
  assert (G : forall n, (n <= tcSize (ec y))%nat -> forall c, In c (fold_left (candStep (ec x) (ec y) lcon rcon (snd g)) (seq 0 n) [[]]) -> candOk (ec x) (ec y) n c).
  { induction n as [|n IH]; intros Hn c0 Hc0; [destruct Hc0 as [<-|[]]; constructor; [intros p []|constructor|lia]|]. rewrite seq_S, fold_left_app in Hc0. cbn [fold_left Nat.add] in Hc0.
    refine (candStep_ok (ec x) (ec y) lcon rcon Dx Dy Cy N2 n _ _ _ c0 Hc0); [lia|]. apply IH. lia. }
  destruct (G j ltac:(lia) c Hc) as [_ _ L]. assert (Sm := zero_same (ec y) Dy Cy N2 j H0 Hj Z).
  destruct (L H0 (takes_same (ec x) (ec y) Dx Dy j H0 Hj Sm (conj E P))) as [i [c' ->]]. destruct c'; discriminate.
Qed.
Print Assumptions C54_back_is_defined.

(** *** C55 *)
(** toValuation picks a member of a region *)
Theorem C55_valuation_in_region :
  forall (y : elem), wfElem y -> isSimple (ec y) = true ->
    exists p, inElem y p /\ length (toValuation (ec y)) = length (td p) /\ forall k, (k < length (td p))%nat -> nth k (toValuation (ec y)) 0 == since (td p) k.
Proof.
  intros y Wy Si. assert (Oy : okCond (ec y)) by apply Wy. destruct (toValuation_in (ec y) Oy (simple_bounded _ Oy Si)) as [L V].
  set (p := mkTW (ew y) (durs (tcSize (ec y)) (fun i => nth i (toValuation (ec y)) 0))).
  assert (Ip : inElem y p) by (split; [reflexivity|apply inZone_durs; [apply Oy|auto]]). assert (Lp : length (td p) = tcSize (ec y)) by (destruct Ip as [_ [X _]]; exact X).
  exists p. split; [auto|]. split; [congruence|]. intros k Hk. symmetry. rewrite since_acc by auto. unfold p. cbn [td]. apply durs_acc. lia.
Qed.
Print Assumptions C55_valuation_in_region.
(** Taking a transition that leads from [x] to [y] with the reset built from a
    renaming without imprecise clocks: after reading a word of [x] that is
    related to some word of [y], the clocks are those of a word of [y] related
    to it. *)
Theorem C55_reset_reaches_related_word :
  forall (x y : elem) (ren : renaming) (p p' : tword),
    wfElem x -> wfElem y -> isSimple (ec y) = true -> intCond (ec y) -> renIn ren x y -> NoDup (map snd ren) ->
    hasImpreciseClocks ren (ec y) = false -> inElem x p -> inElem y p' -> related ren p p' ->
    exists p'', inElem y p'' /\ related ren p p'' /\
      forall v, isReset (toReset ren (ec y)) (since (td p)) v -> forall k, (k <= length (ew y))%nat -> v k == since (td p'') k.
Proof.
  intros x y ren p p' Wx Wy Si IC RI ND HI Ip Ip' Rel.
  assert (RU : isRightUnique ren = true).
  { unfold isRightUnique, rightVariables. apply Nat.eqb_eq. rewrite <- (map_length snd ren). clear - ND.
    assert (G : NoDup (sortUniq (map snd ren))).
    { assert (A := sortUniq_asc (map snd ren)). clear - A. induction A as [|a l H A IH]; constructor; auto. intro X. specialize (H a X). lia. }
    assert (L1 := NoDup_incl_length G (fun z Hz => proj1 (sortUniq_in _ z) Hz)). assert (L2 := NoDup_incl_length ND (fun z Hz => proj2 (sortUniq_in _ z) Hz)). lia. }
  destruct (toReset_sound x y ren p p' Wx Wy Si IC RI RU HI Ip Ip' Rel) as [p'' [A [B C]]]. exists p''. split; [auto|]. split; [auto|].
  intros v Hv k Hk. rewrite <- (C k Hk). apply AutomatonProofs.isReset_applyReset in Hv. apply Hv.
Qed.
Print Assumptions C55_reset_reaches_related_word.
(** in particular for the renaming found for two rows, whatever word of [x] has
    been read *)
Theorem C55_reset_of_renaming_found :
  forall (f : tword -> bool) (x y : elem) (sufs : list elem) (lr rr : list (list tcond)) (ren : renaming),
    properEL x -> properEL y -> (forall z, In z sufs -> wfElem z) -> exactRow f x sufs lr -> exactRow f y sufs rr ->
    isSimple (ec x) = true -> isSimple (ec y) = true -> intCond (ec x) -> intCond (ec y) ->
    findDetE x lr y rr sufs = Some ren ->
    forall p, inElem x p -> exists p', inElem y p' /\ related ren p p' /\
      (forall v, isReset (toReset ren (ec y)) (since (td p)) v -> forall k, (k <= length (ew y))%nat -> v k == since (td p') k) /\
      (forall z s, In z sufs -> inElem z s -> f (concatTW p s) = f (concatTW p' s)).
Proof.
  intros f x y sufs lr rr ren Px Py W RX RY Sx Sy Ix Iy H p Ip. destruct (C53_renaming_found_sound f x y sufs lr rr ren Px Py W RX RY H) as [A [B [C [D E]]]].
  destruct (region_extension x y ren (proj1 Px) (proj1 Py) Sx Ix Iy A D p Ip) as [p0 [I0 R0]].
  destruct (C55_reset_reaches_related_word x y ren p p0 (proj1 Px) (proj1 Py) Sy Iy A B C Ip I0 R0) as [p' [I' [R' V]]].
  exists p'. split; [auto|]. split; [auto|]. split; [auto|]. intros z s Hz Is. exact (E z p p' s Hz Ip I' R' Is).
Qed.
Print Assumptions C55_reset_of_renaming_found.

(** ** a concrete case *)
(** letter 1 resets the only clock; letter 2 is accepted until it reaches 1 *)
Definition exR : ta := mkTA
  [ (1%nat, mkS false [ (1%nat, [ mkT 1%nat [(0%nat, RConst 0)] [] ]); (2%nat, [ mkT 2%nat [] [mkC 0%nat Ole 1%Z] ]) ]);
    (2%nat, mkS true []) ] [1%nat] [1%Z].
Definition rx : elem := mkEL [] (tcOf (accum [1 # 2])).
Definition ry : elem := mkEL [1%nat] (tcOf (accum [0; 1 # 2])).
Definition rsuf : list elem := [mkEL [] (tcOf (accum [0])); mkEL [2%nat] (tcOf (accum [1 # 2; 0]))].
Definition rreqs : list symReq := map (fun s => AskSymbolic (elConcat rx s)) rsuf ++ map (fun s => AskSymbolic (elConcat ry s)) rsuf.
Definition rrows : list (list (list tcond)) := Eval vm_compute in
  match symSession (cacheAnswer (sulAnswer 0)) (newSym (newCache (mkRunner exR))) rreqs with
  | Some (_, [GotConditions a; GotConditions b; GotConditions c; GotConditions d]) => [[a; b]; [c; d]]
  | _ => []
  end.
Definition rlr : list (list tcond) := nth 0 rrows [].
Definition rrr : list (list tcond) := nth 1 rrows [].
Lemma exR_plain : plainDTA exR /\ intResets exR.
Proof.
  assert (SM : smallTA exR) by (apply smallb_ok; reflexivity). split; [|apply intResetsb_ok; reflexivity].
  split; [apply wfb_ok; reflexivity|]. split; [apply noSilentb_ok; reflexivity|]. split; [apply nnResetsb_ok; reflexivity|].
  split; [apply C08_deterministic_exact; [exact SM|reflexivity]|]. exists 1%nat. reflexivity.
Qed.
Lemma region_of ls d : length d = S (length ls) -> Forall (fun q => 0 <= q) d -> ~ In UNOBSERVABLE ls ->
  properEL (mkEL ls (tcOf (accum d))) /\ isSimple (tcOf (accum d)) = true /\ intCond (tcOf (accum d)) /\ queryable (mkEL ls (tcOf (accum d))).
Proof.
  intros L F V. destruct (region_properEL (mkTW ls d)) as [A [B _]]; [split; [split; auto|auto]|].
  assert (N : d <> []) by (destruct d; [discriminate|congruence]).
  split; [exact A|]. split; [exact B|]. split; [apply tcOf_int; auto|]. split; [apply A|]. split; [apply tcOf_int; auto|]. split; [|apply A].
  apply simple_allBounded; [apply tcOf_ok; auto|exact B].
Qed.
Lemma proper_concat_good x y : properEL x -> properEL y -> forall w, inElem (elConcat x y) w -> OracleInstance.goodTW w.
Proof.
  intros [Wx [_ Nx]] [Wy [_ Ny]] w H. split; [|unfold OracleSpec.nonnegTW].
  - destruct H as [E [L _]]. unfold wfTW. assert (W := wfElem_concat x y Wx Wy). destruct W as [_ W]. rewrite W, <- E in L. exact L.
  - intros q Hq. apply elConcat_exact in H; auto. destruct H as [w1 [w2 [H1 [H2 [Et Ed]]]]]. specialize (Nx _ H1). specialize (Ny _ H2).
    assert (G : Forall (fun q => 0 <= q) (td (concatTW w1 w2))).
    { unfold concatTW. cbn [td]. apply Forall_app. split; [|destruct (td w2); [constructor|inversion Ny; auto]].
      assert (H0 : 0 <= hd 0 (td w2)) by (destruct (td w2); [cbn; lra|inversion Ny; auto]). revert H0. generalize (hd 0 (td w2)). clear - Nx. intros q0 H0.
      destruct (td w1) as [|d1 r1] eqn:E1; [constructor|]. destruct (@exists_last _ (d1 :: r1) ltac:(discriminate)) as [r [z Er]]. rewrite Er in *.
      rewrite addBack_snoc. apply Forall_app in Nx. destruct Nx as [N1 N2]. inversion N2; subst. apply Forall_app. split; [auto|constructor; [lra|constructor]]. }
    clear - Ed Hq G. induction Ed as [|a b la lb E Ed IH]; [destruct Hq|]. inversion G; subst. destruct Hq as [<-|Hq]; [lra|auto].
Qed.
Example C52_nonvacuous :
  properEL rx /\ properEL ry /\ (forall z, In z rsuf -> wfElem z) /\
  isSimple (ec rx) = true /\ isSimple (ec ry) = true /\ intCond (ec rx) /\ intCond (ec ry) /\
  exactRow (answerF 0 exR) rx rsuf rlr /\ exactRow (answerF 0 exR) ry rsuf rrr /\
  (forall w, OracleInstance.goodTW w -> (answerF 0 exR w = true <-> acceptsTW exR w)) /\
  renIn [(0, 1)%nat] rx ry /\ equivE rx rlr ry rrr rsuf [(0, 1)%nat] = true /\ equivE rx rlr ry rrr rsuf [] = false /\
  findDetE rx rlr ry rrr rsuf = Some [(0, 0); (0, 1)]%nat.
Proof.
  destruct exR_plain as [P IR]. destruct (plain_oracle 0 exR P IR) as [Hf [Ho [RI I0]]].
  assert (Px : properEL rx /\ isSimple (ec rx) = true /\ intCond (ec rx) /\ queryable rx) by (apply region_of; [reflexivity|repeat constructor; lra|intros []]).
  assert (Py : properEL ry /\ isSimple (ec ry) = true /\ intCond (ec ry) /\ queryable ry) by (apply region_of; [reflexivity|repeat constructor; lra|intros [E|[]]; discriminate]).
  assert (Ps : forall z, In z rsuf -> properEL z /\ queryable z).
  { intros z [<-|[<-|[]]].
    - destruct (region_of [] [0]) as [A [_ [_ B]]]; [reflexivity|constructor; [lra|constructor]|intros []|]. split; [exact A|exact B].
    - destruct (region_of [2%nat] [1 # 2; 0]) as [A [_ [_ B]]]; [reflexivity|constructor; [lra|constructor; [lra|constructor]]|intros [E|[]]; discriminate|]. split; [exact A|exact B]. }
  destruct Px as [Px [Sx [Ix Qx]]]. destruct Py as [Py [Sy [Iy Qy]]].
  split; [exact Px|]. split; [exact Py|]. split; [intros z Hz; apply (Ps z Hz)|]. do 4 (split; [assumption|]).
  assert (R : exactRow (answerF 0 exR) rx rsuf rlr /\ exactRow (answerF 0 exR) ry rsuf rrr).
  { destruct (C33_history _ (cacheAnswer (sulAnswer 0)) (answerF 0 exR) (cacheInv 0 exR) OracleInstance.goodTW Ho RI (newCache (mkRunner exR)) rreqs I0) as [y [bs [E F]]].
    - intros x Hx. unfold rreqs in Hx. apply in_app_or in Hx. destruct Hx as [Hx|Hx]; apply in_map_iff in Hx; destruct Hx as [s [Es Hs]]; injection Es as <-; destruct (Ps s Hs) as [Ps1 Ps2];
      (split; [apply queryable_concat; auto|apply proper_concat_good; auto]).
    - intros w Hw. unfold rreqs in Hw. apply in_app_or in Hw. destruct Hw as [Hx|Hx]; apply in_map_iff in Hx; destruct Hx as [s [Es Hs]]; discriminate.
    - assert (E2 : option_map snd (symSession (cacheAnswer (sulAnswer 0)) (newSym (newCache (mkRunner exR))) rreqs) =
        Some [GotConditions (nth 0 rlr []); GotConditions (nth 1 rlr []); GotConditions (nth 0 rrr []); GotConditions (nth 1 rrr [])]) by (vm_compute; reflexivity).
      rewrite E in E2. cbn [option_map snd] in E2. injection E2 as ->. clear E. unfold rreqs, rsuf in F. cbn [map app] in F.
      assert (Ll : rlr = [nth 0 rlr []; nth 1 rlr []]) by reflexivity. assert (Lr : rrr = [nth 0 rrr []; nth 1 rrr []]) by reflexivity. rewrite Ll, Lr.
      remember (nth 0 rlr []) as a. remember (nth 1 rlr []) as b. remember (nth 0 rrr []) as c. remember (nth 1 rrr []) as d.
      inversion F as [|? ? ? ? F1 G1]; subst. inversion G1 as [|? ? ? ? F2 G2]; subst. inversion G2 as [|? ? ? ? F3 G3]; subst. inversion G3 as [|? ? ? ? F4 G4]; subst.
      assert (C : forall x cs, (forall w, (exists c, In c cs /\ inElem (mkEL (ew x) c) w) <-> inElem x w /\ answerF 0 exR w = true) /\
        (forall c, In c cs -> queryable (mkEL (ew x) c)) /\
        (forall i j d, (i < length cs)%nat -> (j < length cs)%nat -> inCond (nth i cs []) d -> inCond (nth j cs []) d -> i = j) -> exactCell (answerF 0 exR) x cs).
      { intros x cs [C1 [C2 C3]]. split; [exact C1|]. split; [intros c Hc; apply (C2 c Hc)|exact C3]. }
      unfold exactRow, rsuf. split; constructor; try (apply C; assumption); constructor; try (apply C; assumption); constructor. }
  split; [apply R|]. split; [apply R|]. split; [exact Hf|]. split; [intros i j [E|[]]; injection E as <- <-; cbn; lia|].
  split; [vm_compute; reflexivity|]. split; vm_compute; reflexivity.
Qed.
Definition rz : elem := mkEL [1%nat] (tcOf (accum [1 # 4; 1 # 2])).
Example C54_nonvacuous :
  toGraph (ec rx) (ec ry) = ([[0; 1]], [[0]; [0]])%nat /\ toReset [(0, 0); (0, 1)]%nat (ec ry) = [(0, RVar 0); (1, RVar 0)]%nat /\
  hasImpreciseClocks [(0, 0); (0, 1)]%nat (ec ry) = false /\ hasImpreciseClocks [(0, 0)]%nat (ec rz) = true /\
  In [(0, 0); (0, 1)]%nat (genCandidates (ec rx) (ec ry) [0%nat] [0%nat] (toGraph (ec rx) (ec ry))).
Proof. do 4 (split; [vm_compute; reflexivity|]). vm_compute. auto. Qed.
