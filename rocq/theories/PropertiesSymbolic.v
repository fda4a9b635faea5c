(** Theorems for C33 (symbolic membership queries) and C45 (acceptance does
    not distinguish words of one region). *)
From Coq Require Import QArith ZArith Bool List Arith Lia Lqa.
From Verif Require Import BoundsModel BoundsProofs ConstraintModel GuardSpec ZoneModel ZoneSpec ZoneProofs AutomatonModel AutomatonSpec TimedWordModel TimedWordSpec TimedWordProofs
  TimedConditionModel TimedConditionSpec TimedConditionProofs TimedConditionProofs2 TimedConditionProofs3 TimedConditionProofs4 TimedConditionProofs5
  ElementaryModel ElementarySpec ElementaryProofs ElementaryProofs2 PropertiesConditions OracleModel OracleSpec OracleProofs OracleProofs2 PropertiesAutomata PropertiesOracles
  SymbolicModel SymbolicSpec SymbolicProofs SymbolicProofs2 RegionInvariance.
Import ListNotations.
Open Scope Q_scope.

(** *** C45 *)
Theorem C45_acceptance_region_invariant :
  forall (A : ta) (w w' : tword), noSilent A -> intResets A -> wfTW w -> wfTW w' -> nonnegTW w ->
    tw w = tw w' -> sameRegion (td w) (td w') -> (acceptsTW A w <-> acceptsTW A w').
Proof. intros. apply accepts_region; auto. Qed.
Print Assumptions C45_acceptance_region_invariant.

(** *** C33 *)
(** any interleaving of symbolic and plain queries to a fresh oracle over any
    membership oracle [o] that answers the target [f]: every symbolic query
    returns conditions that hold exactly of the members of the queried
    language in the target; the conditions are again usable and pairwise
    disjoint *)
Theorem C33_history :
  forall (St : Type) (o : mOracle St) (f : tword -> bool) (Inv : St -> Prop) (Good : tword -> Prop),
    (forall s x, Inv s -> Good x -> exists s', o s x = Some (s', f x) /\ Inv s') -> regionInvariant Good f ->
  forall (s0 : St) (rs : list symReq), Inv s0 ->
    (forall x, In (AskSymbolic x) rs -> queryable x /\ forall w, inElem x w -> Good w) -> (forall w, In (AskWord w) rs -> Good w) ->
  exists y bs, symSession o (newSym s0) rs = Some (y, bs) /\
    Forall2 (fun r a => match r, a with
      | AskSymbolic x, GotConditions cs =>
          (forall w, (exists c, In c cs /\ inElem (mkEL (ew x) c) w) <-> inElem x w /\ f w = true) /\
          (forall c, In c cs -> queryable (mkEL (ew x) c)) /\
          (forall i j d, (i < length cs)%nat -> (j < length cs)%nat -> inCond (nth i cs []) d -> inCond (nth j cs []) d -> i = j)
      | AskWord w, GotBool b => b = f w
      | _, _ => False
      end) rs bs.
Proof.
  intros St o f Inv Good O RI s0 rs H0 G1 G2.
  destruct (symSession_spec o f Inv Good O RI rs (newSym s0)) as [y [bs [E F]]].
  - split; [exact H0|intros ? ? []].
  - apply Forall_forall. intros [x|w] Hr; cbn [goodReq]; auto.
  - exists y, bs. split; [exact E|]. clear E. induction F as [|r a rs bs R F IH]; constructor.
    + destruct r, a; cbn [goodResp] in R; try contradiction; [|exact R]. destruct R as [R1 [R2 R3]]. split; [exact R1|]. split; [exact R2|].
      intros i j d Hi Hj. apply (cnt_unique d _ (R3 d)); auto.
    + apply IH; intros; [apply G1|apply G2]; right; auto.
Qed.
Print Assumptions C33_history.

(** the oracle of the learner: symbolic queries on top of the cached runner of
    a deterministic automaton with integer constants.  The answers are the
    members of the queried language that the automaton accepts. *)
Theorem C33_automaton :
  forall (fuel : nat) (A : ta) (rs : list symReq), plainDTA A -> intResets A ->
    (forall x, In (AskSymbolic x) rs -> queryable x /\ forall w, inElem x w -> nonnegTW w) ->
    (forall w, In (AskWord w) rs -> wfTW w /\ nonnegTW w) ->
  exists y bs, symSession (cacheAnswer (sulAnswer fuel)) (newSym (newCache (mkRunner A))) rs = Some (y, bs) /\
    Forall2 (fun r a => match r, a with
      | AskSymbolic x, GotConditions cs =>
          (forall w, (exists c, In c cs /\ inElem (mkEL (ew x) c) w) <-> inElem x w /\ acceptsTW A w) /\
          (forall i j d, (i < length cs)%nat -> (j < length cs)%nat -> inCond (nth i cs []) d -> inCond (nth j cs []) d -> i = j)
      | AskWord w, GotBool b => b = true <-> acceptsTW A w
      | _, _ => False
      end) rs bs.
Proof.
  intros fuel A rs P IR G1 G2. set (Good := fun w => wfTW w /\ nonnegTW w).
  set (f := fun x => match sulAnswer fuel (mkRunner A) x with Some (_, b) => b | None => false end).
  assert (Hf : forall x, Good x -> (f x = true <-> acceptsTW A x)).
  { intros x [H1 H2]. destruct (plain_answer fuel A (mkRunner A) x P eq_refl H1 H2) as (r' & b & E & _ & _ & K). unfold f. rewrite E. exact K. }
  assert (Hb : forall x y, Good x -> Good y -> (acceptsTW A x <-> acceptsTW A y) -> f x = f y).
  { intros x y Gx Gy E. assert (Fx := Hf x Gx). assert (Fy := Hf y Gy). destruct (f x), (f y); auto; [symmetry; apply Fy, E, Fx; auto|apply Fx, E, Fy; auto]. }
  assert (Ho : forall s x, rta s = A -> Good x -> exists s', sulAnswer fuel s x = Some (s', f x) /\ rta s' = A).
  { intros s x Es G. destruct (plain_answer fuel A s x P Es (proj1 G) (proj2 G)) as (r' & b & E & Er & _ & K). exists r'. split; [|auto]. rewrite E. f_equal. f_equal.
    specialize (Hf x G). destruct b, (f x); auto; [symmetry; apply Hf, K; reflexivity|apply K, Hf; reflexivity]. }
  assert (Hq : forall x y, Good x -> Good y -> sameTW x y -> f x = f y).
  { intros x y Gx Gy E. apply Hb; auto. split; apply acceptsTW_Q; [auto|apply sameTW_sym; auto]. }
  set (Inv := fun c : cache runner => rta (cOracle c) = A /\ forall x b, In (x, b) (cMap c) -> Good x /\ b = f x).
  destruct (C33_history (cache runner) (cacheAnswer (sulAnswer fuel)) f Inv Good) with (s0 := newCache (mkRunner A)) (rs := rs) as [y [bs [E F]]].
  - intros c x [I1 I2] G. unfold cacheAnswer, findTW. destruct (find (fun p => eqTW (fst p) x) (cMap c)) as [[k b]|] eqn:Fd; cbn [option_map snd].
    + apply find_some in Fd. destruct Fd as [F1 F2]. cbn [fst] in F2. destruct (I2 k b F1) as [Gk ->]. apply eqTW_iff in F2. rewrite (Hq k x Gk G F2).
      eexists. split; [reflexivity|]. split; auto.
    + destruct (Ho _ x I1 G) as [s' [E Es]]. rewrite E. eexists. split; [reflexivity|]. split; [exact Es|]. cbn [cMap]. intros k b [K|K]; [injection K as <- <-; auto|auto].
  - intros w w' W W' N N' Et R. apply Hb; auto. apply accepts_region; auto; [apply P|apply N].
  - split; [reflexivity|intros ? ? []].
  - intros x Hx. destruct (G1 x Hx) as [Q N]. split; [auto|]. intros w Hw. split; [|auto]. destruct Hw as [E [L _]]. unfold wfTW. rewrite E, L. apply Q.
  - exact G2.
  - exists y, bs. split; [exact E|]. clear E. induction F as [|r a rs bs R F IH]; constructor.
    + destruct r as [x|w], a as [cs|b]; try contradiction.
      * destruct R as [R1 [_ R3]]. split; [|exact R3]. destruct (G1 x (or_introl eq_refl)) as [Q N]. intro w. rewrite R1. split; intros [K1 K2]; (split; [auto|]); (apply Hf; [|auto]).
        -- split; [|auto]. destruct K1 as [Ew [L _]]. unfold wfTW. rewrite Ew, L. apply Q.
        -- split; [|auto]. destruct K1 as [Ew [L _]]. unfold wfTW. rewrite Ew, L. apply Q.
      * rewrite R. apply Hf. apply G2. left; auto.
    + apply IH; intros; [apply G1|apply G2]; right; auto.
Qed.
Print Assumptions C33_automaton.

(** TimedConditionSet::reduce: disjoint regions are merged without changing
    their union *)
Theorem C33_reduce_exact :
  forall (L : list elem) (n : nat),
    (forall x, In x L -> okCond (ec x) /\ intCond (ec x) /\ boundedCond (ec x) /\ tcSize (ec x) = n /\ isSimple (ec x) = true) ->
    (forall i j d, (i < length L)%nat -> (j < length L)%nat -> inCond (ec (nth i L elEmpty)) d -> inCond (ec (nth j L elEmpty)) d -> i = j) ->
  exists cs, tcsReduce L = Some cs /\ (length cs <= length L)%nat /\
    forall d, (exists c, In c cs /\ inCond c d) <-> (exists x, In x L /\ inCond (ec x) d).
Proof.
  intros L n G D.
  assert (D1 : forall d, (cnt d (map ec L) <= 1)%nat).
  { intro d. clear G. induction L as [|x L IH]; [cbn; lia|]. cbn [map]. rewrite cnt_cons.
    assert (IH' : (cnt d (map ec L) <= 1)%nat).
    { apply IH. intros i j e Hi Hj H1 H2. apply Nat.succ_inj. apply (D (S i) (S j) e); auto; cbn [length]; lia. }
    rewrite cnt_one. destruct (inCondb (ec x) d) eqn:E; [|cbn; lia]. apply inCondb_ok in E.
    destruct (cnt d (map ec L)) eqn:C; [cbn; lia|]. exfalso. assert (K : (1 <= cnt d (map ec L))%nat) by lia.
    apply cnt_exists in K. destruct K as [c [Hc K]]. apply in_map_iff in Hc. destruct Hc as [y [<- Hy]]. apply (In_nth _ _ elEmpty) in Hy. destruct Hy as [j [Hj <-]].
    assert (X := D 0%nat (S j) d ltac:(cbn; lia) ltac:(cbn; lia) E K). discriminate. }
  destruct (reduce_spec n L) as [cs [R1 [R2 R3]]]; [|exact D1|].
  { intros y Hy. destruct (G y Hy) as [A1 [A2 [A3 [A4 A5]]]]. split; [split; auto|auto]. }
  exists cs. split; [exact R1|]. split.
  - destruct L as [|x L]; [injection R1 as <-; auto|]. unfold tcsReduce in R1. set (X := x :: L) in *. change (option_map (map fst) (reduceLoop (S (length X) * S (length X)) [] (map (fun y => (ec y, 1%nat)) X)) = Some cs) in R1.
    destruct (reduceLoop (S (length X) * S (length X)) [] (map (fun y => (ec y, 1%nat)) X)) as [l|] eqn:E; [|discriminate]. cbn [option_map] in R1. injection R1 as <-.
    apply reduceLoop_length in E. cbn [app] in E. rewrite !map_length in *. exact E.
  - intro d. rewrite <- !cnt_exists, R3. rewrite cnt_exists. split.
    + intros [c [Hc K]]. apply in_map_iff in Hc. destruct Hc as [y [<- Hy]]. eauto.
    + intros [y [Hy K]]. exists (ec y). split; [apply in_map; auto|auto].
Qed.
Print Assumptions C33_reduce_exact.

(** *** concrete instance: letter 1 is accepted at every time but 1, so the
    answer for 0 < tau_0 < 2, tau_0 + tau_1 = 2 is not convex *)
Definition exB : ta := mkTA
  [ (1%nat, mkS false [ (1%nat, [ mkT 2 [(0%nat, RConst 0)] [mkC 0 Olt 1]; mkT 2 [] [mkC 0 Ogt 1] ]) ]);
    (2%nat, mkS true []) ] [1%nat] [1%Z].
Definition intResetsb (A : ta) := edgeAll (fun e => forallb (fun p => match snd p with RConst q => Qeq_bool q (inject_Z (Qround.Qfloor q)) | _ => true end) (trst (snd e))) A.
Lemma intResetsb_ok A : intResetsb A = true -> intResets A.
Proof.
  intros H l a t x q K I. apply (edgeAll_ok _ _ _ _ _ H) in K. cbn in K. rewrite forallb_forall in K.
  specialize (K _ I). cbn in K. exists (Qround.Qfloor q). apply Qeq_bool_iff. exact K.
Qed.
Lemma exB_plain : plainDTA exB /\ intResets exB.
Proof.
  assert (SM : smallTA exB) by (apply smallb_ok; reflexivity). split; [|apply intResetsb_ok; reflexivity].
  split; [apply wfb_ok; reflexivity|]. split; [apply noSilentb_ok; reflexivity|]. split; [apply nnResetsb_ok; reflexivity|].
  split; [apply C08_deterministic_exact; [exact SM|reflexivity]|]. exists 1%nat. reflexivity.
Qed.
Lemma exElem_queryable : queryable exElem /\ forall w, inElem exElem w -> nonnegTW w.
Proof.
  split; [split; [exact exElem_wf|]; split; [exact (proj1 (proj2 exCond_ok))|]; split; [exact (proj2 (proj2 exCond_ok))|constructor; [discriminate|constructor]]|].
  intros w [_ [L H]]. assert (H0 := H 0%nat 0%nat (le_n _)). assert (H1 := H 1%nat 1%nat (le_n _)). clear H.
  assert (Sz : tcSize (ec exElem) = 2%nat) by (vm_compute; reflexivity). rewrite Sz in *.
  assert (E0 : getLowerBound (ec exElem) 0 0 = Fin 0 false) by (vm_compute; reflexivity).
  assert (E1 : getLowerBound (ec exElem) 1 1 = Fin 0 false) by (vm_compute; reflexivity).
  rewrite E0 in H0. rewrite E1 in H1. clear E0 E1 Sz. destruct (H0 ltac:(lia)) as [_ A]. destruct (H1 ltac:(lia)) as [_ B]. cbn [bsat] in A, B. clear H0 H1. change (length (td w) = 2)%nat in L.
  destruct (td w) as [|x [|y [|? ?]]] eqn:Ed; try discriminate. unfold T in A, B. cbn [Nat.sub skipn firstn sumQ] in A, B.
  intros q Hq. rewrite Ed in Hq. destruct Hq as [<-|[<-|[]]]; lra.
Qed.
Example C33_nonvacuous :
  plainDTA exB /\ intResets exB /\ queryable exElem /\ (forall w, inElem exElem w -> nonnegTW w) /\
  match symSession (cacheAnswer (sulAnswer 0)) (newSym (newCache (mkRunner exB))) [AskSymbolic exElem; AskWord (mkTW [1%nat] [1; 0]); AskSymbolic exElem] with
  | Some (y, [GotConditions a; GotBool b; GotConditions c]) => length a = 2%nat /\ b = false /\ c = a /\ smCount y = 2%nat /\ smMiss y = 1%nat /\ rnum (cOracle (smOracle y)) = 4%nat
  | _ => False
  end.
Proof.
  split; [apply exB_plain|]. split; [apply exB_plain|]. split; [apply exElem_queryable|]. split; [apply exElem_queryable|].
  vm_compute. repeat split; reflexivity.
Qed.
Example C45_nonvacuous :
  let w := mkTW [1; 1]%nat [(1#2); 1; (3#4)] in let w' := mkTW [1; 1]%nat [(1#3); 1; (3#4)] in
  noSilent exA /\ intResets exA /\ wfTW w /\ wfTW w' /\ nonnegTW w /\ sameRegion (td w) (td w').
Proof.
  cbv zeta. split; [apply noSilentb_ok; reflexivity|]. split; [apply intResetsb_ok; reflexivity|]. split; [reflexivity|]. split; [reflexivity|]. split; [|apply exRegion].
  intros q H. cbn in H. repeat (destruct H as [<-|H]; [discriminate|]). destruct H.
Qed.
