(** Proofs about symbolic membership queries: query and its history. *)
From Coq Require Import QArith ZArith Bool List Arith Lia Lqa.
From Verif Require Import BoundsModel BoundsProofs ConstraintModel GuardSpec ZoneModel ZoneSpec ZoneProofs AutomatonModel TimedWordModel TimedWordSpec TimedWordProofs
  TimedConditionModel TimedConditionSpec TimedConditionProofs TimedConditionProofs2 TimedConditionProofs3 TimedConditionProofs4 TimedConditionProofs5
  ElementaryModel ElementarySpec ElementaryProofs ElementaryProofs2 PropertiesConditions OracleModel OracleSpec SymbolicModel SymbolicSpec SymbolicProofs.
Import ListNotations.
Open Scope Q_scope.

Lemma elEnumerate_conds x : wfElem x -> map ec (elEnumerate x) = enumerate (ec x) /\ forall y, In y (elEnumerate x) -> ew y = ew x.
Proof.
  intros _. unfold elEnumerate, elIsSimple. destruct (isSimple (ec x)) eqn:E.
  - rewrite enumerate_simple by auto. split; [reflexivity|]. intros y [<-|[]]. reflexivity.
  - split; [rewrite map_map; cbn; apply map_id|]. intros y Hy. apply in_map_iff in Hy. destruct Hy as [c [<- _]]. reflexivity.
Qed.
Lemma elEnumerate_good x : queryable x -> forall y, In y (elEnumerate x) ->
  good (tcSize (ec x)) (ec y) /\ isSimple (ec y) = true /\ wfElem y /\ visible y /\ ew y = ew x.
Proof.
  intros [W [I [B V]]] y Hy. destruct (elEnumerate_conds x W) as [E1 E2]. assert (Ey := E2 y Hy).
  assert (K : In (ec y) (enumerate (ec x))) by (rewrite <- E1; apply in_map; auto).
  destruct (enumerate_spec (ec x) ltac:(apply W) I B) as [A _]. destruct (A _ K) as [G S].
  split; [auto|]. split; [auto|]. split; [|split; [unfold visible; rewrite Ey; exact V|auto]].
  split; [apply G|]. destruct G as [_ [_ [_ G]]]. rewrite G, Ey. apply W.
Qed.
Lemma elEnumerate_cnt x : queryable x -> forall d, cnt d (map ec (elEnumerate x)) = b2n (inCondb (ec x) d).
Proof. intros [W [I [B V]]] d. destruct (elEnumerate_conds x W) as [-> _]. apply enumerate_spec; auto. apply W. Qed.

(** a region lies inside or outside the target *)
Lemma region_decided P f y w : regionInvariant P f -> (forall u, inElem y u -> P u) -> queryable y -> isSimple (ec y) = true -> inElem y w -> f w = f (elSample y).
Proof.
  intros RI PP [W [I [B V]]] S H. destruct (C41_sample_represents y W I S V) as [H1 H2].
  assert (WF : forall u, inElem y u -> wfTW u). { intros u [E [L _]]. unfold wfTW. rewrite E, L. apply W. }
  apply RI; auto; [destruct H, H1; congruence|]. apply (proj1 (H2 w)) in H. destruct H as [_ [L R]].
  split; [auto|]. intros i j Hij Hj. assert (R' := R i j Hij ltac:(rewrite L; auto)). destruct R' as [X Y]. split; [auto|tauto].
Qed.

Section Oracle.
Context {St : Type} (o : mOracle St) (f : tword -> bool) (Inv : St -> Prop) (Good : tword -> Prop).
Hypothesis O : forall s x, Inv s -> Good x -> exists s', o s x = Some (s', f x) /\ Inv s'.

Lemma included_spec : forall l s, Inv s -> (forall y, In y l -> Good (elSample y)) ->
  exists s', included o s l = Some (s', filter (fun y => f (elSample y)) l, forallb (fun y => f (elSample y)) l) /\ Inv s'.
Proof using O.
  induction l as [|x r IH]; intros s Hs G; cbn [included]; [exists s; auto|].
  destruct (O s (elSample x) Hs (G x (or_introl eq_refl))) as [s1 [E1 H1]]. rewrite E1.
  destruct (IH s1 H1 (fun y Hy => G y (or_intror Hy))) as [s2 [E2 H2]]. rewrite E2. exists s2. split; [|auto].
  cbn [filter forallb]. destruct (f (elSample x)); reflexivity.
Qed.
End Oracle.

(** the conditions collected from the answers *)
Definition collect (x : elem) (inc : list elem) (all : bool) : option (list tcond) :=
  match inc with
  | [] => Some []
  | _ => if all then Some [ec x]
         else if (length (elEnumerate (elHull inc)) =? length inc)%nat then Some [ec (elHull inc)] else tcsReduce inc
  end.
Lemma hullFrom_good n : forall l x, good n (ec x) -> (forall y, In y l -> good n (ec y)) -> good n (ec (elHullFrom x l)).
Proof.
  induction l as [|y l IH]; intros x Gx H; [exact Gx|]. unfold elHullFrom. cbn [fold_left]. apply IH; [|intros; apply H; right; auto].
  cbn [ec]. apply good_hull; auto. apply H. left; auto.
Qed.
Lemma cnt_map_elem w (l : list elem) lw : (forall y, In y l -> ew y = lw) -> tw w = lw ->
  ((1 <= cnt (td w) (map ec l))%nat <-> exists y, In y l /\ inElem y w).
Proof.
  intros H E. rewrite cnt_exists. split.
  - intros [c [Hc K]]. apply in_map_iff in Hc. destruct Hc as [y [<- Hy]]. exists y. split; [auto|]. split; [rewrite (H y Hy); auto|auto].
  - intros [y [Hy [_ K]]]. exists (ec y). split; [apply in_map; auto|auto].
Qed.
Lemma cnt_filter_le d (g : elem -> bool) l : (cnt d (map ec (filter g l)) <= cnt d (map ec l))%nat.
Proof.
  induction l as [|y l IH]; cbn [map filter]; [lia|]. rewrite (cnt_cons d (ec y) (map ec l)). destruct (g y); cbn [map]; [rewrite (cnt_cons d (ec y) (map ec (filter g l)))|]; lia.
Qed.
Lemma good_query n lw c : good n c -> n = S (length lw) -> Forall (fun a => a <> UNOBSERVABLE) lw -> queryable (mkEL lw c).
Proof. intros [A [B [C E]]] N V. split; [split; [auto|cbn; congruence]|]. auto. Qed.
Lemma collect_spec P f x : regionInvariant P f -> (forall u, inElem x u -> P u) -> queryable x ->
  exists cs, collect x (filter (fun y => f (elSample y)) (elEnumerate x)) (forallb (fun y => f (elSample y)) (elEnumerate x)) = Some cs /\
    exactAnswer f x cs /\ (forall c, In c cs -> queryable (mkEL (ew x) c)) /\ (forall d, (cnt d cs <= 1)%nat).
Proof.
  intros RI PX Qx. assert (EG := elEnumerate_good x Qx). assert (EC := elEnumerate_cnt x Qx).
  set (L := elEnumerate x) in *. set (p := fun y => f (elSample y)) in *. set (n := tcSize (ec x)) in *.
  assert (Nn : n = S (length (ew x))) by apply Qx. assert (V : visible x) by apply Qx.
  assert (QL : forall y, In y L -> queryable y). { intros y Hy. destruct (EG y Hy) as [[A [B [C D]]] [_ [W [Vy _]]]]. split; [auto|]. auto. }
  assert (PL : forall y, In y L -> forall u, inElem y u -> P u).
  { intros y Hy u [U1 U2]. apply PX. split; [rewrite U1; apply EG; auto|]. apply inCondb_ok. assert (Z := EC (td u)).
    assert (X : (1 <= cnt (td u) (map ec L))%nat) by (apply cnt_exists; exists (ec y); split; [apply in_map; auto|auto]).
    destruct (inCondb (ec x) (td u)); [auto|]. cbn in Z. lia. }
  assert (Fin : forall y, In y (filter p L) -> In y L /\ p y = true) by (intro y; apply filter_In).
  (* the members of x in the target are those in an included region *)
  assert (KEY : forall w, inElem x w /\ f w = true <-> tw w = ew x /\ (1 <= cnt (td w) (map ec (filter p L)))%nat).
  { intro w. split.
    - intros [[E H] Fw]. split; [auto|]. apply (cnt_map_elem w _ (ew x)); [intros y Hy; apply EG; apply Fin; auto|auto|].
      assert (K : (1 <= cnt (td w) (map ec L))%nat) by (rewrite EC; apply inCondb_ok in H; rewrite H; cbn; lia).
      apply (cnt_map_elem w L (ew x)) in K; [|intros; apply EG; auto|auto]. destruct K as [y [Hy K]]. exists y. split; [|auto].
      apply filter_In. split; [auto|]. unfold p. rewrite <- (region_decided P f y w RI (PL y Hy) (QL y Hy)); [auto|apply EG; auto|auto].
    - intros [E K]. assert (K' := K). apply (cnt_map_elem w _ (ew x)) in K'; [|intros y Hy; apply EG; apply Fin; auto|auto].
      destruct K' as [y [Hy H]]. apply Fin in Hy. destruct Hy as [Hy Pp]. split.
      + split; [auto|]. apply inCondb_ok. assert (Z := EC (td w)). assert (Y := cnt_filter_le (td w) p L). destruct (inCondb (ec x) (td w)); [auto|]. cbn in Z. lia.
      + rewrite (region_decided P f y w RI (PL y Hy) (QL y Hy)); [exact Pp|apply EG; auto|auto]. }
  (* any list of conditions with the same count of regions answers exactly *)
  assert (EX : forall cs, (forall d, (1 <= cnt d cs)%nat <-> (1 <= cnt d (map ec (filter p L)))%nat) -> exactAnswer f x cs).
  { intros cs Hc w. rewrite KEY, <- Hc, cnt_exists. unfold inElem. cbn [ew ec]. split; [intros [c [A [B C]]]; eauto|intros [B [c [A C]]]; eauto]. }
  assert (D1 : forall d, (cnt d (map ec (filter p L)) <= 1)%nat). { intro d. eapply Nat.le_trans; [apply cnt_filter_le|]. rewrite EC. destruct (inCondb _ _); cbn; lia. }
  destruct (filter p L) as [|y0 inc] eqn:FE.
  { exists []. split; [reflexivity|]. split; [apply EX; intro; cbn; tauto|]. split; [intros ? []|intro; cbn; lia]. }
  unfold collect. destruct (forallb p L) eqn:FA.
  { exists [ec x]. split; [reflexivity|].
    assert (FL : filter p L = L). { clear -FA. induction L as [|y l IH]; [reflexivity|]. cbn [forallb filter] in *. apply andb_true_iff in FA. destruct FA as [-> FA]. rewrite IH; auto. }
    split; [|split; [|intro d; rewrite cnt_one; destruct (inCondb _ _); cbn; lia]].
    - apply EX. intro d. rewrite <- FE, FL, EC, cnt_one. reflexivity.
    - intros c [<-|[]]. apply (good_query n); auto. destruct Qx as [W [I [B _]]]. split; [apply W|]. auto. }
  set (Y := y0 :: inc) in *. set (h := elHull Y).
  assert (GY : forall y, In y Y -> good n (ec y) /\ isSimple (ec y) = true) by (intros y Hy; apply Fin in Hy; destruct Hy as [Hy _]; destruct (EG y Hy) as [A [B _]]; auto).
  destruct (Nat.eqb_spec (length (elEnumerate h)) (length Y)) as [LE|LE].
  - assert (Gh : good n (ec h)) by (apply (hullFrom_good n Y y0); [apply (GY y0); left; auto|intros; apply GY; auto]).
    assert (WY : forall y, In y Y -> wfElem y /\ ew y = ew y0).
    { intros y Hy. apply Fin in Hy. destruct Hy as [Hy _]. assert (Hy0 := Fin y0 (or_introl eq_refl)). destruct Hy0 as [Hy0 _]. destruct (EG y Hy) as [_ [_ [A [_ B]]]].
      destruct (EG y0 Hy0) as [_ [_ [_ [_ C]]]]. split; [auto|congruence]. }
    destruct (C42_convexHull y0 inc WY) as [Wh [Ch _]]. change (elHull (y0 :: inc)) with h in *.
    assert (SUB : forall c d, In c (map ec Y) -> inCond c d -> inCond (ec h) d).
    { intros c d Hc Hd. apply in_map_iff in Hc. destruct Hc as [y [<- Hy]]. apply (Ch y (mkTW (ew y) d) Hy). split; auto. }
    exists [ec h]. split; [reflexivity|]. split; [|split; [|intro d; rewrite cnt_one; destruct (inCondb _ _); cbn; lia]].
    + apply EX. intro d. rewrite !cnt_exists. split.
      * intros [c [[<-|[]] Hd]]. apply (cover_exact n (ec h)); auto.
        -- intros c Hc. apply in_map_iff in Hc. destruct Hc as [y [<- Hy]]. auto.
        -- destruct (elEnumerate_conds h Wh) as [EE _]. rewrite <- EE, !map_length. exact LE.
      * intros [c [Hc Hd]]. exists (ec h). split; [left; auto|eauto].
    + intros c [<-|[]]. apply (good_query n); auto.
  - destruct (reduce_spec n Y GY D1) as [cs [R1 [R2 R3]]]. change (match Y with [] => Some [] | _ => tcsReduce Y end) with (tcsReduce Y).
    exists cs. split; [exact R1|]. split; [apply EX; intro d; rewrite R3; reflexivity|]. split; [|intro d; rewrite R3; auto].
    intros c Hc. apply (good_query n); auto.
Qed.

(** the cache *)
Definition symInv {St} (f : tword -> bool) (Inv : St -> Prop) (y : symOracle St) : Prop :=
  Inv (smOracle y) /\ forall x cs, In (x, cs) (smCache y) -> queryable x /\ exactAnswer f x cs /\ (forall c, In c cs -> queryable (mkEL (ew x) c)) /\ (forall d, (cnt d cs <= 1)%nat).

Lemma exactAnswer_eq f k x cs : queryable k -> queryable x -> elEqb k x = true -> exactAnswer f k cs -> exactAnswer f x cs /\ ew k = ew x.
Proof.
  intros [[Ok Sk] _] [[Ox Sx] _] E H. unfold elEqb in E. apply andb_true_iff in E. destruct E as [E1 E2]. apply eqLetters_iff in E1.
  assert (E3 := proj1 (tcEqb_exact _ _ Ok Ox) E2). split; [|auto]. intro w. specialize (H w). rewrite <- E1. rewrite H. unfold inElem. rewrite E1.
  rewrite (E3 (td w)). reflexivity.
Qed.

Section Session.
Context {St : Type} (o : mOracle St) (f : tword -> bool) (Inv : St -> Prop) (Good : tword -> Prop).
Hypothesis O : forall s x, Inv s -> Good x -> exists s', o s x = Some (s', f x) /\ Inv s'.
Hypothesis RI : regionInvariant Good f.

Lemma symQuery_spec y x : symInv f Inv y -> queryable x -> (forall w, inElem x w -> Good w) ->
  exists y' cs, symQuery o y x = Some (y', cs) /\ symInv f Inv y' /\ exactAnswer f x cs /\
    (forall c, In c cs -> queryable (mkEL (ew x) c)) /\ (forall d, (cnt d cs <= 1)%nat) /\ smCount y' = S (smCount y).
Proof using O RI.
  intros [Hs Hc] Q G. unfold symQuery. unfold findEL. destruct (find (fun p => elEqb (fst p) x) (smCache y)) as [[k cs]|] eqn:F; cbn [option_map snd].
  - apply find_some in F. destruct F as [F1 F2]. cbn [fst] in F2. destruct (Hc k cs F1) as [Qk [Ek [Ck Dk]]].
    destruct (exactAnswer_eq f k x cs Qk Q F2 Ek) as [Ex El]. eexists. exists cs. split; [reflexivity|]. split; [split; auto|]. rewrite <- El. auto.
  - destruct (included_spec o f Inv Good O (elEnumerate x) (smOracle y) Hs) as [s [E I]].
    { intros z Hz. apply G. destruct (elEnumerate_good x Q z Hz) as [[O1 [I1 [B1 T1]]] [S1 [W1 [V1 E1]]]].
      destruct (C41_sample_contained z W1 B1 V1) as [M _].
      assert (K := elEnumerate_cnt x Q (td (elSample z))). assert (X : (1 <= cnt (td (elSample z)) (map ec (elEnumerate x)))%nat).
      { apply cnt_exists. exists (ec z). split; [apply in_map; auto|apply M]. }
      split; [destruct M as [M _]; congruence|]. apply inCondb_ok. destruct (inCondb (ec x) (td (elSample z))); [auto|]. cbn in K. lia. }
    rewrite E. destruct (collect_spec Good f x RI G Q) as [cs [C1 [C2 [C3 C4]]]]. unfold collect in C1.
    set (inc := filter (fun y0 => f (elSample y0)) (elEnumerate x)) in *. cbv zeta.
    assert (C1' : (match inc with
          | [] => Some []
          | _ :: _ => if forallb (fun y0 => f (elSample y0)) (elEnumerate x) then Some [ec x]
                      else if (length (elEnumerate (elHull inc)) =? length inc)%nat then Some [ec (elHull inc)] else tcsReduce inc end) = Some cs) by exact C1.
    rewrite C1'. eexists. exists cs. split; [reflexivity|]. split; [|auto]. split; [exact I|]. cbn [smCache]. intros k ks [K|K]; [|apply Hc; auto].
    injection K as <- <-. auto.
Qed.

Definition goodReq (r : symReq) : Prop :=
  match r with AskSymbolic x => queryable x /\ (forall w, inElem x w -> Good w) | AskWord w => Good w end.
Definition goodResp (r : symReq) (a : symResp) : Prop :=
  match r, a with
  | AskSymbolic x, GotConditions cs => exactAnswer f x cs /\ (forall c, In c cs -> queryable (mkEL (ew x) c)) /\ (forall d, (cnt d cs <= 1)%nat)
  | AskWord w, GotBool b => b = f w
  | _, _ => False
  end.
Lemma symSession_spec : forall rs y, symInv f Inv y -> Forall goodReq rs ->
  exists y' bs, symSession o y rs = Some (y', bs) /\ Forall2 goodResp rs bs.
Proof using O RI.
  induction rs as [|r rs IH]; intros y Hy G; cbn [symSession]; [exists y, []; split; [auto|constructor]|].
  inversion G as [|? ? Gr Grs]; subst. destruct r as [x|w]; cbn [goodReq] in Gr.
  - destruct Gr as [Q Gx]. destruct (symQuery_spec y x Hy Q Gx) as [y1 [cs [E [I1 [A1 [A2 [A3 _]]]]]]]. rewrite E. cbn [option_map fst snd].
    destruct (IH y1 I1 Grs) as [y2 [bs [E2 H2]]]. rewrite E2. eexists _, _. split; [reflexivity|]. constructor; [cbn; auto|auto].
  - unfold symAnswer. destruct Hy as [Hs Hc]. destruct (O _ _ Hs Gr) as [s1 [E I1]]. rewrite E. cbn [option_map fst snd].
    destruct (IH (mkSym s1 (smCache y) (smCount y) (smMiss y)) ltac:(split; auto) Grs) as [y2 [bs [E2 H2]]]. rewrite E2. eexists _, _. split; [reflexivity|].
    constructor; [cbn; auto|auto].
Qed.
End Session.
