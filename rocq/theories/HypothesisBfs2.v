(** The construction of the hypothesis: the exploration. *)
From Coq Require Import QArith ZArith Bool List Arith Lia Permutation.
From Verif Require Import BoundsModel ConstraintModel ZoneModel AutomatonModel AutomatonProofs TimedWordModel TimedConditionModel
  ElementaryModel RegionalModel OracleModel SymbolicModel CexModel RenamingModel TableModel TableProofs2 TableProofs3 HypothesisModel HypothesisBfs.
Import ListNotations.

Lemma flatIdx (F : nat -> list nat) n l : (l < n)%nat -> map snd (filter (fun p : nat * nat => (fst p =? l)%nat) (flat_map (fun k => map (pair k) (F k)) (seq 0 n))) = F l.
Proof.
  intro H. assert (Z : forall b k, (k <> l)%nat -> filter (fun p : nat * nat => (fst p =? l)%nat) (map (pair k) b) = []).
  { intros b k N. induction b as [|x b IH]; [reflexivity|]. cbn [map filter fst]. destruct (Nat.eqb_spec k l); [contradiction|]. exact IH. }
  assert (O : forall b, map snd (filter (fun p : nat * nat => (fst p =? l)%nat) (map (pair l) b)) = b).
  { intro b. induction b as [|x b IH]; [reflexivity|]. cbn [map filter fst]. rewrite Nat.eqb_refl. cbn [map snd]. rewrite IH. reflexivity. }
  assert (K : forall b m, (b <= l)%nat -> (l < b + m)%nat -> map snd (filter (fun p : nat * nat => (fst p =? l)%nat) (flat_map (fun k => map (pair k) (F k)) (seq b m))) = F l).
  { intros b m. revert b. induction m as [|m IH]; intros b A B; [lia|]. cbn [seq flat_map]. rewrite filter_app, map_app. destruct (Nat.eq_dec b l) as [->|Ne].
    - rewrite O. assert (E : filter (fun p : nat * nat => (fst p =? l)%nat) (flat_map (fun k => map (pair k) (F k)) (seq (S l) m)) = []).
      { clear - Z. assert (Q : forall c, (l < c)%nat -> filter (fun p : nat * nat => (fst p =? l)%nat) (flat_map (fun k => map (pair k) (F k)) (seq c m)) = []).
        { induction m as [|m IH]; intros c Hc; [reflexivity|]. cbn [seq flat_map]. rewrite filter_app, Z by lia. cbn [app]. apply IH. lia. }
        apply Q. lia. }
      rewrite E. apply app_nil_r.
    - rewrite Z by auto. cbn [app map]. apply IH; lia. }
  apply K; lia.
Qed.

Lemma nodup_app {A} (l l' : list A) : NoDup l -> NoDup l' -> (forall x, In x l -> ~ In x l') -> NoDup (l ++ l').
Proof.
  intros N N' D. induction N as [|x l Nx N IH]; [exact N'|]. cbn [app]. constructor.
  - intro K. apply in_app_or in K. destruct K as [K|K]; [contradiction|]. apply (D x); [left; auto|auto].
  - apply IH. intros y Hy. apply D. right; auto.
Qed.
Section Bfs.
Context {St : Type}.
Notation tbl := (ot St).
Context (t : tbl) (ordI : list (loc * tcond) -> list (loc * tcond)).
Context (T : tree t) (MS : timeStable t) (P0 : In 0%nat (otP t)) (ND : NoDup (otAlpha t)).

Definition dsucc (e : nat * letter) : list nat := match discAt t (fst e) (snd e) with Some d => if inP t d then [d] else [] | None => [] end.
Definition bsucc (e : nat * letter) : list (nat * letter) := match discAt t (fst e) (snd e) with Some d => if inP t d then [] else [e] | None => [] end.
Definition rootsOf (ex : list (nat * letter)) : list nat := 0%nat :: flat_map dsucc ex.
Record base (ex : list (nat * letter)) (W : loc -> letter -> list trans) (b : bfs) : Prop := {
  b_bd : bBd b = flat_map bsucc ex;
  b_st : stRep (otAlpha t) (hSt (bH b)) (length (rootsOf ex)) (fun l => isMatch t (nth l (rootsOf ex) 0%nat)) W;
  b_idx : hIdx (bH b) = flat_map (fun l => map (pair l) (chain t (nth l (rootsOf ex) 0%nat))) (seq 0 (length (rootsOf ex)));
  b_map : forall i l, toState (bH b) i = Some l <-> (l < length (rootsOf ex))%nat /\ In i (chain t (nth l (rootsOf ex) 0%nat)) }.

Lemma dsucc_in e d : In d (dsucc e) <-> discAt t (fst e) (snd e) = Some d /\ In d (otP t).
Proof using.
  unfold dsucc. destruct (discAt t (fst e) (snd e)) as [d'|]; [|split; [intros []|intros [E _]; discriminate]]. destruct (inP t d') eqn:I.
  - split; [intros [<-|[]]; split; [auto|apply inP_iff; auto]|intros [E _]; injection E as <-; left; auto].
  - split; [intros []|intros [E H]; injection E as <-; apply inP_iff in H; congruence].
Qed.
Lemma roots_P ex d : In d (rootsOf ex) -> In d (otP t) /\ isRoot t d.
Proof using T P0.
  intros [<-|H].
  - split; [auto|]. intros p C. destruct (tr_contP t T p 0 C). lia.
  - apply in_flat_map in H. destruct H as (e & _ & H). apply dsucc_in in H. destruct H as [H1 H2]. split; [auto|]. intros p C. apply (tr_sep t T p (fst e) (snd e) d); auto.
Qed.
Lemma roots_nodup ex : NoDup ex -> NoDup (rootsOf ex).
Proof using T.
  intro N. unfold rootsOf. constructor.
  - intro H. apply in_flat_map in H. destruct H as (e & _ & H). apply dsucc_in in H. destruct H as [H _]. apply (tr_discP t T) in H. lia.
  - induction N as [|e ex Ne N IH]; [constructor|]. cbn [flat_map]. unfold dsucc at 1. destruct (discAt t (fst e) (snd e)) as [d|] eqn:D; [|exact IH]. destruct (inP t d) eqn:Ip; [|exact IH].
    cbn [app]. constructor; [|exact IH]. intro H. apply in_flat_map in H. destruct H as (e' & H1 & H2). apply dsucc_in in H2. destruct H2 as [H2 _].
    destruct (tr_discInj t T _ _ _ _ _ D H2) as [A B]. apply Ne. destruct e, e'; cbn in A, B. congruence.
Qed.
Lemma roots_len ex : NoDup ex -> (length (rootsOf ex) <= length (otPre t))%nat.
Proof using T P0.
  intro N. rewrite <- (seq_length (length (otPre t)) 0). apply NoDup_incl_length; [apply roots_nodup; auto|]. intros d H. apply roots_P in H. apply in_seq. destruct H as [H _]. apply (tr_lt t T) in H. lia.
Qed.
Lemma roots_app ex ex' : rootsOf (ex ++ ex') = rootsOf ex ++ flat_map dsucc ex'.
Proof using. unfold rootsOf. rewrite flat_map_app. reflexivity. Qed.
Lemma chain_in_root d : In d (otP t) -> In d (chain t d).
Proof using T. intro H. destruct (isChain_hd t d _ (chain_ok t d T H)) as (l & -> & _). left; auto. Qed.
Lemma disc_fresh ex i a d : ~ In (i, a) ex -> discAt t i a = Some d -> forall r, In r (rootsOf ex) -> ~ In d (chain t r).
Proof using T P0.
  intros N D r Hr K. destruct (roots_P ex r Hr) as [Pr _]. destruct (chain_pred t r _ d Pr (chain_ok t r T Pr) K) as [->|(p & C & _)]; [|apply (tr_sep t T p i a d); auto].
  destruct Hr as [<-|Hr]; [apply (tr_discP t T) in D; lia|]. apply in_flat_map in Hr. destruct Hr as (e & H1 & H2). apply dsucc_in in H2. destruct H2 as [H2 _].
  destruct (tr_discInj t T _ _ _ _ _ D H2) as [A B]. apply N. destruct e; cbn in A, B. subst. auto.
Qed.

Lemma hAdds_map st : forall ks h i, toState (hAdds h st ks) i = if existsb (Nat.eqb i) ks then Some st else toState h i.
Proof using.
  induction ks as [|k ks IH]; intros h i; [reflexivity|]. cbn [hAdds fold_left existsb]. change (fold_left (fun h k => hAdd h st k) ks (hAdd h st k)) with (hAdds (hAdd h st k) st ks). rewrite IH.
  unfold toState, hAdd. cbn [hMap]. rewrite mapAt_put. rewrite (Nat.eqb_sym k i). destruct (i =? k)%nat; cbn [orb]; destruct (existsb (Nat.eqb i) ks); reflexivity.
Qed.
Lemma hAdds_idx st : forall ks h, hSt (hAdds h st ks) = hSt h /\ hIdx (hAdds h st ks) = hIdx h ++ map (pair st) ks.
Proof using.
  induction ks as [|k ks IH]; intros h; [cbn; rewrite app_nil_r; auto|]. cbn [hAdds fold_left]. change (fold_left (fun h k => hAdd h st k) ks (hAdd h st k)) with (hAdds (hAdd h st k) st ks). destruct (IH (hAdd h st k)) as [-> ->].
  cbn [hAdd hSt hIdx map]. rewrite <- app_assoc. auto.
Qed.
(** a new state with its chain *)
Definition newState (h : hyp) (d : nat) : hyp := hAdds (mkH (hSt h ++ [(length (hSt h), mkS (isMatch t d) [])]) (hMap h) (hIdx h)) (length (hSt h)) (chain t d).
Lemma newState_ok (h : hyp) d : In d (otP t) ->
  mergeCont (length (otPre t)) t (fst (addState t h d)) (length (hSt h)) d = Ok (newState h d).
Proof using T MS.
  intro Pd. rewrite (mergeCont_ok t T MS) by (auto; lia). unfold newState, addState. cbn [fst]. destruct (isChain_hd t d _ (chain_ok t d T Pd)) as (l & E & _). unfold chain in *. rewrite E. reflexivity.
Qed.
Lemma existsb_in i ks : existsb (Nat.eqb i) ks = true <-> In i ks.
Proof using. rewrite existsb_exists. split; [intros (k & H & E); apply Nat.eqb_eq in E; congruence|intro H; exists i; rewrite Nat.eqb_refl; auto]. Qed.
Lemma base_new ex W b e d bd' q : base ex W b -> (forall l a, (length (rootsOf ex) <= l)%nat -> W l a = []) -> ~ In e ex -> discAt t (fst e) (snd e) = Some d -> In d (otP t) -> bd' = bBd b ->
  base (ex ++ [e]) W (mkB (newState (bH b) d) q bd').
Proof using T P0.
  intros [B1 B2 B3 B4] Wz Ne D Pd ->. assert (Ip : inP t d = true) by (apply inP_iff; auto). assert (L := stRep_len _ _ _ _ _ B2).
  assert (DS : dsucc e = [d]) by (unfold dsucc; rewrite D, Ip; reflexivity). assert (BS : bsucc e = []) by (unfold bsucc; rewrite D, Ip; reflexivity).
  assert (RE : rootsOf (ex ++ [e]) = rootsOf ex ++ [d]) by (rewrite roots_app; cbn [flat_map]; rewrite DS; reflexivity).
  assert (RL : length (rootsOf (ex ++ [e])) = S (length (rootsOf ex))) by (rewrite RE, app_length; cbn; lia).
  assert (NO : forall l, (l < length (rootsOf ex))%nat -> nth l (rootsOf (ex ++ [e])) 0%nat = nth l (rootsOf ex) 0%nat) by (intros l Hl; rewrite RE, app_nth1; auto).
  assert (NN : nth (length (rootsOf ex)) (rootsOf (ex ++ [e])) 0%nat = d) by (rewrite RE, app_nth2, Nat.sub_diag by lia; reflexivity).
  unfold newState. set (h1 := mkH _ _ _). destruct (hAdds_idx (length (hSt (bH b))) (chain t d) h1) as [S1 S2].
  constructor; cbn [bH bBd].
  - rewrite flat_map_app, B1. cbn [flat_map]. rewrite BS, !app_nil_r. reflexivity.
  - rewrite S1. unfold h1. cbn [hSt]. rewrite L, RL. apply stRep_add; [|rewrite NN; auto|auto]. apply (stRep_ext _ _ _ _ _ _ _) with (3 := B2); auto. intros l Hl. rewrite NO by auto. reflexivity.
  - rewrite S2. unfold h1. cbn [hIdx]. rewrite B3, L, RL, seq_S, flat_map_app. cbn [flat_map plus]. rewrite NN, app_nil_r. f_equal.
    assert (FE : forall A (f g : nat -> list A) l, (forall x, In x l -> f x = g x) -> flat_map f l = flat_map g l).
    { intros A f g l. induction l as [|x l IH]; intro H; [reflexivity|]. cbn [flat_map]. rewrite H by (left; auto). rewrite IH; [auto|]. intros; apply H; right; auto. }
    apply FE. intros l Hl. apply in_seq in Hl. rewrite NO by lia. reflexivity.
  - intros i l. rewrite hAdds_map. rewrite RL. destruct (existsb (Nat.eqb i) (chain t d)) eqn:X.
    + apply existsb_in in X. rewrite L. split.
      * intro E. assert (El : l = length (rootsOf ex)) by congruence. rewrite El. split; [lia|]. rewrite NN. auto.
      * intros [Hl Hi]. destruct (Nat.eq_dec l (length (rootsOf ex))) as [->|Nl]; [auto|]. exfalso. rewrite NO in Hi by lia.
        assert (Hr : In (nth l (rootsOf ex) 0%nat) (rootsOf ex)) by (apply nth_In; lia). destruct (roots_P ex _ Hr) as [Pr Rr].
        assert (Rd : isRoot t d) by (intros p C; apply (tr_sep t T p (fst e) (snd e) d); auto).
        assert (E := chain_disj t _ d _ _ T Pr Pd Rr Rd (chain_ok t _ T Pr) (chain_ok t d T Pd) i Hi X).
        apply (disc_fresh ex (fst e) (snd e) d) with (r := nth l (rootsOf ex) 0%nat); auto; [destruct e; auto|]. rewrite E. apply chain_in_root; auto.
    + unfold h1, toState. cbn [hMap]. rewrite (B4 i l). split.
      * intros [Hl Hi]. split; [lia|]. rewrite NO; auto.
      * intros [Hl Hi]. destruct (Nat.eq_dec l (length (rootsOf ex))) as [->|Nl].
        { rewrite NN in Hi. apply existsb_in in Hi. congruence. }
        split; [lia|]. rewrite NO in Hi by lia. auto.
Qed.
Definition srcs (R : list nat) (a : letter) (is : list nat) : list (loc * tcond) :=
  flat_map (fun c => map (fun d => (pos R d, condAt t c)) (dsucc (c, a))) is.
Lemma exploreIdx_ok ex W b src i a : base ex W b -> (forall l c, (length (rootsOf ex) <= l)%nat -> W l c = []) -> ~ In (i, a) ex ->
  exists b', exploreIdx t a b src i = Ok (b', src ++ srcs (rootsOf (ex ++ [(i, a)])) a [i]) /\ base (ex ++ [(i, a)]) W b' /\
    bQ b' = bQ b ++ seq (length (rootsOf ex)) (length (dsucc (i, a))).
Proof using T MS P0.
  intros B Wz Ne. unfold exploreIdx. cbn [srcs]. unfold srcs. cbn [flat_map]. rewrite app_nil_r. destruct (discAt t i a) as [d|] eqn:D.
  - destruct (inP t d) eqn:Ip.
    + assert (DS : dsucc (i, a) = [d]) by (unfold dsucc; cbn [fst snd]; rewrite D, Ip; reflexivity). assert (Pd : In d (otP t)) by (apply inP_iff; auto).
      assert (F : toState (bH b) d = None).
      { destruct (toState (bH b) d) as [l|] eqn:E; [|auto]. exfalso. apply (b_map ex W b B) in E. destruct E as [E1 E2]. apply (disc_fresh ex i a d Ne D _ (nth_In _ 0%nat E1)). auto. }
      rewrite F. assert (L := stRep_len _ _ _ _ _ (b_st ex W b B)).
      assert (Mo := newState_ok (bH b) d Pd). unfold addState in *. cbn [fst] in Mo. cbn [bH bQ bBd].
      destruct (tr_cont t T d Pd) as (k & -> & _). cbn [bH] in *. rewrite Mo. cbn [bind].
      eexists. split; [|split]; [|apply (base_new ex W b (i, a) d); auto|].
      * rewrite DS. cbn [map]. rewrite roots_app. cbn [flat_map]. rewrite DS. cbn [app]. rewrite pos_new; [rewrite L; reflexivity|].
        intro K. apply (disc_fresh ex i a d Ne D d K). apply chain_in_root; auto.
      * cbn [bQ]. rewrite DS. reflexivity.
    + assert (DS : dsucc (i, a) = []) by (unfold dsucc; cbn [fst snd]; rewrite D, Ip; reflexivity). assert (BS : bsucc (i, a) = [(i, a)]) by (unfold bsucc; cbn [fst snd]; rewrite D, Ip; reflexivity).
      eexists. split; [rewrite DS; cbn [map]; rewrite app_nil_r; reflexivity|]. split; [|cbn [bQ]; rewrite DS; cbn; rewrite app_nil_r; auto].
      destruct B as [B1 B2 B3 B4]. assert (RE : rootsOf (ex ++ [(i, a)]) = rootsOf ex) by (rewrite roots_app; cbn [flat_map]; rewrite DS; cbn; rewrite app_nil_r; reflexivity).
      constructor; rewrite ?RE; auto. cbn [bBd]. rewrite flat_map_app, B1. cbn [flat_map]. rewrite BS. reflexivity.
  - assert (DS : dsucc (i, a) = []) by (unfold dsucc; cbn [fst snd]; rewrite D; reflexivity). assert (BS : bsucc (i, a) = []) by (unfold bsucc; cbn [fst snd]; rewrite D; reflexivity).
    eexists. split; [rewrite DS; cbn [map]; rewrite app_nil_r; reflexivity|]. split; [|rewrite DS; cbn; rewrite app_nil_r; auto].
    destruct B as [B1 B2 B3 B4]. assert (RE : rootsOf (ex ++ [(i, a)]) = rootsOf ex) by (rewrite roots_app; cbn [flat_map]; rewrite DS; cbn; rewrite app_nil_r; reflexivity).
    constructor; rewrite ?RE; auto. rewrite flat_map_app, B1. cbn [flat_map]. rewrite BS, !app_nil_r. reflexivity.
Qed.
Lemma srcs_mono R R' a is : (forall c d, In c is -> In d (dsucc (c, a)) -> In d R) -> srcs (R ++ R') a is = srcs R a is.
Proof using.
  unfold srcs. induction is as [|c is IH]; intro H; [reflexivity|]. cbn [flat_map]. rewrite IH by (intros; eapply H; eauto; right; auto). f_equal. apply map_ext_in. intros d Hd.
  rewrite pos_app; [reflexivity|]. apply (H c); auto. left; auto.
Qed.
Lemma exploreIdxs_ok a : forall is ex W b src, base ex W b -> (forall l c, (length (rootsOf ex) <= l)%nat -> W l c = []) -> NoDup is -> (forall i, In i is -> ~ In (i, a) ex) ->
  exists b', exploreIdxs t a b src is = Ok (b', src ++ srcs (rootsOf (ex ++ map (fun i => (i, a)) is)) a is) /\ base (ex ++ map (fun i => (i, a)) is) W b' /\
    bQ b' = bQ b ++ seq (length (rootsOf ex)) (length (flat_map dsucc (map (fun i => (i, a)) is))).
Proof using T MS P0.
  induction is as [|i is IH]; intros ex W b src B Wz Nd Ne.
  - exists b. cbn [exploreIdxs map flat_map length seq srcs]. unfold srcs. cbn [flat_map]. rewrite !app_nil_r. auto.
  - inversion Nd as [|? ? N1 N2]; subst. destruct (exploreIdx_ok ex W b src i a B Wz (Ne i (or_introl eq_refl))) as (b1 & E1 & B1 & Q1).
    assert (RA := roots_app ex [(i, a)]). cbn [flat_map] in RA. rewrite app_nil_r in RA.
    destruct (IH (ex ++ [(i, a)]) W b1 (src ++ srcs (rootsOf (ex ++ [(i, a)])) a [i]) B1) as (b2 & E2 & B2 & Q2); auto.
    { intros l c Hl. apply Wz. rewrite RA, app_length in Hl. lia. }
    { intros j Hj K. apply in_app_or in K. destruct K as [K|[K|[]]]; [apply (Ne j); [right; auto|auto]|]. injection K as ->. contradiction. }
    exists b2. rewrite <- app_assoc in *. cbn [app map] in *. split; [|split].
    + cbn [exploreIdxs]. rewrite E1. cbn [bind]. rewrite E2. f_equal. f_equal. rewrite <- app_assoc. f_equal.
      assert (X : srcs (rootsOf (ex ++ [(i, a)])) a [i] = srcs (rootsOf (ex ++ (i, a) :: map (fun i => (i, a)) is)) a [i]).
      { change (ex ++ (i, a) :: map (fun i => (i, a)) is) with (ex ++ [(i, a)] ++ map (fun i => (i, a)) is). rewrite app_assoc, (roots_app (ex ++ [(i, a)])). symmetry. apply srcs_mono.
        intros c d [<-|[]] Hd. rewrite RA. apply in_or_app. right. auto. }
      rewrite X. unfold srcs. cbn [flat_map]. rewrite app_nil_r. reflexivity.
    + exact B2.
    + rewrite Q2, Q1, <- app_assoc. f_equal. cbn [flat_map]. rewrite app_length, RA, app_length. symmetry. apply seq_app.
Qed.

(** *** the actions of the states *)
Definition exOf (ex : list (nat * letter)) (proc : list (loc * letter)) : list (nat * letter) := flat_map (fun p => map (fun c => (c, snd p)) (chain t (nth (fst p) (rootsOf ex) 0%nat))) proc.
Definition memP (p : loc * letter) (proc : list (loc * letter)) : bool := existsb (pairEqb p) proc.
Definition Wof (ex : list (nat * letter)) (proc : list (loc * letter)) (l : loc) (a : letter) : list trans :=
  if memP (l, a) proc then map (fun e => internalT (snd e) (fst e)) (ordI (srcs (rootsOf ex) a (chain t (nth l (rootsOf ex) 0%nat)))) else [].
Record binv (ex : list (nat * letter)) (proc : list (loc * letter)) (b : bfs) : Prop := {
  i_base : base ex (Wof ex proc) b;
  i_ex : ex = exOf ex proc;
  i_ndex : NoDup ex;
  i_lt : forall l a, In (l, a) proc -> (l < length (rootsOf ex))%nat /\ In a (otAlpha t) }.
Lemma memP_in p proc : memP p proc = true <-> In p proc.
Proof using.
  unfold memP. rewrite existsb_exists. unfold pairEqb. split.
  - intros (q & H & E). apply andb_true_iff in E. destruct E as [E1 E2]. apply Nat.eqb_eq in E1. apply Nat.eqb_eq in E2. destruct p, q; cbn in *; subst; auto.
  - intro H. exists p. rewrite !Nat.eqb_refl. auto.
Qed.
Lemma exOf_in ex proc i a : In (i, a) (exOf ex proc) <-> exists l, In (l, a) proc /\ In i (chain t (nth l (rootsOf ex) 0%nat)).
Proof using.
  unfold exOf. rewrite in_flat_map. split.
  - intros ((l & c) & H1 & H2). cbn [fst snd] in H2. apply in_map_iff in H2. destruct H2 as (j & E & H2). injection E as <- <-. exists l. auto.
  - intros (l & H1 & H2). exists (l, a). split; [auto|]. apply in_map_iff. exists i. auto.
Qed.
Lemma same_state ex l l' i : NoDup ex -> (l < length (rootsOf ex))%nat -> (l' < length (rootsOf ex))%nat -> In i (chain t (nth l (rootsOf ex) 0%nat)) -> In i (chain t (nth l' (rootsOf ex) 0%nat)) -> l = l'.
Proof using T P0.
  intros N L L' H H'. destruct (roots_P ex _ (nth_In _ 0%nat L)) as [P1 P2]. destruct (roots_P ex _ (nth_In _ 0%nat L')) as [P1' P2'].
  assert (E := chain_disj t _ _ _ _ T P1 P1' P2 P2' (chain_ok t _ T P1) (chain_ok t _ T P1') i H H').
  rewrite <- (pos_nth (rootsOf ex) l (roots_nodup ex N) L), <- (pos_nth (rootsOf ex) l' (roots_nodup ex N) L'). congruence.
Qed.
Lemma exOf_mono ex ex' proc : (forall l a, In (l, a) proc -> (l < length (rootsOf ex))%nat) -> exOf (ex ++ ex') proc = exOf ex proc.
Proof using.
  intro H. unfold exOf. induction proc as [|[l a] proc IH]; [reflexivity|]. cbn [flat_map fst snd]. rewrite IH by (intros; eapply H; right; eauto). f_equal.
  rewrite roots_app, app_nth1; [reflexivity|]. apply (H l a). left; auto.
Qed.
Lemma Wof_no ex (proc : list (loc * letter)) (l : loc) (a : letter) : ~ In (l, a) proc -> Wof ex proc l a = [].
Proof using. intro H. unfold Wof. destruct (memP (l, a) proc) eqn:M; [|reflexivity]. apply memP_in in M. contradiction. Qed.
Lemma Wof_yes ex (proc : list (loc * letter)) (l : loc) (a : letter) : In (l, a) proc -> Wof ex proc l a = map (fun e => internalT (snd e) (fst e)) (ordI (srcs (rootsOf ex) a (chain t (nth l (rootsOf ex) 0%nat)))).
Proof using. intro H. unfold Wof. apply memP_in in H. rewrite H. reflexivity. Qed.
Lemma Wof_mono ex ex' (proc : list (loc * letter)) (l : loc) (a : letter) : (forall (l : loc) (a : letter), In (l, a) proc -> (l < length (rootsOf ex))%nat) -> (forall c, In (l, a) proc -> In c (chain t (nth l (rootsOf ex) 0%nat)) -> In (c, a) ex) ->
  Wof (ex ++ ex') proc l a = Wof ex proc l a.
Proof using.
  intros L H. unfold Wof. destruct (memP (l, a) proc) eqn:M; [|reflexivity]. apply memP_in in M. rewrite roots_app, app_nth1 by (apply (L l a); auto). rewrite srcs_mono; [reflexivity|].
  intros c d Hc Hd. right. apply in_flat_map. exists (c, a). auto.
Qed.
Lemma binv_step ex proc b l a : binv ex proc b -> (l < length (rootsOf ex))%nat -> In a (otAlpha t) -> ~ In (l, a) proc ->
  let is := chain t (nth l (rootsOf ex) 0%nat) in let ex' := ex ++ map (fun i => (i, a)) is in
  exists b1, exploreIdxs t a b [] is = Ok (b1, srcs (rootsOf ex') a is) /\
    binv ex' (proc ++ [(l, a)]) (mkB (fold_left (fun h e => hPush h l a (internalT (snd e) (fst e))) (ordI (srcs (rootsOf ex') a is)) (bH b1)) (bQ b1) (bBd b1)) /\
    bQ b1 = bQ b ++ seq (length (rootsOf ex)) (length (rootsOf ex') - length (rootsOf ex)).
Proof using T MS P0.
  intros [B E Nx L] Hl Ha Np is ex'. destruct (roots_P ex _ (nth_In _ 0%nat Hl)) as [P1 P2]. assert (CO := chain_ok t _ T P1).
  assert (NI : NoDup is) by (apply (chain_nodup t _ _ T CO)).
  assert (Fr : forall i, In i is -> ~ In (i, a) ex).
  { intros i Hi K. rewrite E in K. apply exOf_in in K. destruct K as (l' & K1 & K2). assert (l = l') by (apply (same_state ex l l' i); auto; apply (L l' a); auto). subst l'. contradiction. }
  assert (Wz : forall k c, (length (rootsOf ex) <= k)%nat -> Wof ex proc k c = []).
  { intros k c Hk. apply Wof_no. intro M. apply L in M. lia. }
  destruct (exploreIdxs_ok a is ex (Wof ex proc) b [] B Wz NI Fr) as (b1 & E1 & B1 & Q1). cbn [app] in E1. fold ex' in E1, B1, Q1.
  assert (RA : rootsOf ex' = rootsOf ex ++ flat_map dsucc (map (fun i => (i, a)) is)) by apply roots_app.
  exists b1. split; [exact E1|]. split; [|rewrite Q1, RA, app_length; f_equal; f_equal; lia].
  assert (L' : forall k c, In (k, c) (proc ++ [(l, a)]) -> (k < length (rootsOf ex'))%nat /\ In c (otAlpha t)).
  { intros k c K. rewrite RA, app_length. apply in_app_or in K. destruct K as [K|[K|[]]]; [apply L in K; destruct K; split; [lia|auto]|]. injection K as <- <-. split; [lia|auto]. }
  constructor; cbn [bH bQ bBd].
  - destruct (hPushes (fun e : loc * tcond => internalT (snd e) (fst e)) l a (ordI (srcs (rootsOf ex') a is)) (bH b1)) as (H1 & H2 & H3).
    destruct B1 as [C1 C2 C3 C4]. constructor; cbn [bH bBd].
    + exact C1.
    + rewrite H1. apply (stRep_pushes (otAlpha t) (fun e : loc * tcond => internalT (snd e) (fst e)) l a (ordI (srcs (rootsOf ex') a is))) in C2; [|rewrite RA, app_length; lia|auto].
      refine (stRep_ext _ _ _ _ _ _ _ _ _ C2); [auto|]. intros k c Hk. unfold updW.
      assert (W0 : Wof ex proc l a = []) by (apply Wof_no; auto).
      rewrite W0. cbn [app]. destruct ((k =? l) && (c =? a))%nat eqn:K.
      * apply andb_true_iff in K. destruct K as [K1 K2]. apply Nat.eqb_eq in K1. apply Nat.eqb_eq in K2. subst k c. rewrite Wof_yes by (apply in_or_app; right; left; auto). rewrite RA, app_nth1 by auto. rewrite <- RA. reflexivity.
      * transitivity (Wof ex' proc k c).
        { symmetry. apply Wof_mono; [intros k' c' K'; apply (L k' c'); auto|]. intros c' K1 K2. rewrite E. apply exOf_in. exists k. auto. }
        destruct (memP (k, c) proc) eqn:M.
        { apply memP_in in M. rewrite !Wof_yes; [reflexivity|apply in_or_app; auto|auto]. }
        assert (M' : ~ In (k, c) proc) by (intro X; apply memP_in in X; congruence). rewrite !Wof_no; [reflexivity| |auto]. intro X. apply in_app_or in X. destruct X as [X|[X|[]]]; [contradiction|].
        injection X as -> ->. rewrite !Nat.eqb_refl in K. discriminate.
    + rewrite H3. exact C3.
    + intros i k. unfold toState. rewrite H2. apply C4.
  - transitivity (exOf ex proc ++ map (fun i => (i, a)) is); [rewrite <- E; reflexivity|]. unfold exOf at 2. rewrite flat_map_app. cbn [flat_map fst snd]. rewrite app_nil_r. f_equal.
    + symmetry. apply exOf_mono. intros k c K. apply (L k c); auto.
    + rewrite RA, app_nth1 by auto. reflexivity.
  - assert (NM : NoDup (map (fun c => (c, a)) is)) by (apply FinFun.Injective_map_NoDup; auto; intros x y Exy; injection Exy; auto).
    unfold ex'. apply nodup_app; auto. intros x H1 H2. apply in_map_iff in H2. destruct H2 as (j & <- & H2). apply (Fr j); auto.
  - exact L'.
Qed.
Lemma exploreActs_ok l : forall acts ex proc b, binv ex proc b -> (l < length (rootsOf ex))%nat -> NoDup acts -> (forall a, In a acts -> In a (otAlpha t) /\ ~ In (l, a) proc) ->
  exists ex' x b', exploreActs ordI t l (chain t (nth l (rootsOf ex) 0%nat)) b acts = Ok b' /\ ex' = ex ++ x /\ binv ex' (proc ++ map (pair l) acts) b' /\
    bQ b' = bQ b ++ seq (length (rootsOf ex)) (length (rootsOf ex') - length (rootsOf ex)).
Proof using T MS P0.
  induction acts as [|a acts IH]; intros ex proc b B Hl Nd Ha.
  - exists ex, [], b. rewrite Nat.sub_diag. cbn [map seq exploreActs]. rewrite !app_nil_r. auto.
  - inversion Nd as [|? ? N1 N2]; subst. destruct (Ha a (or_introl eq_refl)) as [A1 A2]. destruct (binv_step ex proc b l a B Hl A1 A2) as (b1 & E1 & B1 & Q1). cbv zeta in E1, B1, Q1.
    set (is := chain t (nth l (rootsOf ex) 0%nat)) in *. set (ex1 := ex ++ map (fun i => (i, a)) is) in *.
    assert (RA : rootsOf ex1 = rootsOf ex ++ flat_map dsucc (map (fun i => (i, a)) is)) by apply roots_app.
    assert (L1 : (length (rootsOf ex) <= length (rootsOf ex1))%nat) by (rewrite RA, app_length; lia).
    destruct (IH ex1 (proc ++ [(l, a)]) _ B1) as (ex2 & x & b2 & E2 & X2 & B2 & Q2); auto; [lia| |].
    { intros c Hc. destruct (Ha c (or_intror Hc)) as [C1 C2]. split; [auto|]. intro K. apply in_app_or in K. destruct K as [K|[K|[]]]; [contradiction|]. injection K as <-. contradiction. }
    exists ex2, (map (fun i => (i, a)) is ++ x), b2. cbn [exploreActs]. fold is. rewrite E1. cbn [bind].
    assert (NE : nth l (rootsOf ex1) 0%nat = nth l (rootsOf ex) 0%nat) by (rewrite RA, app_nth1; auto). rewrite NE in E2. fold is in E2. split; [exact E2|]. split; [rewrite X2; unfold ex1; rewrite <- app_assoc; reflexivity|].
    split; [rewrite <- app_assoc in B2; exact B2|]. rewrite Q2. cbn [bQ]. rewrite Q1, <- app_assoc. f_equal.
    assert (L2 : (length (rootsOf ex1) <= length (rootsOf ex2))%nat) by (rewrite X2, roots_app, app_length; lia).
    replace (length (rootsOf ex2) - length (rootsOf ex))%nat with ((length (rootsOf ex1) - length (rootsOf ex)) + (length (rootsOf ex2) - length (rootsOf ex1)))%nat by lia. rewrite seq_app. f_equal. f_equal. lia.
Qed.
Definition allProc (n : nat) : list (loc * letter) := flat_map (fun l => map (pair l) (otAlpha t)) (seq 0 n).
Lemma allProc_in n l a : In (l, a) (allProc n) <-> (l < n)%nat /\ In a (otAlpha t).
Proof using.
  unfold allProc. rewrite in_flat_map. split.
  - intros (k & H1 & H2). apply in_seq in H1. apply in_map_iff in H2. destruct H2 as (c & E & H2). injection E as <- <-. split; [lia|auto].
  - intros [H1 H2]. exists l. split; [apply in_seq; lia|]. apply in_map. auto.
Qed.
Lemma explore_ok : forall n ex m b, binv ex (allProc m) b -> (m <= length (rootsOf ex))%nat -> bQ b = seq m (length (rootsOf ex) - m) -> (length (otPre t) <= n + m)%nat ->
  exists ex' b', explore ordI n t b = Ok b' /\ binv ex' (allProc (length (rootsOf ex'))) b'.
Proof using T MS P0 ND.
  induction n as [|n IH]; intros ex m b B Hm Q F.
  - assert (L := roots_len ex (i_ndex _ _ _ B)). assert (m = length (rootsOf ex)) by lia. subst m. rewrite Nat.sub_diag in Q. exists ex, b. cbn [explore]. rewrite Q. split; [reflexivity|exact B].
  - cbn [explore]. rewrite Q. destruct (length (rootsOf ex) - m)%nat as [|k] eqn:K; cbn [seq].
    + assert (m = length (rootsOf ex)) by lia. subst m. exists ex, b. split; [reflexivity|exact B].
    + assert (Hl : (m < length (rootsOf ex))%nat) by lia.
      assert (TI : toIndices (bH b) m = chain t (nth m (rootsOf ex) 0%nat)).
      { unfold toIndices. rewrite (b_idx _ _ _ (i_base _ _ _ B)). exact (flatIdx (fun l => chain t (nth l (rootsOf ex) 0%nat)) _ m Hl). }
      rewrite TI.
      assert (B' : binv ex (allProc m) (mkB (bH b) (seq (S m) k) (bBd b))) by (destruct B as [[C1 C2 C3 C4] B2 B3 B4]; constructor; auto; constructor; auto).
      destruct (exploreActs_ok m (otAlpha t) ex (allProc m) _ B' Hl ND) as (ex1 & x & b1 & E1 & X1 & B1 & Q1).
      { intros a Ha. split; [auto|]. intro I. apply allProc_in in I. lia. }
      rewrite E1. cbn [bind]. assert (RA : rootsOf ex1 = rootsOf ex ++ flat_map dsucc x) by (rewrite X1; apply roots_app). assert (L1 : (length (rootsOf ex) <= length (rootsOf ex1))%nat) by (rewrite RA, app_length; lia).
      assert (AP : allProc m ++ map (pair m) (otAlpha t) = allProc (S m)) by (unfold allProc; rewrite seq_S, flat_map_app; cbn [flat_map plus]; rewrite app_nil_r; reflexivity).
      rewrite AP in B1. apply (IH ex1 (S m) b1 B1); [lia| |lia]. rewrite Q1. cbn [bQ].
      replace (length (rootsOf ex1) - S m)%nat with (k + (length (rootsOf ex1) - length (rootsOf ex)))%nat by lia. rewrite seq_app. f_equal. f_equal. lia.
Qed.
Lemma explored : exists ex b, (do h1 <- mergeCont (length (otPre t)) t (fst (addState t hEmpty 0%nat)) 0%nat 0%nat; explore ordI (S (length (otPre t))) t (mkB h1 [0%nat] [])) = Ok b /\
  binv ex (allProc (length (rootsOf ex))) b.
Proof using T MS P0 ND.
  assert (M := newState_ok hEmpty 0 P0). cbn [hSt hEmpty length] in M. rewrite M. cbn [bind].
  assert (B : binv [] (allProc 0) (mkB (newState hEmpty 0) [0%nat] [])).
  { constructor; [|reflexivity|constructor|intros l a []]. unfold newState, hEmpty. cbn [hSt hMap hIdx length app]. destruct (hAdds_idx 0%nat (chain t 0%nat) (mkH [(0%nat, mkS (isMatch t 0) [])] [] [])) as [S1 S2].
    constructor; cbn [bH bBd].
    - reflexivity.
    - rewrite S1. cbn [hSt rootsOf flat_map length]. exists (fun _ => []). split; [reflexivity|]. intros l Hl. split; [constructor|]. split; [intros ? []|]. intro a. reflexivity.
    - rewrite S2. cbn [hIdx app rootsOf flat_map length seq nth]. rewrite app_nil_r. reflexivity.
    - intros i l. rewrite hAdds_map. cbn [rootsOf flat_map length]. destruct (existsb (Nat.eqb i) (chain t 0)) eqn:X.
      + apply existsb_in in X. split; [intro E; injection E as <-; split; [lia|exact X]|]. intros [H _]. f_equal. lia.
      + split; [discriminate|]. intros [H1 H2]. assert (l = 0)%nat by lia. subst l. unfold rootsOf in H2. cbn [nth] in H2. apply existsb_in in H2. congruence. }
  apply (explore_ok _ [] 0 _ B); cbn; lia || reflexivity.
Qed.
End Bfs.
