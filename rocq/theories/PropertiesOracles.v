(** Properties of the oracles and of the learner's main loop: C29, C30, C31,
    C32. *)
From Coq Require Import QArith ZArith Bool List Arith Lia Lqa.
From Verif Require Import BoundsModel ConstraintModel GuardSpec ZoneModel AutomatonModel AutomatonSpec TimedWordModel TimedWordSpec OracleModel OracleSpec.
From Verif Require Import AutomatonProofs AutomatonProofs2 TimedWordProofs OracleProofs OracleProofs2 PropertiesAutomata.
Import ListNotations.
Open Scope Q_scope.
Arguments mkT _%nat_scope _ _.

(** *** C29 *)
(** [o] answers like the function [f] in all its states satisfying [Inv], on
    all words satisfying [Good]: then so does the cache, whatever was asked
    before. *)
Theorem C29_cache_transparent :
  forall (St : Type) (o : mOracle St) (f : tword -> bool) (Inv : St -> Prop) (Good : tword -> Prop),
    (forall s x, Inv s -> Good x -> exists s', o s x = Some (s', f x) /\ Inv s') ->
    (forall x y, Good x -> Good y -> sameTW x y -> f x = f y) ->
  forall s0 xs, Inv s0 -> (forall x, In x xs -> Good x) ->
    exists c, askAll (cacheAnswer o) (newCache s0) xs = Some (c, map f xs).
Proof.
  intros St o f Inv Good Ho Hf s0 xs Hs Hg.
  destruct (cache_total o f Inv Good Ho xs (newCache s0) Hs Hg) as (c & bs & E).
  destruct (cache_run o xs _ _ _ E) as (asked & abs & H1 & H2 & H3 & H4 & H5 & H6 & H7 & H8 & H9). cbn [newCache cOracle cMap] in *.
  exists c. rewrite E. f_equal. f_equal. apply combine_eq_map; auto. intros x b I.
  assert (Gx : Good x) by (apply Hg; apply in_combine_l in I; exact I).
  apply H6, findTW_some in I. destruct I as (y & I & Ey). apply H3 in I. destruct I as [[]|I].
  assert (Ga : forall y, In y asked -> Good y) by (intros z K; apply Hg, H7, K).
  destruct (askAll_f o f Inv Good Ho asked s0 Hs Ga) as (s1 & E1 & _). rewrite E1 in H1. injection H1 as _ <-.
  assert (Iy : In y asked) by (apply in_combine_l in I; exact I).
  apply combine_map_in in I. rewrite I. apply Hf; auto.
Qed.
Print Assumptions C29_cache_transparent.

(** For every underlying oracle and every history: the underlying oracle was
    asked exactly one representative of each distinct word, in one go, and the
    uncached counter counts all queries. *)
Theorem C29_cache_asks_once :
  forall (St : Type) (o : mOracle St) (s0 : St) (xs : list tword) c bs,
    askAll (cacheAnswer o) (newCache s0) xs = Some (c, bs) ->
    exists asked abs, askAll o s0 asked = Some (cOracle c, abs) /\
      allDistinct asked /\ (forall x, In x asked -> In x xs) /\ (forall x, In x xs -> exists y, In y asked /\ sameTW y x) /\
      cNoCache c = length xs.
Proof.
  intros St o s0 xs c bs E. destruct (cache_run o xs _ _ _ E) as (asked & abs & H1 & H2 & H3 & H4 & H5 & H6 & H7 & H8 & H9). cbn [newCache cOracle cMap cNoCache] in *.
  exists asked, abs. split; auto. split; auto. split; auto. split; auto.
  intros x I. assert (K : exists b, In (x, b) (combine xs bs)).
  { clear -I H5. revert bs H5. induction xs as [|z xs IH]; intros bs L; [destruct I|]. destruct bs as [|b bs]; [discriminate|].
    destruct I as [->|I]; [exists b; left; reflexivity|]. destruct (IH I bs) as (b' & K); [cbn in L; lia|]. exists b'. right; auto. }
  destruct K as (b & K). apply H6, findTW_some in K. destruct K as (y & K & Ey). apply H3 in K. destruct K as [[]|K].
  exists y. split; auto. apply in_combine_l in K. exact K.
Qed.
Print Assumptions C29_cache_asks_once.

(** even an unreliable oracle gets consistent answers through the cache *)
Theorem C29_cache_consistent :
  forall (St : Type) (o : mOracle St) (s0 : St) (xs : list tword) c bs x y a b,
    askAll (cacheAnswer o) (newCache s0) xs = Some (c, bs) ->
    In (x, a) (combine xs bs) -> In (y, b) (combine xs bs) -> sameTW x y -> a = b.
Proof.
  intros St o s0 xs c bs x y a b E Hx Hy Exy. destruct (cache_run o xs _ _ _ E) as (asked & abs & H1 & H2 & H3 & H4 & H5 & H6 & _).
  apply H6 in Hx. apply H6 in Hy. rewrite (findTW_congr _ x y Exy) in Hx. congruence.
Qed.
Print Assumptions C29_cache_consistent.

(** the runner of a deterministic automaton behind the cache: every answer is
    acceptance, and the number of queries executed on the automaton is the
    number of distinct words *)
Lemma plain_answer fuel A r x : plainDTA A -> rta r = A -> wfTW x -> nonnegTW x ->
  exists r' b, sulAnswer fuel r x = Some (r', b) /\ rta r' = A /\ rnum r' = S (rnum r) /\ (b = true <-> acceptsTW A x).
Proof.
  intros (W & NS & NR & DT & l0 & Ei) E Wx Nx. unfold sulAnswer. apply (C27_runner_exact A fuel W NS NR DT r (firstDur x) (events x) l0 E Ei).
  - destruct (cons_wf x Wx) as (q & d & Ed & _). unfold firstDur. rewrite Ed. cbn. apply Nx. rewrite Ed. left; reflexivity.
  - intros a d I. unfold events in I. apply in_combine_r in I. apply Nx. destruct (td x); [destruct I|right; exact I].
Qed.
Theorem C29_cached_automaton :
  forall (fuel : nat) (A : ta) (xs : list tword), plainDTA A -> (forall x, In x xs -> wfTW x /\ nonnegTW x) ->
  exists c bs, askAll (cacheAnswer (sulAnswer fuel)) (newCache (mkRunner A)) xs = Some (c, bs) /\
    length bs = length xs /\ (forall x b, In (x, b) (combine xs bs) -> (b = true <-> acceptsTW A x)) /\
    exists distinct, allDistinct distinct /\ (forall x, In x distinct -> In x xs) /\
      (forall x, In x xs -> exists y, In y distinct /\ sameTW y x) /\ rnum (cOracle c) = length distinct.
Proof.
  intros fuel A xs P Hg.
  set (f := fun x => match sulAnswer fuel (mkRunner A) x with Some (_, b) => b | None => false end).
  assert (Hf : forall x, wfTW x /\ nonnegTW x -> (f x = true <-> acceptsTW A x)).
  { intros x [H1 H2]. destruct (plain_answer fuel A (mkRunner A) x P eq_refl H1 H2) as (r' & b & E & _ & _ & K). unfold f. rewrite E. exact K. }
  assert (Ho : forall s x, rta s = A -> wfTW x /\ nonnegTW x -> exists s', sulAnswer fuel s x = Some (s', f x) /\ rta s' = A).
  { intros s x Es G. destruct (plain_answer fuel A s x P Es (proj1 G) (proj2 G)) as (r' & b & E & Er & _ & K). exists r'. split; [|auto]. rewrite E. f_equal. f_equal.
    specialize (Hf x G). destruct b, (f x); auto; [symmetry; apply Hf, K; reflexivity|apply K, Hf; reflexivity]. }
  assert (Hq : forall x y, wfTW x /\ nonnegTW x -> wfTW y /\ nonnegTW y -> sameTW x y -> f x = f y).
  { intros x y Gx Gy E. assert (Fx := Hf x Gx). assert (Fy := Hf y Gy). destruct (f x), (f y); auto.
    - symmetry. apply Fy, (acceptsTW_Q A x y E), Fx. reflexivity.
    - apply Fx, (acceptsTW_Q A y x (sameTW_sym _ _ E)), Fy. reflexivity. }
  destruct (C29_cache_transparent runner (sulAnswer fuel) f (fun s => rta s = A) (fun x => wfTW x /\ nonnegTW x) Ho Hq (mkRunner A) xs eq_refl Hg) as (c & E).
  exists c, (map f xs). split; auto. split; [apply map_length|]. split.
  - intros x b I. assert (G := Hg x (in_combine_l _ _ _ _ I)). apply combine_map_in in I. subst b. apply Hf, G.
  - destruct (C29_cache_asks_once runner (sulAnswer fuel) (mkRunner A) xs c (map f xs) E) as (asked & abs & H1 & H2 & H3 & H4 & _).
    exists asked. split; auto. split; auto. split; auto.
    assert (R : forall l s s' bs, rta s = A -> (forall x, In x l -> wfTW x /\ nonnegTW x) -> askAll (sulAnswer fuel) s l = Some (s', bs) -> rnum s' = (rnum s + length l)%nat).
    { clear -P. induction l as [|x l IH]; intros s s' bs Es G H; cbn [askAll] in H; [injection H as <- <-; cbn; lia|].
      destruct (plain_answer fuel A s x P Es) as (r' & b & E & Er & En & _); [apply G; left; reflexivity|apply G; left; reflexivity|].
      rewrite E in H. destruct (askAll (sulAnswer fuel) r' l) as [[s1 bs1]|] eqn:F; [|discriminate]. injection H as <- <-.
      rewrite (IH r' s1 bs1 Er (fun y I => G y (or_intror I)) F), En. cbn. lia. }
    rewrite (R asked (mkRunner A) (cOracle c) abs eq_refl (fun x I => Hg x (H3 x I)) H1). reflexivity.
Qed.
Print Assumptions C29_cached_automaton.

Lemma exA_plain : plainDTA exA.
Proof. destruct exA_ok as (H1 & H2 & H3 & H4 & H5 & H6). split; auto. split; auto. split; auto. split; auto. exists 1%nat. reflexivity. Qed.
Definition exQ1 := mkTW [1%nat] [2; 1].
Definition exQ2 := mkTW [1%nat] [2 # 1; 2 # 2].
Definition exQ3 := mkTW [1%nat; 1%nat] [2; 1 # 2; 0].
Example C29_meets : plainDTA exA /\ (forall x, In x [exQ1; exQ2; exQ3; exQ1] -> wfTW x /\ nonnegTW x) /\
  option_map snd (askAll (cacheAnswer (sulAnswer 0)) (newCache (mkRunner exA)) [exQ1; exQ2; exQ3; exQ1]) = Some [true; true; false; true] /\
  option_map (fun p => rnum (cOracle (fst p))) (askAll (cacheAnswer (sulAnswer 0)) (newCache (mkRunner exA)) [exQ1; exQ2; exQ3; exQ1]) = Some 2%nat.
Proof.
  split; [apply exA_plain|]. split; [|split; vm_compute; reflexivity].
  intros x [<-|[<-|[<-|[<-|[]]]]]; (split; [reflexivity|]); intros q I; cbn in I; repeat (destruct I as [<-|I]; [discriminate|]); destruct I.
Qed.

(** *** C30 *)
(** the test oracle, on the answers of fresh runners *)
Theorem C30_byTest_exact :
  forall (fuel : nat) (s : byTest) (H : ta) s' res, (forall x, In x (btWords s) -> goodTW x) ->
    byTestFind fuel s H = Some (s', res) ->
    match res with
    | Some x => goodTW x /\ differ fuel (btTarget s) H x /\ exists y, In y (btWords s) /\ prefixTW x y /\ forall q, In q (td x) -> q = 0 \/ In q (td y)
    | None => forall x, In x (btWords s) -> agree fuel (btTarget s) H x
    end.
Proof. intros fuel s H s' res Hg E. destruct (byTest_spec fuel s H s' res Hg E) as (_ & _ & _ & K). destruct res; tauto. Qed.
Print Assumptions C30_byTest_exact.

(** for automata whose runner decides acceptance, in terms of the languages;
    the oracle always answers *)
Lemma plain_says fuel A x b : plainDTA A -> wfTW x -> nonnegTW x -> says fuel A x b -> (b = true <-> acceptsTW A x).
Proof.
  intros P W N (r & E). destruct (plain_answer fuel A (mkRunner A) x P eq_refl W N) as (r' & b' & E' & _ & _ & K).
  unfold sulAnswer in E'. rewrite E in E'. injection E' as _ <-. exact K.
Qed.
Theorem C30_byTest_language :
  forall (fuel : nat) (s : byTest) (H : ta) s' res, plainDTA (btTarget s) -> plainDTA H ->
    (forall x, In x (btWords s) -> goodTW x /\ nonnegTW x) ->
    byTestFind fuel s H = Some (s', res) ->
    match res with
    | Some x => nonnegTW x /\ ((acceptsTW (btTarget s) x /\ ~ acceptsTW H x) \/ (~ acceptsTW (btTarget s) x /\ acceptsTW H x))
    | None => forall x, In x (btWords s) -> (acceptsTW (btTarget s) x <-> acceptsTW H x)
    end.
Proof.
  intros fuel s H s' res PT PH Hg E. assert (K := C30_byTest_exact fuel s H s' res (fun x I => proj1 (Hg x I)) E). destruct res as [x|].
  - destruct K as ([Wx Nx] & (a & b & Sa & Sb & Ne) & y & Iy & _ & Dy). assert (Nn : nonnegTW x) by (intros q I; destruct (Dy q I) as [->|K]; [discriminate|apply (proj2 (Hg y Iy)), K]). split; [exact Nn|]. assert (Ka := plain_says _ _ _ _ PT Wx Nn Sa). assert (Kb := plain_says _ _ _ _ PH Wx Nn Sb).
    destruct a, b; try congruence; [left|right]; split; try (apply Ka; reflexivity); try (apply Kb; reflexivity); intro F; [apply Kb in F|apply Ka in F]; discriminate.
  - intros x I. destruct (Hg x I) as ([Wx Nx] & Nn). destruct (K x I) as (b & Sa & Sb). assert (Ka := plain_says _ _ _ _ PT Wx Nn Sa). assert (Kb := plain_says _ _ _ _ PH Wx Nn Sb). tauto.
Qed.
Print Assumptions C30_byTest_language.

(** the random oracle, for every outcome of its random choices *)
Theorem C30_random_exact :
  forall (fuel : nat) (target H : ta) (tests : list (list (Q * letter) * Q)) res,
    (forall t q a, In t tests -> In (q, a) (fst t) -> a <> UNOBSERVABLE) ->
    randomFind fuel target H tests = Some res ->
    match res with
    | Some x => goodTW x /\ differ fuel target H x
    | None => forall steps q, In (steps, q) tests -> agree fuel target H (mkTW (map snd steps) (map fst steps ++ [q]))
    end.
Proof.
  intros fuel target H tests res Hg E. unfold randomFind in E. rewrite randTests_words in E; auto.
  assert (K := testWords_spec fuel (map testWord tests) (mkRunner target) (mkRunner H) res).
  assert (G : forall x, In x (map testWord tests) -> goodTW x).
  { intros x I. apply in_map_iff in I. destruct I as (t & <- & I). apply testWord_good. intros q a. apply Hg; auto. }
  specialize (K G E). destruct res as [x|]; [cbn [rta mkRunner] in K; tauto|].
  intros steps q I. apply (K (testWord (steps, q))). apply in_map, I.
Qed.
Print Assumptions C30_random_exact.

(** a hypothesis that differs from [exA] in the bound of its first transition *)
Definition exH : ta := mkTA
  [ (1%nat, mkS false [ (1%nat, [ mkT 2 [(0%nat, RConst 0)] [mkC 0 Ole 2] ]) ]);
    (2%nat, mkS true  [ (2%nat, [ mkT 2 [] [] ]) ]) ] [1%nat] [2%Z].
Definition exBT : byTest := mkByTest [mkTW [1%nat] [1; 1]; mkTW [1%nat; 1%nat; 1%nat] [5 # 2; 0; 1; 7]] exA 0.
Example C30_meets : (forall x, In x (btWords exBT) -> goodTW x /\ nonnegTW x) /\ plainDTA exH /\
  option_map snd (byTestFind 0 exBT exH) = Some (Some (mkTW [1%nat] [5 # 2; 0])) /\
  option_map snd (byTestFind 0 exBT exA) = Some None /\
  randomFind 0 exA exH [([(1, 1%nat)], 3); ([(5 # 2, 1%nat); (1, 2%nat)], 0)] = Some (Some (mkTW [1%nat] [5 # 2; 0])).
Proof.
  split; [|split].
  - intros x [<-|[<-|[]]]; (split; [split; [reflexivity|cbn; intuition discriminate]|]); intros q I; cbn in I; repeat (destruct I as [<-|I]; [discriminate|]); destruct I.
  - split; [apply wfb_ok; reflexivity|]. split; [apply noSilentb_ok; reflexivity|]. split; [apply nnResetsb_ok; reflexivity|].
    split; [apply deterministic_exact; [apply smallb_ok; reflexivity|reflexivity]|]. exists 1%nat. reflexivity.
  - split; [|split]; vm_compute; reflexivity.
Qed.

(** *** C31 *)
(** the memoizing oracle over a sound oracle, on every history of hypotheses *)
Theorem C31_memo_history :
  forall (St : Type) (fuel : nat) (A : ta) (o : eOracle St) (s0 : St) (hs : list ta) m rs,
    soundFor fuel A o -> findAll (memoFind fuel o) (newMemo s0 A) hs = Some (m, rs) ->
    length rs = length hs /\ mCount m = length hs /\
    (forall h x, In (h, Some x) (combine hs rs) -> goodTW x /\ differ fuel A h x) /\
    (forall h, In (h, None) (combine hs rs) -> exists s s', o s h = Some (s', None)) /\
    (forall x, In x (btWords (mTest m)) -> In (Some x) rs).
Proof.
  intros St fuel A o s0 hs m rs So E.
  assert (M0 : memoOK A (newMemo s0 A)) by (split; [reflexivity|intros x []]).
  destruct (memo_history fuel A o So hs _ _ _ M0 E) as (H1 & H2 & H3 & (more & W & I) & H4 & H5).
  split; auto. split; auto. split; [intros h x K; destruct (H4 h x K) as (K1 & K2 & _); auto|]. split; auto.
  intros x K. rewrite W in K. apply I, K.
Qed.
Print Assumptions C31_memo_history.

(** the next answer after a history: a counterexample is genuine; "none" means
    the wrapped oracle said so now, and all remembered words agree *)
Theorem C31_memo_next :
  forall (St : Type) (fuel : nat) (A : ta) (o : eOracle St) (s0 : St) (hs : list ta) m rs h m' r,
    soundFor fuel A o -> findAll (memoFind fuel o) (newMemo s0 A) hs = Some (m, rs) ->
    memoFind fuel o m h = Some (m', r) ->
    match r with
    | Some x => goodTW x /\ differ fuel A h x
    | None => o (mOrac m) h = Some (mOrac m', None) /\ forall y, In y (btWords (mTest m)) -> agree fuel A h y
    end.
Proof.
  intros St fuel A o s0 hs m rs h m' r So E F.
  assert (M0 : memoOK A (newMemo s0 A)) by (split; [reflexivity|intros x []]).
  destruct (memo_history fuel A o So hs _ _ _ M0 E) as (H1 & _). destruct (memo_step fuel A o So m h m' r H1 F) as (_ & _ & K). destruct r; tauto.
Qed.
Print Assumptions C31_memo_next.

(** a hypothesis refuted once is refuted again without asking the wrapped
    oracle *)
Theorem C31_memo_no_second_ask :
  forall (St : Type) (fuel : nat) (A : ta) (o : eOracle St) (s0 : St) (hs : list ta) m rs h x m' r,
    soundFor fuel A o -> findAll (memoFind fuel o) (newMemo s0 A) hs = Some (m, rs) ->
    In (h, Some x) (combine hs rs) -> memoFind fuel o m h = Some (m', r) ->
    (exists y, r = Some y /\ goodTW y /\ differ fuel A h y) /\ mOrac m' = mOrac m /\ btWords (mTest m') = btWords (mTest m).
Proof.
  intros St fuel A o s0 hs m rs h x m' r So E I F.
  assert (M0 : memoOK A (newMemo s0 A)) by (split; [reflexivity|intros ? []]).
  destruct (memo_history fuel A o So hs _ _ _ M0 E) as (H1 & _ & _ & _ & H4 & _). destruct (H4 h x I) as (_ & _ & NT).
  destruct (memo_step fuel A o So m h m' r H1 F) as (_ & _ & K).
  assert (Z : forall t', byTestFind fuel (mTest m) h <> Some (t', None)).
  { intros t' B. apply NT. unfold byTestFind in B. destruct H1 as [T _]. rewrite T in B. destruct (testWords _ _ _ _); [injection B as _ ->; reflexivity|discriminate]. }
  unfold memoFind in F. destruct (byTestFind fuel (mTest m) h) as [[t' [y|]]|] eqn:B; [|exfalso; eapply Z; eauto|discriminate].
  injection F as <- <-. destruct K as (G & D & _). split; [exists y; auto|]. split; [reflexivity|]. cbn [mTest].
  destruct (byTest_spec fuel (mTest m) h t' (Some y) (proj2 H1) B) as (E1 & _). exact E1.
Qed.
Print Assumptions C31_memo_no_second_ask.

(** the chain answers with the first member that finds something; the later
    ones are not asked; none means every member said none *)
Theorem C31_chain :
  forall (St : Type) n (os : list (eOracle St * St)) (H : ta) s' res,
    chainFind (n, os) H = Some (s', res) ->
    fst s' = S n /\
    match res with
    | Some x => exists before o s t after before', os = before ++ (o, s) :: after /\ o s H = Some (t, Some x) /\
                  snd s' = before' ++ (o, t) :: after /\
                  Forall2 (fun p q => fst q = fst p /\ fst p (snd p) H = Some (snd q, None)) before before'
    | None => Forall2 (fun p q => fst q = fst p /\ fst p (snd p) H = Some (snd q, None)) os (snd s')
    end.
Proof.
  intros St n os H s' res E. unfold chainFind in E. cbn [fst snd] in E. destruct (chainLoop os H) as [[os' r]|] eqn:C; [|discriminate]. injection E as <- <-.
  split; [reflexivity|]. cbn [snd]. assert (K := chain_spec os H os' r C). exact K.
Qed.
Print Assumptions C31_chain.
Theorem C31_chain_sound :
  forall (St : Type) (fuel : nat) (A : ta) n (os : list (eOracle St * St)) (H : ta) s' x,
    (forall o s, In (o, s) os -> soundFor fuel A o) -> chainFind (n, os) H = Some (s', Some x) ->
    goodTW x /\ differ fuel A H x.
Proof.
  intros St fuel A n os H s' x So E. apply C31_chain in E. destruct E as (_ & be & o & s & t & af & be' & E & O & _).
  apply (So o s) in O; auto. rewrite E. apply in_or_app. right; left; reflexivity.
Qed.
Print Assumptions C31_chain_sound.

(** a sound oracle to wrap: it knows one word *)
Definition exO : eOracle nat := fun n h => match testWords 0 (mkRunner exA) (mkRunner h) [mkTW [1%nat] [5 # 2; 0]] with Some r => Some (S n, r) | None => None end.
Lemma exO_sound : soundFor 0 exA exO.
Proof.
  intros s h s' x E. unfold exO in E. destruct (testWords _ _ _ _) as [r|] eqn:T; [|discriminate]. injection E as _ ->.
  destruct (testWords_spec 0 [mkTW [1%nat] [5 # 2; 0]] (mkRunner exA) (mkRunner h) (Some x)) as (G & _ & D); auto.
  intros y [<-|[]]. split; [reflexivity|cbn; intuition discriminate].
Qed.
(** the wrapped oracle is asked for the first refutation of [exH] and for [exA]
    only *)
Example C31_meets : soundFor 0 exA exO /\
  exists m rs, findAll (memoFind 0 exO) (newMemo 0%nat exA) [exH; exH; exA] = Some (m, rs) /\
    rs = [Some (mkTW [1%nat] [5 # 2; 0]); Some (mkTW [1%nat] [5 # 2; 0]); None] /\ mOrac m = 2%nat /\ mCount m = 3%nat.
Proof. split; [apply exO_sound|]. eexists. eexists. split; [vm_compute; reflexivity|]. repeat split. Qed.

(** *** C32 *)
(** Whenever the learner returns, for every observation table implementation,
    every zone-based simplification and every oracle: the oracle found nothing
    wrong with the returned automaton, which is the simplification of the
    automaton generated from a table on which all four checks passed; and the
    earlier rounds are exactly the oracle's earlier answers. *)
Theorem C32_learner_returns_accepted :
  forall (Tb St : Type) (T : table Tb) (simplifyWithZones : ta -> ta) (o : eOracle St) (fuel : nat) t0 s0 t s h rounds,
    learn T simplifyWithZones o fuel t0 s0 = Some (t, s, h, rounds) ->
    (exists before, findAll o s0 (map fst rounds) = Some (before, map (fun p => Some (snd p)) rounds) /\ o before h = Some (s, None)) /\
    h = simplifyWithZones (taSimplifyStrong (tGenerate T t)) /\
    (exists u0 u1 u2 u3, tClose T u0 = Some (u1, true) /\ tConsistent T u1 = Some (u2, true) /\
       tExterior T u2 = Some (u3, true) /\ tTimeSat T u3 = Some (t, true)).
Proof.
  intros Tb St T swz o fuel t0 s0 t s h rounds H. destruct (learn_spec T swz o fuel _ _ _ _ _ _ H) as (H1 & H2 & H3).
  split; auto.
Qed.
Print Assumptions C32_learner_returns_accepted.

(** hence with an oracle that misses no difference, the learnt automaton has
    the target language *)
Theorem C32_learner_correct :
  forall (Tb St : Type) (T : table Tb) (simplifyWithZones : ta -> ta) (o : eOracle St) (target : ta) (fuel : nat) t0 s0 t s h rounds,
    (forall u h' u', o u h' = Some (u', None) -> sameLang h' target) ->
    learn T simplifyWithZones o fuel t0 s0 = Some (t, s, h, rounds) -> sameLang h target.
Proof.
  intros Tb St T swz o target fuel t0 s0 t s h rounds Ho H. destruct (learn_spec T swz o fuel _ _ _ _ _ _ H) as (_ & _ & sl & _ & K). eapply Ho; eauto.
Qed.
Print Assumptions C32_learner_correct.

(** with the memoizing oracle over a sound one, every word handed to the table
    distinguishes the hypothesis of its round from the target, and the
    returned automaton agrees with the target on all of them that came from
    the wrapped oracle *)
Theorem C32_learner_with_memo :
  forall (Tb St : Type) (T : table Tb) (simplifyWithZones : ta -> ta) (o : eOracle St) (target : ta) (fuel fuel' : nat) t0 s0 t m h rounds,
    soundFor fuel' target o ->
    learn T simplifyWithZones (memoFind fuel' o) fuel t0 (newMemo s0 target) = Some (t, m, h, rounds) ->
    (forall h' x, In (h', x) rounds -> goodTW x /\ differ fuel' target h' x) /\
    (forall x, In x (btWords (mTest m)) -> agree fuel' target h x) /\
    (exists s s', o s h = Some (s', None)).
Proof.
  intros Tb St T swz o target fuel fuel' t0 s0 t m h rounds So H. destruct (learn_spec T swz _ fuel _ _ _ _ _ _ H) as (_ & _ & sl & F & K).
  assert (M0 : memoOK target (newMemo s0 target)) by (split; [reflexivity|intros ? []]).
  destruct (memo_history fuel' target o So _ _ _ _ M0 F) as (H1 & _ & _ & _ & H4 & _).
  destruct (memo_step fuel' target o So sl h m None H1 K) as (_ & _ & K1 & K2 & K3). split; [|split].
  - intros h' x I. destruct (H4 h' x) as (G & D & _); [|auto]. clear -I. induction rounds as [|[h1 x1] rounds IH]; [destruct I|].
    destruct I as [E|I]; [injection E as -> ->; left; reflexivity|right; auto].
  - intros x I. apply K3. rewrite <- K2. exact I.
  - eauto.
Qed.
Print Assumptions C32_learner_with_memo.

(** a toy table that proposes [exH], then [exA] once it got a counterexample *)
Definition exT : table (list tword) := mkTable _ (fun t => Some (t, true)) (fun t => Some (t, true)) (fun t => Some (t, true)) (fun t => Some (t, true))
  (fun t => match t with [] => exH | _ => exA end) (fun t x => Some (x :: t)).
Example C32_meets : soundFor 0 exA exO /\
  exists t m h rounds, learn exT (fun A => A) (memoFind 0 exO) 3 [] (newMemo 0%nat exA) = Some (t, m, h, rounds) /\
    length rounds = 1%nat /\ h = taSimplifyStrong exA.
Proof. split; [apply exO_sound|]. do 4 eexists. split; [vm_compute; reflexivity|]. split; [reflexivity|vm_compute; reflexivity]. Qed.
