(** The construction of the hypothesis: what the breadth-first part leaves. *)
From Coq Require Import QArith ZArith Bool List Arith Lia Permutation Wf_nat.
From Verif Require Import BoundsModel ConstraintModel ZoneModel AutomatonModel AutomatonProofs TimedWordModel TimedConditionModel
  ElementaryModel RegionalModel OracleModel SymbolicModel CexModel RenamingModel TableModel TableProofs2 TableProofs3 HypothesisModel HypothesisBfs HypothesisBfs2.
Import ListNotations.

Section After.
Context {St : Type}.
Notation tbl := (ot St).
Context (t : tbl) (ordI : list (loc * tcond) -> list (loc * tcond)).
Context (T : tree t) (MS : timeStable t) (P0 : In 0%nat (otP t)) (ND : NoDup (otAlpha t)).
Context (OI : forall l, Permutation l (ordI l)).

(** the position of the chain of a row *)
Definition home (R : list nat) (i : nat) : loc :=
  match find (fun l => existsb (Nat.eqb i) (chain t (nth l R 0%nat))) (seq 0 (length R)) with Some l => l | None => 0%nat end.
(** the transition of one row for one letter *)
Definition TR (R : list nat) (c : nat) (a : letter) : trans :=
  match discAt t c a with
  | None => mkT 0%nat [] []
  | Some d => if inP t d then internalT (condAt t c) (home R d)
              else match chosen t d with
                   | Some (j, r) => externalT (condAt t c) (condAt t j) (eraseLeft r (tcSize (condAt t c))) (home R j)
                   | None => mkT 0%nat [] []
                   end
  end.
(** the transition of a row out of P, whose predecessor is [p] *)
Definition TX (R : list nat) (p c : nat) (a : letter) : trans :=
  mkT (ttgt (TR R p a)) (composition (trst (TR R p a)) (constResets (toValuation (condAt t p)))) (toGuard (removeUpperBound (condAt t c))).

Record roots (R : list nat) : Prop := {
  ro_hd : nth 0 R 0%nat = 0%nat /\ (0 < length R)%nat;
  ro_nd : NoDup R;
  ro_P : forall d, In d R -> In d (otP t) /\ isRoot t d;
  ro_all : forall d, In d (otP t) -> isRoot t d -> In d R }.

Lemma roots_same R l l' i : roots R -> (l < length R)%nat -> (l' < length R)%nat -> In i (chain t (nth l R 0%nat)) -> In i (chain t (nth l' R 0%nat)) -> l = l'.
Proof using T.
  intros H L L' I I'. destruct (ro_P R H _ (nth_In R 0%nat L)) as [P1 P2]. destruct (ro_P R H _ (nth_In R 0%nat L')) as [P1' P2'].
  assert (E := chain_disj t _ _ _ _ T P1 P1' P2 P2' (chain_ok t _ T P1) (chain_ok t _ T P1') i I I').
  apply (proj1 (NoDup_nth R 0%nat) (ro_nd R H)); auto.
Qed.
Lemma home_eq R l i : roots R -> (l < length R)%nat -> In i (chain t (nth l R 0%nat)) -> home R i = l.
Proof using T.
  intros H L I. unfold home. destruct (find _ _) as [k|] eqn:F.
  - apply find_some in F. destruct F as [F1 F2]. apply in_seq in F1. apply existsb_in in F2. apply (roots_same R k l i H); auto. lia.
  - exfalso. assert (K := find_none _ _ F l). rewrite in_seq in K. specialize (K ltac:(lia)). apply (proj2 (existsb_in i _)) in I. congruence.
Qed.
Lemma home_ok R i : roots R -> In i (otP t) -> (home R i < length R)%nat /\ In i (chain t (nth (home R i) R 0%nat)).
Proof using T.
  intros H Hi. destruct (chain_of t T i Hi) as (r & Pr & Rr & Ic). assert (Ir := ro_all R H r Pr Rr).
  destruct (pos_lt R r Ir) as [A B]. rewrite (home_eq R (pos R r) i H A); rewrite ?B; auto.
Qed.
Lemma home_root R l : roots R -> (l < length R)%nat -> home R (nth l R 0%nat) = l.
Proof using T. intros H L. apply home_eq; auto. destruct (ro_P R H _ (nth_In R 0%nat L)) as [P1 _]. apply chain_in_root; auto. Qed.
Lemma pos_home R d : roots R -> In d R -> pos R d = home R d.
Proof using T. intros H I. destruct (pos_lt R d I) as [A B]. symmetry. rewrite <- B at 1. apply home_root; auto. Qed.

(** the end of a chain *)
Lemma chain_end r l : isChain t r l -> In r (otP t) -> exists f p k, l = f ++ [p; k] /\ contAt t p = Some k /\ inP t k = false /\ In p (otP t) /\
  forall c, In c f -> In c (otP t) /\ exists k', contAt t c = Some k' /\ inP t k' = true.
Proof using.
  induction 1 as [r k C I|r k l C I K IH]; intro Pr.
  - exists [], r, k. cbn [app]. repeat split; auto. destruct H. destruct H.
  - destruct IH as (f & p & k' & -> & A1 & A2 & A3 & A4); [apply inP_iff; auto|]. exists (r :: f), p, k'. cbn [app].
    split; [auto|]. split; [auto|]. split; [auto|]. split; [auto|]. intros c [<-|Hc]; [|auto]. split; [auto|]. exists k. auto.
Qed.
Definition front (l : loc) (R : list nat) : list nat := removelast (chain t (nth l R 0%nat)).
Definition extOf (l : loc) (R : list nat) : nat := last (chain t (nth l R 0%nat)) 0%nat.
Definition prevOf (l : loc) (R : list nat) : nat := last (front l R) 0%nat.
Record ended (R : list nat) (l : loc) : Prop := {
  en_chain : chain t (nth l R 0%nat) = front l R ++ [extOf l R];
  en_front : exists f, front l R = f ++ [prevOf l R] /\ forall c, In c f -> exists k', contAt t c = Some k' /\ inP t k' = true;
  en_cont : contAt t (prevOf l R) = Some (extOf l R);
  en_out : inP t (extOf l R) = false;
  en_P : forall c, In c (front l R) -> In c (otP t) }.
Lemma ended_ok R l : roots R -> (l < length R)%nat -> ended R l.
Proof using T.
  intros H L. destruct (ro_P R H _ (nth_In R 0%nat L)) as [P1 _]. destruct (chain_end _ _ (chain_ok t _ T P1) P1) as (f & p & k & E & C & I & Pp & F).
  assert (EF : front l R = f ++ [p]). { unfold front. rewrite E. replace (f ++ [p; k]) with ((f ++ [p]) ++ [k]) by (rewrite <- app_assoc; reflexivity). apply removelast_last. }
  assert (EX : extOf l R = k). { unfold extOf. rewrite E. replace (f ++ [p; k]) with ((f ++ [p]) ++ [k]) by (rewrite <- app_assoc; reflexivity). apply last_last. }
  assert (EP : prevOf l R = p). { unfold prevOf. rewrite EF. apply last_last. }
  constructor.
  - rewrite EF, EX, E, <- app_assoc. reflexivity.
  - exists f. rewrite EP. split; [auto|]. intros c Hc. apply F; auto.
  - rewrite EP, EX. auto.
  - rewrite EX. auto.
  - rewrite EF. intros c Hc. apply in_app_or in Hc. destruct Hc as [Hc|[<-|[]]]; [apply F; auto|auto].
Qed.
(** a row of P whose time successor is outside is the last of its chain *)
Lemma ext_home R p k : roots R -> In p (otP t) -> contAt t p = Some k -> inP t k = false -> prevOf (home R p) R = p /\ extOf (home R p) R = k.
Proof using T.
  intros H Pp C I. destruct (home_ok R p H Pp) as [L Ic]. destruct (ended_ok R _ H L) as [E (f & EF & F) Cx Ox Px]. rewrite E in Ic. apply in_app_or in Ic. destruct Ic as [Ic|[Ic|[]]].
  - rewrite EF in Ic. apply in_app_or in Ic. destruct Ic as [Ic|[Ic|[]]].
    + destruct (F p Ic) as (k' & C' & I'). congruence.
    + split; [auto|]. rewrite Ic in Cx. congruence.
  - exfalso. apply inP_iff in Pp. congruence.
Qed.
Lemma front_home R l c : roots R -> (l < length R)%nat -> In c (otP t) -> (In c (front l R) <-> home R c = l).
Proof using T.
  intros H L Pc. destruct (ended_ok R l H L) as [E _ _ O _]. split.
  - intro I. apply home_eq; auto. rewrite E. apply in_or_app. auto.
  - intros <-. destruct (home_ok R c H Pc) as [_ I]. rewrite E in I. apply in_app_or in I. destruct I as [I|[I|[]]]; [auto|]. exfalso. apply inP_iff in Pc. congruence.
Qed.

Definition goesIn (a : letter) (c : nat) : bool := match discAt t c a with Some d => inP t d | None => false end.
Definition goesOut (a : letter) (c : nat) : bool := match discAt t c a with Some d => negb (inP t d) | None => false end.

Lemma map_out {A B C} (f : A -> list B) (g : B -> C) l : map g (flat_map f l) = flat_map (fun x => map g (f x)) l.
Proof using. induction l as [|x l IH]; [reflexivity|]. cbn [flat_map map]. rewrite map_app, IH. reflexivity. Qed.

Lemma srcs_TR R a is : roots R -> (forall c, In c is -> goesIn a c = true -> forall d, discAt t c a = Some d -> In d R) ->
  map (fun e => internalT (snd e) (fst e)) (srcs t R a is) = map (fun c => TR R c a) (filter (goesIn a) is).
Proof using T.
  intros H. induction is as [|c is IH]; intro K; [reflexivity|]. cbn [srcs flat_map filter]. unfold srcs in *. cbn [flat_map]. rewrite map_app.
  assert (IH' := IH (fun c0 I0 => K c0 (or_intror I0))). refine (eq_trans (f_equal2 (@app trans) eq_refl IH') _). clear IH IH'. assert (Kc := K c (or_introl eq_refl)). unfold goesIn in *. unfold dsucc at 1. cbn [fst snd].
  destruct (discAt t c a) as [d|] eqn:D; [|reflexivity]. destruct (inP t d) eqn:I; [|reflexivity]. cbn [map app filter fst snd]. f_equal.
  unfold TR. rewrite D, I. rewrite pos_home; auto.
Qed.

Record after (R : list nat) (W : loc -> letter -> list trans) (b : bfs) : Prop := {
  af_roots : roots R;
  af_st : stRep (otAlpha t) (hSt (bH b)) (length R) (fun l => isMatch t (nth l R 0%nat)) W;
  af_map : forall i l, toState (bH b) i = Some l <-> (l < length R)%nat /\ In i (chain t (nth l R 0%nat));
  af_bd : forall c a, In (c, a) (bBd b) <-> In a (otAlpha t) /\ goesOut a c = true;
  af_W : forall l a, (l < length R)%nat -> In a (otAlpha t) -> exists cs, W l a = map (fun c => TR R c a) cs /\ Permutation (filter (goesIn a) (front l R)) cs }.

Lemma all_roots ex b : binv t ordI ex (allProc t (length (rootsOf t ex))) b -> forall r, In r (otP t) -> isRoot t r -> In r (rootsOf t ex).
Proof using T P0 ND.
  intro B. intro r. induction r as [r IH] using lt_wf_ind. intros Pr Rr. destruct (Nat.eq_dec r 0) as [->|Nz]; [left; auto|].
  destruct (tr_kind t T ND r) as [(p & C)|(p & a & D)]; [lia|apply (tr_lt t T); auto|exfalso; apply (Rr p C)|].
  destruct (tr_discP t T p a r D) as (Pp & Ha & Lt & _).
  destruct (chain_of t T p Pp) as (r' & Pr' & Rr' & Ic). assert (Lr := chain_ge t r' _ T (chain_ok t r' T Pr') p Ic).
  assert (Ir := IH r' ltac:(lia) Pr' Rr'). destruct (pos_lt _ _ Ir) as [A E].
  assert (Ex : In (p, a) ex). { rewrite (i_ex _ _ _ _ _ B). apply exOf_in. exists (pos (rootsOf t ex) r'). split; [apply allProc_in; auto|]. rewrite E. auto. }
  right. apply in_flat_map. exists (p, a). split; [auto|]. apply dsucc_in. cbn [fst snd]. auto.
Qed.
Lemma after_ok : exists R W b, (do h1 <- mergeCont (length (otPre t)) t (fst (addState t hEmpty 0%nat)) 0%nat 0%nat; explore ordI (S (length (otPre t))) t (mkB h1 [0%nat] [])) = Ok b /\ after R W b.
Proof using T MS P0 ND OI.
  destruct (explored t ordI T MS P0 ND) as (ex & b & E & B). exists (rootsOf t ex), (Wof t ordI ex (allProc t (length (rootsOf t ex)))), b. split; [exact E|].
  assert (RO : roots (rootsOf t ex)).
  { constructor.
    - split; [reflexivity|cbn; lia].
    - apply roots_nodup; auto. apply (i_ndex _ _ _ _ _ B).
    - intros d Hd. apply (roots_P t T P0 ex); auto.
    - apply (all_roots ex b B). }
  assert (EX : forall c a, In c (otP t) -> In a (otAlpha t) -> In (c, a) ex).
  { intros c a Pc Ha. rewrite (i_ex _ _ _ _ _ B). apply exOf_in. destruct (home_ok _ c RO Pc) as [A I]. exists (home (rootsOf t ex) c). split; [apply allProc_in; auto|auto]. }
  constructor.
  - exact RO.
  - apply (b_st _ _ _ _ (i_base _ _ _ _ _ B)).
  - apply (b_map _ _ _ _ (i_base _ _ _ _ _ B)).
  - intros c a. rewrite (b_bd _ _ _ _ (i_base _ _ _ _ _ B)). rewrite in_flat_map. unfold goesOut, bsucc. split.
    + intros (e & _ & H2). destruct (discAt t (fst e) (snd e)) as [d|] eqn:D; [|destruct H2]. destruct (inP t d) eqn:I; [destruct H2|]. destruct H2 as [->|[]]. cbn [fst snd] in *.
      rewrite D, I. split; [apply (tr_discP t T c a d D)|auto].
    + destruct (discAt t c a) as [d|] eqn:D; [|intros [_ K]; discriminate]. intros [Ha K]. exists (c, a). destruct (tr_discP t T c a d D) as (Pc & _). split; [apply EX; auto|]. cbn [fst snd]. rewrite D.
      destruct (inP t d); [discriminate|left; auto].
  - intros l a L Ha. rewrite Wof_yes by (apply allProc_in; auto).
    assert (PM := Permutation_map (fun e => internalT (snd e) (fst e)) (OI (srcs t (rootsOf t ex) a (chain t (nth l (rootsOf t ex) 0%nat))))).
    rewrite srcs_TR in PM; [|exact RO|].
    + destruct (ended_ok _ l RO L) as [EC _ _ O _]. rewrite EC in PM. rewrite filter_app in PM. cbn [filter] in PM.
      assert (G : goesIn a (extOf l (rootsOf t ex)) = false). { unfold goesIn. destruct (discAt t _ a) as [d|] eqn:D; [|auto]. destruct (tr_discP t T _ _ _ D) as [K _]. apply inP_iff in K. congruence. }
      rewrite G, app_nil_r in PM. apply Permutation_sym in PM. destruct (Permutation_map_inv _ _ PM) as (cs & E1 & E2). exists cs. split; [|exact E2].
      rewrite EC. exact E1.
    + intros c _ G d D. unfold goesIn in G. rewrite D in G.
      destruct (tr_discP t T c a d D) as (Pc & _). right. apply in_flat_map. exists (c, a). split; [apply EX; auto|]. apply dsucc_in. cbn [fst snd]. split; [auto|]. apply inP_iff; auto.
Qed.
End After.
